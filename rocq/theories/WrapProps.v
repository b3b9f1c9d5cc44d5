(** C112: a wrapped calibration stands for the calibration it wraps. *)
From Coq Require Import String List ZArith QArith Bool Lia.
From Verif Require Import Base Ext ParamsModel ParamsSpec ParamsProofs ParamsProofs2 ParamsProps OptimModel WrapModel.
Import ListNotations.
Local Open Scope nat_scope.

Section C112.
Context {V : Type}.
Variable one : V.
Notation obj := (@obj V).
Notation group := (@group V).

(** ** Specification: the object inside all wrappers *)
Fixpoint core (o : obj) : ptree V := match o with Plain t => t | Wrapper r _ => core r end.
Definition cores (g : group) : ptree V := PMulti (g_names g) (map core (g_subs g)) (g_liquid g).
Definition rmap {A B} (f : A -> B) (r : res A) : res B := match r with Ok a => Ok (f a) | Err e => Err e end.
Definition wrapped (o : obj) : bool := match o with Wrapper _ _ => true | Plain _ => false end.
(** None is never wrapped *)
Definition sound (o : obj) : Prop := wrapped o = true -> is_none (core o) = false.

(** The parameters, their names, steps and changes are those of the object inside. *)
Theorem C112_views (o : obj) : o_params o = get_params (core o) /\ o_number o = number_of_params (core o) /\
  o_names o = get_param_names (core o) /\ o_steps one o = get_step_sizes one (core o).
Proof. induction o; simpl; auto. Qed.
Theorem C112_write (o : obj) (p : list V) (i : Z) (v : V) :
  rmap core (o_set o p) = set_params (core o) p /\
  rmap (fun r => (core (fst r), snd r)) (o_set_one o i v) = set_param (core o) i v.
Proof.
  induction o as [t|r [IH1 IH2] own]; simpl.
  - split; [destruct (set_params t p); auto|destruct (set_param t i v) as [[? ?]|]; auto].
  - split; [rewrite <- IH1; destruct (o_set r p); auto|rewrite <- IH2; destruct (o_set_one r i v) as [[? ?]|]; auto].
Qed.

(** So are those of a group of such objects. *)
Lemma none_core o : sound o -> o_none o = is_none (core o).
Proof. intros H. destruct o; simpl; auto. symmetry. apply (H eq_refl). Qed.
Lemma active_core {A} (f : obj -> A) (f' : ptree V -> A) : (forall o, f o = f' (core o)) -> forall subs liq,
  Forall sound subs -> g_active f subs liq = active_map f' (map core subs) liq.
Proof.
  intros H. induction subs as [|s subs IH]; intros [|l liq] F; simpl; auto. inversion F; subst.
  rewrite none_core by auto. rewrite IH, H by auto. reflexivity.
Qed.
Theorem C112_group (g : group) (p : list V) : Forall sound (g_subs g) ->
  g_params g = get_params (cores g) /\ g_number g = number_of_params (cores g) /\ g_steps one g = get_step_sizes one (cores g) /\
  g_param_names g = get_param_names (cores g) /\ rmap cores (g_set g p) = set_params (cores g) p.
Proof.
  intros F. destruct g as [nm subs liq]. simpl in F. unfold g_params, g_number, g_steps, g_get, cores. cbn [g_names g_subs g_liquid].
  split; [|split; [|split; [|split]]].
  - simpl. rewrite (active_core _ get_params); auto. intros; apply C112_views.
  - simpl. rewrite (active_core _ number_of_params); auto. intros; apply C112_views.
  - simpl. rewrite (active_core _ (get_step_sizes one)); auto. intros; apply C112_views.
  - unfold g_param_names. cbn [g_names g_subs g_liquid]. cbn [get_param_names]. generalize 0. revert liq.
    induction subs as [|s subs IH]; intros [|l liq] i; simpl; auto. inversion F; subst. rewrite none_core by auto.
    destruct (C112_views s) as (_ & E1 & E2 & _). rewrite E1, E2, IH by auto. reflexivity.
  - unfold g_set. cbn [g_names g_subs g_liquid set_params].
    assert (W : forall off, rmap (map core) (g_set_walk p subs liq off) = slice_walk number_of_params set_params p (map core subs) liq off).
    { revert liq. induction subs as [|s subs IH]; intros [|l liq] off; simpl; auto. inversion F; subst. rewrite none_core by auto.
      destruct (C112_views s) as (_ & E1 & _). destruct (l && negb (is_none (core s))).
      - rewrite E1. destruct (C112_write s (slice off (off + number_of_params (core s)) p) 0 one) as [<- _].
        destruct (o_set s _) as [s'|]; simpl; auto. rewrite <- IH by auto. destruct (g_set_walk p subs liq _); auto.
      - rewrite <- IH by auto. destruct (g_set_walk p subs liq _); auto. }
    rewrite <- W. destruct (g_set_walk p subs liq 0); auto.
Qed.

(** ** What is not passed on *)
(** Steps that are set are stored on the wrapper and never used. *)
Theorem C112_steps_refuted (r : obj) own ss : exists o, o_set_steps one (Wrapper r own) ss = Ok o /\ o = Wrapper r (Some ss) /\ o_steps one o = get_step_sizes one (core r).
Proof. eexists. split; [reflexivity|]. split; [reflexivity|]. simpl. apply C112_views. Qed.
(** getAllParams leaves out the frozen parameters. *)
Lemma split_lengths {A} (xs : list (bool * A)) : length (thawed xs) + length (frozen xs) = length xs.
Proof. unfold thawed, frozen. rewrite !map_length. induction xs as [|[[] a] xs IH]; simpl; lia. Qed.
Theorem C112_all_params_refuted (r : obj) own : wf (core r) -> frozen (vals_of (core r)) <> [] ->
  length (o_all_params (Wrapper r own)) < length (get_all_params (core r)).
Proof.
  intros W H. simpl. destruct (C112_views r) as (-> & _). rewrite get_params_flat, get_all_flat, map_length by auto.
  rewrite <- split_lengths. destruct (frozen (vals_of (core r))); [contradiction|]. simpl. lia.
Qed.
Theorem C112_all_params (r : obj) own : wf (core r) -> frozen (vals_of (core r)) = [] ->
  o_all_params (Wrapper r own) = get_all_params (core r).
Proof.
  intros W H. simpl. destruct (C112_views r) as (-> & _). rewrite get_params_flat, get_all_flat by auto.
  unfold thawed, frozen in *. induction (vals_of (core r)) as [|[[] a] xs IH]; simpl in *; auto; [|discriminate]. rewrite IH; auto.
Qed.

(** setAllParams sets the free parameters. *)
Theorem C112_set_all (r : obj) own p : rmap core (o_set_all (Wrapper r own) p) = set_params (core r) p.
Proof. apply (C112_write (Wrapper r own) p 0 one). Qed.

(** Bounds: without wrappers those of the objects, as C13 has them; a wrapper
    with parameters has none, so that the lists of its group are too short. *)
Lemma len_bounds (t : ptree V) : wf t ->
  length (get_lower_bounds t) = number_of_params t /\ length (get_upper_bounds t) = number_of_params t /\ length (get_max_step t) = number_of_params t.
Proof.
  intros W. pose proof (C13_bounds_aligned t W) as (E1 & F1 & E2 & F2 & E3 & F3). rewrite E1, E2, E3, number_flat by auto.
  assert (L : forall A B (xs : list (bool * A)) (ys : list (bool * B)), map fst xs = map fst ys -> length (thawed xs) = length (thawed ys)).
  { intros A B. unfold thawed. induction xs as [|[b x] xs IH]; intros [|[c y] ys] H; simpl in *; try discriminate; auto.
    injection H as -> H. specialize (IH ys H). destruct c; simpl; rewrite ?IH; auto. }
  repeat split; apply L; auto.
Qed.
Theorem C112_bounds_plain (g : group) : Forall (fun o => wrapped o = false) (g_subs g) ->
  g_lowers g = get_lower_bounds (cores g) /\ g_uppers g = get_upper_bounds (cores g) /\ g_max_step g = get_max_step (cores g).
Proof.
  destruct g as [nm subs liq]. cbn [g_subs]. intros F. unfold g_lowers, g_uppers, g_max_step, g_get, cores. cbn [g_names g_subs g_liquid get_lower_bounds get_upper_bounds get_max_step].
  assert (G : forall A (f : obj -> list A) (f' : ptree V -> list A), (forall t, f (Plain t) = f' t) -> g_active f subs liq = active_map f' (map core subs) liq).
  { intros A f f' H. revert liq. induction subs as [|s subs IH]; intros [|l liq]; simpl; auto. inversion F; subst. destruct s; [|discriminate].
    simpl. rewrite H, IH by auto. reflexivity. }
  repeat split; f_equal; apply G; reflexivity.
Qed.
Definition free_wrapper (g : group) : Prop :=
  exists i o, nth_error (g_subs g) i = Some o /\ nth_error (g_liquid g) i = Some true /\ wrapped o = true /\ 0 < o_number o.
Theorem C112_bounds_refuted (g : group) : Forall (fun o => wf (core o)) (g_subs g) -> free_wrapper g ->
  length (g_lowers g) < g_number g /\ length (g_uppers g) < g_number g /\ length (g_max_step g) < g_number g.
Proof.
  destruct g as [nm subs liq]. unfold free_wrapper, g_lowers, g_uppers, g_max_step, g_number, g_get. cbn [g_subs g_liquid]. intros W (i & o & N & L & Wr & P).
  assert (G : forall A (f : obj -> list A), (forall o, wf (core o) -> length (f o) <= o_number o) -> (forall o, wrapped o = true -> f o = []) ->
    length (concat (g_active f subs liq)) < list_sum (g_active o_number subs liq)).
  { intros A f H1 H2.
    assert (LE : forall subs liq, Forall (fun o => wf (core o)) subs -> length (concat (g_active f subs liq)) <= list_sum (g_active o_number subs liq)).
    { clear - H1. induction subs as [|s subs IH]; intros [|l liq] W; simpl; auto. inversion W; subst. specialize (IH liq H3).
      destruct (l && negb (o_none s)); simpl; auto. rewrite app_length. specialize (H1 s H2). lia. }
    revert liq i W N L. induction subs as [|s subs IH]; intros liq i W N L; [destruct i; discriminate|].
    destruct liq as [|l liq]; [destruct i; discriminate|]. inversion W; subst. destruct i as [|i]; simpl in N, L.
    - injection N as ->. injection L as ->. simpl. destruct o; [discriminate|]. simpl. rewrite H2 by auto. simpl. specialize (LE subs liq H4). simpl in P. lia.
    - specialize (IH liq i H4 N L). simpl. destruct (l && negb (o_none s)); simpl; auto. rewrite app_length. specialize (H1 s H3). lia. }
  assert (B : forall o, wf (core o) -> length (o_lowers o) <= o_number o /\ length (o_uppers o) <= o_number o /\ length (o_max_step o) <= o_number o).
  { intros [t|r own] Wo; simpl in *; [|lia]. pose proof (len_bounds t Wo). lia. }
  repeat split; apply G; try (intros [|]; [discriminate|reflexivity]); intros o' Wo; destruct (B o' Wo) as (? & ? & ?); auto.
Qed.

(** Recursive freezing and thawing do not reach into a wrapper. *)
Theorem C112_freeze_refuted (b : bool) ns (g g' : group) : g_flag_rec b ns g = Ok g' -> forall i o,
  nth_error (g_subs g) i = Some o -> wrapped o = true -> nth_error (g_subs g') i = Some o.
Proof.
  destruct g as [nm subs liq]. unfold g_flag_rec. cbn [g_names g_subs g_liquid].
  assert (G : forall subs liq k r, g_flag_walk nm ns b k subs liq = Ok r -> forall i o,
    nth_error subs i = Some o -> wrapped o = true -> nth_error (fst r) i = Some o).
  { induction subs0 as [|s subs0 IH]; intros liq0 k r E i o N Wr; [destruct i; discriminate|]. simpl in E.
    destruct (o_flag_rec b ns s) as [s'|] eqn:ES; [|discriminate]. cbn [bind] in E.
    match type of E with bind ?m _ = _ => destruct m as [liq'|]; [|discriminate] end. cbn [bind] in E.
    destruct (g_flag_walk nm ns b (S k) subs0 liq') as [r'|] eqn:ER; [|discriminate]. cbn [bind] in E. injection E as <-. simpl.
    destruct i as [|i]; simpl in *; [|eapply IH; eauto]. injection N as ->. destruct o; [discriminate|]. simpl in ES. congruence. }
  intros E i o N Wr. destruct (g_flag_walk nm ns b 0 subs liq) as [r|] eqn:ER; [|discriminate]. cbn [bind] in E. injection E as <-. simpl. eapply G; eauto.
Qed.
(** Otherwise recursive freezing is that of the group with the wrapped members
    left out: same flags, same changes to the other members, same errors. *)
Definition hollow (o : obj) : ptree V := if wrapped o then PFixed else core o.
Definition hollowed (g : group) : ptree V := PMulti (g_names g) (map hollow (g_subs g)) (g_liquid g).
Theorem C112_freeze (b : bool) ns (g : group) : rmap hollowed (g_flag_rec b ns g) = flag_rec b ns (hollowed g).
Proof.
  destruct g as [nm subs liq]. unfold g_flag_rec, hollowed. cbn [g_names g_subs g_liquid flag_rec].
  assert (G : forall subs liq k, rmap (fun r => (map hollow (fst r), snd r)) (g_flag_walk nm ns b k subs liq) = flag_rec_walk nm ns b (flag_rec b ns) k (map hollow subs) liq).
  { induction subs0 as [|s subs0 IH]; intros liq0 k; [reflexivity|]. cbn [map g_flag_walk flag_rec_walk].
    assert (E : rmap hollow (o_flag_rec b ns s) = match hollow s with PList _ | PMulti _ _ _ => flag_rec b ns (hollow s) | _ => Ok (hollow s) end).
    { destruct s as [t|r own]; [|reflexivity]. unfold o_flag_rec. destruct t; try reflexivity; unfold hollow; cbn [wrapped core];
        match goal with |- context [flag_rec b ns ?t] => destruct (flag_rec b ns t) end; reflexivity. }
    rewrite <- E. destruct (o_flag_rec b ns s) as [s'|]; [|reflexivity]. cbn [rmap bind].
    match goal with |- rmap _ (bind ?m _) = _ => destruct m as [liq'|]; [|reflexivity] end. cbn [bind].
    rewrite <- IH. destruct (g_flag_walk nm ns b (S k) subs0 liq') as [r|]; reflexivity. }
  rewrite <- G. destruct (g_flag_walk nm ns b 0 subs liq) as [r|]; reflexivity.
Qed.
End C112.

(** With such a group the constrained optimizer cannot try any step: all its
    parameter vectors are too short, and setting them raises. *)
Lemma short_params add mul : forall p0 los his dir alpha, length (step_params add mul p0 los his dir alpha) <= length los.
Proof. induction p0 as [|p p0 IH]; intros [|l los] [|u his] [|d dir] alpha; simpl; try lia. specialize (IH los his dir alpha). lia. Qed.
Theorem C112_trials_refuted (g : @group Q) add sub mul div tiny dir alphas steps :
  Forall sound (g_subs g) -> Forall (fun o => wf (core o)) (g_subs g) -> free_wrapper g ->
  parameter_steps add sub mul div tiny (g_params g) (g_max_step g) (g_lowers g) (g_uppers g) dir alphas = Ok steps ->
  Forall (fun s => exists e, g_set g (s_params s) = Err e) steps.
Proof.
  intros Sd W F. unfold parameter_steps. destruct (increasing alphas); [|discriminate]. intros E. injection E as <-.
  destruct (C112_bounds_refuted g W F) as (L & _).
  assert (G : forall a, exists e, g_set g (step_params add mul (g_params g) (g_lowers g) (g_uppers g) dir a) = Err e).
  { intros a. destruct (C112_group 1%Q g (step_params add mul (g_params g) (g_lowers g) (g_uppers g) dir a) Sd) as (_ & N & _ & _ & St).
    destruct (C02_short_vector_raises (cores g) (step_params add mul (g_params g) (g_lowers g) (g_uppers g) dir a)) as (e & Ee).
    { rewrite <- N. pose proof (short_params add mul (g_params g) (g_lowers g) (g_uppers g) dir a). lia. }
    exists e. rewrite <- St in Ee. destruct (g_set g _); simpl in *; [discriminate|congruence]. }
  induction alphas as [|a alphas IH]; simpl; [constructor|].
  destruct (limit_steps _ _ _ _ _ _) as [a1 lim]. destruct (limit_bounds _ _ _ _ _ _ _ _ _ _) as [a2 hit].
  destruct (qltb a2 tiny); constructor; simpl; auto. destruct lim; auto.
Qed.

(** An image with a wrapped WCS (two parameters, the second frozen) and a sky
    level with a lower bound: the bound becomes that of the WCS. *)
Example C112_ex :
  let wcs := mk_plist (mkNames [("crval1"%string, 0); ("crval2"%string, 1)] [(0, "crval1"%string); (1, "crval2"%string)]) [10; 20]%Q in
  let wcs := match wcs with PList l => PList (mkPlist (l_names l) (l_vals l) [true; false] (l_lowers l) (l_uppers l) (l_maxstep l) None []) | t => t end in
  let sky := PScalar (mkScalar "ConstantSky" 5 (Some 3) None None 1)%Q in
  let g := mkGroup (mkNames [] []) [Wrapper (Wrapper (Plain wcs) None) None; Plain sky] [true; true] in
  g_params g = [10; 5]%Q /\ g_lowers g = [Some 3]%Q /\ Forall sound (g_subs g) /\ Forall (fun o => wf (core o)) (g_subs g) /\ free_wrapper g /\
  o_all_params (Wrapper (Plain wcs) None) = [10]%Q /\
  exists s, parameter_steps Qplus Qminus Qmult Qdiv (1 # 1000)%Q (g_params g) (g_max_step g) (g_lowers g) (g_uppers g) [1; 1]%Q [1]%Q = Ok [s] /\ s_params s = [11]%Q.
Proof.
  cbv zeta. split; [reflexivity|]. split; [reflexivity|]. split; [repeat constructor; intros H; try discriminate; reflexivity|].
  split; [repeat constructor; simpl; intros; discriminate|]. split; [exists 0; eexists; split; [reflexivity|]; split; [reflexivity|]; split; [reflexivity|]; vm_compute; lia|]. split; [reflexivity|].
  eexists. split; reflexivity.
Qed.

Print Assumptions C112_views.
Print Assumptions C112_write.
Print Assumptions C112_group.
Print Assumptions C112_steps_refuted.
Print Assumptions C112_all_params.
Print Assumptions C112_all_params_refuted.
Print Assumptions C112_set_all.
Print Assumptions C112_freeze.
Print Assumptions C112_bounds_plain.
Print Assumptions C112_bounds_refuted.
Print Assumptions C112_freeze_refuted.
Print Assumptions C112_trials_refuted.
