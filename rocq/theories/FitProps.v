(** C114: a fit only ever writes free parameters, however it ends. *)
From Coq Require Import String List ZArith QArith Qabs Bool Lia.
From Verif Require Import Base Ext ParamsModel ParamsSpec ParamsProofs ParamsProofs2 ParamsProps OptimModel OptimProps FitModel.
Import ListNotations.
Open Scope nat_scope.

Section Place.
Context {V : Type}.
Notation ptree := (ptree V).
Variable t0 : ptree.
Hypothesis W : wf t0.
Hypothesis N : t0 <> PNone.
Notation n := (number_of_params t0).

(** [t] is [t0] with the vector [p] of free parameters. *)
Definition placed (p : list V) (t : ptree) : Prop := length p = n /\ set_params t0 p = Ok t.

Lemma placed_ex p : length p = n -> exists t, placed p t.
Proof.
  intros H. destruct p as [|v p'] eqn:E.
  - exists t0. split; auto. rewrite number_get in H by auto. destruct (get_params t0) eqn:G; [|discriminate]. rewrite <- G. apply C03_write_back_identity; auto.
  - destruct (C02_set_params_writes_exactly_thawed v t0 p W N) as (t & A & _); [rewrite E; auto|]. exists t. rewrite <- E. split; auto. rewrite E. auto.
Qed.
Lemma placed_spec (v0 : V) p t : placed p t ->
  get_params t = p /\ vals_of t = overlay (vals_of t0) p /\ frozen (vals_of t) = frozen (vals_of t0) /\ blank v0 t = blank v0 t0 /\ wf t /\ t <> PNone.
Proof.
  intros (H & E). destruct (set_params_spec v0 t0 p W N H) as (t' & A & W' & N' & HV & HB).
  destruct (C02_set_params_writes_exactly_thawed v0 t0 p W N H) as (t2 & B & C & D & F & G & _).
  rewrite E in A, B. injection A as <-. injection B as <-. auto 10.
Qed.
Lemma placed_start : placed (get_params t0) t0.
Proof. split; [symmetry; apply number_get; auto|apply C03_write_back_identity; auto]. Qed.
Lemma placed_none p t : n = 0 -> placed p t -> t = t0.
Proof.
  intros Z (H & E). destruct p; [|simpl in H; lia]. destruct placed_start as (L & S). destruct (get_params t0); [congruence|simpl in L; lia].
Qed.
Lemma placed_wf p t : placed p t -> get_params t = p /\ wf t /\ t <> PNone /\ number_of_params t = n.
Proof.
  intros H. destruct p as [|v p'].
  - assert (t = t0) as -> by (eapply placed_none; eauto; destruct H; auto). destruct H as (L & _). split; auto. rewrite number_get in L by auto. destruct (get_params t0); [auto|discriminate].
  - pose proof (placed_spec v _ _ H) as (A & _ & _ & _ & B & C). repeat split; auto. rewrite number_get, A by auto. apply H.
Qed.
Lemma placed_put p t q : placed p t -> length q = n -> exists t', set_params t q = Ok t' /\ placed q t'.
Proof.
  intros H L. destruct (placed_ex q L) as (t' & H'). exists t'. split; auto. destruct q as [|v q'] eqn:E.
  - assert (t = t0) as -> by (eapply placed_none; eauto; destruct H; simpl in *; lia). apply H'.
  - pose proof (placed_wf _ _ H) as (_ & Wt & Nt & Nn). pose proof (placed_spec v _ _ H) as (G1 & V1 & _ & B1 & _).
    destruct (set_params_spec v t q Wt Nt) as (t2 & A & W2 & N2 & V2 & B2); [rewrite E, Nn; auto|]. rewrite E in A. rewrite A. f_equal.
    pose proof (placed_spec v _ _ H') as (G3 & V3 & _ & B3 & W3 & _).
    apply (blank_vals_inj v); auto; [congruence|]. rewrite V2, V3, V1, E. f_equal. apply overlay_overlay.
    + destruct H as (L' & _). rewrite <- number_flat; auto.
    + rewrite <- number_flat; auto.
Qed.
Lemma placed_one p t i v : placed p t -> i < n -> exists t' old, set_param t (Z.of_nat i) v = Ok (t', old) /\ nth_error p i = Some old /\ placed (upd i v p) t'.
Proof.
  intros H I. pose proof (placed_wf _ _ H) as (G & Wt & Nt & Nn). pose proof (placed_spec v _ _ H) as (_ & V1 & _ & B1 & _).
  destruct (set_param_spec v t i v Wt Nt ltac:(lia)) as (t' & old & A & B & W' & N' & HV & HB). rewrite G in B, HV.
  assert (L : length (upd i v p) = n) by (rewrite upd_length; apply H).
  exists t', old. split; auto. split; auto. destruct (placed_ex _ L) as (t2 & H2). replace t' with t2; auto.
  pose proof (placed_spec v _ _ H2) as (G3 & V3 & _ & B3 & W3 & _).
  apply (blank_vals_inj v); auto; [congruence|]. rewrite HV, V3, V1. f_equal. symmetry. apply overlay_overlay.
  - destruct H as (L' & _). rewrite <- number_flat; auto.
  - rewrite <- number_flat; auto.
Qed.
Lemma placed_inj p t t' : placed p t -> placed p t' -> t = t'.
Proof. intros (_ & A) (_ & B). congruence. Qed.
End Place.

(** The values of the steps of OptimModel that a direction of the right length
    proposes have the right length. *)
Lemma step_params_length add mul p0 los his dir alpha : length los = length p0 -> length his = length p0 -> length dir = length p0 ->
  length (step_params add mul p0 los his dir alpha) = length p0.
Proof. revert los his dir. induction p0; intros [|l ls] [|u us] [|d ds]; simpl; intros; try discriminate; auto. Qed.
Lemma steps_length add sub mul div tiny p0 maxs los his dir alphas steps : length los = length p0 -> length his = length p0 -> length dir = length p0 ->
  parameter_steps add sub mul div tiny p0 maxs los his dir alphas = Ok steps -> Forall (fun s => length (s_params s) = length p0) steps.
Proof.
  intros A B C. unfold parameter_steps. destruct (increasing alphas); [|discriminate]. intros E; injection E as <-.
  induction alphas as [|a r IH]; simpl; [constructor|]. destruct (limit_steps _ _ _ _ _ _) as [a1 lim]. destruct (limit_bounds _ _ _ _ _ _ _ _ _ _) as [a2 hit].
  destruct (qltb a2 tiny); [constructor|]. constructor; [simpl; apply step_params_length; auto|]. destruct lim; [constructor|apply IH].
Qed.

Section C114.
Context {V : Type}.
Notation ptree := (ptree V).

(** Every state in which [m], started at [t], can end, whatever the outcome, is
    [t0] with a vector in [P]; if it succeeds, with result [a] and vector in
    [R a]. *)
Definition runs (t0 : ptree) {A} (m : @M V A) (t : ptree) (P : list V -> Prop) (R : A -> list V -> Prop) : Prop :=
  forall k, match m (t, k) with
    | ((t', _), Ok a) => exists p, placed t0 p t' /\ P p /\ R a p
    | ((t', _), Err _) => exists p, placed t0 p t' /\ P p
    end.
Lemma runs_ret t0 {A} (a : A) p t (P : list V -> Prop) (R : A -> list V -> Prop) : placed t0 p t -> P p -> R a p -> runs t0 (ret a) t P R.
Proof. intros H HP HR k. simpl. eauto. Qed.
Lemma runs_then t0 {A B} (m : @M V A) (f : A -> @M V B) t P Q R : 
  runs t0 m t P Q -> (forall a p' t', placed t0 p' t' -> P p' -> Q a p' -> runs t0 (f a) t' P R) -> runs t0 (andthen m f) t P R.
Proof.
  intros H G k. unfold andthen. specialize (H k). destruct (m (t, k)) as [[t' k'] [a|e]]; auto.
  destruct H as (p & A1 & A2 & A3). apply (G a p t' A1 A2 A3 k').
Qed.
Lemma runs_ask t0 {A} (f : nat -> ptree -> res A) p t (P : list V -> Prop) (R : A -> list V -> Prop) : placed t0 p t -> P p ->
  (forall k a, f k t = Ok a -> R a p) -> runs t0 (ask f) t P R.
Proof. intros H HP HR k. simpl. destruct (f k t) eqn:E; eauto. Qed.
Lemma runs_put t0 p q t (P : list V -> Prop) (R : unit -> list V -> Prop) : wf t0 -> t0 <> PNone -> placed t0 p t -> length q = number_of_params t0 -> P q -> R tt q ->
  runs t0 (put q) t P R.
Proof. intros W N H L HP HR k. unfold put. simpl. destruct (placed_put t0 W N p t q H L) as (t' & -> & B). simpl. eauto. Qed.
Lemma runs_put_one t0 p i v t (P : list V -> Prop) (R : V -> list V -> Prop) : wf t0 -> t0 <> PNone -> placed t0 p t -> i < number_of_params t0 -> P (upd i v p) ->
  (forall old, nth_error p i = Some old -> R old (upd i v p)) -> runs t0 (put_one i v) t P R.
Proof. intros W N H L HP HR k. unfold put_one. simpl. destruct (placed_one t0 W N p t i v H L) as (t' & old & -> & B & C). simpl. eauto. Qed.
Lemma runs_weaken t0 {A} (m : @M V A) t (P P' : list V -> Prop) (R R' : A -> list V -> Prop) : runs t0 m t P R -> (forall p, P p -> P' p) -> (forall a p, P p -> R a p -> R' a p) ->
  runs t0 m t P' R'.
Proof.
  intros H A1 A2 k. specialize (H k). destruct (m (t, k)) as [[t' k'] [a|e]].
  - destruct H as (p & B1 & B2 & B3). exists p. auto.
  - destruct H as (p & B1 & B2). exists p. auto.
Qed.

Variables (add sub mul : V -> V -> V) (one : V).

(** The vectors a fit may leave behind while it takes derivatives at [p0]:
    itself, or with one parameter a step off. *)
Definition stepped (p0 hs : list V) (p : list V) : Prop :=
  p = p0 \/ exists i v h, nth_error p0 i = Some v /\ nth_error hs i = Some h /\ (p = upd i (add v h) p0 \/ p = upd i (sub v h) p0).
(** ... and while it searches along [X] *)
Definition tried (p0 X alphas : list V) (p : list V) : Prop := p = p0 \/ exists a, In a alphas /\ p = move add mul a p0 X.

Lemma upd_back i v w (p : list V) : nth_error p i = Some v -> upd i v (upd i w p) = p.
Proof. revert i. induction p; intros [|i] H; simpl in *; try discriminate; [congruence|]. f_equal; auto. Qed.
Lemma upd_twice i v w (p : list V) : upd i v (upd i w p) = upd i v p.
Proof. revert i. induction p; intros [|i]; simpl; auto. f_equal; auto. Qed.

Lemma step_one_runs render t0 job : wf t0 -> t0 <> PNone ->
  runs t0 (step_one add sub one render (get_params t0) job) t0 (stepped (get_params t0) (get_step_sizes one t0)) (fun _ p => p = get_params t0).
Proof.
  intros W N. destruct job as [i sym]. set (p0 := get_params t0). set (hs := get_step_sizes one t0). unfold step_one. intros k. cbn [fst]. fold hs.
  pose proof (placed_start t0 W N) as S0. fold p0 in S0.
  destruct (nth_error p0 i) as [v|] eqn:Ev; [|exists p0; split; auto; left; auto]. destruct (nth_error hs i) as [h|] eqn:Eh; [|exists p0; split; auto; left; auto].
  assert (I : i < number_of_params t0) by (rewrite number_get by auto; apply nth_error_Some; fold p0; congruence).
  assert (P1 : stepped p0 hs (upd i (add v h) p0)) by (right; exists i, v, h; auto).
  assert (P2 : stepped p0 hs (upd i (sub v h) p0)) by (right; exists i, v, h; auto).
  assert (P0 : stepped p0 hs p0) by (left; auto).
  revert k.
  apply (runs_then t0 _ _ t0 _ (fun old p => old = v /\ p = upd i (add v h) p0)).
  { eapply runs_put_one; eauto. intros old E. split; congruence. }
  intros old p t1 H1 _ (-> & ->).
  apply (runs_then t0 _ _ t1 _ (fun _ p => p = upd i (add v h) p0)).
  { eapply runs_ask; eauto. }
  intros _ p t2 H2 _ ->.
  apply (runs_then t0 _ _ t2 _ (fun _ p => upd i v p = p0)).
  { destruct sym; [|eapply runs_ret; eauto; apply upd_back; auto].
    apply (runs_then t0 _ _ t2 _ (fun _ p => p = upd i (sub v h) p0)).
    { eapply runs_put_one; eauto; rewrite upd_twice; auto. }
    intros _ p t3 H3 _ ->. eapply runs_ask; eauto. intros. apply upd_back; auto. }
  intros _ p t3 H3 _ Hp.
  apply (runs_then t0 _ _ t3 _ (fun _ p => p = p0)).
  { eapply runs_put_one; eauto. rewrite Hp. auto. }
  intros _ p' t4 H4 _ ->. eapply runs_ret; eauto.
Qed.

Lemma step_all_runs render t0 jobs : wf t0 -> t0 <> PNone ->
  runs t0 (step_all add sub one render (get_params t0) jobs) t0 (stepped (get_params t0) (get_step_sizes one t0)) (fun _ p => p = get_params t0).
Proof.
  intros W N. pose proof (placed_start t0 W N) as S0. induction jobs as [|j r IH]; simpl.
  - eapply runs_ret; eauto. left; auto.
  - eapply runs_then; [apply step_one_runs; auto|]. simpl. intros _ p t' H _ ->. rewrite (placed_inj _ _ _ _ H S0). apply IH.
Qed.

Section Search.
Variable t0 : ptree.
Hypothesis W : wf t0.
Hypothesis N : t0 <> PNone.
Notation p0 := (get_params t0).
Variable ev : nat -> ptree -> res ext.

Lemma try_steps_runs X alphas all best pBest q t : length X = length p0 -> incl alphas all -> placed t0 q t -> tried p0 X all q ->
  (forall b, best = Some b -> In b all) ->
  runs t0 (try_steps add mul ev p0 X alphas best pBest) t (tried p0 X all) (fun r _ => forall b, fst r = Some b -> In b all).
Proof.
  intros L. revert best pBest q t. induction alphas as [|a r IH]; intros best pBest q t HI HQ HT HB; simpl.
  - eapply runs_ret; eauto.
  - assert (HA : In a all) by (apply HI; left; auto). assert (HR : incl r all) by (intros x Hx; apply HI; right; auto).
    assert (T1 : tried p0 X all (move add mul a p0 X)) by (right; exists a; auto).
    apply (runs_then t0 _ _ t _ (fun _ p => p = move add mul a p0 X)).
    { eapply runs_put; eauto. rewrite move_length by auto. symmetry. apply number_get; auto. }
    intros _ p t1 H1 _ ->.
    apply (runs_then t0 _ _ t1 _ (fun _ p => p = move add mul a p0 X)); [eapply runs_ask; eauto|].
    intros l p t2 H2 _ ->. destruct (negb (isfinite l)); [eapply runs_ret; eauto|]. destruct (eltb l _); [eapply runs_ret; eauto|].
    destruct (egtb l pBest); eapply IH; eauto. intros b E. congruence.
Qed.
Lemma try_fit_runs X alphas : length X = length p0 ->
  runs t0 (try_fit add mul ev X alphas) t0 (tried p0 X alphas)
    (fun r p => (r = (Fin 0, None) /\ p = p0) \/ exists a, snd r = Some a /\ In a alphas /\ p = move add mul a p0 X).
Proof.
  intros L. pose proof (placed_start t0 W N) as S0. unfold try_fit. assert (T0 : tried p0 X alphas p0) by (left; auto).
  apply (runs_then t0 _ _ t0 _ (fun _ p => p = p0)); [eapply runs_ask; eauto|]. intros l p t1 H1 _ ->. rewrite (placed_inj _ _ _ _ H1 S0). clear H1 t1.
  apply (runs_then t0 _ _ t0 _ (fun a p => a = p0)); [intros k; simpl; eauto|]. intros p p' t1 H1 T1 ->.
  eapply runs_then; [eapply try_steps_runs; eauto; [apply incl_refl|discriminate]|]. simpl. intros [b pb] p t2 H2 T2 HB. simpl in *.
  destruct b as [a|].
  - apply (runs_then t0 _ _ t2 _ (fun _ p => p = move add mul a p0 X)).
    { eapply runs_put; eauto. - rewrite move_length by auto. symmetry. apply number_get; auto. - right. exists a. auto. }
    intros _ q t3 H3 T3 ->. eapply runs_ret; eauto. simpl. right. exists a. auto.
  - apply (runs_then t0 _ _ t2 _ (fun _ p => p = p0)).
    { eapply runs_put; eauto. symmetry. apply number_get; auto. }
    intros _ q t3 H3 T3 ->. eapply runs_ret; eauto.
Qed.
End Search.

Lemma optimize_runs t0 render direction jobs search P (R : ext -> list V -> Prop) : wf t0 -> t0 <> PNone ->
  (forall k X, direction k t0 = Ok (Some X) -> length X = number_of_params t0) ->
  (forall X, length X = number_of_params t0 -> (exists k, direction k t0 = Ok (Some X)) -> runs t0 (search X) t0 (P X) (fun r p => R (fst r) p)) ->
  R (Fin 0) (get_params t0) ->
  runs t0 (optimize_fit add sub one render direction jobs search) t0
    (fun p => stepped (get_params t0) (get_step_sizes one t0) p \/ exists k X, direction k t0 = Ok (Some X) /\ P X p) R.
Proof.
  intros W N HD HS HR. pose proof (placed_start t0 W N) as S0. unfold optimize_fit.
  apply (runs_then t0 _ _ t0 _ (fun X p => p = get_params t0 /\ match X with Some X => exists k, direction k t0 = Ok (Some X) | None => True end)).
  - unfold linear_direction. apply (runs_then t0 _ _ t0 _ (fun a p => a = get_params t0 /\ p = get_params t0)).
    { intros k. simpl. exists (get_params t0). split; auto. split; auto. left. left. auto. }
    intros a p t1 H1 _ (-> & ->). rewrite (placed_inj _ _ _ _ H1 S0). clear H1 t1.
    apply (runs_then t0 _ _ t0 _ (fun _ p => p = get_params t0)); [eapply runs_weaken; [apply step_all_runs; auto|auto|auto]|].
    intros u p t1 H1 _ ->. rewrite (placed_inj _ _ _ _ H1 S0). eapply runs_ask; eauto. { left; left; auto. }
    intros k X E. split; auto. destruct X; auto. eauto.
  - intros X p t1 H1 _ (-> & HX). rewrite (placed_inj _ _ _ _ H1 S0). clear H1 t1. destruct X as [[|x X]|].
    + eapply runs_ret; eauto. left; left; auto.
    + destruct HX as (k & HX). pose proof (HD _ _ HX) as L.
      eapply runs_then with (Q := fun r p => R (fst r) p).
      * eapply runs_weaken; [apply (HS (x :: X) L); eauto| |auto]. intros p Hp. right. eauto.
      * intros r p t1 H1 HP HQ. eapply runs_ret; eauto.
    + eapply runs_ret; eauto. left; left; auto.
Qed.

(** [t'] is [t] but for the values of free parameters: the same objects, flags,
    steps, bounds, priors and frozen values. *)
Definition only_free_changed (t t' : ptree) : Prop := exists p, length p = number_of_params t /\ set_params t p = Ok t'.
Lemma only_free_means (v0 : V) t t' : wf t -> t <> PNone -> only_free_changed t t' ->
  blank v0 t' = blank v0 t /\ frozen (vals_of t') = frozen (vals_of t) /\ map fst (vals_of t') = map fst (vals_of t).
Proof.
  intros W N (p & H). destruct (placed_spec t W N v0 p t' H) as (A & B & C & D & _). split; auto. split; auto.
  rewrite <- (map_map (fun e => (fst e, v0)) fst) with (l := vals_of t') || idtac.
  pose proof (f_equal vals_of D) as E. rewrite !vals_of_blank in E. apply (f_equal (map fst)) in E. rewrite !map_map in E. simpl in E. auto.
Qed.
Lemma only_free_refl t : wf t -> t <> PNone -> only_free_changed t t.
Proof. intros W N. exists (get_params t). apply placed_start; auto. Qed.
Lemma only_free_trans t t1 t2 : wf t -> t <> PNone -> only_free_changed t t1 -> only_free_changed t1 t2 -> only_free_changed t t2.
Proof.
  intros W N (p & H) (q & L & E). destruct (placed_wf t W N p t1 H) as (_ & _ & _ & Nn). rewrite Nn in L.
  destruct (placed_put t W N p t1 q H L) as (t3 & A & B). rewrite E in A. injection A as <-. exists q. exact B.
Qed.
Lemma loop_free one_step stop m step : 
  (forall t k, wf t -> t <> PNone -> only_free_changed t (fst (fst (one_step (t, k))))) ->
  forall t k, wf t -> t <> PNone -> only_free_changed t (fst (fst (fit_loop one_step stop m step (t, k)))).
Proof.
  intros H. revert step. induction m as [|m IH]; intros step t k W N; simpl; [apply only_free_refl; auto|].
  unfold andthen. pose proof (H t k W N) as A. destruct (one_step (t, k)) as [[t1 k1] [d|e]]; auto. simpl in A.
  destruct (stop step d); auto. destruct m; auto. destruct A as (p & A). pose proof (placed_wf t W N p t1 A) as (_ & W1 & N1 & _).
  eapply only_free_trans; [auto|auto|exists p; exact A|apply IH; auto].
Qed.
Lemma fit_free one_step stop steps : 
  (forall t k, wf t -> t <> PNone -> only_free_changed t (fst (fst (one_step (t, k))))) ->
  forall t k, wf t -> t <> PNone -> only_free_changed t (fst (fst (fit one_step stop steps (t, k)))).
Proof. intros H t k W N. destruct steps; simpl; [apply only_free_refl; auto|apply (loop_free one_step stop (S steps) 0); auto]. Qed.
Lemma runs_free {A} t (m : @M V A) P R k : runs t m t P R -> only_free_changed t (fst (fst (m (t, k)))).
Proof. intros H. specialize (H k). destruct (m (t, k)) as [[t' k'] [a|e]]; simpl; [destruct H as (p & H & _)|destruct H as (p & H & _)]; exists p; apply H. Qed.

(** Whatever is evaluated, whatever raises and whenever: a fit has changed only
    values of free parameters. *)
Theorem C114_frozen ev render direction jobs alphas stop steps t k :
  wf t -> t <> PNone ->
  (forall k t X, direction k t = Ok (Some X) -> length X = number_of_params t) ->
  only_free_changed t (fst (fst (fit (optimize_fit add sub one render direction jobs (fun X => try_fit add mul ev X alphas)) stop steps (t, k)))).
Proof.
  intros W N HD. apply fit_free; auto. clear t k W N. intros t k W N.
  eapply runs_free. apply (optimize_runs t render direction jobs _ (fun X => tried (get_params t) X alphas) (fun _ _ => True)); auto; [intros k2 X2 E2; apply (HD k2 t X2 E2)|].
  intros X L _. eapply runs_weaken; [apply try_fit_runs; auto; rewrite L; apply number_get; auto|auto|auto].
Qed.
(** One step of the fit leaves the vector at its start, one derivative step off,
    or at a trial point, whatever raises. *)
Theorem C114_left_at ev render direction jobs alphas t k :
  wf t -> t <> PNone ->
  (forall k t X, direction k t = Ok (Some X) -> length X = number_of_params t) ->
  let p := get_params t in
  let p' := get_params (fst (fst (optimize_fit add sub one render direction jobs (fun X => try_fit add mul ev X alphas) (t, k)))) in
  stepped p (get_step_sizes one t) p' \/
  exists k X a, direction k t = Ok (Some X) /\ In a alphas /\ p' = move add mul a p X.
Proof.
  intros W N HD p p'. 
  assert (H : runs t (optimize_fit add sub one render direction jobs (fun X => try_fit add mul ev X alphas)) t
    (fun p => stepped (get_params t) (get_step_sizes one t) p \/ exists k X, direction k t = Ok (Some X) /\ tried (get_params t) X alphas p) (fun _ _ => True)).
  { apply (optimize_runs t render direction jobs _ (fun X => tried (get_params t) X alphas) (fun _ _ => True)); auto; [intros k2 X2 E2; apply (HD k2 t X2 E2)|].
    intros X L _. eapply runs_weaken; [apply try_fit_runs; auto; rewrite L; apply number_get; auto|auto|auto]. }
  specialize (H k). unfold p'. destruct (optimize_fit _ _ _ _ _ _ _ (t, k)) as [[t' k'] o]. simpl.
  assert (X : exists q, placed t q t' /\ (stepped (get_params t) (get_step_sizes one t) q \/ exists k X, direction k t = Ok (Some X) /\ tried (get_params t) X alphas q)).
  { destruct o; destruct H as (q & A & B); exists q; tauto. }
  destruct X as (q & A & B). pose proof (placed_wf t W N q t' A) as (-> & _). destruct B as [B|(k1 & X & B & C)]; auto.
  destruct C as [->|(a & C & D)]; [left; left; auto|]. right. exists k1, X, a. auto.
Qed.
(** With an evaluation that depends on the parameters only, a fit that ends
    without raising is no worse than its start. *)
Section Better.
Variable L : ptree -> res ext.
Definition better (t t' : ptree) : Prop := forall l, L t = Ok l -> exists l', L t' = Ok l' /\ improves l l'.
Lemma better_refl t : better t t.
Proof. intros l E. exists l. split; auto. left; auto. Qed.
Lemma better_trans t1 t2 t3 : better t1 t2 -> better t2 t3 -> better t1 t3.
Proof. intros A B l E. destruct (A l E) as (l2 & E2 & I2). destruct (B l2 E2) as (l3 & E3 & I3). exists l3. split; auto. eapply improves_trans; eauto. Qed.

Lemma try_steps_better t0 X alphas best pBest pB q t : wf t0 -> t0 <> PNone -> length X = length (get_params t0) -> placed t0 q t ->
  let I := fun (best : option V) (pBest : ext) => match best with None => pBest = pB
    | Some a => (forall t', placed t0 (move add mul a (get_params t0) X) t' -> L t' = Ok pBest) /\ eltb pB pBest = true end in
  I best pBest ->
  runs t0 (try_steps add mul (fun _ => L) (get_params t0) X alphas best pBest) t (fun _ => True) (fun r _ => I (fst r) (snd r)).
Proof.
  intros W N HL HQ I. revert best pBest q t HQ. induction alphas as [|a r IH]; intros best pBest q t HQ HB; simpl.
  - eapply runs_ret; eauto.
  - apply (runs_then t0 _ _ t _ (fun _ p => p = move add mul a (get_params t0) X)).
    { eapply runs_put; eauto. rewrite move_length by auto. symmetry. apply number_get; auto. }
    intros _ p t1 H1 _ ->.
    apply (runs_then t0 _ _ t1 _ (fun l p => p = move add mul a (get_params t0) X /\ L t1 = Ok l)); [eapply runs_ask; eauto|].
    intros l p t2 H2 _ (-> & El). assert (t2 = t1) as -> by (eapply placed_inj; eauto).
    destruct (negb (isfinite l)); [eapply runs_ret; eauto|]. destruct (eltb l _); [eapply runs_ret; eauto|].
    destruct (egtb l pBest) eqn:G; eapply IH; eauto. unfold egtb in G. split.
    + intros t' H'. assert (t' = t1) as -> by (eapply placed_inj; eauto). auto.
    + destruct best; simpl in HB; [|congruence]. eapply eltb_trans; [apply HB|auto].
Qed.
Lemma try_fit_better t0 X alphas : wf t0 -> t0 <> PNone -> length X = length (get_params t0) ->
  runs t0 (try_fit add mul (fun _ => L) X alphas) t0 (fun _ => True) (fun _ p => forall t', placed t0 p t' -> better t0 t').
Proof.
  intros W N HL. pose proof (placed_start t0 W N) as S0. unfold try_fit.
  apply (runs_then t0 _ _ t0 _ (fun l p => p = get_params t0 /\ L t0 = Ok l)); [eapply runs_ask; eauto|].
  intros l p t1 H1 _ (-> & El). rewrite (placed_inj _ _ _ _ H1 S0). clear H1 t1.
  apply (runs_then t0 _ _ t0 _ (fun a p => a = get_params t0)); [intros k; simpl; eauto|]. intros p p' t1 H1 T1 ->.
  eapply runs_then; [apply (try_steps_better t0 X alphas None l l p' t1); auto|]. simpl. intros [b pb] p t2 H2 _ HB. simpl in HB.
  destruct b as [a|]; simpl.
  - apply (runs_then t0 _ _ t2 _ (fun _ p => p = move add mul a (get_params t0) X)).
    { eapply runs_put; eauto. rewrite move_length by auto. symmetry. apply number_get; auto. }
    intros _ q t3 H3 _ ->. eapply runs_ret; eauto. intros t' H' l0 E0. exists pb. split; [apply HB; auto|]. right. replace l0 with l by congruence. apply HB.
  - apply (runs_then t0 _ _ t2 _ (fun _ p => p = get_params t0)).
    { eapply runs_put; eauto. symmetry. apply number_get; auto. }
    intros _ q t3 H3 _ ->. eapply runs_ret; eauto. intros t' H'. rewrite (placed_inj _ _ _ _ H' S0). apply better_refl.
Qed.
Lemma loop_better one_step stop m step :
  (forall t, wf t -> t <> PNone -> runs t one_step t (fun _ => True) (fun _ p => forall t', placed t p t' -> better t t')) ->
  forall t k t' k' r, wf t -> t <> PNone -> fit_loop one_step stop m step (t, k) = ((t', k'), Ok r) -> better t t'.
Proof.
  intros H. revert step. induction m as [|m IH]; intros step t k t' k' r W N; simpl.
  - intros E. injection E as <- _ _. apply better_refl.
  - unfold andthen. pose proof (H t W N k) as A. destruct (one_step (t, k)) as [[t1 k1] [d|e]]; [|discriminate].
    destruct A as (p & A1 & _ & A2). specialize (A2 t1 A1).
    destruct (stop step d); [intros E; injection E as <- _ _; auto|]. destruct m as [|m']; [intros E; injection E as <- _ _; auto|].
    intros E. pose proof (placed_wf t W N p t1 A1) as (_ & W1 & N1 & _). eapply better_trans; [exact A2|]. eapply IH; eauto.
Qed.
End Better.
Theorem C114_never_worse (L : ptree -> res ext) render direction jobs alphas stop steps t k t' k' r l :
  wf t -> t <> PNone ->
  (forall k t X, direction k t = Ok (Some X) -> length X = number_of_params t) ->
  fit (optimize_fit add sub one render direction jobs (fun X => try_fit add mul (fun _ => L) X alphas)) stop steps (t, k) = ((t', k'), Ok r) ->
  L t = Ok l -> exists l', L t' = Ok l' /\ (l' = l \/ eltb l l' = true).
Proof.
  intros W N HD E El. assert (B : better L t t').
  { destruct steps as [|m]; [discriminate|]. refine (loop_better L _ stop (S m) 0 _ t k t' k' r W N E). clear - HD. intros t W N.
    eapply runs_weaken; [apply (optimize_runs t render direction jobs _ (fun _ _ => True) (fun _ p => forall t', placed t p t' -> better L t t')); auto|auto|auto].
    - intros k2 X2 E2; apply (HD k2 t X2 E2).
    - intros X HL _. apply try_fit_better; auto. rewrite HL. apply number_get; auto.
    - intros t' H'. rewrite (placed_inj _ _ _ _ H' (placed_start t W N)). apply better_refl. }
  destruct (B l El) as (l' & A & [I|I]); exists l'; auto.
Qed.
(** A search that ends without an accepted step has put everything back. *)
Theorem C114_undone ev X alphas t k t' k' gain :
  wf t -> t <> PNone -> length X = number_of_params t ->
  try_fit add mul ev X alphas (t, k) = ((t', k'), Ok (gain, None)) -> t' = t /\ gain = Fin 0.
Proof.
  intros W N L E. rewrite number_get in L by auto. pose proof (try_fit_runs t W N ev X alphas L k) as H. rewrite E in H.
  destruct H as (p & A & _ & [(B & ->)|(a & B & _)]); [|discriminate]. split; [|congruence]. apply (placed_inj t _ _ _ A). apply placed_start; auto.
Qed.
(** A direction with too few entries is refused, and changes nothing. *)
Theorem C114_short ev X a alphas t k : (forall k t, exists l, ev k t = Ok l) -> length X < number_of_params t ->
  exists e k', try_fit add mul ev X (a :: alphas) (t, k) = ((t, k'), Err e).
Proof.
  intros HE L. destruct (HE k t) as (l & El).
  assert (LM : forall p0 X, length (move add mul a p0 X) <= length X).
  { induction p0 as [|q p0 IH]; intros [|x X0]; simpl; try lia. specialize (IH X0). lia. }
  destruct (C02_short_vector_raises t (move add mul a (get_params t) X)) as (e & Ee); [specialize (LM (get_params t) X); lia|].
  exists e, (S k). unfold try_fit, andthen, ask, get. cbn [fst snd]. rewrite El. cbn [try_steps]. unfold andthen, put. cbn [fst snd]. rewrite Ee. reflexivity.
Qed.
End C114.

(** ** Constrained fits *)
Section CC114.
Variables (add sub mul div : Q -> Q -> Q) (tiny one : Q).

Lemma ctry_steps_runs t0 ev check P steps q best pBest t : wf t0 -> t0 <> PNone -> Forall (fun s => length (s_params s) = number_of_params t0 /\ P (s_params s)) steps ->
  length q = number_of_params t0 -> P q -> (exists p, placed t0 p t /\ P p) ->
  runs t0 (ctry_steps ev check steps q best pBest) t P (fun r _ => length (fst (fst r)) = number_of_params t0 /\ P (fst (fst r))).
Proof.
  intros W N F. revert q best pBest t. induction F as [|s r (L & HP) F IH]; intros q best pBest t LQ HQ (p & H & Hp); simpl.
  - eapply runs_ret; eauto.
  - apply (runs_then t0 _ _ t _ (fun _ p => p = s_params s)); [eapply runs_put; eauto|]. intros _ p1 t1 H1 _ ->.
    apply (runs_then t0 _ _ t1 _ (fun _ p => p = s_params s)).
    { destruct check; [eapply runs_ask; eauto|eapply runs_ret; eauto]. }
    intros go p1 t2 H2 _ ->. destruct (negb go); [eapply runs_ret; eauto|].
    apply (runs_then t0 _ _ t2 _ (fun _ p => p = s_params s)); [eapply runs_ask; eauto|]. intros l p1 t3 H3 _ ->.
    destruct (negb (isfinite l)); [eapply runs_ret; eauto|]. destruct (eltb l _); [eapply runs_ret; eauto|].
    destruct (egtb l pBest); apply IH; eauto.
Qed.
Lemma ctry_fit_runs t0 ev check alphas X : wf t0 -> t0 <> PNone -> length X = number_of_params t0 ->
  runs t0 (ctry_fit add sub mul div tiny ev check alphas X) t0 (fun _ => True) (fun _ _ => True).
Proof.
  intros W N L. pose proof (placed_start t0 W N) as S0. unfold ctry_fit.
  apply (runs_then t0 _ _ t0 _ (fun a p => a = get_params t0 /\ p = get_params t0)).
  { intros k. simpl. exists (get_params t0). auto. }
  intros a p t1 H1 _ (-> & ->). rewrite (placed_inj _ _ _ _ H1 S0). clear H1 t1.
  apply (runs_then t0 _ _ t0 _ (fun _ p => p = get_params t0)); [eapply runs_ask; eauto|].
  intros l p t1 H1 _ ->. rewrite (placed_inj _ _ _ _ H1 S0). clear H1 t1. intros k. cbn [fst].
  destruct (parameter_steps _ _ _ _ _ _ _ _ _ _ _) as [steps|e] eqn:E; [|eauto]. revert k.
  destruct (C01_vector_views_agree one t0 W) as (_ & A1 & _ & _ & A2 & A3 & _).
  apply steps_length in E; auto; [|lia].
  apply (runs_then t0 _ _ t0 _ (fun r _ => length (fst (fst r)) = number_of_params t0 /\ True)).
  - eapply (ctry_steps_runs t0 ev check (fun _ => True)); eauto. eapply Forall_impl; [|exact E]. simpl. intros s ->. split; auto.
  - intros [[pb b] lb] p t1 H1 _ (Lb & _). simpl in Lb. apply (runs_then t0 _ _ t1 _ (fun _ _ => True)); [eapply runs_put; eauto|].
    intros _ p2 t2 H2 _ _. destruct b; eapply runs_ret; eauto.
Qed.
(** The same for constrained fits: any arithmetic, check_step, bounds. *)
Theorem C114_constrained_frozen ev check render direction jobs alphas stop steps t k :
  wf t -> t <> PNone ->
  (forall k t X, direction k t = Ok (Some X) -> length X = number_of_params t) ->
  only_free_changed t (fst (fst (fit (optimize_fit add sub one render direction jobs (ctry_fit add sub mul div tiny ev check alphas)) stop steps (t, k)))).
Proof.
  intros W N HD. apply fit_free; auto. clear t k W N. intros t k W N.
  eapply runs_free. apply (optimize_runs add sub one t render direction jobs _ (fun _ _ => True) (fun _ _ => True)); auto; [intros k2 X2 E2; apply (HD k2 t X2 E2)|].
  intros X L _. apply ctry_fit_runs; auto.
Qed.

Lemma ctry_steps_better t0 (L : ptree Q -> res ext) check pB steps q best pBest t : wf t0 -> t0 <> PNone ->
  Forall (fun s => length (s_params s) = number_of_params t0) steps -> length q = number_of_params t0 -> (exists p, placed t0 p t) ->
  let I := fun (q : list Q) (pBest : ext) => length q = number_of_params t0 /\ (forall t', placed t0 q t' -> L t' = Ok pBest) /\ improves pB pBest in
  I q pBest ->
  runs t0 (ctry_steps (fun _ => L) check steps q best pBest) t (fun _ => True) (fun r _ => I (fst (fst r)) (snd r)).
Proof.
  intros W N F LQ HP I. revert q LQ best pBest t HP. induction F as [|s r HL F IH]; intros q LQ best pBest t (p & H) HI; simpl.
  - eapply runs_ret; eauto.
  - apply (runs_then t0 _ _ t _ (fun _ p => p = s_params s)); [eapply runs_put; eauto|]. intros _ p1 t1 H1 _ ->.
    apply (runs_then t0 _ _ t1 _ (fun _ p => p = s_params s)).
    { destruct check; [eapply runs_ask; eauto|eapply runs_ret; eauto]. }
    intros go p1 t2 H2 _ ->. destruct (negb go); [eapply runs_ret; eauto|].
    apply (runs_then t0 _ _ t2 _ (fun l p => p = s_params s /\ L t2 = Ok l)); [eapply runs_ask; eauto|]. intros l p1 t3 H3 _ (-> & El).
    assert (t3 = t2) as -> by (eapply placed_inj; eauto).
    destruct (negb (isfinite l)); [eapply runs_ret; eauto|]. destruct (eltb l _); [eapply runs_ret; eauto|].
    destruct (egtb l pBest) eqn:G; apply IH; eauto. unfold egtb in G. split; auto. split.
    + intros t' H'. assert (t' = t2) as -> by (eapply placed_inj; eauto). auto.
    + destruct HI as (_ & _ & HI). eapply improves_trans; eauto. right; auto.
Qed.
Lemma ctry_fit_better t0 (L : ptree Q -> res ext) check alphas X : wf t0 -> t0 <> PNone -> length X = number_of_params t0 ->
  runs t0 (ctry_fit add sub mul div tiny (fun _ => L) check alphas X) t0 (fun _ => True) (fun _ p => forall t', placed t0 p t' -> better L t0 t').
Proof.
  intros W N HL. pose proof (placed_start t0 W N) as S0. unfold ctry_fit.
  apply (runs_then t0 _ _ t0 _ (fun a p => a = get_params t0 /\ p = get_params t0)).
  { intros k. simpl. exists (get_params t0). auto. }
  intros a p t1 H1 _ (-> & ->). rewrite (placed_inj _ _ _ _ H1 S0). clear H1 t1.
  apply (runs_then t0 _ _ t0 _ (fun l p => p = get_params t0 /\ L t0 = Ok l)); [eapply runs_ask; eauto|].
  intros l p t1 H1 _ (-> & El). rewrite (placed_inj _ _ _ _ H1 S0). clear H1 t1. intros k. cbn [fst].
  destruct (parameter_steps _ _ _ _ _ _ _ _ _ _ _) as [steps|e] eqn:E; [|eauto]. revert k.
  destruct (C01_vector_views_agree one t0 W) as (_ & A1 & _ & _ & A2 & A3 & _).
  apply steps_length in E; auto; [|lia].
  eapply runs_then.
  - apply (ctry_steps_better t0 L check l); eauto.
    + eapply Forall_impl; [|exact E]. simpl. intros s ->. auto.
    + split; auto. split; [|left; auto]. intros t' H'. rewrite (placed_inj _ _ _ _ H' S0). auto.
  - simpl. intros [[pb b] lb] p t1 H1 _ (Lb & Lv & Li). simpl in Lb, Lv, Li. apply (runs_then t0 _ _ t1 _ (fun _ p => p = pb)); [eapply runs_put; eauto|].
    intros _ p2 t2 H2 _ ->. assert (B : forall t', placed t0 pb t' -> better L t0 t').
    { intros t' H' l0 E0. exists lb. split; auto. congruence. }
    destruct b; eapply runs_ret; eauto.
Qed.
Theorem C114_constrained_never_worse (L : ptree Q -> res ext) check render direction jobs alphas stop steps t k t' k' r l :
  wf t -> t <> PNone ->
  (forall k t X, direction k t = Ok (Some X) -> length X = number_of_params t) ->
  fit (optimize_fit add sub one render direction jobs (ctry_fit add sub mul div tiny (fun _ => L) check alphas)) stop steps (t, k) = ((t', k'), Ok r) ->
  L t = Ok l -> exists l', L t' = Ok l' /\ (l' = l \/ eltb l l' = true).
Proof.
  intros W N HD E El. assert (B : better L t t').
  { destruct steps as [|m]; [discriminate|]. refine (loop_better L _ stop (S m) 0 _ t k t' k' r W N E). clear - HD. intros t W N.
    eapply runs_weaken; [apply (optimize_runs add sub one t render direction jobs _ (fun _ _ => True) (fun _ p => forall t', placed t p t' -> better L t t')); auto|auto|auto].
    - intros k2 X2 E2; apply (HD k2 t X2 E2).
    - intros X HL _. apply ctry_fit_better; auto.
    - intros t' H'. rewrite (placed_inj _ _ _ _ H' (placed_start t W N)). apply better_refl. }
  destruct (B l El) as (l' & A & [I|I]); exists l'; auto.
Qed.
End CC114.

(** What [only_free_changed] says, slot by slot: same objects, flags, steps,
    bounds and priors, same values of frozen parameters. *)
Theorem C114_only_free_means : forall (V : Type) (v0 : V) (t t' : ptree V), wf t -> t <> PNone -> only_free_changed t t' ->
  blank v0 t' = blank v0 t /\ frozen (vals_of t') = frozen (vals_of t) /\ map fst (vals_of t') = map fst (vals_of t).
Proof. intros V. exact only_free_means. Qed.

(** ** Interrupted fits are not undone *)
Open Scope Z_scope.
Definition ex_fit_t : ptree Z := PList (mkPlist (mkNames [] []) [0; 7] [true; false] [None; None] [None; None] [None; None] None []).
(** The log-probability is -(x - 1)^2, the direction 1. *)
Definition ex_fit_L (t : ptree Z) : res ext :=
  match get_params t with [x] => Ok (Fin (inject_Z (- (x - 1) * (x - 1)))) | _ => Err IndexError end.
Definition ex_fit_ev (stop : nat) (k : nat) (t : ptree Z) : res ext := if Nat.eqb k stop then Err RuntimeError else ex_fit_L t.
Definition ex_fit_run (stop : nat) (stopr : nat) :=
  optimize_fit Z.add Z.sub 1 (fun k _ => if Nat.eqb k stopr then Err RuntimeError else Ok tt) (fun _ _ => Ok (Some [1])) [(0%nat, false)]
    (fun X => try_fit Z.add Z.mul (ex_fit_ev stop) X [1; 4]) (ex_fit_t, 0%nat).
(** Interrupted at the last trial, the fit leaves a log-probability of -9, which
    was -1 at the start and 0 at the best trial; interrupted while taking
    derivatives, a parameter is left a step off. *)
Theorem C114_undone_refuted :
  (let '(t', _, r) := ex_fit_run 4 9 in r = Err RuntimeError /\ get_params t' = [4] /\ ex_fit_L t' = Ok (Fin (-9)) /\ ex_fit_L ex_fit_t = Ok (Fin (-1))) /\
  (let '(t', _, r) := ex_fit_run 9 0 in r = Err RuntimeError /\ get_params t' = [1] /\ get_params ex_fit_t = [0]).
Proof. vm_compute. repeat split; reflexivity. Qed.
(** Uninterrupted: the best trial; the frozen 7 is there in all cases. *)
Example C114_ex : wf ex_fit_t /\ ex_fit_t <> PNone /\
  (let '(t', _, r) := ex_fit_run 9 9 in r = Ok (Fin 1) /\ get_params t' = [1] /\ get_all_params t' = [1; 7]) /\
  (let '(t', _, r) := ex_fit_run 4 9 in get_all_params t' = [4; 7]) /\ (length (@nil Z) < number_of_params ex_fit_t)%nat.
Proof. split; [repeat split; simpl; auto; congruence|]. split; [discriminate|]. vm_compute. repeat split; try reflexivity; lia. Qed.

Print Assumptions C114_frozen.
Print Assumptions C114_left_at.
Print Assumptions C114_never_worse.
Print Assumptions C114_undone.
Print Assumptions C114_short.
Print Assumptions C114_constrained_frozen.
Print Assumptions C114_constrained_never_worse.
Print Assumptions C114_only_free_means.
Print Assumptions C114_undone_refuted.
