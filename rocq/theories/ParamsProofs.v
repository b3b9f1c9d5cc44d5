(** Proofs about the parameter containers. *)
From Coq Require Import String List ZArith Bool Lia.
From Verif Require Import Base ParamsModel ParamsSpec.
Import ListNotations.

Section Proofs.
Context {V : Type}.
Notation ptree := (ptree V).

(** Induction over trees, with the members of a group. *)
Lemma ptree_ind' (P : ptree -> Prop) :
  P PNone -> P PFixed -> (forall s, P (PScalar s)) -> (forall l, P (PList l)) ->
  (forall nm subs liq, Forall P subs -> P (PMulti nm subs liq)) ->
  forall t, P t.
Proof.
  intros HN HF HS HL HM. fix IH 1. intros [| |s|l|nm subs liq].
  - exact HN.
  - exact HF.
  - apply HS.
  - apply HL.
  - apply HM. revert subs. fix IHs 1. intros [|s ss].
    + constructor.
    + constructor; [apply IH|apply IHs].
Qed.

Lemma fold_and_Forall {A} (P : A -> Prop) l :
  fold_right (fun s Q => P s /\ Q) True l <-> Forall P l.
Proof. induction l; simpl; split; intros; auto.
  - constructor; tauto.
  - inversion H; subst; tauto. Qed.

(** ** thawed/filter algebra *)
Lemma thawed_app {A} (a b : list (bool * A)) : thawed (a ++ b) = thawed a ++ thawed b.
Proof. unfold thawed. rewrite filter_app, map_app; auto. Qed.

Lemma frozen_app {A} (a b : list (bool * A)) : frozen (a ++ b) = frozen a ++ frozen b.
Proof. unfold frozen. rewrite filter_app, map_app; auto. Qed.

Lemma thawed_combine {A} m (l : list A) : thawed (combine m l) = keep m l.
Proof. revert l; induction m; destruct l; simpl; auto; unfold thawed in *; simpl.
  - destruct a; auto.
  - destruct a; simpl; rewrite <- IHm; auto. Qed.

Lemma thawed_gate {A} (xs : list (bool * A)) b :
  thawed (map (fun e => (b && fst e, snd e)) xs) = if b then thawed xs else [].
Proof. unfold thawed. destruct b; induction xs as [|[f x] r]; simpl in *; auto.
  destruct f; simpl; rewrite IHr; auto. Qed.

Lemma map_snd_gate {A} (xs : list (bool * A)) b :
  map snd (map (fun e => (b && fst e, snd e)) xs) = map snd xs.
Proof. induction xs as [|[f x] r]; simpl; congruence. Qed.

Lemma flat_none {A} sc pl s : is_none s = true -> @flat V A sc pl s = [].
Proof. destruct s; simpl; congruence. Qed.

(** A getter that concatenates over active members gives the thawed view. *)
Lemma getter_flat {A} (sc : scalar V -> A) pl (g : ptree -> list A)
  (Hsc : forall s, g (PScalar s) = [sc s])
  (Hpl : forall l, g (PList l) = keep (l_liquid l) (pl l))
  (Hf : g PFixed = []) (Hn : g PNone = [])
  (Hm : forall nm subs liq, g (PMulti nm subs liq) = concat (active_map g subs liq)) :
  forall t, g t = thawed (flat sc pl t).
Proof.
  induction t using ptree_ind'; simpl.
  - rewrite Hn; auto.
  - rewrite Hf; auto.
  - rewrite Hsc; auto.
  - rewrite Hpl, thawed_combine; auto.
  - rewrite Hm. clear Hm. revert liq. induction H; intros; destruct liq; simpl; auto.
    rewrite thawed_app, thawed_gate, <- IHForall.
    destruct b; simpl; auto.
    destruct (is_none x) eqn:E; simpl.
    + rewrite (flat_none sc pl x E). auto.
    + rewrite H; auto.
Qed.

Lemma get_params_flat (t : ptree) : get_params t = thawed (vals_of t).
Proof. apply getter_flat; intros; reflexivity. Qed.
Lemma get_lower_flat (t : ptree) : get_lower_bounds t = thawed (lowers_of t).
Proof. apply getter_flat; intros; reflexivity. Qed.
Lemma get_upper_flat (t : ptree) : get_upper_bounds t = thawed (uppers_of t).
Proof. apply getter_flat; intros; reflexivity. Qed.
Lemma get_maxstep_flat (t : ptree) : get_max_step t = thawed (maxsteps_of t).
Proof. apply getter_flat; intros; reflexivity. Qed.
Lemma get_steps_flat one (t : ptree) : get_step_sizes one t = thawed (steps_of one t).
Proof. apply (getter_flat s_stepsize (plist_all_steps one)); intros; reflexivity. Qed.

Lemma get_all_flat (t : ptree) : wf t -> get_all_params t = map snd (vals_of t).
Proof.
  unfold vals_of. induction t using ptree_ind'; simpl; auto.
  - intros (H & _). revert H. generalize (l_vals l). generalize (l_liquid l).
    induction l0 as [|b m IHm]; intros [|v vs]; simpl; intros; try lia; auto.
    f_equal. apply IHm; lia.
  - rewrite fold_and_Forall. intros (HL & HW).
    revert liq HL HW. induction H; intros; destruct liq; simpl in *; try lia; auto.
    inversion HW as [|? ? Wx Wxs]; subst.
    rewrite map_app, map_snd_gate, <- H by auto.
    rewrite <- IHForall by (auto; lia).
    destruct (is_none x) eqn:E; simpl; auto. destruct x; simpl in *; auto; congruence.
Qed.

(** The flags of the flat view do not depend on the attribute looked at. *)
Lemma combine_fst {A} (m : list bool) (l : list A) :
  length m = length l -> map fst (combine m l) = m.
Proof. revert l; induction m; destruct l; simpl; intros; try lia; auto.
  f_equal; apply IHm; lia. Qed.

Lemma flat_flags {A B} sc1 pl1 sc2 pl2 (t : ptree) :
  (forall l, wf_plist l -> length (pl1 l : list A) = length (l_vals l)) ->
  (forall l, wf_plist l -> length (pl2 l : list B) = length (l_vals l)) ->
  wf t -> map fst (flat sc1 pl1 t) = map fst (flat sc2 pl2 t).
Proof.
  intros H1 H2. induction t using ptree_ind'; simpl; auto.
  - intros W. rewrite !combine_fst; auto.
    + rewrite H2; auto; apply W.
    + rewrite H1; auto; apply W.
  - rewrite fold_and_Forall. intros (HL & HW).
    revert liq HL HW. induction H; intros; destruct liq; simpl in *; try lia; auto.
    inversion HW as [|? ? Wx Wxs]; subst. rewrite !map_app. f_equal.
    + rewrite !map_map; simpl. specialize (H Wx).
      rewrite <- (map_map fst (fun x => b && x)), <- (map_map fst (fun x => b && x) (flat sc2 pl2 x)).
      rewrite H; auto.
    + apply IHForall; auto; lia.
Qed.

Lemma len_vals l : wf_plist l -> length (@l_vals V l) = length (l_vals l). Proof. auto. Qed.
Lemma len_lowers l : wf_plist l -> length (@l_lowers V l) = length (l_vals l). Proof. intros (?&?&?&?&?); auto. Qed.
Lemma len_uppers l : wf_plist l -> length (@l_uppers V l) = length (l_vals l). Proof. intros (?&?&?&?&?); auto. Qed.
Lemma len_maxstep l : wf_plist l -> length (@l_maxstep V l) = length (l_vals l). Proof. intros (?&?&?&?&?); auto. Qed.
Lemma len_steps one l : wf_plist l -> length (plist_all_steps one l) = length (@l_vals V l).
Proof. intros (?&?&?&?&?). unfold plist_all_steps. destruct (l_steps l); auto. apply map_length. Qed.

Lemma thawed_length_flags {A B} (a : list (bool * A)) (b : list (bool * B)) :
  map fst a = map fst b -> length (thawed a) = length (thawed b).
Proof.
  unfold thawed. rewrite !map_length. revert b.
  induction a as [|[f x] r]; destruct b as [|[g y] s]; simpl; intros; try congruence; auto.
  inversion H; subst. destruct g; simpl; rewrite (IHr s); auto.
Qed.

Lemma number_flat (t : ptree) : wf t -> number_of_params t = length (thawed (vals_of t)).
Proof.
  rewrite <- get_params_flat.
  induction t using ptree_ind'; simpl; auto.
  - intros (H & _). rewrite keep_length; auto.
  - rewrite fold_and_Forall. intros (HL & HW). rewrite map_length || idtac.
    revert liq HL HW. induction H; intros; destruct liq; simpl in *; try lia; auto.
    inversion HW as [|? ? Wx Wxs]; subst.
    destruct (b && negb (is_none x)); simpl.
    + rewrite app_length. rewrite IHForall, H; auto.
    + apply IHForall; auto.
Qed.

Lemma number_get (t : ptree) : wf t -> number_of_params t = length (get_params t).
Proof. intros. rewrite get_params_flat. apply number_flat; auto. Qed.

(** ** names *)
Lemma plist_names_length nm liq i j : length (plist_names nm liq i j) = count_true liq.
Proof. revert i j; induction liq as [|b r]; simpl; intros; auto.
  rewrite count_true_cons. destruct b; simpl; rewrite IHr; auto. Qed.

Lemma sub_names_length nm i l n : length (sub_names nm i l n) = n.
Proof. unfold sub_names. destruct (Nat.eqb_spec (length l) n); simpl; rewrite map_length; auto.
  apply seq_length. Qed.

Lemma names_length (t : ptree) : length (get_param_names t) = number_of_params t.
Proof.
  destruct t; simpl; auto.
  - apply plist_names_length.
  - generalize 0. generalize liquid. induction subs; intros; destruct liquid0; simpl; auto.
    destruct (b && negb (is_none a)); simpl; auto.
    rewrite app_length, IHsubs. simpl. f_equal. apply sub_names_length.
Qed.

Lemma plist_names_named nm liq i j :
  (forall k, k < length liq -> named_param_name nm (j + k) <> None) ->
  plist_names nm liq i j =
  keep liq (map (fun j => [match named_param_name nm j with
                 | Some s => CName s | None => CParam j end]) (seq j (length liq))).
Proof.
  revert i j; induction liq as [|b r]; simpl; intros; auto.
  assert (forall k, k < length r -> named_param_name nm (S j + k) <> None).
  { intros. replace (S j + k) with (j + S k) by lia. apply H; lia. }
  destruct b; simpl; rewrite IHr; auto.
  specialize (H 0). rewrite Nat.add_0_r in H.
  destruct (named_param_name nm j); auto. exfalso; apply H; auto; lia.
Qed.

Lemma thawed_gate_map {A} (f : A -> A) (xs : list (bool * A)) b :
  thawed (map (fun e => (b && fst e, f (snd e))) xs) = if b then map f (thawed xs) else [].
Proof. unfold thawed. destruct b; induction xs as [|[g x] r]; simpl in *; auto.
  destruct g; simpl; rewrite IHr; auto. Qed.

Lemma names_named (t : ptree) : lists_named t ->
  get_param_names t = thawed (names_of t).
Proof.
  induction t using ptree_ind'; simpl; auto.
  - intros. rewrite thawed_combine. apply plist_names_named. simpl. auto.
  - rewrite fold_and_Forall. intros HW. generalize 0.
    revert liq HW. induction H; intros; destruct liq; simpl in *; auto.
    inversion HW as [|? ? Wx Wxs]; subst.
    rewrite thawed_app.
    rewrite (thawed_gate_map (fun e => _ :: e)).
    rewrite <- IHForall by auto.
    destruct b; simpl; auto.
    destruct (is_none x) eqn:E; simpl.
    + destruct x; simpl in *; auto; congruence.
    + f_equal. unfold sub_names. rewrite names_length, Nat.eqb_refl.
      rewrite H; auto.
Qed.

(** ** setParams *)
Lemma overlay_app xs ys (p q : list V) :
  length p = length (thawed xs) ->
  overlay (xs ++ ys) (p ++ q) = overlay xs p ++ overlay ys q.
Proof.
  revert p. induction xs as [|[f x] r]; simpl; intros.
  - destruct p; simpl in *; auto; unfold thawed in H; simpl in H; lia.
  - unfold thawed in *. destruct f; simpl in *.
    + destruct p; simpl in *; try lia. rewrite IHr; auto.
    + rewrite IHr; auto.
Qed.

Lemma overlay_gate_false (xs : list (bool * V)) p :
  overlay (map (fun e => (false && fst e, snd e)) xs) p
  = map (fun e => (false && fst e, snd e)) xs.
Proof. simpl. induction xs; simpl; congruence. Qed.

Lemma overlay_gate_true (xs : list (bool * V)) p :
  overlay (map (fun e => (true && fst e, snd e)) xs) p
  = map (fun e => (true && fst e, snd e)) (overlay xs p).
Proof.
  assert (G : forall ys : list (bool * V), map (fun e => (true && fst e, snd e)) ys = ys)
    by (induction ys as [|[f x] r]; simpl in *; congruence).
  rewrite !G; auto.
Qed.

Lemma map_true_gate {A} (xs : list (bool * A)) :
  map (fun e => (true && fst e, snd e)) xs = xs.
Proof. induction xs as [|[f x] r]; simpl in *; congruence. Qed.

Lemma map_id_gate {A B} (xs : list (A * B)) : map (fun e => (fst e, snd e)) xs = xs.
Proof. induction xs as [|[f x] r]; simpl in *; congruence. Qed.

Lemma skipn_nth_cons {A} (p : list A) i x :
  nth_error p i = Some x -> skipn i p = x :: skipn (S i) p.
Proof. revert i; induction p; destruct i; simpl; intros; try congruence; auto.
  rewrite (IHp _ H). auto. Qed.

Lemma plist_set_loop_ok liq (vals : list V) i p :
  length liq = length vals -> i + count_true liq <= length p ->
  exists vs, plist_set_loop liq vals i p = Ok vs /\ length vs = length vals /\
    combine liq vs = overlay (combine liq vals) (skipn i p).
Proof.
  revert vals i. induction liq as [|b r]; destruct vals; simpl; intros; try lia.
  - exists []; auto.
  - rewrite count_true_cons in H0. destruct b.
    + destruct (nth_error p i) eqn:E.
      2:{ apply nth_error_None in E. lia. }
      unfold py_get. rewrite E; simpl.
      destruct (IHr vals (S i)) as (vs & -> & HL & HC); try lia.
      exists (v0 :: vs); simpl; repeat split; auto.
      rewrite (skipn_nth_cons _ _ _ E). rewrite HC; auto.
    + destruct (IHr vals i) as (vs & -> & HL & HC); try lia.
      exists (v :: vs); simpl; repeat split; auto. rewrite HC; auto.
Qed.

Lemma overlay_enough xs (p q : list V) :
  length p = length (thawed xs) -> overlay xs (p ++ q) = overlay xs p.
Proof. intros. rewrite <- (app_nil_r xs) at 1. rewrite overlay_app by auto.
  simpl. rewrite app_nil_r; auto. Qed.

Lemma is_none_blank v0 (s : ptree) : is_none (blank v0 s) = is_none s.
Proof. destruct s; auto. Qed.

Lemma set_params_spec v0 (t : ptree) p :
  wf t -> t <> PNone -> length p = number_of_params t ->
  exists t', set_params t p = Ok t' /\ wf t' /\ t' <> PNone /\
    vals_of t' = overlay (vals_of t) p /\ blank v0 t' = blank v0 t.
Proof.
  revert p. unfold vals_of. induction t using ptree_ind'; simpl; intros p W NN HL; try congruence.
  - destruct p; simpl in *; try lia. exists PFixed; simpl; repeat split; auto.
  - destruct p as [|x [|y p]]; simpl in *; try lia.
    exists (PScalar (with_val s x)); repeat split; auto; congruence.
  - destruct W as (W1 & W2 & W3 & W4 & W5).
    destruct (plist_set_loop_ok (l_liquid l) (l_vals l) 0 p) as (vs & -> & HLv & HC); auto; try lia.
    simpl. eexists; split; [reflexivity|]. simpl. unfold wf_plist; simpl.
    rewrite HLv. repeat split; auto; try congruence.
    unfold with_vals; simpl. do 2 f_equal.
    clear -HLv. revert HLv. generalize (l_vals l). induction vs; destruct l0; simpl; intros; try lia; auto.
    f_equal; apply IHvs; lia.
  - apply proj1 in W as HLs. apply proj2 in W. rewrite fold_and_Forall in W.
    assert (exists subs', slice_walk number_of_params set_params p subs liq 0 = Ok subs' /\
              length subs' = length subs /\ Forall wf subs' /\
              flat_walk (flat s_val l_vals) subs' liq =
                overlay (flat_walk (flat s_val l_vals) subs liq) (skipn 0 p) /\
              map (blank v0) subs' = map (blank v0) subs) as (subs' & E & HL' & HW' & HF & HB).
    { assert (0 + list_sum (active_map number_of_params subs liq) = length p) as HP by (simpl; lia).
      clear HL NN. revert HP. generalize 0. revert liq HLs W.
      induction H as [|s ss Hs Hss IH]; intros liq HLs W off HP; destruct liq as [|b ls]; simpl in *; try lia.
      - exists []; repeat split; auto.
      - inversion W as [|? ? W1 W2]; subst.
        destruct b; [destruct (is_none s) eqn:EN|]; simpl in *.
        + destruct (IH ls ltac:(lia) W2 off ltac:(lia)) as (ss' & -> & H1 & H2 & H3 & H4). simpl.
          exists (s :: ss'); simpl; repeat split; auto; try lia; try congruence.
          * rewrite H3. rewrite (flat_none s_val l_vals s EN); auto.
        + assert (NNs : s <> PNone) by (destruct s; simpl in *; congruence).
          assert (HLs' : length (slice off (off + number_of_params s) p) = number_of_params s).
          { rewrite slice_length; lia. }
          destruct (Hs _ W1 NNs HLs') as (s' & -> & Ws' & NN' & HF & HB). simpl.
          destruct (IH ls ltac:(lia) W2 (off + number_of_params s) ltac:(lia))
            as (ss' & -> & H1 & H2 & H3 & H4). simpl.
          exists (s' :: ss'); simpl; repeat split; auto; try lia; try congruence.
          rewrite H3, HF. rewrite (firstn_slice_split p off (number_of_params s)).
          rewrite overlay_app.
          * rewrite !map_id_gate. auto.
          * rewrite HLs', map_id_gate. apply number_flat; auto.
        + destruct (IH ls ltac:(lia) W2 off ltac:(lia)) as (ss' & -> & H1 & H2 & H3 & H4). simpl.
          exists (s :: ss'); simpl; repeat split; auto; try lia; try congruence.
          rewrite H3. clear. induction (flat s_val l_vals s) as [|e r]; simpl; auto.
          rewrite <- IHr; auto. }
    rewrite E; simpl. eexists; split; [reflexivity|]. simpl.
    rewrite fold_and_Forall. repeat split; auto; try congruence; try lia.
Qed.

Lemma overlay_flags xs (p : list V) : map fst (overlay xs p) = map fst xs.
Proof. revert p; induction xs as [|[f x] r]; simpl; intros; auto.
  destruct f; simpl; try rewrite IHr; auto. destruct p; simpl; auto. rewrite IHr; auto. Qed.

Lemma overlay_thawed xs (p : list V) : length p = length (thawed xs) ->
  thawed (overlay xs p) = p.
Proof. revert p; induction xs as [|[f x] r]; simpl; intros.
  - destruct p; simpl in *; auto. unfold thawed in H; simpl in H; lia.
  - unfold thawed in *. destruct f; simpl in *; auto.
    destruct p; simpl in *; try lia. rewrite IHr; auto. Qed.

Lemma overlay_frozen xs (p : list V) : frozen (overlay xs p) = frozen xs.
Proof. revert p; induction xs as [|[f x] r]; simpl; intros; auto.
  unfold frozen in *. destruct f; simpl; auto; try rewrite IHr; auto.
  destruct p; simpl; auto. Qed.

Lemma overlay_thawed_self (xs : list (bool * V)) : overlay xs (thawed xs) = xs.
Proof. induction xs as [|[f x] r]; simpl; auto. unfold thawed in *; destruct f; simpl; rewrite IHr; auto. Qed.

Lemma vals_of_blank v0 (t : ptree) :
  vals_of (blank v0 t) = map (fun e => (fst e, v0)) (vals_of t).
Proof.
  unfold vals_of. induction t using ptree_ind'; simpl; auto.
  - generalize (l_vals l). generalize (l_liquid l).
    induction l0 as [|b m IHm]; intros [|v vs]; simpl; auto. rewrite IHm; auto.
  - revert liq. induction H; intros; destruct liq; simpl; auto.
    rewrite map_app, IHForall, H. f_equal. rewrite !map_map. apply map_ext. auto.
Qed.

(** A tree is determined by its flat values and its blanked form. *)
Lemma blank_vals_inj v0 (t1 t2 : ptree) :
  wf t1 -> wf t2 -> blank v0 t1 = blank v0 t2 ->
  map snd (vals_of t1) = map snd (vals_of t2) -> t1 = t2.
Proof.
  unfold vals_of. revert t2. induction t1 using ptree_ind'; intros t2 W1 W2 HB HV;
    destruct t2; simpl in *; try discriminate; auto.
  - injection HB; intros. destruct s, s0; simpl in *. injection HV; intros. congruence.
  - injection HB; intros. destruct W1 as (W1 & _), W2 as (W2 & _).
    destruct l, l0; simpl in *. subst. f_equal. f_equal.
    clear - W1 W2 HV. revert l_vals l_vals0 W1 W2 HV.
    induction l_liquid0; destruct l_vals, l_vals0; simpl; intros; try lia; auto.
    injection HV; intros. f_equal; auto.
  - injection HB; intros; subst. rewrite fold_and_Forall in *. f_equal.
    destruct W1 as (L1 & W1), W2 as (L2 & W2). clear HB.
    revert subs0 liquid W1 W2 L1 L2 H1 HV.
    induction H; intros; destruct subs0 as [|y ys]; simpl in *; try discriminate; auto.
    destruct liquid as [|b ls]; simpl in *; try lia.
    inversion W1; inversion W2; subst.
    injection H1; intros HB1 HB2.
    rewrite !map_app, !map_snd_gate in HV.
    assert (HLen : length (map snd (flat s_val l_vals x)) = length (map snd (flat s_val l_vals y))).
    { rewrite !map_length. apply (f_equal (fun t => length (vals_of t))) in HB2.
      rewrite !vals_of_blank, !map_length in HB2. exact HB2. }
    assert (Hsplit : forall (a b c d : list V), length a = length c -> a ++ b = c ++ d -> a = c /\ b = d).
    { clear. induction a; destruct c; simpl; intros; try lia; auto.
      injection H0; intros; subst. destruct (IHa b c d); auto. subst; auto. }
    apply Hsplit in HV; auto. destruct HV as (HV1 & HV2).
    f_equal; auto. apply (IHForall ys ls); auto.
Qed.

Lemma overlay_self_vals (t : ptree) : wf t -> overlay (vals_of t) (get_params t) = vals_of t.
Proof. intros. rewrite get_params_flat. apply overlay_thawed_self. Qed.

Lemma set_get_id (t : ptree) : wf t -> t <> PNone -> set_params t (get_params t) = Ok t.
Proof.
  intros W NN.
  destruct (get_params t) as [|v0 r] eqn:E.
  - (* no free parameter: pick any value; if V is empty use structure *)
    assert (HL : length (@nil V) = number_of_params t) by (rewrite number_get, E by auto; auto).
    destruct (vals_of t) as [|[f x] q] eqn:EV.
    + (* no slots at all *)
      clear E. revert NN W HL EV. unfold vals_of. induction t using ptree_ind'; simpl; intros; try congruence.
      * destruct W as (W1 & W2 & W3 & W4 & W5). destruct l; simpl in *.
        destruct l_liquid, l_vals; simpl in *; try lia; auto; discriminate.
      * assert (slice_walk number_of_params set_params [] subs liq 0 = Ok subs) as ->; auto.
        rewrite fold_and_Forall in W. destruct W as (HLs & W). clear NN. generalize 0.
        revert liq HLs W HL EV. induction H; intros; destruct liq; simpl in *; try lia; auto.
        inversion W as [|? ? Wx Wxs]; subst. apply app_eq_nil in EV. destruct EV as (EV1 & EV2).
        apply map_eq_nil in EV1.
        destruct (b && negb (is_none x)) eqn:B; simpl.
        -- simpl in HL.
           assert (slice n (n + number_of_params x) (@nil V) = []) as ->.
           { unfold slice. rewrite skipn_nil, firstn_nil; auto. }
           rewrite H; auto; simpl; try lia.
           ++ rewrite IHForall; auto; lia.
           ++ apply andb_prop in B. destruct B as (_ & B). destruct x; simpl in *; congruence.
        -- rewrite IHForall; auto.
    + destruct (set_params_spec x t [] W NN HL) as (t' & -> & W' & _ & HV & HB).
      f_equal. apply (blank_vals_inj x); auto. rewrite HV, <- E, overlay_self_vals; auto.
  - assert (HL : length (v0 :: r) = number_of_params t) by (rewrite number_get, E by auto; auto).
    destruct (set_params_spec v0 t _ W NN HL) as (t' & E' & W' & _ & HV & HB).
    rewrite E'. f_equal. apply (blank_vals_inj v0); auto. rewrite HV, <- E, overlay_self_vals; auto.
Qed.

End Proofs.
