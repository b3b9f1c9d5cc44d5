(** Lemmas about stepping members of a source. *)
From Coq Require Import String List ZArith Bool Lia.
From Verif Require Import Base ParamsModel ParamsSpec ParamsProofs ParamsProofs2 ParamsProps
  DerivModel DerivSpec.
Import ListNotations.

Section Proofs.
Context {V : Type} (one : V) (vadd : V -> V -> V).
Notation ptree := (ptree V).
Notation bump := (bump one vadd).

Lemma steps_len (t : ptree) : wf t -> length (get_step_sizes one t) = number_of_params t.
Proof. intros W. destruct (C01_vector_views_agree one t W) as (_ & E & _ & E2 & _). congruence. Qed.
Lemma params_len (t : ptree) : wf t -> length (get_params t) = number_of_params t.
Proof. intros W. destruct (C01_vector_views_agree one t W) as (_ & E & _). congruence. Qed.

Lemma wf_sub nm (subs : list ptree) liq m s :
  wf (PMulti nm subs liq) -> nth_error subs m = Some s -> wf s.
Proof.
  intros [_ W]. revert m. induction subs as [|a r IH]; destruct m; simpl; intros E; try discriminate.
  - injection E as <-. apply W.
  - apply (IH ltac:(apply W) m E).
Qed.

Lemma wf_upd nm (subs : list ptree) liq m s :
  wf (PMulti nm subs liq) -> wf s -> wf (PMulti nm (upd m s subs) liq).
Proof.
  intros [L W] Ws. split; [rewrite upd_length; auto|]. clear L.
  revert m. induction subs as [|a r IH]; destruct m; simpl in *; auto; split; try apply W; auto.
  apply IH. apply W.
Qed.

Lemma before_S nm (subs : list ptree) liq m : before (PMulti nm subs liq) m =
  list_sum (active_map number_of_params (firstn m subs) (firstn m liq)).
Proof. reflexivity. Qed.

(** Positions of the whole vector that belong to member [m]. *)
Lemma active_nth {A} (f : ptree -> list A) subs liq m s i :
  length liq = length subs -> (forall m s, nth_error subs m = Some s -> length (f s) = number_of_params s) ->
  nth_error subs m = Some s -> nth m liq false = true -> s <> PNone -> i < number_of_params s ->
  nth_error (concat (active_map f subs liq))
    (list_sum (active_map number_of_params (firstn m subs) (firstn m liq)) + i) = nth_error (f s) i.
Proof.
  revert liq m. induction subs as [|a r IH]; destruct liq as [|b ls]; simpl; intros m HL HF E HB NN HI; try lia;
    destruct m; simpl in *; try discriminate.
  - injection E as ->. subst b. destruct s; simpl; try congruence; rewrite nth_error_app1; auto;
      rewrite (HF 0 _ eq_refl); auto.
  - assert (IH' := IH ls m ltac:(lia) (fun m => HF (S m)) E HB NN HI).
    destruct (b && negb (is_none a)) eqn:EB; simpl; auto.
    rewrite nth_error_app2; rewrite (HF 0 a eq_refl); [|lia].
    rewrite <- IH'. f_equal. lia.
Qed.

Lemma walk_member (v : V) subs : forall liq m s i off,
  length liq = length subs -> nth_error subs m = Some s -> nth m liq false = true -> s <> PNone ->
  i < number_of_params s ->
  setparam_walk (fun s j => set_param s j v)
    (Z.of_nat (off + (list_sum (active_map number_of_params (firstn m subs) (firstn m liq)) + i))) subs liq off =
  (r <- set_param s (Z.of_nat i) v ;; Ok (upd m (fst r) subs, snd r)).
Proof.
  induction subs as [|a r IH]; destruct liq as [|b ls]; simpl; intros m s i off HL E HB NN HI;
    destruct m; simpl in *; try discriminate; try lia.
  - injection E as ->. subst b.
    replace (negb (is_none s)) with true by (destruct s; simpl; congruence). simpl.
    destruct (Z.ltb_spec (Z.of_nat (off + i)) (Z.of_nat (off + number_of_params s))); [|lia].
    replace (Z.of_nat (off + i) - Z.of_nat off)%Z with (Z.of_nat i) by lia. reflexivity.
  - destruct (b && negb (is_none a)) eqn:EB; simpl.
    + destruct (Z.ltb_spec (Z.of_nat (off + (number_of_params a + list_sum (active_map number_of_params (firstn m r) (firstn m ls)) + i)))
                  (Z.of_nat (off + number_of_params a))); [lia|].
      replace (off + (number_of_params a + list_sum (active_map number_of_params (firstn m r) (firstn m ls)) + i))
        with ((off + number_of_params a) + (list_sum (active_map number_of_params (firstn m r) (firstn m ls)) + i)) by lia.
      rewrite (IH ls m s i (off + number_of_params a)); auto.
      destruct (set_param s (Z.of_nat i) v); reflexivity.
    + rewrite (IH ls m s i off); auto. destruct (set_param s (Z.of_nat i) v); reflexivity.
Qed.

Lemma set_param_multi nm (subs : list ptree) liq z v : set_param (PMulti nm subs liq) z v =
  (r <- setparam_walk (fun s j => set_param s j v) z subs liq 0 ;; Ok (PMulti nm (fst r) liq, snd r)).
Proof. reflexivity. Qed.

Lemma bump_member nm subs liq m s i st t' :
  wf (PMulti nm subs liq) -> nth_error subs m = Some s -> nth m liq false = true -> s <> PNone ->
  i < number_of_params s ->
  (bump (PMulti nm subs liq) (before (PMulti nm subs liq) m + i) st t' <->
   exists s', bump s i st s' /\ t' = PMulti nm (upd m s' subs) liq).
Proof.
  intros W E HB NN HI. assert (W' := W). destruct W' as [HL _].
  assert (HP : nth_error (get_params (PMulti nm subs liq)) (before (PMulti nm subs liq) m + i) = nth_error (get_params s) i).
  { rewrite before_S. simpl get_params. apply active_nth; auto.
    intros m0 s0 E0. apply params_len. eapply wf_sub; eauto. }
  assert (HS : nth_error (get_step_sizes one (PMulti nm subs liq)) (before (PMulti nm subs liq) m + i) = nth_error (get_step_sizes one s) i).
  { rewrite before_S. simpl get_step_sizes. apply active_nth; auto.
    intros m0 s0 E0. apply steps_len. eapply wf_sub; eauto. }
  unfold DerivSpec.bump. rewrite HP, HS. clear HP HS.
  assert (HW : forall v, set_param (PMulti nm subs liq) (Z.of_nat (before (PMulti nm subs liq) m + i)) v =
     (r <- set_param s (Z.of_nat i) v ;; Ok (PMulti nm (upd m (fst r) subs) liq, snd r))).
  { intros v. rewrite before_S.
    rewrite set_param_multi.
    match goal with |- context [Z.of_nat ?n] => change (Z.of_nat n) with (Z.of_nat (0 + n)) end.
    rewrite (walk_member v subs liq m s i 0); auto. destruct (set_param s (Z.of_nat i) v); reflexivity. }
  split.
  - intros (v & H1 & H2 & H3). rewrite HW in H3. destruct (set_param s (Z.of_nat i) (vadd v st)) as [[s' o]|] eqn:ES; simpl in H3; try discriminate.
    injection H3 as <- <-. exists s'. split; auto. eexists; eauto.
  - intros (s' & (v & H1 & H2 & H3) & ->). exists v. split; auto. split; auto. rewrite HW, H3. reflexivity.
Qed.

Lemma owner nm (subs : list ptree) : forall liq k, length liq = length subs ->
  k < number_of_params (PMulti nm subs liq) ->
  exists m i s, nth_error subs m = Some s /\ nth m liq false = true /\ s <> PNone /\
    i < number_of_params s /\ k = before (PMulti nm subs liq) m + i.
Proof.
  induction subs as [|a r IH]; destruct liq as [|b ls]; intros k HL HK; simpl in HK, HL; try lia.
  destruct (b && negb (is_none a)) eqn:EB; simpl in HK.
  - destruct (Nat.lt_ge_cases k (number_of_params a)).
    + exists 0, k, a. rewrite before_S. simpl. destruct b; try discriminate. repeat split; auto.
      destruct a; simpl in *; congruence.
    + destruct (IH ls (k - number_of_params a)) as (m & i & s & H1 & H2 & H3 & H4 & H5); [lia|simpl; lia|].
      exists (S m), i, s. rewrite before_S in *. simpl. rewrite EB. simpl. repeat split; auto. lia.
  - destruct (IH ls k) as (m & i & s & H1 & H2 & H3 & H4 & H5); [lia|simpl; lia|].
    exists (S m), i, s. rewrite before_S in *. simpl. rewrite EB. auto.
Qed.

(** A tree is determined by its shape, its vector and its frozen values. *)
Lemma split_inj (xs ys : list (bool * V)) :
  map fst xs = map fst ys -> thawed xs = thawed ys -> frozen xs = frozen ys -> xs = ys.
Proof.
  revert ys. induction xs as [|[b x] r IH]; intros [|[c y] q] E1 E2 E3; simpl in *; try discriminate; auto.
  injection E1 as -> E1. unfold thawed, frozen in *. destruct c; simpl in *.
  - injection E2 as -> E2. f_equal. auto.
  - injection E3 as -> E3. f_equal. auto.
Qed.
Lemma tree_ext v0 (t1 t2 : ptree) : wf t1 -> wf t2 -> blank v0 t1 = blank v0 t2 ->
  get_params t1 = get_params t2 -> frozen (vals_of t1) = frozen (vals_of t2) -> t1 = t2.
Proof.
  intros W1 W2 HB HG HF. apply (blank_vals_inj v0); auto. f_equal. apply split_inj; auto.
  - assert (H := vals_of_blank v0 t1). rewrite HB, vals_of_blank in H.
    apply (f_equal (map fst)) in H. rewrite !map_map in H. auto.
  - rewrite <- !get_params_flat. auto.
Qed.

(** ** Stepping and restoring *)
Lemma stepped_ok {X} nm subs liq k s i v (look : ptree -> res X) :
  wf (PMulti nm subs liq) -> nth_error subs k = Some s -> s <> PNone -> i < number_of_params s ->
  exists s' old, set_param s (Z.of_nat i) v = Ok (s', old) /\ nth_error (get_params s) i = Some old /\ wf s' /\
    stepped V (PMulti nm subs liq) k i v look =
      (x <- look (PMulti nm (upd k s' subs) liq) ;; Ok (x, PMulti nm subs liq)).
Proof.
  intros W E NN HI.
  destruct (C04_set_one_param v s i v (wf_sub _ _ _ _ _ W E) NN HI) as (s' & old & E1 & E2 & E3 & E4 & E5 & E6 & E7).
  exists s', old. split; auto. split; auto. split; auto.
  unfold stepped, sub_set, sub, py_get. rewrite E. simpl bind. rewrite E1. simpl.
  destruct (look (PMulti nm (upd k s' subs) liq)); simpl; auto.
  assert (HK : k < length subs) by (apply nth_error_Some; congruence).
  rewrite nth_error_upd_same by auto. simpl. rewrite E7. simpl.
  rewrite upd_upd, upd_self; auto.
Qed.

Lemma step_loop_ok {D} (body : nat -> V -> V -> ptree -> res (D * ptree)) (F : nat -> V -> V -> D) t vals :
  forall steps i0,
  i0 + length steps = length vals ->
  (forall i v st, nth_error vals i = Some v -> nth_error steps (i - i0) = Some st -> i0 <= i -> body i v st t = Ok (F i v st, t)) ->
  exists ds, step_loop V body i0 steps vals t = Ok (ds, t) /\ length ds = length steps /\
    forall j v st, nth_error vals (i0 + j) = Some v -> nth_error steps j = Some st -> nth_error ds j = Some (F (i0 + j) v st).
Proof.
  induction steps as [|st r IH]; intros i0 HL HB; simpl.
  - exists []. repeat split; auto. intros [|j]; simpl; discriminate.
  - unfold py_get. simpl in HL. destruct (nth_error vals i0) as [v|] eqn:EV; [|apply nth_error_None in EV; lia].
    simpl. rewrite (HB i0 v st EV); [|rewrite Nat.sub_diag; auto|lia]. simpl.
    destruct (IH (S i0)) as (ds & -> & L & H); [simpl in *; lia| |].
    + intros i v0 st0 E1 E2 E3. apply HB; auto; [|lia]. replace (i - i0) with (S (i - S i0)) by lia. auto.
    + simpl. eexists. split; [reflexivity|]. simpl. split; [lia|].
      intros [|j] v0 st0 E1 E2; simpl in *.
      * rewrite Nat.add_0_r in *. congruence.
      * rewrite <- Nat.add_succ_comm in *. rewrite (H j v0 st0); auto.
Qed.

(** A loop over all parameters of member [k] that steps, looks and restores. *)
Lemma member_loop {D} nm subs liq k s (body : nat -> V -> V -> ptree -> res (D * ptree)) (G : V -> ptree -> D) :
  wf (PMulti nm subs liq) -> nth_error subs k = Some s -> s <> PNone ->
  (forall i st v s', bump s i st s' -> nth_error (get_params s) i = Some v ->
     body i v st (PMulti nm subs liq) = Ok (G st (PMulti nm (upd k s' subs) liq), PMulti nm subs liq)) ->
  exists ds, step_loop V body 0 (get_step_sizes one s) (get_params s) (PMulti nm subs liq) = Ok (ds, PMulti nm subs liq) /\
    length ds = number_of_params s /\
    forall i st s', bump s i st s' -> nth_error ds i = Some (G st (PMulti nm (upd k s' subs) liq)).
Proof.
  intros W E NN HB. assert (Ws : wf s) by (eapply wf_sub; eauto).
  assert (HX : forall i v st, nth_error (get_params s) i = Some v -> nth_error (get_step_sizes one s) i = Some st ->
     exists s', bump s i st s').
  { intros i v st E1 E2. assert (HI : i < number_of_params s) by (rewrite <- params_len by auto; apply nth_error_Some; congruence).
    destruct (C04_set_one_param v s i (vadd v st) Ws NN HI) as (s' & old & F1 & F2 & _).
    exists s', v. repeat split; auto. rewrite F2 in E1. injection E1 as ->. auto. }
  destruct (step_loop_ok body (fun i v st => match set_param s (Z.of_nat i) (vadd v st) with
      | Ok r => G st (PMulti nm (upd k (fst r) subs) liq) | Err _ => G st (PMulti nm subs liq) end)
      (PMulti nm subs liq) (get_params s) (get_step_sizes one s) 0) as (ds & E1 & E2 & E3).
  - rewrite steps_len, params_len; auto.
  - intros i v st H1 H2 _. rewrite Nat.sub_0_r in H2. destruct (HX i v st H1 H2) as (s' & HS).
    rewrite (HB i st v s' HS H1). destruct HS as (v' & F1 & F2 & F3). rewrite H1 in F1. injection F1 as <-. rewrite F3. reflexivity.
  - exists ds. split; auto. split; [rewrite E2; apply steps_len; auto|].
    intros i st s' (v & F1 & F2 & F3). rewrite (E3 i v st F1 F2). simpl. rewrite F3. reflexivity.
Qed.
End Proofs.
