(** Property C35: shared parameters in the least-squares optimizer; and the
    part of C34 about their detection. *)
From Coq Require Import List ZArith QArith Qabs Bool Lia Lqa.
From Verif Require Import Base ParamsModel ParamsSpec PatchModel PatchSpec PriorModel PriorProps.
From Verif Require Import LsqModel LsqSpec LsqProofs LsqProps.
Import ListNotations.
Open Scope Q_scope.

(** ** Views with sharing *)
Lemma view_set_other {A} : forall slots (vals : list A) st k, ~ In k slots -> view_set slots vals st k = st k.
Proof.
  induction slots as [|s ss IH]; intros [|v vs] st k H; simpl; auto. simpl in H.
  rewrite IH by tauto. destruct (Nat.eqb_spec k s); auto. subst; tauto.
Qed.
Lemma view_set_in {A} : forall slots (vals : list A) st k, length vals = length slots -> In k slots ->
  exists j, nth_error slots j = Some k /\ Some (view_set slots vals st k) = nth_error vals j.
Proof.
  induction slots as [|s ss IH]; intros [|v vs] st k L I; simpl in *; try discriminate; [tauto|].
  destruct (in_dec Nat.eq_dec k ss) as [I'|N].
  - destruct (IH vs (fun k0 => if (k0 =? s)%nat then v else st k0) k ltac:(lia) I') as (j & E1 & E2). exists (S j). auto.
  - destruct I as [->|I]; [|tauto]. exists 0%nat. rewrite view_set_other by auto. rewrite Nat.eqb_refl. auto.
Qed.

(** C34: looking for shared parameters (store a ramp, read back, store the old
    values) leaves every parameter at its previous value. *)
Theorem C34_sharing_test_restores : forall (A : Type) slots (st : nat -> A) ramp k,
  view_set slots (view_get slots st) (view_set slots ramp st) k = st k.
Proof.
  intros A slots st ramp k. destruct (in_dec Nat.eq_dec k slots) as [I|N].
  - destruct (view_set_in slots (view_get slots st) (view_set slots ramp st) k) as (j & E1 & E2); auto.
    { unfold view_get. apply map_length. }
    unfold view_get at 2 in E2. rewrite (map_nth_error st _ _ E1) in E2. congruence.
  - rewrite !view_set_other; auto.
Qed.

Lemma rank_lt p u v : In u p -> (u < v)%nat ->
  (length (nodup Nat.eq_dec (filter (fun w => (w <? u)%nat) p)) < length (nodup Nat.eq_dec (filter (fun w => (w <? v)%nat) p)))%nat.
Proof.
  intros I L.
  assert (ND : NoDup (u :: nodup Nat.eq_dec (filter (fun w => (w <? u)%nat) p))).
  { constructor; [|apply NoDup_nodup]. rewrite nodup_In, filter_In, Nat.ltb_lt. lia. }
  apply (NoDup_incl_length ND). intros w [<-|H]; rewrite nodup_In, filter_In, Nat.ltb_lt in *; [auto|].
  destruct H as (H1 & H2). split; auto. lia.
Qed.
Lemma inverse_inj p u v : In u p -> In v p ->
  length (nodup Nat.eq_dec (filter (fun w => (w <? u)%nat) p)) = length (nodup Nat.eq_dec (filter (fun w => (w <? v)%nat) p)) -> u = v.
Proof.
  intros I J E. destruct (Nat.lt_total u v) as [L|[L|L]]; auto; [pose proof (rank_lt p u v I L)|pose proof (rank_lt p v u J L)]; lia.
Qed.

Lemma map_nodup_inj {A B} (f : A -> B) l : (forall x y, In x l -> In y l -> f x = f y -> x = y) -> NoDup l -> NoDup (map f l).
Proof.
  induction l as [|a l IH]; intros H ND; simpl; constructor; inversion ND as [|? ? N1 N2]; subst.
  - intros I. apply in_map_iff in I as (b & E & I). apply N1. rewrite (H a b); simpl; auto.
  - apply IH; auto. intros x y Ix Iy. apply H; simpl; auto.
Qed.

(** ** C35 *)

(** The columns: two entries of the vector get the same column exactly when
    they are the same parameter; columns are numbered from 0 without gaps. *)
Theorem C35_columns : forall slots st j k u v,
  let m := param_index_map slots st in
  length m = length slots /\
  (nth_error m j = Some u -> nth_error m k = Some v -> (u = v <-> nth_error slots j = nth_error slots k)) /\
  (forall c, In c m <-> (c < length (nodup Nat.eq_dec slots))%nat).
Proof.
  intros slots st j k u v m. unfold m, param_index_map, inverse, view_get.
  set (S0 := view_set slots (seq 0 (length slots)) st).
  assert (INJ : forall a b, In a slots -> In b slots -> S0 a = S0 b -> a = b).
  { intros a b Ia Ib E. destruct (view_set_in slots (seq 0 (length slots)) st a) as (ja & A1 & A2); auto; [apply seq_length|].
    destruct (view_set_in slots (seq 0 (length slots)) st b) as (jb & B1 & B2); auto; [apply seq_length|].
    fold S0 in A2, B2.
    assert (LA : (ja < length slots)%nat) by (apply nth_error_Some; congruence).
    assert (LB : (jb < length slots)%nat) by (apply nth_error_Some; congruence).
    rewrite PatchProofs.nth_seq in A2 by auto. rewrite PatchProofs.nth_seq in B2 by auto.
    injection A2 as A2. injection B2 as B2. assert (JJ : ja = jb) by congruence. rewrite JJ in A1. congruence. }
  split; [rewrite !map_length; auto|]. split.
  - intros Ej Ek. rewrite map_map in Ej, Ek.
    assert (SJ : exists a, nth_error slots j = Some a).
    { destruct (nth_error slots j) eqn:E; eauto. apply nth_error_None in E.
      rewrite (proj2 (nth_error_None _ _)) in Ej; [discriminate|rewrite map_length; auto]. }
    assert (SK : exists a, nth_error slots k = Some a).
    { destruct (nth_error slots k) eqn:E; eauto. apply nth_error_None in E.
      rewrite (proj2 (nth_error_None _ _)) in Ek; [discriminate|rewrite map_length; auto]. }
    destruct SJ as (a & Ea), SK as (b & Eb). rewrite (map_nth_error _ _ _ Ea) in Ej. rewrite (map_nth_error _ _ _ Eb) in Ek.
    rewrite Ea, Eb. pose proof (nth_error_In _ _ Ea) as Ia. pose proof (nth_error_In _ _ Eb) as Ib. split.
    + intros <-. f_equal. apply INJ; auto. apply (inverse_inj (map S0 slots)); try (apply in_map; auto). congruence.
    + intros H. injection H as ->. congruence.
  - intros c.
    set (p := map S0 slots).
    set (rank := fun v => length (nodup Nat.eq_dec (filter (fun u => (u <? v)%nat) p))).
    assert (LEN : length (nodup Nat.eq_dec slots) = length (nodup Nat.eq_dec p)).
    { transitivity (length (map S0 (nodup Nat.eq_dec slots))); [rewrite map_length; auto|].
      assert (ND : NoDup (map S0 (nodup Nat.eq_dec slots))).
      { apply map_nodup_inj; [|apply NoDup_nodup]. intros x y Ix Iy. apply nodup_In in Ix, Iy. auto. }
      apply Nat.le_antisymm; apply NoDup_incl_length; auto using NoDup_nodup; intros z Hz.
      - apply nodup_In. apply in_map_iff in Hz as (w & <- & Hw). apply nodup_In in Hw. apply in_map; auto.
      - apply nodup_In in Hz. apply in_map_iff in Hz as (w & <- & Hw). apply in_map. apply nodup_In; auto. }
    rewrite LEN.
    assert (RB : forall w, In w p -> (rank w < length (nodup Nat.eq_dec p))%nat).
    { intros w Hw. unfold rank.
      assert (ND : NoDup (w :: nodup Nat.eq_dec (filter (fun u => (u <? w)%nat) p))).
      { constructor; [|apply NoDup_nodup]. rewrite nodup_In, filter_In, Nat.ltb_lt. lia. }
      apply (NoDup_incl_length ND). intros z [<-|H]; apply nodup_In; auto. apply nodup_In, filter_In in H. tauto. }
    split.
    + intros H. apply in_map_iff in H as (w & <- & Hw). apply RB; auto.
    + intros H.
      assert (ND : NoDup (map rank (nodup Nat.eq_dec p))).
      { apply map_nodup_inj; [|apply NoDup_nodup]. intros x y Ix Iy. apply nodup_In in Ix, Iy. apply inverse_inj; auto. }
      assert (INC : incl (map rank (nodup Nat.eq_dec p)) (seq 0 (length (nodup Nat.eq_dec p)))).
      { intros z Hz. apply in_map_iff in Hz as (w & <- & Hw). apply nodup_In in Hw. apply in_seq. specialize (RB w Hw). lia. }
      assert (INC2 : incl (seq 0 (length (nodup Nat.eq_dec p))) (map rank (nodup Nat.eq_dec p))).
      { apply NoDup_length_incl; auto. rewrite map_length, seq_length. auto. }
      assert (IC : In c (map rank (nodup Nat.eq_dec p))) by (apply INC2; apply in_seq; lia).
      apply in_map_iff in IC as (w & <- & Hw). apply nodup_In in Hw. apply in_map; auto.
Qed.

Lemma mapm_ok {A B} (f : A -> res B) (g : A -> B) l : (forall a, In a l -> f a = Ok (g a)) -> mapm f l = Ok (map g l).
Proof. induction l as [|a l IH]; simpl; intros H; auto. rewrite H by auto. cbn [bind]. rewrite IH by auto. reflexivity. Qed.

Definition recol (m : list nat) (b : blk) : blk := mkBlk (b_rows b) (nth (b_col b) m 0%nat) (b_vals b).

Lemma mapm_recol m bs : Forall (fun b => (b_col b < length m)%nat) bs ->
  mapm (fun b => c <- py_get m (b_col b) ;; Ok (mkBlk (b_rows b) c (b_vals b))) bs = Ok (map (recol m) bs).
Proof.
  intros F. apply mapm_ok. intros b I. rewrite Forall_forall in F. specialize (F b I). unfold py_get.
  rewrite (nth_error_nth' m 0%nat) by auto. reflexivity.
Qed.

Lemma recol_row m bs y r : Forall (fun b => (b_col b < length m)%nat) bs ->
  row_sum (blk_elems (map (recol m) bs)) y r == row_sum (blk_elems bs) (spread m y) r.
Proof.
  induction 1 as [|b bs H F IH]; [reflexivity|].
  rewrite (blk_elems_app [b] bs : blk_elems (b :: bs) = _).
  rewrite (blk_elems_app [recol m b] (map (recol m) bs) : blk_elems (map (recol m) (b :: bs)) = _).
  rewrite !row_sum_app. apply Qplus_comp; auto.
  unfold row_sum, blk_elems. cbn [flat_map recol b_rows b_vals b_col]. rewrite !app_nil_r, !map_map. apply qsum_ext.
  intros [k v] _. cbn [fst snd]. unfold spread.
  rewrite (nth_indep (map (fun u => nth u y 0) m) 0 (nth 0%nat y 0)) by (rewrite map_length; auto).
  rewrite (map_nth (fun u => nth u y 0) m 0%nat). reflexivity.
Qed.

(** Without column scaling the system solved for shared parameters is the full
    system restricted to vectors that are constant over shared entries: nothing
    is lost or counted twice. *)
Theorem C35_objective : forall sqrtf nm subs liq ds ox s m, let t := PMulti nm subs liq in
  wf t -> priors_ok t -> number_of_params t = length ds -> prior_derivs t = Ok ox ->
  length m = length ds -> assemble sqrtf false None ds ox = Ok (Some s) ->
  exists s', assemble sqrtf false (Some m) ds ox = Ok (Some s') /\
    (ls_ncols s' <= S (list_max m))%nat /\
    forall y, objective s' y == objective s (spread m y).
Proof.
  intros sqrtf nm subs liq ds ox s m t W O HN EX LM E1.
  unfold assemble in *. destruct (place (concat ds) [] 0%Z) as [offs n0].
  destruct (all_blocks offs 0 ds) as [bs|] eqn:EB; [|discriminate]. cbn [bind] in *. cbv zeta in *.
  set (pbs := match ox with None => [] | Some x => prior_blocks n0 x end) in *.
  match type of E1 with bind ?p _ = _ => destruct p as [[nrows b0]|]; [|discriminate] end. cbn [bind] in *.
  assert (OK : Forall (okb (length ds)) (bs ++ pbs)).
  { apply Forall_app. split; [eapply all_blocks_ok; [|eauto]; lia|].
    subst pbs. destruct ox as [x|]; [|constructor]. rewrite <- HN. apply prior_blocks_ok; auto. }
  assert (CB : Forall (fun b => (b_col b < length m)%nat) (bs ++ pbs)).
  { eapply Forall_impl; [|apply OK]. intros b (_ & B & _). lia. }
  remember (bs ++ pbs) as al eqn:EAL. destruct al as [|b1 al']; [discriminate|].
  set (al := b1 :: al') in *.
  destruct (fill_chi offs b0) as [b|]; [|discriminate]. cbn [bind] in *.
  injection E1 as <-.
  rewrite mapm_recol by auto. cbn [bind]. subst al. cbn [map].
  eexists. split; [reflexivity|]. cbn [ls_ncols].
  split.
  - apply le_n_S. clear - CB.
    change (recol m b1 :: map (recol m) al') with (map (recol m) (b1 :: al')).
    induction CB as [|q l H F IH]; simpl; [lia|]. apply Nat.max_lub; auto.
    assert (FM : Forall (fun k => (k <= list_max m)%nat) m) by (apply list_max_le; auto).
    rewrite Forall_forall in FM. apply FM. apply nth_In. auto.
  - intros y. unfold objective. cbn [ls_elems ls_nrows ls_b]. apply qsum_ext. intros k _.
    pose proof (recol_row m (b1 :: al') y (Z.of_nat k) CB) as HR. cbn [map] in HR. rewrite HR. reflexivity.
Qed.

Lemma mapm_get x m z : mapm (py_get x) m = Ok z -> z = spread m x /\ Forall (fun u => (u < length x)%nat) m.
Proof.
  revert z. induction m as [|u m IH]; intros z H; simpl in *; [injection H as <-; split; [reflexivity|constructor]|].
  apply bind_ok in H as (a & Ea & H). apply bind_ok in H as (r & Er & H). injection H as <-.
  destruct (IH r Er) as (-> & F). unfold py_get in Ea. destruct (nth_error x u) eqn:E; [|discriminate]. injection Ea as ->.
  split; [unfold spread; simpl; f_equal; symmetry; apply nth_error_nth; auto|].
  constructor; auto. apply nth_error_Some. congruence.
Qed.

(** Then entries of one parameter get the same update, and the update has one
    entry per entry of the vector. *)
Theorem C35_same_update : forall sqrtf lsqr slots st ds ox x,
  update_direction sqrtf lsqr false (Some (param_index_map slots st)) ds ox = Ok x -> x <> [] ->
  length x = length slots /\
  forall j k, (j < length slots)%nat -> (k < length slots)%nat ->
    nth_error slots j = nth_error slots k -> nth_error x j = nth_error x k.
Proof.
  intros sqrtf lsqr slots st ds ox x H NE. unfold update_direction in H.
  apply bind_ok in H as (o & _ & H). destruct o as [s|]; [|congruence].
  apply bind_ok in H as (z & Ez & H). injection H as ->.
  apply mapm_get in Ez as (-> & _).
  destruct (C35_columns slots st 0 0 0 0) as (LM & _). cbv zeta in LM.
  split; [unfold spread; rewrite map_length; auto|]. intros j k Hj Hk E.
  destruct (nth_error (param_index_map slots st) j) as [u|] eqn:Eu; [|apply nth_error_None in Eu; lia].
  destruct (nth_error (param_index_map slots st) k) as [v|] eqn:Ev; [|apply nth_error_None in Ev; lia].
  destruct (C35_columns slots st j k u v) as (_ & UV & _). cbv zeta in UV.
  unfold spread. rewrite (map_nth_error _ _ _ Eu), (map_nth_error _ _ _ Ev).
  f_equal. f_equal. apply (UV Eu Ev). auto.
Qed.

(** With column scaling (the default) this fails: the common value is divided by
    a different scale at each place.  One parameter sits at two places, one
    pixel, derivatives 3 and 4, chi = 7: the exact step is 1, but the returned
    vector is (7/6, 7/8). *)
Definition px1 (q : Q) : arr Q := mkArr 1 1 (fun _ _ => q).
Definition im7 : image := mkImage 0 1 1 (px1 1) (px1 7).
Definition sh_ds : derivs := [[(mkPatch 0 0 (Some (px1 3)), im7)]; [(mkPatch 0 0 (Some (px1 4)), im7)]].
Definition sh_sqrt (q : Q) : Q := if Qle_bool q 9 then 3 else 4.
(** Exact least squares for a system with one row and one column. *)
Definition solve1 (s : lsys) : list Q := [nth 0 (ls_b s) 0 / row_sum (ls_elems s) [1] 0].

Theorem C35_scaled_refuted : exists slots st m sqrtf x,
  m = param_index_map slots st /\ slots = [0; 0]%nat /\
  (forall q, q == 9 \/ q == 16 -> sqrtf q * sqrtf q == q) /\
  update_direction sqrtf solve1 true (Some m) sh_ds None = Ok x /\
  map Qred x = [7 # 6; 7 # 8] /\
  (exists x', update_direction sqrtf solve1 false (Some m) sh_ds None = Ok x' /\ map Qred x' = [1; 1]).
Proof.
  exists [0; 0]%nat, (fun _ => 0%nat), [0; 0]%nat, sh_sqrt. eexists.
  split; [reflexivity|]. split; [reflexivity|]. split.
  { intros q [H|H]; unfold sh_sqrt.
    - replace (Qle_bool q 9) with true; [rewrite H; reflexivity|]. symmetry. apply Qle_bool_iff. rewrite H. discriminate.
    - destruct (Qle_bool q 9) eqn:E; [apply Qle_bool_iff in E; rewrite H in E; exfalso; apply E; reflexivity|]. rewrite H. reflexivity. }
  split; [vm_compute; reflexivity|]. split; [vm_compute; reflexivity|].
  eexists. split; [vm_compute; reflexivity|]. vm_compute. reflexivity.
Qed.

(** With sharing enabled (the default), a last parameter without derivatives
    makes the call fail: the number of columns is taken from the columns in
    use. *)
Theorem C35_unused_last_parameter_refuted : exists slots st ds,
  NoDup slots /\ length slots = length ds /\
  forall sqrtf lsqr, (forall s, length (lsqr s) = ls_ncols s) ->
    update_direction sqrtf lsqr false (Some (param_index_map slots st)) ds None = Err IndexError /\
    exists x, update_direction sqrtf lsqr false None ds None = Ok x /\ length x = 2%nat.
Proof.
  exists [0; 1]%nat, (fun _ => 0%nat), [[(mkPatch 0 0 (Some (px1 3)), im7)]; []].
  split; [repeat constructor; simpl; intuition discriminate|]. split; [reflexivity|].
  intros sqrtf lsqr HL. change (param_index_map [0; 1]%nat (fun _ => 0%nat)) with [0; 1]%nat.
  unfold update_direction.
  match goal with |- context [assemble sqrtf false (Some [0; 1]%nat) ?d None] =>
    assert (E : assemble sqrtf false (Some [0; 1]%nat) d None = Ok (Some (mkLsys [(0%Z, 0%nat, 3 * 1)] 1 1 [7] [0; 0]))) by reflexivity;
    assert (E2 : assemble sqrtf false None d None = Ok (Some (mkLsys [(0%Z, 0%nat, 3 * 1)] 1 2 [7] [0; 0]))) by reflexivity end.
  rewrite E, E2. cbn [bind]. split.
  - specialize (HL (mkLsys [(0%Z, 0%nat, 3 * 1)] 1 1 [7] [0; 0])). cbn [ls_ncols] in HL.
    destruct (lsqr _) as [|a [|]]; try discriminate. reflexivity.
  - eexists. split; [reflexivity|]. apply (HL (mkLsys [(0%Z, 0%nat, 3 * 1)] 1 2 [7] [0; 0])).
Qed.

(** With sharing, the variances come from the wrong entries: three entries,
    the first two the same parameter; the third entry's variance is reported
    from the second entry. *)
Theorem C35_variance_refuted : exists slots st sc s,
  ls_scales s = sc /\ slots = [0; 0; 1]%nat /\ sc = [1; 4; 9] /\
  update_var (Some (param_index_map slots st)) s = Ok [1; 1; 4].
Proof.
  exists [0; 0; 1]%nat, (fun _ => 0%nat), [1; 4; 9], (mkLsys [] 0 2 [] [1; 4; 9]).
  repeat split.
Qed.

Lemma inverse_seq n : inverse (seq 0 n) = seq 0 n.
Proof.
  unfold inverse. transitivity (map (fun v : nat => v) (seq 0 n)); [|apply map_id]. apply map_ext_in. intros v I. apply in_seq in I.
  assert (E : filter (fun u => (u <? v)%nat) (seq 0 n) = seq 0 v).
  { replace n with (v + (n - v))%nat by lia. rewrite seq_app, filter_app.
    assert (A : forall k m, (k + m <= v)%nat -> filter (fun u => (u <? v)%nat) (seq k m) = seq k m).
    { intros k m. revert k. induction m as [|m IH]; intros k H; simpl; auto.
      destruct (Nat.ltb_spec k v); [|lia]. rewrite IH by lia. auto. }
    assert (B : forall m k, (v <= k)%nat -> filter (fun u => (u <? v)%nat) (seq k m) = []).
    { induction m as [|m IH]; intros k H; simpl; auto. destruct (Nat.ltb_spec k v); [lia|]. apply IH. lia. }
    rewrite A by lia. rewrite B by lia. apply app_nil_r. }
  rewrite E, nodup_fixed_point by apply seq_NoDup. apply seq_length.
Qed.

(** Without any sharing the map is the identity, and the shared path returns
    what the plain path returns as soon as the last parameter has a matrix
    element. *)
Theorem C35_no_sharing : forall sqrtf lsqr scale slots st ds ox s,
  NoDup slots -> length slots = length ds ->
  param_index_map slots st = seq 0 (length ds) /\
  (assemble sqrtf scale (Some (param_index_map slots st)) ds ox = Ok (Some s) -> ls_ncols s = length ds ->
   (forall s', length (lsqr s') = ls_ncols s') ->
   update_direction sqrtf lsqr scale (Some (param_index_map slots st)) ds ox = update_direction sqrtf lsqr scale None ds ox).
Proof.
  intros sqrtf lsqr scale slots st ds ox s ND L.
  assert (EM : param_index_map slots st = seq 0 (length ds)).
  { unfold param_index_map.
    assert (V : forall sl (vals : list nat) st, NoDup sl -> length vals = length sl -> view_get sl (view_set sl vals st) = vals).
    { clear. induction sl as [|a sl IH]; intros [|v vals] st ND L; simpl in *; try discriminate; auto.
      inversion ND as [|? ? N1 N2]; subst. rewrite IH by (auto; lia). f_equal.
      rewrite view_set_other by auto. rewrite Nat.eqb_refl. auto. }
    rewrite V by (auto; apply seq_length). rewrite L. apply inverse_seq. }
  split; auto. rewrite EM. intros E NC LL. unfold update_direction. rewrite E. cbn [bind].
  assert (E0 : assemble sqrtf scale None ds ox = Ok (Some s)).
  { clear - E NC. unfold assemble in *. destruct (place (concat ds) [] 0%Z) as [offs n0].
    destruct (all_blocks offs 0 ds) as [bs|]; [|discriminate]. cbn [bind] in *. cbv zeta in *.
    match type of E with bind ?c _ = _ => destruct c as [sc|]; [|discriminate] end. cbn [bind] in *.
    match type of E with bind ?c _ = _ => destruct c as [[nr b0]|]; [|discriminate] end. cbn [bind] in *.
    match type of E with match ?l with _ => _ end = _ => destruct l as [|b1 al]; [discriminate|] end.
    match type of E with bind ?c _ = _ => destruct c as [al'|]; [|discriminate] end. cbn [bind] in *.
    apply bind_ok in E as ((al'', nc) & E1 & E). apply bind_ok in E1 as (al3 & E1 & E2).
    assert (IDM : forall l l', mapm (fun b => c <- py_get (seq 0 (length ds)) (b_col b) ;; Ok (mkBlk (b_rows b) c (b_vals b))) l = Ok l' -> l' = l).
    { clear. induction l as [|b l IH]; intros l' H; simpl in H; [congruence|].
      apply bind_ok in H as (b' & Eb & H). apply bind_ok in H as (r & Er & H). injection H as <-.
      apply bind_ok in Eb as (c & Ec & Eb). injection Eb as <-. f_equal; auto.
      unfold py_get in Ec. destruct (nth_error (seq 0 (length ds)) (b_col b)) eqn:EN; [|discriminate]. injection Ec as ->.
      assert (b_col b < length ds)%nat by (rewrite <- (seq_length (length ds) 0); apply nth_error_Some; congruence).
      rewrite PatchProofs.nth_seq in EN by auto. destruct b; simpl in *. congruence. }
    apply IDM in E1. subst al3.
    destruct al' as [|b2 al2]; [discriminate|]. injection E2 as <- <-.
    destruct (fill_chi offs b0) as [b|]; [|discriminate]. cbn [bind] in *. injection E as <-.
    cbn [ls_ncols] in NC. cbn [blk_elems] in *. rewrite <- NC. reflexivity. }
  rewrite E0. cbn [bind].
  assert (G : mapm (py_get (lsqr s)) (seq 0 (length ds)) = Ok (lsqr s)).
  { rewrite <- NC, <- (LL s). generalize (lsqr s) as x. clear.
    intros x. rewrite (mapm_ok (py_get x) (fun k => nth k x 0)).
    - f_equal. induction x as [|a x IH]; simpl; auto. f_equal. rewrite <- seq_shift, map_map. simpl. auto.
    - intros k I. apply in_seq in I. unfold py_get. rewrite (nth_error_nth' x 0) by lia. reflexivity. }
  rewrite G. reflexivity.
Qed.

Example C35_ex : param_index_map [5; 3; 5; 9]%nat (fun _ => 0%nat) = [1; 0; 1; 2]%nat.
Proof. reflexivity. Qed.

Print Assumptions C34_sharing_test_restores.
Print Assumptions C35_columns.
Print Assumptions C35_objective.
Print Assumptions C35_same_update.
Print Assumptions C35_scaled_refuted.
Print Assumptions C35_unused_last_parameter_refuted.
Print Assumptions C35_variance_refuted.
Print Assumptions C35_no_sharing.
