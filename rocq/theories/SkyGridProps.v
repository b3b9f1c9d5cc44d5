(** C84: a spline sky estimated from an image. *)
From Coq Require Import List ZArith QArith Bool Lia Lqa Permutation Sorted.
From Verif Require Import Base SkyGridModel.
Import ListNotations.
Local Open Scope Z_scope.

(** *** Control points *)
Lemma node_first W hb : 0 < hb -> node W hb 0 = (W mod hb) / 2 - hb / 2.
Proof.
  intros H. unfold node, start, n_nodes. replace (hb * (2 * 0 - 1)) with (- hb) by ring.
  rewrite Z.quot_opp_l by lia. rewrite Z.quot_div_nonneg by lia.
  replace (W - (W / hb + 2 - 2) * hb) with (W mod hb) by (rewrite Z.mod_eq by lia; ring). ring.
Qed.
Lemma node_later W hb i : 0 < hb -> 1 <= i -> node W hb i = (W mod hb) / 2 + hb / 2 + hb * (i - 1).
Proof.
  intros H I1. unfold node, start, n_nodes.
  replace (W - (W / hb + 2 - 2) * hb) with (W mod hb) by (rewrite Z.mod_eq by lia; ring).
  rewrite Z.quot_div_nonneg by nia. replace (hb * (2 * i - 1)) with (hb + (hb * (i - 1)) * 2) by ring.
  rewrite Z.div_add by lia. ring.
Qed.
Lemma half_lt r hb : 0 <= r < hb -> r / 2 <= hb / 2 /\ r - r / 2 <= hb / 2.
Proof.
  intros H. pose proof (Z.div_mod r 2 ltac:(lia)). pose proof (Z.mod_pos_bound r 2 ltac:(lia)).
  pose proof (Z.div_mod hb 2 ltac:(lia)). pose proof (Z.mod_pos_bound hb 2 ltac:(lia)). lia.
Qed.
(** Neighbouring control points are half a grid box apart (the first two one
    pixel less when that is odd); they enclose the image. *)
Theorem C84_nodes : forall W hb, 0 <= W -> 0 < hb ->
  n_nodes W hb = W / hb + 2 /\
  node W hb 1 - node W hb 0 = 2 * (hb / 2) /\
  (forall i, 1 <= i -> node W hb (i + 1) - node W hb i = hb) /\
  node W hb 0 <= 0 /\ W <= node W hb (n_nodes W hb - 1).
Proof.
  intros W hb W0 H. pose proof (Z.mod_pos_bound W hb H) as M. destruct (half_lt _ _ M) as [L1 L2].
  assert (Q0 : 0 <= W / hb) by (apply Z.div_pos; lia).
  repeat split.
  - rewrite node_first, node_later by lia. lia.
  - intros i I1. rewrite !node_later by lia. ring.
  - rewrite node_first by lia. lia.
  - unfold n_nodes. rewrite node_later by lia. pose proof (Z.div_mod W hb ltac:(lia)). nia.
Qed.
Lemma node_step W hb i : 0 < hb -> 0 <= i -> 2 * (hb / 2) <= node W hb (i + 1) - node W hb i <= hb.
Proof.
  intros H I0. pose proof (Z.div_mod hb 2 ltac:(lia)). pose proof (Z.mod_pos_bound hb 2 ltac:(lia)).
  destruct (Z.eq_dec i 0) as [->|NE].
  - change (0 + 1) with 1. rewrite node_first, node_later by lia. lia.
  - rewrite !node_later by lia. lia.
Qed.
(** The boxes are non-empty parts of the image, and every pixel is in at least
    two of them: those of the control points on both sides of it. *)
Theorem C84_boxes : forall W hb, 0 < W -> 0 < hb ->
  (forall i, 0 <= i < n_nodes W hb -> 0 <= box_lo hb (node W hb i) < box_hi W hb (node W hb i) /\ box_hi W hb (node W hb i) <= W) /\
  (forall x, 0 <= x < W -> exists i, 0 <= i /\ i + 1 < n_nodes W hb /\ node W hb i <= x < node W hb (i + 1) /\
     box_lo hb (node W hb i) <= x < box_hi W hb (node W hb i) /\
     box_lo hb (node W hb (i + 1)) <= x < box_hi W hb (node W hb (i + 1))).
Proof.
  intros W hb W0 H. pose proof (Z.mod_pos_bound W hb H) as M. destruct (half_lt _ _ M) as [L1 L2].
  destruct (C84_nodes W hb ltac:(lia) H) as (_ & D0 & D1 & F & L).
  pose proof (Z.div_mod hb 2 ltac:(lia)) as HD. pose proof (Z.mod_pos_bound hb 2 ltac:(lia)) as HM.
  assert (R2 : 0 <= W mod hb / 2) by (apply Z.div_pos; lia).
  assert (R3 : W mod hb / 2 <= W mod hb) by (apply Z.div_le_upper_bound; lia).
  assert (Q0 : 0 <= W / hb) by (apply Z.div_pos; lia). pose proof (Z.div_mod W hb ltac:(lia)) as WD.
  split.
  - intros i (I0 & I1). unfold n_nodes in I1. unfold box_lo, box_hi.
    assert (B : - hb < node W hb i < W + hb).
    { destruct (Z.eq_dec i 0) as [->|NE]; [rewrite node_first by lia; lia|]. rewrite node_later by lia.
      assert (hb * (i - 1) <= hb * (W / hb)) by (apply Z.mul_le_mono_nonneg_l; lia). assert (0 <= hb * (i - 1)) by (apply Z.mul_nonneg_nonneg; lia). lia. }
    lia.
  - intros x (X0 & X1).
    assert (EX : forall n, 0 <= n -> x < node W hb n -> exists i, 0 <= i < n /\ node W hb i <= x < node W hb (i + 1)).
    { intros n N0. pattern n. apply natlike_ind; [|clear n N0|exact N0]; [lia|]. intros n N0 IH LT.
      destruct (Z_lt_le_dec x (node W hb n)) as [C|C].
      - destruct (IH C) as (i & I1 & I2). exists i. split; [lia|exact I2].
      - exists n. split; [lia|]. rewrite <- Z.add_1_r in LT. lia. }
    destruct (EX (n_nodes W hb - 1) ltac:(unfold n_nodes; lia) ltac:(lia)) as (i & I1 & I2).
    exists i. pose proof (node_step W hb i H ltac:(lia)). unfold box_lo, box_hi. lia.
Qed.
Example C84_boxes_ex : nodes 23 5 = [-1; 3; 8; 13; 18; 23].
Proof. reflexivity. Qed.

(** *** The estimator *)
(** Numbers of values of a list below, above, ... a value. *)
Definition cnt (f : Q -> bool) (l : list Q) : nat := length (filter f l).
Definition below (m v : Q) : bool := negb (Qle_bool m v).
Definition above (m v : Q) : bool := negb (Qle_bool v m).
Definition at_most (m v : Q) : bool := Qle_bool v m.
Definition at_least (m v : Q) : bool := Qle_bool m v.
Definition lower_median (l : list Q) (a : Q) : Prop := In a l /\ (2 * cnt (below a) l < length l <= 2 * cnt (at_most a) l)%nat.
Definition upper_median (l : list Q) (b : Q) : Prop := In b l /\ (2 * cnt (above b) l < length l <= 2 * cnt (at_least b) l)%nat.
Definition is_median (l : list Q) (m : Q) : Prop := exists a b, lower_median l a /\ upper_median l b /\ (m == (a + b) / 2)%Q.

Lemma insert_perm v l : Permutation (v :: l) (insert v l).
Proof.
  induction l as [|x r IH]; [reflexivity|]. cbn. destruct (Qle_bool v x); [reflexivity|].
  transitivity (x :: v :: r); [constructor|constructor; exact IH].
Qed.
Lemma sort_perm l : Permutation l (sort l).
Proof. induction l as [|v r IH]; [reflexivity|]. cbn. etransitivity; [|apply insert_perm]. constructor. exact IH. Qed.
Lemma insert_sorted v l : StronglySorted Qle l -> StronglySorted Qle (insert v l).
Proof.
  induction 1 as [|x r HS IH HF]; [repeat constructor|]. cbn. destruct (Qle_bool v x) eqn:E.
  - apply Qle_bool_iff in E. constructor; [constructor; auto|]. constructor; [exact E|].
    eapply Forall_impl; [|exact HF]. intros z Hz. lra.
  - constructor; [exact IH|]. assert (L : (x <= v)%Q).
    { destruct (Qlt_le_dec v x) as [C|C]; [|exact C]. apply Qlt_le_weak, Qle_bool_iff in C. congruence. }
    apply (Permutation_Forall (insert_perm v r)). constructor; [exact L|exact HF].
Qed.

Lemma sort_sorted l : StronglySorted Qle (sort l).
Proof. induction l as [|v r IH]; cbn; [constructor|]. apply insert_sorted. exact IH. Qed.
Lemma cnt_perm f l l' : Permutation l l' -> cnt f l = cnt f l'.
Proof.
  unfold cnt. induction 1; cbn; auto; try congruence.
  - destruct (f x); cbn; congruence.
  - destruct (f x), (f y); reflexivity.
Qed.
Lemma cnt_app f a b : cnt f (a ++ b) = (cnt f a + cnt f b)%nat.
Proof. unfold cnt. rewrite filter_app, app_length. reflexivity. Qed.
Lemma cnt_all f l : Forall (fun v => f v = true) l -> cnt f l = length l.
Proof. unfold cnt. induction 1 as [|v r E F IH]; [reflexivity|]. cbn. rewrite E. cbn. congruence. Qed.
Lemma cnt_none f l : Forall (fun v => f v = false) l -> cnt f l = 0%nat.
Proof. unfold cnt. induction 1 as [|v r E F IH]; [reflexivity|]. cbn. rewrite E. exact IH. Qed.
Lemma cnt_le f l : (cnt f l <= length l)%nat.
Proof. unfold cnt. induction l as [|v r IH]; cbn; [lia|]. destruct (f v); cbn; lia. Qed.
Lemma sorted_split : forall (s : list Q) k, StronglySorted Qle s -> (k < length s)%nat ->
  exists l r, s = l ++ nth k s 0%Q :: r /\ length l = k /\ Forall (fun v => (v <= nth k s 0)%Q) l /\ Forall (fun v => (nth k s 0 <= v)%Q) r.
Proof.
  induction s as [|x s IH]; intros k HS L; [cbn in L; lia|]. inversion HS as [|? ? HS' HF]; subst. destruct k as [|k].
  - exists [], s. cbn. auto.
  - cbn in L. destruct (IH k HS' ltac:(lia)) as (l & r & E & LL & F1 & F2). exists (x :: l), r. cbn [nth length app].
    split; [congruence|]. split; [lia|]. split; [|exact F2]. constructor; [|exact F1].
    rewrite Forall_forall in HF. apply HF. apply nth_In. lia.
Qed.
Lemma lower_sorted s k : StronglySorted Qle s -> (k < length s)%nat -> (2 * k < length s <= 2 * (k + 1))%nat -> lower_median s (nth k s 0%Q).
Proof.
  intros HS L B. split; [apply nth_In; exact L|]. destruct (sorted_split s k HS L) as (l & r & E & LL & F1 & F2).
  set (m := nth k s 0%Q) in *. assert (LS : length s = (k + 1 + length r)%nat) by (rewrite E, app_length; cbn; lia).
  assert (C1 : (cnt (below m) s <= k)%nat).
  { rewrite E, cnt_app. rewrite (cnt_none (below m) (m :: r)). { pose proof (cnt_le (below m) l). lia. }
    constructor; [unfold below; rewrite (proj2 (Qle_bool_iff m m)) by lra; reflexivity|].
    eapply Forall_impl; [|exact F2]. cbn. intros v HV. unfold below. rewrite (proj2 (Qle_bool_iff m v)) by exact HV. reflexivity. }
  assert (C2 : (k + 1 <= cnt (at_most m) s)%nat).
  { rewrite E. replace (l ++ m :: r) with ((l ++ [m]) ++ r) by (rewrite <- app_assoc; reflexivity). rewrite cnt_app.
    rewrite (cnt_all (at_most m) (l ++ [m])). { rewrite app_length. cbn. lia. }
    apply Forall_app. split.
    - eapply Forall_impl; [|exact F1]. cbn. intros v HV. apply Qle_bool_iff. exact HV.
    - constructor; [apply Qle_bool_iff; lra|constructor]. }
  lia.
Qed.
Lemma upper_sorted s k : StronglySorted Qle s -> (k < length s)%nat -> (2 * (length s - 1 - k) < length s <= 2 * (length s - k))%nat -> upper_median s (nth k s 0%Q).
Proof.
  intros HS L B. split; [apply nth_In; exact L|]. destruct (sorted_split s k HS L) as (l & r & E & LL & F1 & F2).
  set (m := nth k s 0%Q) in *. assert (LS : length s = (k + 1 + length r)%nat) by (rewrite E, app_length; cbn; lia).
  assert (C1 : (cnt (above m) s <= length r)%nat).
  { rewrite E. replace (l ++ m :: r) with ((l ++ [m]) ++ r) by (rewrite <- app_assoc; reflexivity). rewrite cnt_app.
    rewrite (cnt_none (above m) (l ++ [m])). { pose proof (cnt_le (above m) r). lia. }
    apply Forall_app. split.
    - eapply Forall_impl; [|exact F1]. cbn. intros v HV. unfold above. rewrite (proj2 (Qle_bool_iff v m)) by exact HV. reflexivity.
    - constructor; [unfold above; rewrite (proj2 (Qle_bool_iff m m)) by lra; reflexivity|constructor]. }
  assert (C2 : (length r + 1 <= cnt (at_least m) s)%nat).
  { rewrite E, cnt_app. rewrite (cnt_all (at_least m) (m :: r)). { cbn [length]. lia. }
    constructor; [apply Qle_bool_iff; lra|]. eapply Forall_impl; [|exact F2]. cbn. intros v HV. apply Qle_bool_iff. exact HV. }
  lia.
Qed.
Lemma lower_perm l l' a : Permutation l l' -> lower_median l' a -> lower_median l a.
Proof.
  intros P (HI & B). split; [eapply Permutation_in; [symmetry; exact P|exact HI]|].
  rewrite !(cnt_perm _ _ _ P), (Permutation_length P). exact B.
Qed.
Lemma upper_perm l l' a : Permutation l l' -> upper_median l' a -> upper_median l a.
Proof.
  intros P (HI & B). split; [eapply Permutation_in; [symmetry; exact P|exact HI]|].
  rewrite !(cnt_perm _ _ _ P), (Permutation_length P). exact B.
Qed.
Lemma all_numbers_some l vs : all_numbers l = Some vs <-> l = map Some vs.
Proof.
  revert vs. induction l as [|[v|] l IH]; intros vs; cbn.
  - split; [intros E; injection E as <-; reflexivity|destruct vs; [reflexivity|discriminate]].
  - destruct (all_numbers l) as [r|]; split; intros E.
    + injection E as <-. cbn. f_equal. apply IH. reflexivity.
    + destruct vs as [|w vs]; [discriminate|]. injection E as <- E. apply IH in E. congruence.
    + discriminate.
    + destruct vs as [|w vs]; [discriminate|]. injection E as <- E. apply IH in E. discriminate.
  - split; [discriminate|]. destruct vs; discriminate.
Qed.
Lemma median_of vs : vs <> [] -> exists m, np_median (map Some vs) = Some m /\ is_median vs m.
Proof.
  intros NE. unfold np_median. rewrite (proj2 (all_numbers_some (map Some vs) vs) eq_refl).
  assert (LP := Permutation_length (sort_perm vs)). assert (NZ : (0 < length vs)%nat) by (destruct vs; [congruence|cbn; lia]).
  set (n := length vs) in *. pose proof (Nat.div_mod n 2 ltac:(lia)) as DM. pose proof (Nat.mod_upper_bound n 2 ltac:(lia)) as MB.
  destruct (Nat.odd n) eqn:OD; eexists; (split; [reflexivity|]).
  - assert (M1 : (n mod 2 = 1)%nat).
    { apply Nat.odd_spec in OD. destruct OD as [k K]. rewrite K, Nat.add_comm, Nat.mul_comm, Nat.mod_add by lia. reflexivity. }
    exists (nth (n / 2) (sort vs) 0%Q), (nth (n / 2) (sort vs) 0%Q). repeat split.
    1-3: apply (lower_perm _ _ _ (sort_perm vs)); apply lower_sorted; [apply sort_sorted|lia|lia].
    1-3: apply (upper_perm _ _ _ (sort_perm vs)); apply upper_sorted; [apply sort_sorted|lia|lia].
    field.
  - assert (M0 : (n mod 2 = 0)%nat).
    { rewrite <- Nat.negb_even in OD. apply negb_false_iff in OD. apply Nat.even_spec in OD. destruct OD as [k K].
      rewrite K, Nat.mul_comm, Nat.mod_mul by lia. reflexivity. }
    exists (nth (n / 2 - 1) (sort vs) 0%Q), (nth (n / 2) (sort vs) 0%Q). repeat split.
    1-3: apply (lower_perm _ _ _ (sort_perm vs)); apply lower_sorted; [apply sort_sorted|lia|lia].
    1-3: apply (upper_perm _ _ _ (sort_perm vs)); apply upper_sorted; [apply sort_sorted|lia|lia].
    field.
Qed.
(** The usable pixels of a box: those that are not masked. *)
Definition usable (cells : list (px * bool)) : list px := map fst (filter snd cells).
Theorem C84_median : forall cells,
  (usable cells = [] -> median_estimator None cells = Some 0%Q) /\
  (forall vs, vs <> [] -> usable cells = map Some vs -> exists m, median_estimator None cells = Some m /\ is_median vs m) /\
  (In None (usable cells) -> median_estimator None cells = None) /\
  (forall f, median_estimator (Some f) cells =
     if Qle_bool (inject_Z (Z.of_nat (length (usable cells)))) (inject_Z (Z.of_nat (length cells)) * f) then Some 0%Q
     else median_estimator None cells).
Proof.
  intros cells. unfold median_estimator, usable. repeat split.
  - intros ->. reflexivity.
  - intros vs NE E. rewrite E. destruct (median_of vs NE) as (m & M & IM). exists m. split; [|exact IM].
    destruct vs; [congruence|]. exact M.
  - intros HI. destruct (map fst (filter snd cells)) as [|v r] eqn:E; [destruct HI|].
    unfold np_median. destruct (all_numbers (v :: r)) as [vs|] eqn:A; [|reflexivity].
    apply all_numbers_some in A. rewrite A in HI. apply in_map_iff in HI. destruct HI as (x & X & _). discriminate.
Qed.
(** A median lies between the smallest and the largest value. *)
Theorem C84_median_range : forall vs m lo hi, is_median vs m -> Forall (fun v => (lo <= v <= hi)%Q) vs -> (lo <= m <= hi)%Q.
Proof.
  intros vs m lo hi (a & b & (A & _) & (B & _) & E) F. rewrite Forall_forall in F. pose proof (F a A). pose proof (F b B).
  rewrite E. split; [apply Qle_shift_div_l|apply Qle_shift_div_r]; lra.
Qed.
Example C84_median_ex : median_estimator None [(Some 5, true); (None, false); (Some 1, true); (Some 2, true); (Some 9, false); (Some 3, true)]%Q = Some (5 # 2).
Proof. reflexivity. Qed.

(** *** The grid of estimates *)
Lemma mapr_ok {A B} (f : A -> res B) : forall l r, mapr f l = Ok r -> Forall2 (fun a b => f a = Ok b) l r.
Proof.
  induction l as [|a l IH]; intros r; cbn; [intros E; injection E as <-; constructor|].
  destruct (f a) as [b|] eqn:EF; [|discriminate]. cbn. destruct (mapr f l) as [r'|]; [|discriminate]. cbn. intros E. injection E as <-.
  constructor; auto.
Qed.
Lemma mapr_all {A B} (f : A -> res B) : forall l, (forall a, In a l -> exists b, f a = Ok b) -> exists r, mapr f l = Ok r.
Proof.
  induction l as [|a l IH]; intros H; cbn; [eauto|]. destruct (H a (or_introl eq_refl)) as (b & ->).
  destruct IH as (r & ->); [intros; apply H; right; auto|]. cbn. eauto.
Qed.
Lemma mapr_ext {A B} (f g : A -> res B) : forall l, (forall a, In a l -> f a = g a) -> mapr f l = mapr g l.
Proof.
  induction l as [|a l IH]; intros H; cbn; [reflexivity|]. rewrite (H a (or_introl eq_refl)), IH; [reflexivity|]. intros; apply H; right; auto.
Qed.
Lemma Forall2_nth {A B} (P : A -> B -> Prop) l r : Forall2 P l r -> forall i a, nth_error l i = Some a -> exists b, nth_error r i = Some b /\ P a b.
Proof.
  induction 1 as [|a b l r H F IH]; intros i x E; [destruct i; discriminate|]. destruct i as [|i]; cbn in *; [injection E as <-; eauto|eauto].
Qed.
Lemma in_zrange lo hi z : In z (zrange lo hi) <-> lo <= z < hi.
Proof.
  unfold zrange. rewrite in_map_iff. split.
  - intros (k & <- & HI). apply in_seq in HI. lia.
  - intros H. exists (Z.to_nat (z - lo)). split; [lia|]. apply in_seq. lia.
Qed.
Lemma nodes_nth W hb i : 0 <= i < n_nodes W hb -> nth_error (nodes W hb) (Z.to_nat i) = Some (node W hb i).
Proof.
  intros H. unfold nodes, zrange. rewrite map_map. rewrite nth_error_map.
  rewrite (nth_error_nth' (seq 0 (Z.to_nat (n_nodes W hb - 0))) 0%nat) by (rewrite seq_length; lia).
  rewrite seq_nth by lia. cbn. f_equal. f_equal. lia.
Qed.
Lemma cells_prod image mask ylo yhi xlo xhi :
  cells_of image mask ylo yhi xlo xhi = map (fun p => (image (fst p) (snd p), mask (fst p) (snd p))) (list_prod (zrange ylo yhi) (zrange xlo xhi)).
Proof.
  unfold cells_of. induction (zrange ylo yhi) as [|y l IH]; [reflexivity|]. cbn. rewrite map_app, IH, map_map. reflexivity.
Qed.
(** The usable pixels within half a box (gridsize / 2 pixels) of a control
    point, row by row. *)
Definition near (H W hb : Z) (y x : Z) : list (Z * Z) :=
  list_prod (zrange (Z.max 0 (y - hb)) (Z.min H (y + hb))) (zrange (Z.max 0 (x - hb)) (Z.min W (x + hb))).
Definition box_pixels (image : Z -> Z -> px) (mask : Z -> Z -> bool) (H W hb y x : Z) : list px :=
  map (fun p => image (fst p) (snd p)) (filter (fun p => mask (fst p) (snd p)) (near H W hb y x)).
Lemma usable_eq image mask H W hb y x :
  usable (cells_of image mask (box_lo hb y) (box_hi H hb y) (box_lo hb x) (box_hi W hb x)) = box_pixels image mask H W hb y x.
Proof.
  rewrite cells_prod. unfold usable, box_pixels, near, box_lo, box_hi.
  induction (list_prod _ _) as [|p l IH]; [reflexivity|]. cbn. destruct (mask (fst p) (snd p)); cbn; congruence.
Qed.
Lemma all_some (l : list px) : ~ In None l -> exists vs, l = map Some vs.
Proof.
  induction l as [|[v|] l IH]; intros H; [exists []; reflexivity| |exfalso; apply H; left; reflexivity].
  destruct IH as (vs & ->); [intros K; apply H; right; exact K|]. exists (v :: vs). reflexivity.
Qed.
(** What the spline goes through: at control point (ix, iy) the median of the
    usable pixels around it, 0 if there are none. *)
Theorem C84_grid : forall image mask H W gridsize s, 0 <= H -> 0 <= W -> 2 <= gridsize ->
  blanton (median_estimator None) image (Some mask) H W gridsize = Ok s ->
  let hb := gridsize / 2 in
  sd_x s = nodes W hb /\ sd_y s = nodes H hb /\
  forall iy ix, 0 <= iy < n_nodes H hb -> 0 <= ix < n_nodes W hb -> exists row g vs,
    nth_error (sd_v s) (Z.to_nat iy) = Some row /\ nth_error row (Z.to_nat ix) = Some g /\
    box_pixels image mask H W hb (node H hb iy) (node W hb ix) = map Some vs /\
    (vs = [] -> g = 0%Q) /\ (vs <> [] -> is_median vs g).
Proof.
  intros image mask H W gs s H0 W0 G E. cbn zeta. unfold blanton in E.
  assert (HB : 1 <= gs / 2) by (apply Z.div_le_lower_bound; lia). destruct (Z.eqb_spec (gs / 2) 0); [lia|].
  destruct (mapr _ (nodes H (gs / 2))) as [g|] eqn:EM in E; [|discriminate]. cbn [bind] in E.
  unfold new_spline in E. destruct (negb _) in E; [discriminate|]. destruct (negb _) in E; [discriminate|]. injection E as <-. cbn [sd_x sd_y sd_v].
  split; [reflexivity|]. split; [reflexivity|]. intros iy ix IY IX.
  apply mapr_ok in EM. destruct (Forall2_nth _ _ _ EM _ _ (nodes_nth H _ iy IY)) as (row & NR & ER).
  apply mapr_ok in ER. destruct (Forall2_nth _ _ _ ER _ _ (nodes_nth W _ ix IX)) as (v & NV & EV).
  unfold grid_value in EV. set (cl := cells_of _ _ _ _ _ _) in EV.
  destruct (C84_median cl) as (M0 & M1 & M2 & _).
  assert (UE : usable cl = box_pixels image mask H W (gs / 2) (node H (gs / 2) iy) (node W (gs / 2) ix)) by apply usable_eq.
  destruct (median_estimator None cl) as [w|] eqn:ME; [|discriminate]. injection EV as <-.
  destruct (all_some (usable cl)) as (vs & VS).
  { intros K. specialize (M2 K). discriminate. }
  exists row, w, vs. rewrite <- UE. repeat split; auto.
  - intros ->. specialize (M0 VS). congruence.
  - intros NE. destruct (M1 vs NE VS) as (m & Em & IM). congruence.
Qed.
Lemma increasing_map (f : Z -> Z) : (forall i, 0 <= i -> f i < f (i + 1)) -> forall n lo, 0 <= lo -> increasing (map f (map (fun k => lo + Z.of_nat k) (seq 0 n))) = true.
Proof.
  intros H n. assert (G : forall n s lo, 0 <= lo -> increasing (map f (map (fun k => lo + Z.of_nat k) (seq s n))) = true).
  { clear n. induction n as [|n IH]; intros s lo L; [reflexivity|]. cbn [seq map]. specialize (IH (S s) lo L). destruct n as [|n]; [reflexivity|].
    cbn [seq map] in *. change (increasing (?a :: ?b :: ?r)) with ((a <? b) && increasing (b :: r)). rewrite IH, andb_true_r. apply Z.ltb_lt.
    replace (lo + Z.of_nat (S s)) with ((lo + Z.of_nat s) + 1) by lia. apply H. lia. }
  intros lo L. apply G. exact L.
Qed.
Lemma nodes_increasing W hb : 0 <= W -> 2 <= hb -> increasing (nodes W hb) = true.
Proof.
  intros W0 H. unfold nodes, zrange. apply increasing_map; [|lia]. intros i I0. pose proof (node_step W hb i ltac:(lia) I0).
  assert (1 <= hb / 2) by (apply Z.div_le_lower_bound; lia). lia.
Qed.
Lemma nodes_length W hb : 0 <= W -> 0 < hb -> length (nodes W hb) = Z.to_nat (n_nodes W hb).
Proof. intros. unfold nodes, zrange. rewrite !map_length, seq_length. f_equal. lia. Qed.
(** It works when the boxes have at least 4 pixels (gridsize), two of them fit
    into the image, and the usable pixels are numbers. *)
Theorem C84_works : forall image mask H W gridsize, 4 <= gridsize -> 2 * (gridsize / 2) <= H -> 2 * (gridsize / 2) <= W ->
  (forall y x, 0 <= y < H -> 0 <= x < W -> mask y x = true -> image y x <> None) ->
  exists s, blanton (median_estimator None) image (Some mask) H W gridsize = Ok s.
Proof.
  intros image mask H W gs G HH HW NN. unfold blanton.
  assert (HB : 2 <= gs / 2) by (apply Z.div_le_lower_bound; lia). set (hb := gs / 2) in *. destruct (Z.eqb_spec hb 0); [lia|].
  edestruct (mapr_all (fun y => mapr (fun x => grid_value (median_estimator None) image (Some mask) H W hb y x) (nodes W hb)) (nodes H hb)) as (g & ->).
  { intros y _. apply mapr_all. intros x _. unfold grid_value. set (cl := cells_of _ _ _ _ _ _).
    destruct (C84_median cl) as (M0 & M1 & _). destruct (all_some (usable cl)) as (vs & VS).
    - unfold cl. rewrite usable_eq. unfold box_pixels. rewrite in_map_iff. intros (p & E & HI). apply filter_In in HI. destruct HI as (HI & MK).
      unfold near in HI. destruct p as [py px]. apply in_prod_iff in HI. destruct HI as (A & B). apply in_zrange in A, B. cbn [fst snd] in *.
      apply (NN py px); auto; lia.
    - destruct vs as [|v vs]; [rewrite M0 by exact VS; eauto|]. destruct (M1 (v :: vs)) as (m & -> & _); [discriminate|exact VS|eauto]. }
  cbn [bind]. unfold new_spline. rewrite !nodes_increasing by lia. cbn [andb negb].
  assert (2 <= H / hb) by (apply Z.div_le_lower_bound; lia). assert (2 <= W / hb) by (apply Z.div_le_lower_bound; lia).
  rewrite !nodes_length by lia. unfold n_nodes.
  rewrite (proj2 (Nat.ltb_lt 3 (Z.to_nat (W / hb + 2)))) by lia. rewrite (proj2 (Nat.ltb_lt 3 (Z.to_nat (H / hb + 2)))) by lia.
  cbn [andb negb]. eauto.
Qed.
(** Masked pixels do not matter. *)
Theorem C84_masked_ignored : forall f image image' mask H W gridsize, 2 <= gridsize ->
  (forall y x, 0 <= y < H -> 0 <= x < W -> mask y x = true -> image y x = image' y x) ->
  blanton (median_estimator f) image (Some mask) H W gridsize = blanton (median_estimator f) image' (Some mask) H W gridsize.
Proof.
  intros f image image' mask H W gs G AG. unfold blanton. destruct (gs / 2 =? 0); [reflexivity|].
  f_equal. apply mapr_ext. intros y _. apply mapr_ext. intros x _. unfold grid_value.
  set (c1 := cells_of image _ _ _ _ _). set (c2 := cells_of image' _ _ _ _ _).
  assert (U : map fst (filter snd c1) = map fst (filter snd c2)).
  { change (usable c1 = usable c2). unfold c1, c2. rewrite !usable_eq. unfold box_pixels. apply map_ext_in. intros [py qx] HI.
    apply filter_In in HI. destruct HI as (HI & MK). unfold near in HI. apply in_prod_iff in HI. destruct HI as (A & B). apply in_zrange in A, B.
    cbn [fst snd] in *. apply AG; auto; lia. }
  assert (L : length c1 = length c2). { unfold c1, c2. rewrite !cells_prod, !map_length. reflexivity. }
  unfold median_estimator. rewrite U, L. reflexivity.
Qed.
(** An image that is constant where usable, with a usable pixel in every box,
    gives this constant everywhere. *)
Theorem C84_constant : forall image mask H W gridsize s c, 0 <= H -> 0 <= W -> 2 <= gridsize ->
  blanton (median_estimator None) image (Some mask) H W gridsize = Ok s ->
  let hb := gridsize / 2 in
  (forall y x, 0 <= y < H -> 0 <= x < W -> mask y x = true -> image y x = Some c) ->
  forall iy ix, 0 <= iy < n_nodes H hb -> 0 <= ix < n_nodes W hb ->
  (exists y x, In (y, x) (near H W hb (node H hb iy) (node W hb ix)) /\ mask y x = true) ->
  exists row g, nth_error (sd_v s) (Z.to_nat iy) = Some row /\ nth_error row (Z.to_nat ix) = Some g /\ (g == c)%Q.
Proof.
  intros image mask H W gs s c H0 W0 G E hb CO iy ix IY IX (y & x & HI & MK).
  destruct (C84_grid image mask H W gs s H0 W0 G E) as (_ & _ & GR). fold hb in GR.
  destruct (GR iy ix IY IX) as (row & g & vs & NR & NG & BP & _ & MD). exists row, g. repeat split; auto.
  assert (ALL : Forall (fun v => (c <= v <= c)%Q) vs).
  { apply Forall_forall. intros v HV. assert (K : In (Some v) (map Some vs)) by (apply in_map; exact HV). rewrite <- BP in K.
    unfold box_pixels in K. apply in_map_iff in K. destruct K as ([py qx] & EQ & KI). apply filter_In in KI. destruct KI as (KI & KM).
    unfold near in KI. apply in_prod_iff in KI. destruct KI as (A & B). apply in_zrange in A, B. cbn [fst snd] in *.
    rewrite (CO py qx) in EQ; [|lia|lia|exact KM]. injection EQ as ->. lra. }
  assert (NE : vs <> []).
  { intros ->. unfold box_pixels in BP. assert (K : In (image y x) (map (fun p => image (fst p) (snd p)) (filter (fun p => mask (fst p) (snd p)) (near H W hb (node H hb iy) (node W hb ix))))).
    { apply (in_map (fun p => image (fst p) (snd p)) _ (y, x)). apply filter_In. auto. }
    rewrite BP in K. destruct K. }
  pose proof (C84_median_range vs g c c (MD NE) ALL). lra.
Qed.
Example C84_works_ex : exists s, blanton (median_estimator None) (fun y x => if (x =? 3) then None else Some (inject_Z (y + x))) (Some (fun y x => negb (x =? 3))) 9 8 4 = Ok s /\
  nth_error (sd_v s) 1 = Some [1; 2; 3; 6; 7; 8]%Q.
Proof. eexists. split; vm_compute; reflexivity. Qed.

(** Refutations.  Without a mask ("None for no masking") there is no sky at
    all. *)
Theorem C84_no_mask_refuted : forall est image H W gridsize, 0 <= H -> 0 <= W -> 2 <= gridsize ->
  blanton est image None H W gridsize = Err UnboundLocalError.
Proof.
  intros est image H W gs H0 W0 G. unfold blanton. assert (HB : 1 <= gs / 2) by (apply Z.div_le_lower_bound; lia).
  destruct (Z.eqb_spec (gs / 2) 0); [lia|].
  assert (NE : forall L, 0 <= L -> exists a r, nodes L (gs / 2) = a :: r).
  { intros L L0. assert (LN := nodes_length L (gs / 2) L0 ltac:(lia)). assert (0 <= L / (gs / 2)) by (apply Z.div_pos; lia).
    destruct (nodes L (gs / 2)) as [|a r]; [cbn in LN; unfold n_nodes in LN; lia|eauto]. }
  destruct (NE H H0) as (y & ys & ->). destruct (NE W W0) as (x & xs & ->). reflexivity.
Qed.
(** Where all pixels around a control point are masked the sky is pulled to
    zero, whatever it is elsewhere. *)
Theorem C84_all_masked_refuted : forall image mask H W gridsize s, 0 <= H -> 0 <= W -> 2 <= gridsize ->
  blanton (median_estimator None) image (Some mask) H W gridsize = Ok s ->
  let hb := gridsize / 2 in
  forall iy ix, 0 <= iy < n_nodes H hb -> 0 <= ix < n_nodes W hb ->
  (forall y x, In (y, x) (near H W hb (node H hb iy) (node W hb ix)) -> mask y x = false) ->
  exists row, nth_error (sd_v s) (Z.to_nat iy) = Some row /\ nth_error row (Z.to_nat ix) = Some 0%Q.
Proof.
  intros image mask H W gs s H0 W0 G E hb iy ix IY IX NM.
  destruct (C84_grid image mask H W gs s H0 W0 G E) as (_ & _ & GR). fold hb in GR.
  destruct (GR iy ix IY IX) as (row & g & vs & NR & NG & BP & Z0 & _). exists row. split; [exact NR|].
  assert (N : vs = []).
  { unfold box_pixels in BP. destruct (filter _ _) as [|[py qx] r] eqn:EF in BP; [destruct vs; [reflexivity|discriminate]|].
    assert (K : In (py, qx) (filter (fun p => mask (fst p) (snd p)) (near H W hb (node H hb iy) (node W hb ix)))) by (rewrite EF; left; reflexivity).
    apply filter_In in K. destruct K as (K & MK). cbn in MK. rewrite (NM py qx K) in MK. discriminate. }
  rewrite (Z0 N) in NG. exact NG.
Qed.
Example C84_all_masked_ex : exists s, blanton (median_estimator None) (fun _ _ => Some 7%Q) (Some (fun y x => 4 <=? x)) 8 8 4 = Ok s /\
  option_map (map Qred) (nth_error (sd_v s) 2) = Some [0; 0; 7; 7; 7; 7]%Q.
Proof. eexists. split; vm_compute; reflexivity. Qed.
(** Small and large boxes fail: gridsize 2 and 3 give two equal control points,
    and images with less than two boxes have too few of them. *)
Theorem C84_sizes_refuted : forall est image mask H W gridsize s,
  blanton est image mask H W gridsize = Ok s -> 0 <= H -> 0 <= W -> 0 <= gridsize ->
  4 <= gridsize /\ 2 * (gridsize / 2) <= H /\ 2 * (gridsize / 2) <= W.
Proof.
  intros est image mask H W gs s E H0 W0 G0. unfold blanton in E. destruct (Z.eqb_spec (gs / 2) 0) as [|NZ]; [discriminate|].
  assert (P : 0 <= gs / 2) by (apply Z.div_pos; lia). set (hb := gs / 2) in *.
  destruct (mapr _ (nodes H hb)) as [gg|] in E; [|discriminate]. cbn [bind] in E. unfold new_spline in E.
  destruct (increasing (nodes W hb)) eqn:IX; [|discriminate]. destruct (increasing (nodes H hb)); [|discriminate]. cbn [andb negb] in E.
  destruct (3 <? length (nodes W hb))%nat eqn:LX; [|discriminate]. destruct (3 <? length (nodes H hb))%nat eqn:LY; [|discriminate].
  apply Nat.ltb_lt in LX, LY. rewrite nodes_length in LX, LY by lia. unfold n_nodes in LX, LY.
  assert (WQ : 2 <= W / hb) by lia. assert (HQ : 2 <= H / hb) by lia.
  assert (N1 : hb <> 1).
  { intros H1. assert (LN := nodes_length W hb W0 ltac:(lia)).
    assert (A := nodes_nth W hb 0 ltac:(unfold n_nodes; lia)). assert (B := nodes_nth W hb 1 ltac:(unfold n_nodes; lia)).
    destruct (C84_nodes W hb W0 ltac:(lia)) as (_ & D & _). replace (2 * (hb / 2)) with 0 in D by (rewrite H1; reflexivity).
    destruct (nodes W hb) as [|a [|b r]]; cbn in A, B; try discriminate. injection A as ->. injection B as ->.
    change (increasing (?a :: ?b :: ?r)) with ((a <? b) && increasing (b :: r)) in IX. apply andb_true_iff in IX. destruct IX as (IX & _). apply Z.ltb_lt in IX. lia. }
  assert (2 <= hb) by lia. assert (D : gs = 2 * hb + gs mod 2) by (unfold hb; apply Z.div_mod; lia). pose proof (Z.mod_pos_bound gs 2 ltac:(lia)).
  pose proof (Z.mul_div_le W hb ltac:(lia)). pose proof (Z.mul_div_le H hb ltac:(lia)). nia.
Qed.
Example C84_sizes_ex : blanton (median_estimator None) (fun _ _ => Some 7%Q) (Some (fun _ _ => true)) 8 8 3 = Err ValueError /\
  blanton (median_estimator None) (fun _ _ => Some 7%Q) (Some (fun _ _ => true)) 8 8 10 = Err RuntimeError /\
  blanton (median_estimator None) (fun _ _ => Some 7%Q) (Some (fun _ _ => true)) 8 8 1 = Err ZeroDivisionError.
Proof. repeat split; vm_compute; reflexivity. Qed.

Print Assumptions C84_nodes.
Print Assumptions C84_boxes.
Print Assumptions C84_median.
Print Assumptions C84_median_range.
Print Assumptions C84_grid.
Print Assumptions C84_works.
Print Assumptions C84_masked_ignored.
Print Assumptions C84_constant.
Print Assumptions C84_no_mask_refuted.
Print Assumptions C84_all_masked_refuted.
Print Assumptions C84_sizes_refuted.
