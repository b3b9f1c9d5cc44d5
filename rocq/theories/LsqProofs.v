(** Proofs about the assembly of the least-squares system. *)
From Coq Require Import List ZArith QArith Qabs Bool Lia Lqa Permutation.
From Verif Require Import Base PatchModel PatchSpec PatchProofs PriorModel PriorProps LsqModel LsqSpec.
Import ListNotations.
Open Scope Q_scope.

Lemma qsum_zero {A} (f : A -> Q) l : (forall x, In x l -> f x == 0) -> qsum (map f l) == 0.
Proof. induction l as [|x l IH]; simpl; intros H; [reflexivity|]. rewrite H, IH; auto. ring. Qed.
Lemma qsum_scale {A} (f : A -> Q) k l : qsum (map (fun x => k * f x) l) == k * qsum (map f l).
Proof. induction l as [|x l IH]; simpl; [ring|]. rewrite IH. ring. Qed.
Lemma qsum_filter {A} (f : A -> Q) (g : A -> bool) l : (forall x, In x l -> g x = false -> f x == 0) ->
  qsum (map f (filter g l)) == qsum (map f l).
Proof.
  induction l as [|x l IH]; simpl; intros H; [reflexivity|].
  destruct (g x) eqn:E; simpl; rewrite IH by auto; [reflexivity|].
  rewrite (H x) by auto. ring.
Qed.
Lemma qsum_concat l : qsum (concat l) == qsum (map qsum l).
Proof. induction l as [|x l IH]; simpl; [reflexivity|]. rewrite qsum_app, IH. reflexivity. Qed.

Lemma row_sum_app a b d r : row_sum (a ++ b) d r == row_sum a d r + row_sum b d r.
Proof. unfold row_sum. rewrite map_app. apply qsum_app. Qed.

(** ** Grids *)
Lemma in_grid h w y x : In (y, x) (grid h w) <-> (0 <= y < h /\ 0 <= x < w)%Z.
Proof.
  unfold grid. rewrite in_flat_map. split.
  - intros (a & Ha & H). apply in_map_iff in H as (b & E & Hb). injection E as <- <-.
    apply in_seq in Ha, Hb. lia.
  - intros (Hy & Hx). exists (Z.to_nat y). split; [apply in_seq; lia|].
    apply in_map_iff. exists (Z.to_nat x). rewrite !Z2Nat.id by lia. split; auto. apply in_seq. lia.
Qed.

Lemma sum_seq_single (f : nat -> Q) n k0 k :
  qsum (map (fun i => if (i =? k)%nat then f i else 0) (seq k0 n)) ==
  if ((k0 <=? k) && (k <? k0 + n))%nat then f k else 0.
Proof.
  revert k0. induction n as [|n IH]; intros k0; simpl.
  - destruct (Nat.leb_spec k0 k), (Nat.ltb_spec k (k0 + 0)); simpl; try lia; reflexivity.
  - rewrite IH. destruct (Nat.eqb_spec k0 k) as [->|N].
    + destruct (Nat.leb_spec (S k) k), (Nat.ltb_spec k (S k + n)), (Nat.leb_spec k k), (Nat.ltb_spec k (k + S n)); simpl; try lia; ring.
    + destruct (Nat.leb_spec (S k0) k), (Nat.ltb_spec k (S k0 + n)), (Nat.leb_spec k0 k), (Nat.ltb_spec k (k0 + S n)); simpl; try lia; ring.
Qed.

Lemma qsum_flat_map {A B} (f : A -> list B) (g : B -> Q) l :
  qsum (map g (flat_map f l)) == qsum (map (fun a => qsum (map g (f a))) l).
Proof. induction l as [|a l IH]; simpl; [reflexivity|]. rewrite map_app, qsum_app, IH. reflexivity. Qed.

Lemma grid_sum_single (f : Z -> Z -> Q) h w Y X :
  qsum (map (fun yx => if ((fst yx =? Y) && (snd yx =? X))%Z then f (fst yx) (snd yx) else 0) (grid h w)) ==
  if ((0 <=? Y) && (Y <? h) && (0 <=? X) && (X <? w))%Z then f Y X else 0.
Proof.
  unfold grid. rewrite qsum_flat_map.
  transitivity (qsum (map (fun y => if (y =? Z.to_nat Y)%nat then
      (if (0 <=? Y)%Z then if ((0 <=? X) && (X <? w))%Z then f Y X else 0 else 0) else 0) (seq 0 (Z.to_nat h)))).
  - apply qsum_ext. intros y _. rewrite map_map. cbn [fst snd].
    destruct (Nat.eqb_spec y (Z.to_nat Y)) as [->|N].
    + destruct (Z.leb_spec 0 Y) as [HY|HY].
      * rewrite Z2Nat.id by lia. rewrite Z.eqb_refl. cbn [andb].
        transitivity (qsum (map (fun x => if (x =? Z.to_nat X)%nat then (if (0 <=? X)%Z then f Y X else 0) else 0) (seq 0 (Z.to_nat w)))).
        -- apply qsum_ext. intros x _. destruct (Nat.eqb_spec x (Z.to_nat X)) as [->|N'].
           ++ destruct (Z.leb_spec 0 X); [rewrite Z2Nat.id by lia; rewrite Z.eqb_refl; reflexivity|].
              destruct (Z.eqb_spec (Z.of_nat (Z.to_nat X)) X); [lia|reflexivity].
           ++ destruct (Z.eqb_spec (Z.of_nat x) X); [lia|reflexivity].
        -- rewrite sum_seq_single. destruct (Z.leb_spec 0 X), (Z.ltb_spec X w), (Nat.leb_spec 0 (Z.to_nat X)), (Nat.ltb_spec (Z.to_nat X) (0 + Z.to_nat w)); cbn [andb]; try lia; reflexivity.
      * apply qsum_zero. intros x _. destruct (Z.eqb_spec (Z.of_nat (Z.to_nat Y)) Y); [lia|reflexivity].
    + apply qsum_zero. intros x _. destruct (Z.eqb_spec (Z.of_nat y) Y); [lia|reflexivity].
  - rewrite sum_seq_single. destruct (Z.leb_spec 0 Y), (Z.ltb_spec Y h), (Nat.leb_spec 0 (Z.to_nat Y)), (Nat.ltb_spec (Z.to_nat Y) (0 + Z.to_nat h)); cbn [andb]; try lia; reflexivity.
Qed.

Lemma pix_grid (p : patch Q) a H W :
  pimg p = Some a -> (0 <= x0 p -> 0 <= y0 p -> x0 p + aw a <= W -> y0 p + ah a <= H ->
  0 <= aw a -> 0 <= ah a -> H * W <= 2147483648 ->
  get_pixel_indices p W = map (fun yx => (y0 p + fst yx) * W + (x0 p + snd yx)) (grid (ah a) (aw a)))%Z.
Proof.
  intros E Hx Hy HW HH Hw Hh HB. unfold get_pixel_indices, grid. rewrite E.
  rewrite (flat_map_concat_map (fun y => map (fun x => (Z.of_nat y, Z.of_nat x)) _)), concat_map, map_map.
  rewrite flat_map_concat_map. f_equal. apply map_ext_in. intros y Iy. apply in_seq in Iy.
  rewrite map_map. apply map_ext_in. intros x Ix. apply in_seq in Ix. cbn [fst snd].
  assert (0 <= (y0 p + Z.of_nat y) * W /\ (y0 p + Z.of_nat y + 1) * W <= H * W)%Z by nia.
  assert (W <= 2147483648)%Z by nia.
  assert (W < 2147483648 \/ (W = 2147483648 /\ y0 p = 0 /\ y = 0%nat))%Z as [D|(D1 & D2 & D3)] by nia.
  - rewrite (wrap32_id (x0 p)), (wrap32_id (y0 p)), (wrap32_id W) by nia.
    rewrite (wrap32_id (Z.of_nat x + x0 p)), (wrap32_id (Z.of_nat y + y0 p)) by nia.
    rewrite (wrap32_id ((Z.of_nat y + y0 p) * W)) by nia. rewrite wrap32_id by nia. nia.
  - subst y. rewrite D2. rewrite (wrap32_id (x0 p)), (wrap32_id 0) by lia.
    rewrite (wrap32_id (Z.of_nat x + x0 p)), (wrap32_id (Z.of_nat 0 + 0)) by lia.
    simpl. change (wrap32 0) with 0%Z. rewrite Z.add_0_r. rewrite wrap32_id by lia. lia.
Qed.

(** ** One derivative patch *)
Definition pixval (d : patch Q) (i : image) (X Y : Z) : Q := img_at 0 d X Y * px (im_ie i) Y X.

(** What a patch contributes to row [r] of an image starting at row [o]. *)
Definition contrib (d : patch Q) (i : image) (o r : Z) : Q :=
  if ((o <=? r) && (r <? o + npix i))%Z then pixval d i ((r - o) mod im_w i) ((r - o) / im_w i) else 0.

Lemma combine_map2 {A B C} (f : A -> B) (g : A -> C) l :
  combine (map f l) (map g l) = map (fun x => (f x, g x)) l.
Proof. induction l; simpl; congruence. Qed.

Lemma same_shape_clipped (p : patch Q) a i : wf_image i -> pimg p = Some a -> (0 <= aw a -> 0 <= ah a ->
  0 <= x0 p -> 0 <= y0 p -> x0 p + aw a <= im_w i -> y0 p + ah a <= im_h i ->
  exists ys xs, get_slice_in p (im_h i) (im_w i) = Some (ys, xs) /\
    same_shape a (asub (im_ie i) ys xs) = true /\
    forall y x, 0 <= y < ah a -> 0 <= x < aw a -> px (asub (im_ie i) ys xs) y x = px (im_ie i) (y0 p + y) (x0 p + x))%Z.
Proof.
  intros (I1 & I2 & I3 & I4 & _) E Wa Ha Hx Hy HX HY. unfold get_slice_in. rewrite E.
  do 2 eexists. split; [reflexivity|]. unfold same_shape, asub, sl_len, sl_start, np_clip; simpl.
  rewrite I3, I4.
  assert (N : forall n k, (0 <= k <= n)%Z -> norm_idx n k = k) by (intros; unfold norm_idx; destruct (Z.ltb_spec k 0); lia).
  assert (C : forall k n, (0 <= k <= n)%Z -> Z.min (Z.max k 0) n = k) by lia.
  rewrite (C (y0 p)), (C (x0 p)), (C (y0 p + ah a)%Z), (C (x0 p + aw a)%Z) by lia.
  rewrite !N by lia. split.
  - apply andb_true_iff. split; apply Z.eqb_eq; lia.
  - intros y x _ _. f_equal; lia.
Qed.

Lemma deriv_block_spec offs col d i o :
  wf_patch d -> wf_image i -> off_of offs i = Some o -> (0 <= o)%Z -> (o + npix i <= 2147483648)%Z ->
  exists ob, deriv_block offs col d i = Ok ob /\
    let es := blk_elems (match ob with None => [] | Some b => [b] end) in
    Forall (fun e => (o <= fst (fst e) < o + npix i)%Z /\ snd (fst e) = col) es /\
    (ob <> None -> es <> []) /\
    forall dd r, row_sum es dd r == nth col dd 0 * contrib d i o r.
Proof.
  intros WD WI EO Ho HB.
  pose proof WI as (I1 & I2 & I3 & I4 & _).
  destruct (clip_to_spec d (im_w i) (im_h i) WD I2 I1) as (p & b & EC & WP & HV & HF & HT).
  assert (PV : forall X Y, (0 <= X < im_w i)%Z -> (0 <= Y < im_h i)%Z -> img_at 0 d X Y = img_at 0 p X Y).
  { intros X Y HX HY. unfold img_at. rewrite HV. unfold in_box.
    replace ((0 <=? X) && (X <? im_w i) && (0 <=? Y) && (Y <? im_h i))%Z with true; auto.
    symmetry. rewrite !andb_true_iff, !Z.leb_le, !Z.ltb_lt. lia. }
  assert (CZ : forall r, (forall X Y, (0 <= X < im_w i)%Z -> (0 <= Y < im_h i)%Z -> img_at 0 p X Y == 0) -> contrib d i o r == 0).
  { intros r HZ. unfold contrib. destruct ((o <=? r) && (r <? o + npix i))%Z eqn:ER; [|reflexivity].
    apply andb_true_iff in ER as (ER1 & ER2). apply Z.leb_le in ER1. apply Z.ltb_lt in ER2. unfold npix in ER2.
    assert (0 < im_w i)%Z by nia. unfold pixval.
    pose proof (Z.mod_pos_bound (r - o) (im_w i) ltac:(lia)).
    assert (0 <= (r - o) / im_w i < im_h i)%Z by (split; [apply Z.div_pos; lia|apply Z.div_lt_upper_bound; nia]).
    rewrite PV by auto. rewrite HZ by auto. ring. }
  unfold deriv_block. rewrite EO. cbn [bind]. rewrite EC. cbn [bind].
  destruct (pimg p) as [a|] eqn:EP.
  2:{ unfold get_pixel_indices. rewrite EP. eexists; split; [reflexivity|]. simpl. split; [constructor|]. split; [congruence|].
      intros dd r. rewrite CZ; [unfold row_sum; simpl; ring|]. intros X Y _ _. unfold img_at, val_at. rewrite EP. reflexivity. }
  assert (bt : b = true) by (destruct b; auto; discriminate (HF eq_refl)). subst b.
  destruct (HT eq_refl) as (a' & Ea' & Hx & Hy & HX & HY). injection Ea' as <-.
  assert (WA : (0 <= ah a /\ 0 <= aw a)%Z) by (unfold wf_patch in WP; rewrite EP in WP; auto). destruct WA as (WA1 & WA2).
  unfold npix in HB.
  rewrite (pix_grid p a (im_h i) (im_w i)) by (auto; nia).
  destruct (same_shape_clipped p a i WI EP WA2 WA1 Hx Hy HX HY) as (ys & xs & -> & -> & HW).
  remember (map (fun yx => ((y0 p + fst yx) * im_w i + (x0 p + snd yx))%Z) (grid (ah a) (aw a))) as pix eqn:Epix.
  assert (ALL : forallb (fun k => (k <? npix i)%Z) pix = true).
  { apply forallb_forall. intros k Hk. subst pix. apply in_map_iff in Hk as ([y x] & <- & Hk).
    apply in_grid in Hk. cbn [fst snd]. apply Z.ltb_lt. unfold npix. nia. }
  assert (MAIN : forall dd r,
     row_sum (map (fun e => (wrap32 (o + fst e), col, snd e)) (combine pix (map (fun yx => px a (fst yx) (snd yx) * px (asub (im_ie i) ys xs) (fst yx) (snd yx)) (grid (ah a) (aw a))))) dd r
     == nth col dd 0 * contrib d i o r).
  { intros dd r. subst pix. rewrite combine_map2, map_map. unfold row_sum. rewrite map_map. cbn [fst snd].
    unfold contrib. destruct ((o <=? r) && (r <? o + npix i))%Z eqn:ER.
    - apply andb_true_iff in ER as (ER1 & ER2). apply Z.leb_le in ER1. apply Z.ltb_lt in ER2. unfold npix in ER2.
      assert (WPOS : (0 < im_w i)%Z) by nia.
      pose proof (Z.mod_pos_bound (r - o) (im_w i) ltac:(lia)) as MB.
      assert (DB : (0 <= (r - o) / im_w i < im_h i)%Z) by (split; [apply Z.div_pos; lia|apply Z.div_lt_upper_bound; nia]).
      pose proof (Z.div_mod (r - o) (im_w i) ltac:(lia)) as DM.
      set (X := ((r - o) mod im_w i)%Z) in *. set (Y := ((r - o) / im_w i)%Z) in *.
      transitivity (qsum (map (fun yx => if ((fst yx =? Y - y0 p) && (snd yx =? X - x0 p))%Z
         then (fun y x => px a y x * px (im_ie i) Y X * nth col dd 0) (fst yx) (snd yx) else 0) (grid (ah a) (aw a)))).
      + apply qsum_ext. intros [y x] Hyx. apply in_grid in Hyx. cbn [fst snd].
        rewrite wrap32_id by nia.
        rewrite HW by lia.
        destruct (Z.eqb_spec y (Y - y0 p)) as [Ey|Ny]; [destruct (Z.eqb_spec x (X - x0 p)) as [Ex|Nx]|]; cbn [andb].
        * subst x y. replace (o + ((y0 p + (Y - y0 p)) * im_w i + (x0 p + (X - x0 p))))%Z with r by nia.
          rewrite Z.eqb_refl. replace (y0 p + (Y - y0 p))%Z with Y by lia. replace (x0 p + (X - x0 p))%Z with X by lia. reflexivity.
        * destruct (Z.eqb_spec (o + ((y0 p + y) * im_w i + (x0 p + x)))%Z r) as [Er|]; [exfalso|reflexivity].
          subst y. assert (x0 p + x = X)%Z by nia. lia.
        * destruct (Z.eqb_spec (o + ((y0 p + y) * im_w i + (x0 p + x)))%Z r) as [Er|]; [exfalso|reflexivity].
          assert (im_w i * Y + X = (y0 p + y) * im_w i + (x0 p + x))%Z by lia.
          assert (y0 p + y = Y)%Z; [|lia].
          destruct (Z.lt_trichotomy (y0 p + y) Y) as [L|[L|L]]; auto; exfalso; nia.
      + rewrite (grid_sum_single (fun y x => px a y x * px (im_ie i) Y X * nth col dd 0)).
        unfold pixval. rewrite PV by auto. unfold img_at, val_at. rewrite EP.
        destruct (Z.leb_spec 0 (Y - y0 p)), (Z.ltb_spec (Y - y0 p) (ah a)), (Z.leb_spec 0 (X - x0 p)), (Z.ltb_spec (X - x0 p) (aw a)),
          (Z.leb_spec (x0 p) X), (Z.ltb_spec X (x0 p + aw a)), (Z.leb_spec (y0 p) Y), (Z.ltb_spec Y (y0 p + ah a)); cbn [andb]; try lia; ring.
    - transitivity 0; [|ring]. apply qsum_zero. intros [y x] Hyx. apply in_grid in Hyx. cbn [fst snd].
      rewrite wrap32_id by nia.
      destruct (Z.eqb_spec (o + ((y0 p + y) * im_w i + (x0 p + x)))%Z r) as [Er|]; [exfalso|reflexivity].
      apply andb_false_iff in ER. rewrite Z.leb_gt, Z.ltb_ge in ER. unfold npix in ER. destruct ER; nia. }
  match goal with |- context [filter ?g (combine pix ?vals)] => set (V := combine pix vals) in *; set (G := g) in * end.
  assert (NZ : forall dd r, row_sum (map (fun e => (wrap32 (o + fst e), col, snd e)) (filter G V)) dd r == nth col dd 0 * contrib d i o r).
  { intros dd r. rewrite <- (MAIN dd r). unfold row_sum. rewrite !map_map. apply qsum_filter. intros [k v] _ Hg.
    subst G. cbn [fst snd] in *. apply negb_false_iff in Hg. assert (HZ : v == 0) by (apply Qeq_bool_eq; auto). destruct (_ =? _)%Z; [rewrite HZ|]; ring. }
  assert (RNG : Forall (fun e => (o <= fst (fst e) < o + npix i)%Z /\ snd (fst e) = col)
      (map (fun e : Z * Q => (wrap32 (o + fst e), col, snd e)) (filter G V))).
  { apply Forall_map. apply Forall_forall. intros [k v] Hk. apply filter_In in Hk as (Hk & _).
    subst V. apply in_combine_l in Hk. cbn [fst snd]. split; auto.
    subst pix. apply in_map_iff in Hk as ([y x] & <- & Hk). apply in_grid in Hk. cbn [fst snd] in *. unfold npix.
    assert ((y0 p + y) * im_w i + (x0 p + x) < im_w i * im_h i)%Z by nia.
    assert (0 <= (y0 p + y) * im_w i + (x0 p + x))%Z by nia.
    rewrite wrap32_id by lia. lia. }
  assert (BE : forall l : list (Z * Q), blk_elems [mkBlk (map (fun e => wrap32 (o + fst e)) l) col (map snd l)] =
      map (fun e => (wrap32 (o + fst e), col, snd e)) l).
  { intros l. unfold blk_elems. simpl. rewrite app_nil_r, combine_map2, map_map. reflexivity. }
  destruct pix as [|k0 pix'] eqn:EPX.
  - eexists; split; [reflexivity|]. simpl. split; [constructor|]. split; [congruence|].
    intros dd r. rewrite <- (NZ dd r). unfold row_sum. reflexivity.
  - rewrite ALL. destruct (filter G V) as [|e l] eqn:EF.
    + eexists; split; [reflexivity|]. simpl. split; [constructor|]. split; [congruence|].
      intros dd r. rewrite <- (NZ dd r). reflexivity.
    + eexists; split; [reflexivity|]. cbv zeta iota. rewrite (BE (e :: l)). split; auto. split; [discriminate|]. auto.
Qed.

(** ** Row offsets *)
Fixpoint layout (imgs : list image) (o : Z) : list (image * Z) :=
  match imgs with [] => [] | i :: r => (i, o) :: layout r (o + npix i)%Z end.

Lemma total_app a b : total (a ++ b) = (total a + total b)%Z.
Proof. induction a; simpl; lia. Qed.
Lemma layout_app a b o : layout (a ++ b) o = layout a o ++ layout b (o + total a)%Z.
Proof.
  revert o. induction a as [|i a IH]; intros o; simpl; [f_equal; lia|].
  rewrite IH. do 2 f_equal. f_equal. lia.
Qed.
Lemma off_of_none imgs o i : off_of (layout imgs o) i = None <-> ~ In (im_id i) (map im_id imgs).
Proof.
  revert o. induction imgs as [|j imgs IH]; intros o; simpl; [tauto|].
  destruct (Nat.eqb_spec (im_id j) (im_id i)) as [E|N].
  - split; [discriminate|]. intros H. exfalso. apply H. auto.
  - rewrite IH. split; intros H; [intros [A|A]; auto|]. tauto.
Qed.
Lemma off_of_nth imgs o k i : NoDup (map im_id imgs) -> nth_error imgs k = Some i ->
  off_of (layout imgs o) i = Some (o + offset imgs k)%Z.
Proof.
  unfold offset. revert o k. induction imgs as [|j imgs IH]; intros o k ND E; [destruct k; discriminate|].
  inversion ND as [|? ? N1 N2]; subst. destruct k as [|k]; simpl in *.
  - injection E as ->. rewrite Nat.eqb_refl. f_equal. lia.
  - destruct (Nat.eqb_spec (im_id j) (im_id i)) as [E'|N].
    + exfalso. apply N1. rewrite E'. apply in_map. eapply nth_error_In; eauto.
    + rewrite (IH _ k N2 E). f_equal. lia.
Qed.

Lemma place_spec : forall ds imgs, NoDup (map im_id imgs) ->
  (forall i j, (In i imgs \/ exists p, In (p, i) ds) -> (In j imgs \/ exists p, In (p, j) ds) -> im_id i = im_id j -> i = j) ->
  exists imgs', place ds (layout imgs 0) (total imgs) = (layout imgs' 0, total imgs') /\
    NoDup (map im_id imgs') /\ forall i, In i imgs' <-> In i imgs \/ exists p, In (p, i) ds.
Proof.
  induction ds as [|[p i] ds IH]; intros imgs ND HC; simpl.
  - exists imgs. split; auto. split; auto. intros i. split; auto. intros [H|(q & [])]; auto.
  - destruct (off_of (layout imgs 0) i) as [o|] eqn:E.
    + destruct (IH imgs ND) as (imgs' & EP & ND' & HI).
      { intros a b Ha Hb. apply HC; [destruct Ha as [?|(q & ?)]|destruct Hb as [?|(q & ?)]]; auto; right; exists q; simpl; auto. }
      exists imgs'. split; auto. split; auto. intros a. rewrite HI. split.
      * intros [H|(q & H)]; auto. right; exists q; auto.
      * intros [H|(q & [H|H])]; eauto. injection H as <- <-. left.
        assert (NN : ~ ~ In (im_id i) (map im_id imgs)) by (intros H; apply (off_of_none imgs 0) in H; congruence).
        destruct (in_dec Nat.eq_dec (im_id i) (map im_id imgs)) as [I|N]; [|tauto].
        apply in_map_iff in I as (j & Ej & Ij).
        rewrite <- (HC j i); auto. right. exists p. simpl; auto.
    + apply off_of_none in E.
      assert (EL : layout imgs 0 ++ [(i, total imgs)] = layout (imgs ++ [i]) 0) by (rewrite layout_app; reflexivity).
      assert (ET : (total imgs + npix i)%Z = total (imgs ++ [i])) by (rewrite total_app; simpl; lia).
      rewrite EL, ET.
      destruct (IH (imgs ++ [i])) as (imgs' & EP & ND' & HI).
      { rewrite map_app. simpl. apply Permutation_NoDup with (l := im_id i :: map im_id imgs).
        - apply Permutation_cons_append.
        - constructor; auto. }
      { intros a b Ha Hb. apply HC.
        - destruct Ha as [Ha|(q & Ha)]; [apply in_app_or in Ha as [Ha|[<-|[]]]; auto; right; exists p; simpl; auto|right; exists q; simpl; auto].
        - destruct Hb as [Hb|(q & Hb)]; [apply in_app_or in Hb as [Hb|[<-|[]]]; auto; right; exists p; simpl; auto|right; exists q; simpl; auto]. }
      exists imgs'. split; auto. split; auto. intros a. rewrite HI, in_app_iff. simpl. split.
      * intros [[H|[<-|[]]]|(q & H)]; auto; right; eauto.
      * intros [H|(q & [H|H])]; auto; [injection H as <- <-; auto|eauto].
Qed.

Lemma offset_succ : forall (imgs : list image) k i, nth_error imgs k = Some i -> offset imgs (S k) = (offset imgs k + npix i)%Z.
Proof.
  unfold offset. induction imgs as [|j imgs IH]; intros [|k] i H; try discriminate.
  - injection H as ->. simpl. lia.
  - simpl in H. specialize (IH k i H). cbn [firstn total fold_right] in *. unfold total in *. simpl in *. lia.
Qed.
Lemma total_nonneg imgs : Forall wf_image imgs -> (0 <= total imgs)%Z.
Proof. induction 1 as [|i l (A & B & _) F IH]; simpl; [lia|]. unfold npix. nia. Qed.
Lemma Forall_firstn {A} (P : A -> Prop) n l : Forall P l -> Forall P (firstn n l).
Proof. intros H. revert n. induction H; intros [|n]; simpl; constructor; auto. Qed.
Lemma Forall_skipn {A} (P : A -> Prop) n l : Forall P l -> Forall P (skipn n l).
Proof. intros H. revert n. induction H; intros [|n]; simpl; auto. Qed.
Lemma offset_mono imgs j k : Forall wf_image imgs -> (j <= k)%nat -> (offset imgs j <= offset imgs k)%Z.
Proof.
  unfold offset. intros F H. rewrite <- (firstn_skipn j (firstn k imgs)), total_app.
  rewrite firstn_firstn. rewrite Nat.min_l by lia.
  pose proof (total_nonneg (skipn j (firstn k imgs)) (Forall_skipn _ _ _ (Forall_firstn _ _ _ F))). lia.
Qed.
Lemma offset_le imgs k : Forall wf_image imgs -> (0 <= offset imgs k <= total imgs)%Z.
Proof.
  intros F. pose proof (offset_mono imgs 0 k F ltac:(lia)) as H. unfold offset in *. simpl in H. split; auto.
  pose proof (total_nonneg (skipn k imgs) (Forall_skipn _ _ _ F)).
  rewrite <- (firstn_skipn k imgs) at 2. rewrite total_app. lia.
Qed.

(** ** All derivative blocks *)
Definition offz (imgs : list image) (j : image) : Z :=
  match off_of (layout imgs 0) j with Some o => o | None => 0%Z end.

Definition row_value (imgs : list image) (dsc : list (nat * list (patch Q * image))) (dd : list Q) (r : Z) : Q :=
  qsum (map (fun e => nth (fst e) dd 0 * qsum (map (fun pj => contrib (fst pj) (snd pj) (offz imgs (snd pj)) r) (snd e))) dsc).

Definition placed (imgs : list image) (l : list (patch Q * image)) : Prop :=
  forall p i, In (p, i) l -> wf_patch p /\ wf_image i /\ In i imgs.

Lemma off_in imgs i : NoDup (map im_id imgs) -> Forall wf_image imgs -> In i imgs ->
  exists k, nth_error imgs k = Some i /\ off_of (layout imgs 0) i = Some (offset imgs k) /\
    (0 <= offset imgs k)%Z /\ (offset imgs k + npix i <= total imgs)%Z.
Proof.
  intros ND F I. apply In_nth_error in I as (k & E). exists k. split; auto.
  split; [rewrite (off_of_nth imgs 0 k i ND E); f_equal; lia|].
  pose proof (offset_le imgs k F). pose proof (offset_le imgs (S k) F). rewrite (offset_succ imgs k i E) in *. lia.
Qed.

Lemma blk_elems_app a b : blk_elems (a ++ b) = blk_elems a ++ blk_elems b.
Proof. unfold blk_elems. rewrite !flat_map_concat_map, map_app, concat_app. reflexivity. Qed.

Definition good_blk (b : blk) : Prop := blk_elems [b] <> [].

Lemma param_blocks_spec imgs col : NoDup (map im_id imgs) -> Forall wf_image imgs -> (total imgs <= 2147483648)%Z ->
  forall l, placed imgs l ->
  exists bs, param_blocks (layout imgs 0) col l = Ok bs /\ Forall good_blk bs /\
    Forall (fun e => (0 <= fst (fst e) < total imgs)%Z /\ snd (fst e) = col) (blk_elems bs) /\
    forall dd r, row_sum (blk_elems bs) dd r ==
      nth col dd 0 * qsum (map (fun pj => contrib (fst pj) (snd pj) (offz imgs (snd pj)) r) l).
Proof.
  intros ND F TB. induction l as [|[p i] l IH]; intros HP; simpl.
  - exists []. split; auto. split; auto. split; [constructor|]. intros dd r. unfold row_sum; simpl. ring.
  - destruct (HP p i (or_introl eq_refl)) as (W1 & W2 & I).
    destruct (off_in imgs i ND F I) as (k & Ek & Eo & O1 & O2).
    destruct (deriv_block_spec (layout imgs 0) col p i _ W1 W2 Eo O1 ltac:(lia)) as (ob & -> & R & NE & S).
    destruct IH as (bs & -> & GB & R2 & S2); [intros q j J; apply HP; right; auto|].
    cbn [bind]. eexists. split; [reflexivity|]. cbv zeta in *.
    assert (EB : blk_elems (match ob with Some b => b :: bs | None => bs end) =
                 blk_elems (match ob with Some b => [b] | None => [] end) ++ blk_elems bs).
    { destruct ob; [rewrite <- blk_elems_app|]; reflexivity. }
    split; [destruct ob as [b|]; auto; constructor; auto; apply NE; discriminate|].
    rewrite EB. split.
    + apply Forall_app. split; auto. eapply Forall_impl; [|apply R]. intros e (A & B). split; auto. lia.
    + intros dd r. rewrite row_sum_app, S, S2. unfold offz at 2. rewrite Eo. ring.
Qed.

Lemma all_blocks_spec imgs : NoDup (map im_id imgs) -> Forall wf_image imgs -> (total imgs <= 2147483648)%Z ->
  forall ds col, placed imgs (concat ds) ->
  exists bs, all_blocks (layout imgs 0) col ds = Ok bs /\ Forall good_blk bs /\
    Forall (fun e => (0 <= fst (fst e) < total imgs)%Z /\ (col <= snd (fst e) < col + length ds)%nat) (blk_elems bs) /\
    forall dd r, row_sum (blk_elems bs) dd r == row_value imgs (combine (seq col (length ds)) ds) dd r.
Proof.
  intros ND F TB. induction ds as [|l ds IH]; intros col HP; simpl.
  - exists []. split; auto. split; auto. split; [constructor|]. intros dd r. reflexivity.
  - destruct (param_blocks_spec imgs col ND F TB l) as (b & -> & G1 & R1 & S1).
    { intros q j J. apply HP. simpl. apply in_or_app; auto. }
    destruct (IH (S col)) as (bs & -> & G2 & R2 & S2).
    { intros q j J. apply HP. simpl. apply in_or_app; auto. }
    cbn [bind]. eexists. split; [reflexivity|]. split; [apply Forall_app; auto|].
    rewrite blk_elems_app. split.
    + apply Forall_app. split; [eapply Forall_impl; [|apply R1]|eapply Forall_impl; [|apply R2]]; simpl; intros e (A & B); split; auto; lia.
    + intros dd r. rewrite row_sum_app, S1, S2. unfold row_value. simpl. reflexivity.
Qed.

(** At the row of pixel (X, Y) of image i only the patches on i contribute. *)
Lemma contrib_at imgs k i X Y p j : NoDup (map im_id imgs) -> Forall wf_image imgs ->
  nth_error imgs k = Some i -> In j imgs -> (0 <= X < im_w i)%Z -> (0 <= Y < im_h i)%Z ->
  contrib p j (offz imgs j) (offset imgs k + Y * im_w i + X)%Z ==
  if (im_id j =? im_id i)%nat then img_at 0 p X Y * px (im_ie i) Y X else 0.
Proof.
  intros ND F Ek Ij HX HY.
  destruct (off_in imgs j ND F Ij) as (k' & Ek' & Eo & O1 & O2). unfold offz. rewrite Eo. unfold contrib.
  pose proof (offset_succ imgs k i Ek) as S1. pose proof (offset_succ imgs k' j Ek') as S2.
  unfold npix in *.
  destruct (Nat.eqb_spec (im_id j) (im_id i)) as [E|N].
  - assert (k' = k).
    { pose proof (NoDup_nth_error (map im_id imgs)) as NN. destruct NN as (NN & _). apply (NN ND).
      - rewrite map_length. apply nth_error_Some. congruence.
      - rewrite (map_nth_error _ _ _ Ek), (map_nth_error _ _ _ Ek'). congruence. }
    subst k'. rewrite Ek in Ek'. injection Ek' as <-.
    replace ((offset imgs k <=? offset imgs k + Y * im_w i + X) && (offset imgs k + Y * im_w i + X <? offset imgs k + im_w i * im_h i))%Z with true.
    2:{ symmetry. apply andb_true_iff. rewrite Z.leb_le, Z.ltb_lt. nia. }
    replace (offset imgs k + Y * im_w i + X - offset imgs k)%Z with (X + Y * im_w i)%Z by lia.
    rewrite Z.mod_add, Z.div_add, Z.mod_small, Z.div_small by lia. reflexivity.
  - assert (k' <> k) by (intros ->; congruence).
    match goal with |- (if ?c then _ else _) == _ => destruct c eqn:EC end; [exfalso|reflexivity].
    apply andb_true_iff in EC. rewrite Z.leb_le, Z.ltb_lt in EC.
    destruct (Nat.lt_total k k') as [L|[L|L]]; [|lia|].
    + pose proof (offset_mono imgs (S k) k' F L). nia.
    + pose proof (offset_mono imgs (S k') k F L). nia.
Qed.

Lemma row_value_pixel imgs ds k i X Y dd : NoDup (map im_id imgs) -> Forall wf_image imgs ->
  placed imgs (concat ds) -> nth_error imgs k = Some i -> (0 <= X < im_w i)%Z -> (0 <= Y < im_h i)%Z ->
  row_value imgs (combine (seq 0 (length ds)) ds) dd (offset imgs k + Y * im_w i + X)%Z == model_change ds i dd X Y.
Proof.
  intros ND F HP Ek HX HY. unfold row_value, model_change. apply qsum_ext. intros [c l] I. cbn [fst snd].
  apply Qmult_comp; [reflexivity|]. apply qsum_ext. intros [p j] J. cbn [fst snd].
  apply contrib_at; auto. apply in_combine_r in I. apply (HP p j). apply in_concat. eauto.
Qed.

Lemma row_value_beyond imgs ds dd r : NoDup (map im_id imgs) -> Forall wf_image imgs -> placed imgs (concat ds) -> (total imgs <= r)%Z ->
  row_value imgs (combine (seq 0 (length ds)) ds) dd r == 0.
Proof.
  intros ND F HP Hr. unfold row_value. apply qsum_zero. intros [c l] I. cbn [fst snd].
  rewrite qsum_zero; [ring|]. intros [p j] J. cbn [fst snd].
  apply in_combine_r in I. destruct (HP p j) as (_ & _ & Ij); [apply in_concat; eauto|].
  destruct (off_in imgs j ND F Ij) as (k & Ek & Eo & O1 & O2). unfold offz, contrib. rewrite Eo.
  match goal with |- (if ?c then _ else _) == _ => destruct c eqn:EC end; [exfalso|reflexivity].
  apply andb_true_iff in EC. rewrite Z.leb_le, Z.ltb_lt in EC. lia.
Qed.

(** ** Right-hand side *)
Lemma grid_length h w : (0 <= h)%Z -> (0 <= w)%Z -> length (grid h w) = Z.to_nat (w * h).
Proof.
  intros. unfold grid. rewrite flat_map_len with (w := Z.to_nat w) by (intros; rewrite map_length, seq_length; auto).
  rewrite seq_length. nia.
Qed.
Lemma grid_nth h w y x : (0 <= y < h)%Z -> (0 <= x < w)%Z -> nth_error (grid h w) (Z.to_nat (y * w + x)) = Some (y, x).
Proof.
  intros Hy Hx. unfold grid.
  replace (Z.to_nat (y * w + x)) with (Z.to_nat y * Z.to_nat w + Z.to_nat x)%nat by nia.
  erewrite nth_flat_map; [| intros; rewrite map_length, seq_length; auto | apply nth_seq; lia | lia].
  rewrite (map_nth_error _ _ _ (nth_seq (Z.to_nat w) (Z.to_nat x) ltac:(lia))). rewrite !Z2Nat.id by lia. reflexivity.
Qed.

Definition all_chi (imgs : list image) : list Q := concat (map (fun i => ravel (im_chi i)) imgs).

Lemma ravel_len i : wf_image i -> length (ravel (im_chi i)) = Z.to_nat (npix i).
Proof. intros (A & B & C & D & E & F). unfold ravel. rewrite map_length, E, F, grid_length by lia. reflexivity. Qed.

Lemma all_chi_len imgs : Forall wf_image imgs -> length (all_chi imgs) = Z.to_nat (total imgs).
Proof.
  induction 1 as [|i l W F IH]; simpl; auto. unfold all_chi in *. simpl. rewrite app_length, IH, ravel_len by auto.
  pose proof (total_nonneg l F). destruct W as (A & B & _). unfold npix. nia.
Qed.

Lemma set_slice_mid pre mid post v : length v = length mid ->
  set_slice (pre ++ mid ++ post) (length pre) v = pre ++ v ++ post.
Proof.
  intros L. unfold set_slice. rewrite firstn_app, Nat.sub_diag, firstn_all. simpl. rewrite app_nil_r. do 2 f_equal.
  rewrite skipn_app, skipn_all2 by lia. simpl. replace (length pre + length v - length pre)%nat with (length mid) by lia.
  rewrite skipn_app, skipn_all, Nat.sub_diag. reflexivity.
Qed.

Lemma fill_chi_spec : forall imgs o pre post, Forall wf_image imgs -> (0 <= o)%Z -> length pre = Z.to_nat o ->
  fill_chi (layout imgs o) (pre ++ repeat 0 (Z.to_nat (total imgs)) ++ post) = Ok (pre ++ all_chi imgs ++ post).
Proof.
  induction imgs as [|i imgs IH]; intros o pre post F HO HP; simpl; [reflexivity|].
  inversion F as [|? ? W F']; subst. pose proof (total_nonneg imgs F') as TN.
  assert (NP : (0 <= npix i)%Z) by (destruct W as (A & B & _); unfold npix; nia).
  pose proof (ravel_len i W) as RL. rewrite RL.
  replace (Z.to_nat (npix i + total imgs)) with (Z.to_nat (npix i) + Z.to_nat (total imgs))%nat by lia.
  rewrite repeat_app.
  assert (SL : slice (Z.to_nat o) (Z.to_nat o + Z.to_nat (npix i))
            (pre ++ (repeat 0 (Z.to_nat (npix i)) ++ repeat 0 (Z.to_nat (total imgs))) ++ post) = repeat 0 (Z.to_nat (npix i))).
  { unfold slice. rewrite skipn_app, skipn_all2 by lia. rewrite <- HP, Nat.sub_diag. simpl.
    replace (length pre + Z.to_nat (npix i) - length pre)%nat with (Z.to_nat (npix i)) by lia.
    rewrite <- app_assoc, firstn_app, repeat_length, Nat.sub_diag. simpl.
    rewrite app_nil_r. rewrite firstn_all2 by (rewrite repeat_length; lia). reflexivity. }
  rewrite SL.
  replace (forallb (fun v => Qeq_bool v 0) (repeat 0 (Z.to_nat (npix i)))) with true.
  2:{ symmetry. apply forallb_forall. intros v Hv. apply repeat_spec in Hv. subst. reflexivity. }
  rewrite repeat_length, Nat.eqb_refl.
  assert (SS : set_slice (pre ++ (repeat 0 (Z.to_nat (npix i)) ++ repeat 0 (Z.to_nat (total imgs))) ++ post) (Z.to_nat o) (ravel (im_chi i)) =
      (pre ++ ravel (im_chi i)) ++ repeat 0 (Z.to_nat (total imgs)) ++ post).
  { rewrite <- HP, <- !app_assoc. apply set_slice_mid. rewrite RL, repeat_length. reflexivity. }
  rewrite SS. rewrite IH; auto; [|lia|rewrite app_length, RL; lia].
  unfold all_chi. simpl. rewrite <- !app_assoc. reflexivity.
Qed.

Lemma nth_all_chi : forall imgs k i X Y post, Forall wf_image imgs -> nth_error imgs k = Some i ->
  (0 <= X < im_w i)%Z -> (0 <= Y < im_h i)%Z ->
  nth (Z.to_nat (offset imgs k + Y * im_w i + X)) (all_chi imgs ++ post) 0 = px (im_chi i) Y X.
Proof.
  induction imgs as [|j imgs IH]; intros k i X Y post F E HX HY; [destruct k; discriminate|].
  inversion F as [|? ? W F']; subst. unfold all_chi. simpl.
  pose proof (ravel_len j W) as RL. rewrite <- app_assoc.
  destruct k as [|k]; simpl in E.
  - injection E as ->. unfold offset; simpl. replace (Y * im_w i + X)%Z with (Y * im_w i + X)%Z by lia.
    destruct W as (A & B & C & D & E & G). rewrite app_nth1 by (rewrite RL; unfold npix; nia).
    unfold ravel. rewrite E, G. apply nth_error_nth.
    apply (map_nth_error (fun yx => px (im_chi i) (fst yx) (snd yx)) _ _ (grid_nth (im_h i) (im_w i) Y X HY HX)).
  - pose proof (offset_le imgs k F') as OL. unfold offset in *. cbn [firstn]. 
    change (total (j :: firstn k imgs)) with (npix j + total (firstn k imgs))%Z.
    assert (NP : (0 <= npix j)%Z) by (destruct W as (A & B & _); unfold npix; nia).
    rewrite app_nth2 by (rewrite RL; nia). rewrite RL.
    replace (Z.to_nat (npix j + total (firstn k imgs) + Y * im_w i + X) - Z.to_nat (npix j))%nat
      with (Z.to_nat (total (firstn k imgs) + Y * im_w i + X)) by nia.
    apply IH; auto.
Qed.
