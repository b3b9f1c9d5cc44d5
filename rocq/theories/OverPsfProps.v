(** C111: stars drawn from a stamp sampled at another spacing than the image. *)
From Coq Require Import Reals List ZArith Bool Lia Lra.
From Flocq Require Import Core.
From Verif Require Import Base PatchModel PatchSpec PsfModel OverPsfModel.
Import ListNotations.
Open Scope R_scope.

Section C111.
Variable interp : arr R -> R -> R -> R.
Variable rnd : R -> Z.

(** ** Specification: the stamp, its pixels s image pixels wide, with its middle
    at (x, y), read at the image pixel (X, Y) *)
Definition psf_at (img : arr R) (s x y : R) (X Y : Z) : R :=
  interp img (IZR (aw img / 2) + (IZR X - x) / s) (IZR (ah img / 2) + (IZR Y - y) / s).
Definition in_mask (m : mask) (X Y : Z) : bool :=
  (mx0 m <=? X)%Z && (X <? mx0 m + mw m)%Z && (my0 m <=? Y)%Z && (Y <? my0 m + mh m)%Z.
Definition nearest : Prop := forall v, Rabs (v - IZR (rnd v)) <= 1 / 2.

Lemma sample_px (img : arr R) s (x y : R) xlo ylo w h ix iy a : s <> 0 ->
  sample_image interp img s (x - IZR ix) (y - IZR iy) xlo ylo w h = Ok a ->
  ah a = h /\ aw a = w /\ forall j i, px a j i = psf_at img s x y (i + xlo + ix) (j + ylo + iy).
Proof.
  intros S0 E. unfold sample_image in E. destruct (_ || _); [discriminate|]. injection E as <-. cbn [ah aw px].
  split; [auto|]. split; [auto|]. intros j i. unfold psf_at. rewrite !plus_IZR. f_equal; field; auto.
Qed.
Lemma sample_ok (img : arr R) s dx dy xlo ylo w h : (0 <= w)%Z -> (0 <= h)%Z ->
  exists a, sample_image interp img s dx dy xlo ylo w h = Ok a.
Proof.
  intros Hw Hh. unfold sample_image. destruct (Z.ltb_spec h 0), (Z.ltb_spec w 0); try lia. eexists; reflexivity.
Qed.
Lemma native_nonneg n s : (0 <= n)%Z -> 0 <= s -> (0 <= native n s)%Z.
Proof.
  intros N S0. unfold native. apply le_IZR. eapply Rle_trans; [|apply Zceil_ub]. apply IZR_le in N. apply Rmult_le_pos; lra.
Qed.

(** With a model mask: the PSF at every pixel of the mask, wherever the star is. *)
Theorem C111_mask (img : arr R) s x y m r : s <> 0 -> (0 <= mw m)%Z -> (0 <= mh m)%Z ->
  exists p, over_patch interp rnd false img s x y (Some m) r = Ok p /\
    forall X Y, val_at p X Y = if in_mask m X Y then Some (psf_at img s x y X Y) else None.
Proof.
  intros S0 Hw Hh. unfold over_patch, sample.
  destruct (sample_ok img s (x - IZR (rnd x)) (y - IZR (rnd y)) (mx0 m - rnd x) (my0 m - rnd y) (mw m) (mh m) Hw Hh) as (a & E).
  rewrite E. cbn [bind]. eexists. split; [reflexivity|]. destruct (sample_px _ _ _ _ _ _ _ _ _ _ _ S0 E) as (A & B & P).
  intros X Y. unfold val_at, in_mask. cbn [pimg x0 y0]. rewrite A, B, P.
  replace (mx0 m - rnd x + rnd x)%Z with (mx0 m) by lia. replace (my0 m - rnd y + rnd y)%Z with (my0 m) by lia.
  destruct (_ && _); auto. do 2 f_equal; lia.
Qed.

(** Without: the PSF at a box of pixels about the rounded position. *)
Definition in_native (n c X : Z) : bool := (- (n / 2) <=? X - c)%Z && (X - c <? n - n / 2)%Z.
Theorem C111_full (img : arr R) s x y : 0 < s -> (0 <= aw img)%Z -> (0 <= ah img)%Z ->
  exists p, over_patch interp rnd false img s x y None None = Ok p /\
    forall X Y, val_at p X Y =
      if in_native (native (aw img) s) (rnd x) X && in_native (native (ah img) s) (rnd y) Y then Some (psf_at img s x y X Y) else None.
Proof.
  intros S0 Hw Hh. unfold over_patch, sample. set (nw := native (aw img) s). set (nh := native (ah img) s).
  destruct (sample_ok img s (x - IZR (rnd x)) (y - IZR (rnd y)) (- (nw / 2)) (- (nh / 2)) nw nh) as (a & E);
    [apply native_nonneg; lra || auto|apply native_nonneg; lra || auto|].
  rewrite E. cbn [bind]. eexists. split; [reflexivity|]. destruct (sample_px _ _ _ _ _ _ _ _ _ _ _ (Rgt_not_eq _ _ S0) E) as (A & B & P).
  intros X Y. unfold val_at, in_native. cbn [pimg x0 y0]. rewrite A, B, P.
  assert (C : forall b b' : bool, b = b' -> forall v w : R, v = w -> (if b then Some v else None) = if b' then Some w else None) by (intros; subst; auto).
  apply C; [|f_equal; lia]. rewrite <- !andb_assoc.
  apply eq_true_iff_eq. rewrite !andb_true_iff, !Z.leb_le, !Z.ltb_lt. lia.
Qed.

Lemma nearest_bounds v : nearest -> v - 1 / 2 <= IZR (rnd v) <= v + 1 / 2.
Proof. intros N. specialize (N v). apply Rabs_le_inv in N. lra. Qed.
Lemma half_bounds n : (0 <= n)%Z -> IZR n / 2 - 1 / 2 <= IZR (n / 2) <= IZR n / 2.
Proof.
  intros N. pose proof (Z.div_mod n 2 ltac:(lia)) as D. pose proof (Z.mod_pos_bound n 2 ltac:(lia)) as M.
  apply (f_equal IZR) in D. rewrite plus_IZR, mult_IZR in D. assert (0 <= IZR (n mod 2) <= 1) by (split; apply IZR_le; lia). lra.
Qed.
Lemma in_native_of (n c X : Z) : (0 <= n)%Z -> Rabs (IZR X - IZR c) < IZR (n / 2) -> in_native n c X = true.
Proof.
  intros N A. apply Rabs_def2 in A. destruct A as [A B]. rewrite <- minus_IZR in A, B. rewrite <- opp_IZR in B. apply lt_IZR in A. apply lt_IZR in B.
  unfold in_native. assert (n / 2 <= n - n / 2)%Z by (pose proof (Z.div_mod n 2 ltac:(lia)); pose proof (Z.mod_pos_bound n 2 ltac:(lia)); lia).
  apply andb_true_iff. rewrite Z.leb_le, Z.ltb_lt. lia.
Qed.
(** So every pixel more than a pixel inside the edge of the stamp is drawn. *)
Theorem C111_cover (img : arr R) s x y : nearest -> 0 < s -> (0 <= aw img)%Z -> (0 <= ah img)%Z ->
  exists p, over_patch interp rnd false img s x y None None = Ok p /\
    forall X Y, Rabs (IZR X - x) < IZR (aw img) * s / 2 - 1 -> Rabs (IZR Y - y) < IZR (ah img) * s / 2 - 1 ->
      val_at p X Y = Some (psf_at img s x y X Y).
Proof.
  intros N S0 Hw Hh. destruct (C111_full img s x y S0 Hw Hh) as (p & E & P). exists p. split; auto. intros X Y HX HY. rewrite P.
  assert (G : forall n v X, (0 <= n)%Z -> Rabs (IZR X - v) < IZR n * s / 2 - 1 -> in_native (native n s) (rnd v) X = true).
  { intros n v Z Hn HZ. pose proof (native_nonneg n s Hn (Rlt_le _ _ S0)) as Q. apply in_native_of; auto.
    pose proof (half_bounds _ Q). pose proof (nearest_bounds v N). pose proof (Zceil_ub (IZR n * s)) as U. fold (native n s) in U.
    apply Rabs_def2 in HZ. apply Rabs_def1; lra. }
  rewrite !G by auto. reflexivity.
Qed.

(** A radius keeps the pixels within ceil(radius) of the rounded position,
    but for the last row and the last column. *)
Definition in_radius (n c R X : Z) : bool := (- R <=? X - c)%Z && (X - c <=? R)%Z && (X - c <? n - n / 2 - 1)%Z.
Lemma crop_axis n q R k : (0 <= n)%Z -> (0 <= R)%Z -> q = (n / 2)%Z ->
  let lo := Z.max (q - R) 0 in let s := mkSl lo (Z.min (q + R + 1) (n - 1)) in
  (n = 0%Z \/ (0 <= k - lo < sl_len n s)%Z <-> n = 0%Z \/ (- R <= k - q <= R /\ - q <= k - q < n - q - 1)%Z) /\
  ((0 <= k - lo < sl_len n s)%Z -> sl_start n s = lo).
Proof.
  intros N Q -> lo s. assert (B : (0 <= n / 2 <= n)%Z) by (split; [apply Z.div_pos; lia|apply Z.div_le_upper_bound; lia]).
  unfold sl_len, sl_start, norm_idx, s, lo. cbn [sstart sstop].
  destruct (Z.ltb_spec (Z.max (n / 2 - R) 0) 0); [lia|]. destruct (Z.ltb_spec (Z.min (n / 2 + R + 1) (n - 1)) 0); split; try (split; intros); lia.
Qed.
Theorem C111_radius (img : arr R) s x y r : 0 < s -> (0 < aw img)%Z -> (0 < ah img)%Z -> 0 <= r ->
  exists p, over_patch interp rnd false img s x y None (Some r) = Ok p /\
    forall X Y, val_at p X Y =
      if in_radius (native (aw img) s) (rnd x) (Zceil r) X && in_radius (native (ah img) s) (rnd y) (Zceil r) Y
         && in_native (native (aw img) s) (rnd x) X && in_native (native (ah img) s) (rnd y) Y
      then Some (psf_at img s x y X Y) else None.
Proof.
  intros S0 Hw Hh R0. unfold over_patch, sample. set (nw := native (aw img) s). set (nh := native (ah img) s).
  assert (Nw : (0 < nw)%Z). { apply lt_IZR. eapply Rlt_le_trans; [|apply Zceil_ub]. apply IZR_lt in Hw. apply Rmult_lt_0_compat; lra. }
  assert (Nh : (0 < nh)%Z). { apply lt_IZR. eapply Rlt_le_trans; [|apply Zceil_ub]. apply IZR_lt in Hh. apply Rmult_lt_0_compat; lra. }
  destruct (sample_ok img s (x - IZR (rnd x)) (y - IZR (rnd y)) (- (nw / 2)) (- (nh / 2)) nw nh) as (a & E); try lia.
  rewrite E. cbn [bind]. eexists. split; [reflexivity|]. destruct (sample_px _ _ _ _ _ _ _ _ _ _ _ (Rgt_not_eq _ _ S0) E) as (A & B & P).
  assert (RZ : (0 <= Zceil r)%Z) by (apply le_IZR; eapply Rle_trans; [exact R0|apply Zceil_ub]).
  intros X Y. unfold val_at, crop. cbn [pimg x0 y0 ah aw px asub]. rewrite A, B.
  set (q := Zceil r) in *. clearbody q.
  destruct (crop_axis nw (nw / 2) q (X - rnd x + nw / 2)) as [Cx Sx]; [lia|auto|auto|].
  destruct (crop_axis nh (nh / 2) q (Y - rnd y + nh / 2)) as [Cy Sy]; [lia|auto|auto|].
  match goal with |- (if ?b then _ else _) = (if ?b' then _ else _) => assert (BB : b = b') end.
  { apply eq_true_iff_eq. unfold in_radius, in_native. rewrite !andb_true_iff, !Z.leb_le, !Z.ltb_lt. lia. }
  rewrite BB. match goal with |- (if ?b then _ else _) = _ => destruct b eqn:T; auto end. f_equal.
  unfold in_radius, in_native in T. rewrite !andb_true_iff, !Z.leb_le, !Z.ltb_lt in T.
  rewrite Sx, Sy by lia. rewrite P. f_equal; lia.
Qed.

(** ** Normalised PSFs *)
Lemma sum_upto_ext f g n : (forall i, (i < n)%nat -> f i = g i) -> sum_upto Rplus 0 f n = sum_upto Rplus 0 g n.
Proof. induction n; intros H; simpl; auto. rewrite IHn by (intros; apply H; lia). rewrite H by lia. reflexivity. Qed.
Lemma sum_upto_div f c n : sum_upto Rplus 0 (fun i => f i / c) n = sum_upto Rplus 0 f n / c.
Proof. induction n; simpl; [unfold Rdiv; ring|]. rewrite IHn. unfold Rdiv. ring. Qed.
(** Without a mask the patch is the PSF over a constant, and sums to one. *)
Theorem C111_normalized (img : arr R) s x y : 0 < s -> (0 <= aw img)%Z -> (0 <= ah img)%Z ->
  exists a p q, over_patch interp rnd false img s x y None None = Ok p /\ pimg p = Some a /\
    over_patch interp rnd true img s x y None None = Ok q /\
    let n := arr_sum Rplus 0 a in
    (n <> 0 -> exists b, pimg q = Some b /\ arr_sum Rplus 0 b = 1 /\ forall X Y, val_at q X Y = option_map (fun v => v / n) (val_at p X Y)) /\
    (n = 0 -> q = p).
Proof.
  intros S0 Hw Hh. unfold over_patch, sample. set (nw := native (aw img) s). set (nh := native (ah img) s).
  destruct (sample_ok img s (x - IZR (rnd x)) (y - IZR (rnd y)) (- (nw / 2)) (- (nh / 2)) nw nh) as (a & E);
    [apply native_nonneg; lra || auto|apply native_nonneg; lra || auto|].
  rewrite E. cbn [bind]. do 3 eexists. split; [reflexivity|]. split; [reflexivity|]. split; [reflexivity|].
  cbv zeta. unfold normalize. destruct (Req_EM_T _ 0) as [Z|NZ]; split; intros H; try contradiction; auto.
  eexists. split; [reflexivity|]. split.
  - unfold arr_sum at 1. cbn [ah aw px].
    rewrite (sum_upto_ext _ (fun yy => sum_upto Rplus 0 (fun xx => px a (Z.of_nat yy) (Z.of_nat xx)) (Z.to_nat (aw a)) / arr_sum Rplus 0 a))
      by (intros; apply sum_upto_div).
    rewrite sum_upto_div. fold (arr_sum Rplus 0 a). field. auto.
  - intros X Y. unfold val_at. cbn [pimg x0 y0 ah aw px]. destruct (_ && _); auto.
Qed.
(** With a mask the sum is taken over the mask: a mask of one pixel holds the
    light of the whole star, wherever the pixel is. *)
Theorem C111_normalized_mask_refuted (img : arr R) s x y X Y r : s <> 0 -> psf_at img s x y X Y <> 0 ->
  exists p, over_patch interp rnd true img s x y (Some (mkMask X Y 1 1)) r = Ok p /\ val_at p X Y = Some 1.
Proof.
  intros S0 NZ. unfold over_patch, sample. cbn [mx0 my0 mw mh].
  destruct (sample_ok img s (x - IZR (rnd x)) (y - IZR (rnd y)) (X - rnd x) (Y - rnd y) 1 1) as (a & E); try lia.
  rewrite E. cbn [bind]. eexists. split; [reflexivity|]. destruct (sample_px _ _ _ _ _ _ _ _ _ _ _ S0 E) as (A & B & P).
  unfold normalize. assert (Q : arr_sum Rplus 0 a = psf_at img s x y X Y).
  { unfold arr_sum. rewrite A, B. simpl. rewrite P, !Rplus_0_l. f_equal; lia. }
  rewrite Q. destruct (Req_EM_T _ 0); [contradiction|]. unfold val_at. cbn [pimg x0 y0 ah aw px]. rewrite A, B.
  replace (X - rnd x + rnd x)%Z with X by lia. replace (Y - rnd y + rnd y)%Z with Y by lia.
  rewrite Z.leb_refl. destruct (Z.ltb_spec X (X + 1)); [|lia]. rewrite Z.leb_refl. destruct (Z.ltb_spec Y (Y + 1)); [|lia]. cbn [andb].
  f_equal. rewrite P. replace (X - X + (X - rnd x) + rnd x)%Z with X by lia. replace (Y - Y + (Y - rnd y) + rnd y)%Z with Y by lia. field. auto.
Qed.

(** ** Stars off the image are skipped *)
(** With stamps at least as fine as the image, a skipped star has no pixel there. *)
Theorem C111_skip (img : arr R) s x y W H : nearest -> 0 < s <= 1 -> (0 <= aw img)%Z -> (0 <= ah img)%Z ->
  unit_patch interp rnd false img s x y W H None = Ok None ->
  exists p, over_patch interp rnd false img s x y None None = Ok p /\
    forall X Y, (0 <= X < W)%Z -> (0 <= Y < H)%Z -> val_at p X Y = None.
Proof.
  intros N S0 Hw Hh U. destruct (C111_full img s x y ltac:(lra) Hw Hh) as (p & E & P). exists p. split; auto.
  unfold unit_patch in U. cbv zeta in U. set (r := psf_radius img) in *.
  assert (Rw : IZR (aw img) / 2 <= r /\ IZR (ah img) / 2 <= r).
  { apply IZR_le in Hw. apply IZR_le in Hh. unfold r, psf_radius.
    pose proof (Rle_0_sqr (IZR (aw img) / 2)) as Q1. pose proof (Rle_0_sqr (IZR (ah img) / 2)) as Q2. unfold Rsqr in *.
    assert (SQ : forall a b, 0 <= a -> a * a <= b -> a <= sqrt b) by (intros a b A0 AB; rewrite <- (sqrt_square a) by auto; apply sqrt_le_1_alt; auto).
    split; apply SQ; lra. }
  assert (G : forall n v Z L, (0 <= n)%Z -> IZR n / 2 <= r -> (0 <= Z < L)%Z -> v + r < 0 \/ IZR L < v - r -> in_native (native n s) (rnd v) Z = false).
  { intros n v Z L Hn Hr HZ HO. apply not_true_iff_false. intros T. unfold in_native in T. rewrite andb_true_iff, Z.leb_le, Z.ltb_lt in T.
    destruct T as [T1 T2]. apply IZR_le in T1. assert (T3 : (Z - rnd v + 1 <= native n s - native n s / 2)%Z) by lia. apply IZR_le in T3.
    rewrite opp_IZR, minus_IZR in T1. rewrite plus_IZR, !minus_IZR in T3. pose proof (nearest_bounds v N) as NB.
    assert (NN : (native n s <= n)%Z).
    { unfold native. rewrite <- (Zceil_IZR n) at 2. apply Zceil_le. apply IZR_le in Hn. nra. }
    pose proof (half_bounds _ (native_nonneg n s Hn ltac:(lra))) as HB. apply IZR_le in NN.
    destruct HZ as [Z0 ZL]. assert (ZL' : (Z + 1 <= L)%Z) by lia. apply IZR_le in Z0. apply IZR_le in ZL'. rewrite plus_IZR in ZL'.
    destruct HO; lra. }
  intros X Y HX HY. rewrite P.
  destruct (Rlt_dec (x + r) 0). { rewrite (G _ x X W); auto; tauto. }
  destruct (Rlt_dec (IZR W) (x - r)). { rewrite (G _ x X W); auto; tauto. }
  destruct (Rlt_dec (y + r) 0). { rewrite (G _ y Y H), andb_false_r; auto; tauto. }
  destruct (Rlt_dec (IZR H) (y - r)). { rewrite (G _ y Y H), andb_false_r; auto; tauto. }
  rewrite E in U. discriminate.
Qed.
End C111.

(** ** Cases *)
(** Half up; the value of the nearest pixel of the stamp *)
Definition near_int (v : R) : Z := Zfloor (v + 1 / 2).
Definition read (img : arr R) (x y : R) : R :=
  let i := near_int x in let j := near_int y in
  if (0 <=? i)%Z && (i <? aw img)%Z && (0 <=? j)%Z && (j <? ah img)%Z then px img j i else 0.
Lemma near_int_nearest : nearest near_int.
Proof.
  intros v. unfold near_int. pose proof (Zfloor_lb (v + 1 / 2)). pose proof (Zfloor_ub (v + 1 / 2)). apply Rabs_le. lra.
Qed.
Lemma near_int_eq v n : IZR n - 1 / 2 <= v < IZR n + 1 / 2 -> near_int v = n.
Proof. intros H. apply Zfloor_imp. rewrite plus_IZR. lra. Qed.
Definition ones : arr R := mkArr 3 3 (fun _ _ => 1).

(** A stamp whose pixels are three image pixels wide: a star three pixels left
    of an image is skipped, though its stamp reaches into the image. *)
Theorem C111_skip_refuted : unit_patch read near_int false ones 3 (-3) 5 10 10 None = Ok None /\
  exists p, over_patch read near_int false ones 3 (-3) 5 None None = Ok p /\ val_at p 0 5 = Some 1.
Proof.
  split.
  - unfold unit_patch, psf_radius, ones. cbn [ah aw]. destruct (Rlt_dec _ 0) as [|H]; auto. exfalso. apply H.
    assert (sqrt (3 / 2 * (3 / 2) + 3 / 2 * (3 / 2)) < 3); [|lra]. rewrite <- (sqrt_square 3) at 5 by lra. apply sqrt_lt_1; lra.
  - destruct (C111_full read near_int ones 3 (-3) 5) as (p & E & P); [lra|cbn; lia|cbn; lia|]. exists p. split; auto. rewrite P.
    replace (native (aw ones) 3) with 9%Z by (unfold native, ones; cbn [aw]; rewrite <- mult_IZR; symmetry; apply Zceil_IZR).
    replace (native (ah ones) 3) with 9%Z by (unfold native, ones; cbn [ah]; rewrite <- mult_IZR; symmetry; apply Zceil_IZR).
    rewrite (near_int_eq (-3) (-3)) by lra. rewrite (near_int_eq 5 5) by lra. 
    change (in_native 9 (-3) 0) with true. change (in_native 9 5 5) with true. cbn [andb]. f_equal.
    unfold psf_at, read. rewrite (near_int_eq _ 2) by (cbn; lra). rewrite (near_int_eq _ 1) by (cbn; lra). reflexivity.
Qed.
Example C111_ex : exists p, over_patch read near_int false ones (1 / 2) 4 5 None None = Ok p /\ val_at p 4 5 = Some 1 /\ val_at p 5 5 = None.
Proof.
  destruct (C111_full read near_int ones (1 / 2) 4 5) as (p & E & P); [lra|cbn; lia|cbn; lia|]. exists p. split; auto. rewrite !P.
  assert (NN : native 3 (1 / 2) = 2%Z) by (unfold native; apply Zceil_imp; cbn; lra).
  change (aw ones) with 3%Z. change (ah ones) with 3%Z. rewrite NN. rewrite (near_int_eq 4 4), (near_int_eq 5 5) by lra.
  change (in_native 2 4 4) with true. change (in_native 2 5 5) with true. change (in_native 2 4 5) with false. cbn [andb]. split; auto. f_equal.
  unfold psf_at, read. rewrite (near_int_eq _ 1) by (cbn; lra). rewrite (near_int_eq _ 1) by (cbn; lra). reflexivity.
Qed.

Print Assumptions C111_mask.
Print Assumptions C111_full.
Print Assumptions C111_cover.
Print Assumptions C111_radius.
Print Assumptions C111_normalized.
Print Assumptions C111_normalized_mask_refuted.
Print Assumptions C111_skip.
Print Assumptions C111_skip_refuted.
