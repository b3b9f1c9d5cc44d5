(** C53: coordinates of subimages agree with the parent image; C55: the
    polynomial terms of a PsfEx model. *)
From Coq Require Import List Reals ZArith QArith Qround Bool Lia Lra Psatz.
From Verif Require Import Base PatchModel RoiModel RoiProps ShiftModel.
Import ListNotations.
Open Scope R_scope.

(** *** Specification: [w'] is the WCS of the subimage of [w] that starts at
    (dx, dy) *)
Definition is_subimage (w' w : wcs) (dx dy : R) : Prop :=
  (forall p, position_to_pixel w' p = (fst (position_to_pixel w p) - dx, snd (position_to_pixel w p) - dy)) /\
  (forall x y, pixel_to_position w' x y = pixel_to_position w (x + dx) (y + dy)) /\
  (forall cosd x y, cd_at_pixel cosd w' x y = cd_at_pixel cosd w (x + dx) (y + dy)).

Theorem C53_fits : forall f x0 y0 dx dy, exists w',
  wcs_shifted (FitsWcs f x0 y0) dx dy = Ok w' /\ is_subimage w' (FitsWcs f x0 y0) dx dy.
Proof.
  intros. eexists. split; [reflexivity|]. split; [|split]; cbn.
  - intros p. f_equal; ring.
  - intros x y. do 3 f_equal; ring.
  - reflexivity.
Qed.
Theorem C53_wrapper : forall w dx dy, is_subimage (ShiftedWcs w dx dy) w dx dy.
Proof. intros. split; [|split]; reflexivity. Qed.
Theorem C53_compose : forall w w1 w2 a b c d,
  is_subimage w1 w a b -> is_subimage w2 w1 c d -> is_subimage w2 w (a + c) (b + d).
Proof.
  intros w w1 w2 a b c d (P1 & X1 & D1) (P2 & X2 & D2). split; [|split].
  - intros p. rewrite P2, P1. cbn. f_equal; ring.
  - intros x y. rewrite X2, X1. f_equal; ring.
  - intros cosd x y. rewrite D2, D1. f_equal; ring.
Qed.
(** Hence shifting twice is shifting by the sum, also through the wrapper. *)
Theorem C53_shift_twice : forall f x0 y0 a b c d w1 w2,
  wcs_shifted (FitsWcs f x0 y0) a b = Ok w1 -> wcs_shifted w1 c d = Ok w2 ->
  is_subimage w2 (FitsWcs f x0 y0) (a + c) (b + d) /\
  is_subimage (ShiftedWcs w1 c d) (FitsWcs f x0 y0) (a + c) (b + d).
Proof.
  intros f x0 y0 a b c d w1 w2 H1 H2. destruct (C53_fits f x0 y0 a b) as (v1 & E1 & S1). rewrite E1 in H1. injection H1 as ->.
  split.
  - cbn in E1. injection E1 as <-. destruct (C53_fits f (x0 + a) (y0 + b) c d) as (v2 & E2 & S2).
    rewrite E2 in H2. injection H2 as ->. eapply C53_compose; eauto.
  - eapply C53_compose; [exact S1|apply C53_wrapper].
Qed.
(** Pixel and sky positions stay inverse to each other. *)
Theorem C53_round_trip : forall w w' dx dy, is_subimage w' w dx dy ->
  (forall x y, exists p, pixel_to_position w x y = Ok p /\ position_to_pixel w p = (x, y)) ->
  forall x y, exists p, pixel_to_position w' x y = Ok p /\ position_to_pixel w' p = (x, y).
Proof.
  intros w w' dx dy (P & X & _) H x y. destruct (H (x + dx) (y + dy)) as (p & E1 & E2). exists p.
  rewrite X, P, E2. cbn. split; auto. f_equal; ring.
Qed.
Example C53_round_trip_ex : let w := NullWCS 1 2 3 in
  (forall x y, exists p, pixel_to_position w x y = Ok p /\ position_to_pixel w p = (x, y)) /\
  exists p, pixel_to_position (ShiftedWcs w 10 20) 1 1 = Ok p /\ p = (9, 18).
Proof.
  cbn. split.
  - intros x y. eexists. split; [reflexivity|]. cbn. f_equal; ring.
  - eexists. split; [reflexivity|]. f_equal; ring.
Qed.
(** NullWCS: the shift is ignored, and so are its own offset and pixel scale. *)
Theorem C53_null_refuted : exists w w' dx dy, wcs_shifted w dx dy = Ok w' /\
  ~ is_subimage w' w dx dy /\ is_subimage w' (NullWCS 1 0 0) 0 0 /\
  position_to_pixel w' (5, 5) = position_to_pixel w (5, 5) /\
  cd_at_pixel cos w' 0 0 <> cd_at_pixel cos w 0 0.
Proof.
  exists (NullWCS 2 0 0), (NullWCS 1 0 0), 10, 20. split; [reflexivity|]. split; [|split; [|split]].
  - intros (P & _). specialize (P (0, 0)). cbn in P. injection P as E1 E2. lra.
  - split; [|split]; cbn; intros; try reflexivity.
    + f_equal; ring.
    + apply f_equal. f_equal; ring.
  - reflexivity.
  - cbn. intros E. injection E as E1 E2. lra.
Qed.
(** Wrapped, wcslib and scaled coordinates cannot be shifted again: subimage
    raises. *)
Theorem C53_not_shiftable : forall w x0 y0 f k dx dy,
  wcs_shifted (ShiftedWcs w x0 y0) dx dy = Err AttributeError /\
  wcs_shifted (WcslibWcs f x0 y0) dx dy = Err AttributeError /\
  wcs_shifted (ScaledWcs w k) dx dy = Err AttributeError.
Proof. intros. repeat split. Qed.
(** Scaled coordinates: pixel (x, y) of the scaled image is pixel ((x + 0.5) / k
    - 0.5, ...) of the original; cdAtPixel asks at that x but not at that y. *)
Theorem C53_scaled : forall w k p, k <> 0 ->
  let xy := position_to_pixel (ScaledWcs w k) p in
  position_to_pixel w p = ((fst xy + 0.5) / k - 0.5, (snd xy + 0.5) / k - 0.5).
Proof. intros w k p H. cbn. destruct (position_to_pixel w p) as [x y]. cbn. f_equal; field; auto. Qed.
Theorem C53_scaled_cd_refuted : exists f p, let w := WcslibWcs f 0 0 in let s := ScaledWcs w 2 in
  (forall x y, exists q, pixel_to_position w x y = Ok q /\ position_to_pixel w q = (x, y)) /\
  let xy := position_to_pixel w p in let sxy := position_to_pixel s p in
  cd_at_pixel (fun _ => 1) s (fst sxy) (snd sxy) <> mscale (1 / 2) (cd_at_pixel (fun _ => 1) w (fst xy) (snd xy)).
Proof.
  exists (mkFits (fun p => (fst p - snd p * snd p, snd p)) (fun xy => (fst xy + snd xy * snd xy, snd xy)) ((1, 0), (0, 1))).
  exists (1, 2). cbn zeta. split.
  - intros x y. eexists. split; [reflexivity|]. cbn. f_equal; ring.
  - cbn. unfold wcslib_cd, mscale. cbn. intros E. injection E as _ E _ _. lra.
Qed.

(** *** C53: sky, PSF, pixels *)
Theorem C53_sky : forall s x0 y0 x1 y1 x y,
  sky_at (sky_shifted s x0 y0) x y = sky_at s (x + x0) (y + y0) /\
  sky_at (sky_shifted (sky_shifted s x0 y0) x1 y1) x y = sky_at (sky_shifted s (x0 + x1) (y0 + y1)) x y.
Proof. intros [v|spl a b] *; cbn; split; try reflexivity; f_equal; ring. Qed.
Theorem C53_psfex : forall p dx dy nb x y, polynomials (psfex_shifted p dx dy) nb x y = polynomials p nb (x + dx) (y + dy).
Proof.
  intros. unfold polynomials, poly_writes, psfex_shifted; cbn [px_x0 px_y0 px_xscale px_yscale px_degree].
  replace (x - (px_x0 p - dx)) with (x + dx - px_x0 p) by ring. replace (y - (px_y0 p - dy)) with (y + dy - px_y0 p) by ring. reflexivity.
Qed.
Theorem C53_shifted_psf : forall V (p : psf V) x0 y0 px py r, psf_patch p (px + x0) (py + y0) false = Ok r ->
  psf_patch (ShiftedPsf p x0 y0) px py false =
  Ok (match r with Some (ox, oy, v) => Some (ox - x0, oy - y0, v) | None => None end).
Proof.
  intros. cbn. replace (x0 + px) with (px + x0) by ring. replace (y0 + py) with (py + y0) by ring. rewrite H. cbn.
  destruct r as [[[ox oy] v]|]; reflexivity.
Qed.
Theorem C53_shifted_psf_mask_refuted : forall V (p : psf V) x0 y0 px py,
  psf_patch (ShiftedPsf p x0 y0) px py true = Err AttributeError.
Proof. reflexivity. Qed.

Lemma np_round_add q n : ~ (q - inject_Z (Qfloor q) == 1 # 2)%Q -> np_round (q + inject_Z n) = (np_round q + n)%Z.
Proof.
  intros H. unfold np_round.
  assert (F : Qfloor (q + inject_Z n) = (Qfloor q + n)%Z).
  { apply Z.le_antisymm.
    - apply Z.lt_succ_r. rewrite Zlt_Qlt. apply Qle_lt_trans with (q + inject_Z n)%Q; [apply Qfloor_le|].
      pose proof (Qlt_floor q) as L. rewrite <- Z.add_1_r in *. rewrite !inject_Z_plus in *. lra.
    - apply Z.lt_succ_r. rewrite Zlt_Qlt. eapply Qle_lt_trans; [|rewrite <- Z.add_1_r; apply Qlt_floor].
      rewrite inject_Z_plus. pose proof (Qfloor_le q). lra. }
  rewrite F.
  assert (E : (q + inject_Z n - inject_Z (Qfloor q + n) == q - inject_Z (Qfloor q))%Q) by (rewrite inject_Z_plus; ring).
  rewrite E. destruct (Qcompare_spec (q - inject_Z (Qfloor q)) (1 # 2)); [contradiction|lia|lia].
Qed.
(** A stamp in a subimage is placed as in the parent, unless the position is
    half way between two pixels... *)
Theorem C53_stamp : forall x n W, ~ (x - inject_Z (Qfloor x) == 1 # 2)%Q ->
  stamp_origin (x + inject_Z n) W = (stamp_origin x W + n)%Z /\
  (stamp_frac (x + inject_Z n) == stamp_frac x)%Q /\
  (** the centre pixel of the stamp, moved by the sub-pixel shift, is the position *)
  (inject_Z (stamp_origin x W + W / 2) + stamp_frac x == x)%Q.
Proof.
  intros x n W H. unfold stamp_origin, stamp_frac. rewrite np_round_add by auto. split; [lia|]. rewrite inject_Z_plus. split; [ring|].
  replace (np_round x - W / 2 + W / 2)%Z with (np_round x) by lia. ring.
Qed.
(** ...when it can move by a pixel. *)
Theorem C53_stamp_halfway_refuted : exists x n W, stamp_origin (x + inject_Z n) W <> (stamp_origin x W + n)%Z.
Proof. exists (5 # 2)%Q, 1%Z, 25%Z. vm_compute. discriminate. Qed.

Theorem C53_pixels : forall V (a : arr V) x0 x1 y0 y1,
  (0 <= x0 <= x1)%Z -> (x1 <= aw a)%Z -> (0 <= y0 <= y1)%Z -> (y1 <= ah a)%Z ->
  aw (sub_pixels a x0 x1 y0 y1) = (x1 - x0)%Z /\ ah (sub_pixels a x0 x1 y0 y1) = (y1 - y0)%Z /\
  forall x y, PatchModel.px (sub_pixels a x0 x1 y0 y1) y x = PatchModel.px a (y + y0)%Z (x + x0)%Z.
Proof.
  intros V a x0 x1 y0 y1 HX HW HY HH. unfold sub_pixels, asub, sl_len, sl_start, norm_idx; cbn [aw ah PatchModel.px sstart sstop].
  repeat match goal with |- context [(?u <? 0)%Z] => destruct (Z.ltb_spec u 0); [lia|] end.
  split; [lia|]. split; [lia|]. intros x y. f_equal; lia.
Qed.
(** A negative corner counts from the far edge while the offsets of the WCS do
    not: the pixels no longer match the coordinates. *)
Theorem C53_negative_corner_refuted : exists (a : arr Z) x0 x1 y0 y1, aw a = 10%Z /\ ah a = 10%Z /\
  aw (sub_pixels a x0 x1 y0 y1) = 2%Z /\ PatchModel.px (sub_pixels a x0 x1 y0 y1) 0 0 = 7%Z /\ x0 = (-3)%Z.
Proof. exists (mkArr 10 10 (fun _ x => x))%Z, (-3)%Z, 9%Z, 0%Z, 5%Z. vm_compute. auto. Qed.

(** *** C55: polynomial terms *)
Fixpoint first_index (d k : nat) : nat := match k with O => 0 | S k => first_index d k + (d + 1 - k) end.
Lemma tri k : (S k * (S k - 1) / 2 = k * (k - 1) / 2 + k)%nat.
Proof.
  replace (S k * (S k - 1))%nat with (k * (k - 1) + k * 2)%nat by (destruct k; nia). rewrite Nat.div_add by lia. reflexivity.
Qed.
Lemma tri_le k : (k * (k - 1) / 2 <= k * k)%nat.
Proof. induction k as [|k IH]; [simpl; lia|]. rewrite tri. nia. Qed.
Lemma first_index_spec d k : (k <= d + 1)%nat -> (first_index d k + k * (k - 1) / 2 = (d + 1) * k)%nat.
Proof. induction k as [|k IH]; intros H; [simpl; lia|]. rewrite tri. cbn [first_index]. specialize (IH ltac:(lia)). nia. Qed.
Lemma term_index_first d j k : (k <= d)%nat -> term_index d j k = (first_index d k + j)%nat.
Proof. intros H. unfold term_index. pose proof (first_index_spec d k ltac:(lia)). lia. Qed.
Lemma first_index_mono d a b : (a <= b)%nat -> (first_index d a <= first_index d b)%nat.
Proof. induction 1; cbn [first_index]; lia. Qed.
(** Distinct monomials have distinct places, and the places of the monomials of
    degree up to d are exactly 0 .. (d+1)(d+2)/2 - 1. *)
Theorem C55_index_bijective : forall d,
  (forall j k j' k', (j + k <= d)%nat -> (j' + k' <= d)%nat -> term_index d j k = term_index d j' k' -> j = j' /\ k = k') /\
  (forall j k, (j + k <= d)%nat -> (term_index d j k < (d + 1) * (d + 2) / 2)%nat) /\
  (forall i, (i < (d + 1) * (d + 2) / 2)%nat -> exists j k, (j + k <= d)%nat /\ term_index d j k = i).
Proof.
  intros d.
  assert (NB : ((d + 1) * (d + 2) / 2 = first_index d (d + 1))%nat).
  { pose proof (first_index_spec d (d + 1) ltac:(lia)) as E.
    replace (d + 1 - 1)%nat with d in E by lia.
    assert (E2 : ((d + 1) * d / 2 + (d + 1) = (d + 1) * (d + 2) / 2)%nat).
    { replace ((d + 1) * (d + 2))%nat with ((d + 1) * d + (d + 1) * 2)%nat by lia. rewrite Nat.div_add by lia. reflexivity. }
    assert (E3 : ((d + 1) * d / 2 * 2 = (d + 1) * d)%nat).
    { clear. induction d as [|d IH]; [reflexivity|]. replace ((S d + 1) * S d)%nat with ((d + 1) * d + (d + 1) * 2)%nat by lia.
      rewrite Nat.div_add by lia. lia. }
    nia. }
  split; [|split].
  - intros j k j' k' H H' E. rewrite !term_index_first in E by lia.
    assert (k = k').
    { destruct (Nat.lt_trichotomy k k') as [L|[L|L]]; auto.
      - pose proof (first_index_mono d (S k) k' L) as M. cbn [first_index] in M. lia.
      - pose proof (first_index_mono d (S k') k L) as M. cbn [first_index] in M. lia. }
    subst. split; lia.
  - intros j k H. rewrite term_index_first, NB by lia. pose proof (first_index_mono d (S k) (d + 1) ltac:(lia)) as M. cbn [first_index] in M. lia.
  - rewrite NB.
    assert (G : forall n i, (n <= d + 1)%nat -> (i < first_index d n)%nat -> exists j k, (j + k <= d)%nat /\ term_index d j k = i).
    { induction n as [|n IH]; intros i Hn Hi; [simpl in Hi; lia|]. cbn [first_index] in Hi.
      destruct (Nat.lt_ge_cases i (first_index d n)) as [L|L]; [apply IH; auto; lia|].
      exists (i - first_index d n)%nat, n. rewrite term_index_first by lia. lia. }
    intros i Hi. eapply G; eauto.
Qed.

Lemma upd_length {A} i (x : A) l : length (upd i x l) = length l.
Proof. revert i. induction l; intros [|i]; simpl; auto. Qed.
Lemma nth_upd {A} i j (x d : A) l : (i < length l)%nat -> nth j (upd i x l) d = if (i =? j)%nat then x else nth j l d.
Proof.
  revert i j. induction l as [|a l IH]; intros i j H; [simpl in H; lia|]. destruct i as [|i], j as [|j]; simpl; auto.
  apply IH. simpl in H. lia.
Qed.
Lemma do_writes_spec ws : forall t, (forall i v, In (i, v) ws -> (i < length t)%nat) ->
  (forall i v v', In (i, v) ws -> In (i, v') ws -> v = v') ->
  exists t', do_writes t ws = Ok t' /\ length t' = length t /\
    (forall i v, In (i, v) ws -> nth i t' 0 = v) /\
    (forall i, (forall v, ~ In (i, v) ws) -> nth i t' 0 = nth i t 0).
Proof.
  induction ws as [|[i v] r IH]; intros t HR HC.
  - exists t. split; [reflexivity|]. split; [reflexivity|]. split; [intros i v []|auto].
  - cbn [do_writes]. destruct (Nat.ltb_spec i (length t)); [|pose proof (HR i v (or_introl eq_refl)); lia].
    destruct (IH (upd i v t)) as (t' & E & EL & EW & EN).
    + intros a b HI. rewrite upd_length. apply (HR a b). right; auto.
    + intros a b c H1 H2. apply (HC a); right; auto.
    + exists t'. rewrite E, EL, upd_length. split; [reflexivity|]. split; [reflexivity|]. split.
      * intros a b [HI|HI]; [|apply EW; auto]. injection HI as -> ->.
        destruct (in_dec Nat.eq_dec a (map fst r)) as [HIN|HN].
        { apply in_map_iff in HIN. destruct HIN as ([a' b'] & EA & HIN). cbn in EA. subst a'.
          rewrite (EW a b' HIN). apply (HC a); [right; auto|left; auto]. }
        rewrite EN by (intros w HW; apply HN; apply (in_map fst) in HW; exact HW). rewrite nth_upd, Nat.eqb_refl by auto. reflexivity.
      * intros a HA. rewrite EN.
        -- rewrite nth_upd by auto. destruct (Nat.eqb_spec i a); auto. subst. exfalso. apply (HA v). left; auto.
        -- intros w HW. apply (HA w). right; auto.
Qed.
Lemma in_poly p x y i v : In (i, v) (poly_writes p x y) <->
  exists j k, (j + k <= px_degree p)%nat /\ i = term_index (px_degree p) j k /\
    v = ((x - px_x0 p) / px_xscale p) ^ j * ((y - px_y0 p) / px_yscale p) ^ k.
Proof.
  unfold poly_writes. rewrite in_flat_map. split.
  - intros (d & Hd & H). apply in_map_iff in H. destruct H as (j & E & Hj). injection E as <- <-. apply in_seq in Hd, Hj.
    exists j, (d - j)%nat. repeat split; auto. lia.
  - intros (j & k & H & -> & ->). exists (j + k)%nat. split; [apply in_seq; lia|]. apply in_map_iff. exists j.
    replace (j + k - j)%nat with k by lia. split; [reflexivity|apply in_seq; lia].
Qed.
(** With as many basis images as monomials, the array of terms holds each
    monomial at its own place and nothing else. *)
Theorem C55_terms : forall p x y, let d := px_degree p in let nb := ((d + 1) * (d + 2) / 2)%nat in
  exists t, polynomials p nb x y = Ok t /\ length t = nb /\
  (forall j k, (j + k <= d)%nat ->
    nth (term_index d j k) t 0 = ((x - px_x0 p) / px_xscale p) ^ j * ((y - px_y0 p) / px_yscale p) ^ k) /\
  forall i, (i < nb)%nat -> exists j k, (j + k <= d)%nat /\ i = term_index d j k.
Proof.
  intros p x y d nb. destruct (C55_index_bijective d) as (INJ & RNG & SUR).
  destruct (do_writes_spec (poly_writes p x y) (repeat 0 nb)) as (t & E & EL & EW & _).
  - intros i v H. apply in_poly in H. destruct H as (j & k & H & -> & _). rewrite repeat_length. apply RNG; auto.
  - intros i v v' H H'. apply in_poly in H, H'. destruct H as (j & k & H & -> & ->). destruct H' as (j' & k' & H' & E & ->).
    destruct (INJ _ _ _ _ H H' E) as [-> ->]. reflexivity.
  - exists t. rewrite repeat_length in EL. split; [exact E|]. split; [exact EL|]. split.
    + intros j k H. apply EW. apply in_poly. exists j, k. auto.
    + intros i Hi. destruct (SUR i Hi) as (j & k & H & EI). exists j, k. auto.
Qed.
Example C55_ex : term_index 2 0 0 = 0%nat /\ term_index 2 1 0 = 1%nat /\ term_index 2 2 0 = 2%nat /\
  term_index 2 0 1 = 3%nat /\ term_index 2 1 1 = 4%nat /\ term_index 2 0 2 = 5%nat.
Proof. repeat split. Qed.

Print Assumptions C53_fits.
Print Assumptions C53_wrapper.
Print Assumptions C53_compose.
Print Assumptions C53_shift_twice.
Print Assumptions C53_round_trip.
Print Assumptions C53_null_refuted.
Print Assumptions C53_not_shiftable.
Print Assumptions C53_scaled.
Print Assumptions C53_scaled_cd_refuted.
Print Assumptions C53_sky.
Print Assumptions C53_psfex.
Print Assumptions C53_shifted_psf.
Print Assumptions C53_shifted_psf_mask_refuted.
Print Assumptions C53_stamp.
Print Assumptions C53_stamp_halfway_refuted.
Print Assumptions C53_pixels.
Print Assumptions C53_negative_corner_refuted.
Print Assumptions C55_index_bijective.
Print Assumptions C55_terms.
