(** C49, C50: pixelized point-spread functions. *)
From Coq Require Import List ZArith Bool Lia Ring.
From Verif Require Import Base PatchModel Corr7Model Corr7Props PsfModel.
Import ListNotations.
Open Scope Z_scope.
Ltac dlia := Z.div_mod_to_equations; lia.
Ltac zb := repeat match goal with
  | |- context [?a >=? ?b] => rewrite (Z.geb_leb a b)
  | |- context [?a >? ?b] => rewrite (Z.gtb_ltb a b)
  end;
  repeat match goal with
  | |- context [?a <=? ?b] => destruct (Z.leb_spec a b); try (exfalso; lia)
  | |- context [?a <? ?b] => destruct (Z.ltb_spec a b); try (exfalso; lia)
  end.

Section Spec.
Context {V : Type} (zero : V) (add mul : V -> V -> V).
(** An array as a picture on the plane: zero outside. *)
Definition plane (a : @arr V) (y x : Z) : V :=
  if (0 <=? y) && (y <? ah a) && (0 <=? x) && (x <? aw a) then px a y x else zero.
(** Correlation of that picture with a 7 x 7 separable filter. *)
Definition conv (fx fy : list V) (a : @arr V) (y x : Z) : V :=
  vsum zero add (map (fun ky => vsum zero add (map (fun kx =>
    mul (mul (nth ky fy zero) (nth kx fx zero)) (plane a (y + Z.of_nat ky - 3) (x + Z.of_nat kx - 3))) (seq 0 7))) (seq 0 7)).
End Spec.

Lemma plane_in {V} (z : V) a y x : 0 <= y < ah a -> 0 <= x < aw a -> plane z a y x = px a y x.
Proof. intros H1 H2. unfold plane. zb. reflexivity. Qed.
Lemma plane_out {V} (z : V) a y x : ~ (0 <= y < ah a /\ 0 <= x < aw a) -> plane z a y x = z.
Proof. intros H. unfold plane. zb; reflexivity. Qed.

(** *** C49 *)
(** One axis: a stamp of n pixels in an axis of N. *)
Definition axis_lo (N n : Z) : Z := if N >=? n then (N - n) / 2 else 0.
Definition axis_cut (N n : Z) : Z := if N >=? n then 0 else (n - N) / 2.

Theorem C49_padding : forall (V : Type) (zero : V) (img : @arr V) H W,
  0 <= H -> 0 <= W -> 1 <= ah img -> 1 <= aw img ->
  exists pad cx cy, pad_in_image zero H W img = Ok (pad, cx, cy) /\ ah pad = H /\ aw pad = W /\
    (ah img mod 2 = 1 -> 1 <= H -> 0 <= cy < H) /\ (aw img mod 2 = 1 -> 1 <= W -> 0 <= cx < W) /\
    forall y x, 0 <= y < H -> 0 <= x < W ->
      px pad y x = plane zero img (y - cy + ah img / 2) (x - cx + aw img / 2).
Proof.
  intros V zero img H W HH HW Hh Hw. unfold pad_in_image. cbv zeta.
  set (ph := ah img) in *. set (pw := aw img) in *.
  (* y axis *)
  assert (GY : exists y0 sub cy, (if H >=? ph then ((H - ph) / 2, img, (H - ph) / 2 + ph / 2)
     else (0, asub img (mkSl ((ph - H) / 2) ((ph - H) / 2 + H)) (sl_all pw), ph / 2 - (ph - H) / 2)) = (y0, sub, cy) /\
     aw sub = pw /\ ah sub = Z.min H ph /\ 0 <= y0 /\ y0 + ah sub <= H /\ (ph mod 2 = 1 -> 1 <= H -> 0 <= cy < H) /\
     (forall y, (0 <= y < H /\ 0 <= y - cy + ph / 2 < ph) <-> y0 <= y < y0 + ah sub) /\
     (forall y x, 0 <= x < pw -> 0 <= y < ah sub -> px sub y x = px img (y + y0 - cy + ph / 2) x)).
  { rewrite Z.geb_leb. destruct (Z.leb_spec ph H).
    - do 3 eexists. split; [reflexivity|]. fold ph pw. repeat split; try dlia.
      intros y x _ _. f_equal. lia.
    - do 3 eexists. split; [reflexivity|]. unfold asub. cbn [ah aw px]. unfold sl_len, sl_start, norm_idx, sl_all. cbn [sstart sstop]. fold ph pw.
      assert (E : 0 <= (ph - H) / 2 /\ (ph - H) / 2 + H <= ph) by dlia.
      replace ((ph - H) / 2 <? 0) with false by (symmetry; apply Z.ltb_ge; lia).
      replace ((ph - H) / 2 + H <? 0) with false by (symmetry; apply Z.ltb_ge; lia).
      replace (pw <? 0) with false by (symmetry; apply Z.ltb_ge; lia). cbn [Z.ltb Z.compare].
      repeat split; try dlia.
      intros y x Hx Hy. f_equal; dlia. }
  destruct GY as (y0 & sub & cy & -> & AW & AH & Y1 & Y2 & Y3 & Y4 & Y5).
  assert (GX : exists x0 sub' cx, (if W >=? pw then ((W - pw) / 2, sub, (W - pw) / 2 + pw / 2)
     else (0, asub sub (sl_all (ah sub)) (mkSl ((pw - W) / 2) ((pw - W) / 2 + W)), pw / 2 - (pw - W) / 2)) = (x0, sub', cx) /\
     ah sub' = ah sub /\ aw sub' = Z.min W pw /\ 0 <= x0 /\ x0 + aw sub' <= W /\ (pw mod 2 = 1 -> 1 <= W -> 0 <= cx < W) /\
     (forall x, (0 <= x < W /\ 0 <= x - cx + pw / 2 < pw) <-> x0 <= x < x0 + aw sub') /\
     (forall y x, 0 <= y < ah sub -> 0 <= x < aw sub' -> px sub' y x = px sub y (x + x0 - cx + pw / 2))).
  { rewrite Z.geb_leb. destruct (Z.leb_spec pw W).
    - do 3 eexists. split; [reflexivity|]. rewrite AW. repeat split; try dlia.
      intros y x _ _. f_equal. lia.
    - do 3 eexists. split; [reflexivity|]. unfold asub. cbn [ah aw px]. unfold sl_len, sl_start, norm_idx, sl_all. cbn [sstart sstop]. rewrite AW.
      assert (E : 0 <= (pw - W) / 2 /\ (pw - W) / 2 + W <= pw) by dlia.
      replace ((pw - W) / 2 <? 0) with false by (symmetry; apply Z.ltb_ge; lia).
      replace ((pw - W) / 2 + W <? 0) with false by (symmetry; apply Z.ltb_ge; lia).
      replace (ah sub <? 0) with false by (symmetry; apply Z.ltb_ge; lia). cbn [Z.ltb Z.compare].
      repeat split; try dlia.
      intros y x Hy Hx. f_equal; dlia. }
  destruct GX as (x0 & sub' & cx & -> & AH' & AW' & X1 & X2 & X3 & X4 & X5).
  replace ((H <? 0) || (W <? 0)) with false by (symmetry; apply orb_false_iff; split; apply Z.ltb_ge; lia).
  unfold aupd. cbn [ah aw px]. unfold sl_len, sl_start, norm_idx. cbn [sstart sstop].
  replace (y0 <? 0) with false by (symmetry; apply Z.ltb_ge; lia).
  replace (x0 <? 0) with false by (symmetry; apply Z.ltb_ge; lia).
  replace (y0 + ah sub' <? 0) with false by (symmetry; apply Z.ltb_ge; lia).
  replace (x0 + aw sub' <? 0) with false by (symmetry; apply Z.ltb_ge; lia).
  replace (ah sub' =? Z.max 0 (Z.min (y0 + ah sub') H - Z.min y0 H)) with true by (symmetry; apply Z.eqb_eq; lia).
  replace (aw sub' =? Z.max 0 (Z.min (x0 + aw sub') W - Z.min x0 W)) with true by (symmetry; apply Z.eqb_eq; lia).
  cbn [andb bind]. do 3 eexists. split; [reflexivity|]. cbn [ah aw px]. repeat split; auto; try (apply Y3; auto); try (apply X3; auto).
  intros y x Hy Hx.
  replace (Z.min y0 H) with y0 by lia. replace (Z.min x0 W) with x0 by lia.
  specialize (Y4 y). specialize (X4 x).
  destruct ((0 <=? y - y0) && (y - y0 <? ah sub') && (0 <=? x - x0) && (x - x0 <? aw sub')) eqn:E.
  - apply andb_true_iff in E. destruct E as [E E4]. apply andb_true_iff in E. destruct E as [E E3].
    apply andb_true_iff in E. destruct E as [E1 E2]. apply Z.leb_le in E1, E3. apply Z.ltb_lt in E2, E4.
    assert (A : 0 <= y - cy + ph / 2 < ph) by (apply Y4; lia). assert (B : 0 <= x - cx + pw / 2 < pw) by (apply X4; lia).
    rewrite plane_in by auto. rewrite X5 by lia.
    replace (x - x0 + x0 - cx + pw / 2) with (x - cx + pw / 2) by lia.
    rewrite Y5 by lia. f_equal. lia.
  - symmetry. apply plane_out. intros [A B]. fold ph pw in A, B. assert (A' : y0 <= y < y0 + ah sub) by (apply Y4; auto).
    assert (B' : x0 <= x < x0 + aw sub') by (apply X4; auto). revert E. zb. discriminate.
Qed.
Example C49_ex : let st := mkArr 3 5 (fun y x => 10 * y + x + 1) in
  (exists pad, pad_in_image 0 2 8 st = Ok (pad, 3, 1) /\ px pad 1 3 = 13 /\ px pad 1 0 = 0 /\ px pad 0 1 = 1 /\ px pad 0 5 = 5 /\ px pad 0 6 = 0).
Proof. cbv zeta. eexists. split; [reflexivity|]. repeat split. Qed.

(** *** C50 *)
Section C50.
Context {V D : Type} (zero one : V) (add mul sub : V -> V -> V) (opp : V -> V) (halfdiff : V -> V -> V).
Hypothesis rt : ring_theory zero one add mul sub opp (@eq V).
Add Ring RR : rt.
Context (filt : D -> list V) (filt7 : forall d, length (filt d) = 7%nat).
Notation shift := (lanczos_shift_image zero add mul filt).
Notation render := (point_source_patch zero add mul halfdiff filt).
Notation conv := (conv zero add mul).
Notation plane := (plane zero).

Definition env_ok (e : @env V) : Prop :=
  length (work e) = (wr1 e * wc1 e)%nat /\ forall n, length (junk e n) = n.

Lemma vsum_ext_in {A} (f g : A -> V) l : (forall x, In x l -> f x = g x) -> vsum zero add (map f l) = vsum zero add (map g l).
Proof. intros H. f_equal. apply map_ext_in. auto. Qed.
Lemma conv_ext fx fy a b y x y' x' :
  (forall i j, 0 <= i < 7 -> 0 <= j < 7 -> plane a (y + i - 3) (x + j - 3) = plane b (y' + i - 3) (x' + j - 3)) ->
  conv fx fy a y x = conv fx fy b y' x'.
Proof.
  intros H. unfold PsfProps.conv. apply vsum_ext_in. intros ky Hy. apply in_seq in Hy. apply vsum_ext_in. intros kx Hx. apply in_seq in Hx.
  rewrite H by lia. reflexivity.
Qed.

Lemma taps_sum f row n i : taps zero add mul f row n i =
  vsum zero add (map (fun k => mul (nth k f zero) (let p := i + Z.of_nat k - 3 in if (0 <=? p) && (p <? n) then row p else zero)) (seq 0 7)).
Proof.
  unfold taps. rewrite (fold_left_ext _ (fun s k => add s (mul (nth k f zero) (let p := i + Z.of_nat k - 3 in if (0 <=? p) && (p <? n) then row p else zero)))).
  - rewrite (fold_vsum zero one add mul sub opp rt). apply (Radd_0_l rt).
  - intros. reflexivity.
Qed.
Lemma nth_flat a y x : 0 <= y < ah a -> 0 <= x < aw a ->
  nth (Z.to_nat y * Z.to_nat (aw a) + Z.to_nat x) (flat a) zero = px a y x.
Proof.
  intros Hy Hx. unfold flat.
  set (g := fun p : nat => px a (Z.of_nat p / aw a) (Z.of_nat p mod aw a)).
  assert (L : (Z.to_nat y * Z.to_nat (aw a) + Z.to_nat x < Z.to_nat (ah a) * Z.to_nat (aw a))%nat).
  { apply Nat2Z.inj_lt. rewrite Nat2Z.inj_add, !Nat2Z.inj_mul, !Z2Nat.id by lia. nia. }
  rewrite (nth_indep _ zero (g 0%nat)) by (rewrite map_length, seq_length; auto).
  rewrite map_nth, seq_nth by auto. unfold g. rewrite Nat.add_0_l, Nat2Z.inj_add, Nat2Z.inj_mul, !Z2Nat.id by lia.
  rewrite Z.div_add_l, Z.div_small, Z.add_0_r by lia. rewrite Z.add_comm, Z.mod_add, Z.mod_small by lia. reflexivity.
Qed.

(** The sub-pixel shift is the 7 x 7 correlation, whichever implementation is
    chosen. *)
Theorem C50_shift : forall e a dx dy, env_ok e -> 0 <= ah a -> 0 <= aw a ->
  exists out, shift e a dx dy = Ok out /\ ah out = ah a /\ aw out = aw a /\
    forall y x, 0 <= y < ah a -> 0 <= x < aw a -> px out y x = conv (filt dx) (filt dy) a y x.
Proof.
  intros e a dx dy [EW EJ] Hh Hw. unfold lanczos_shift_image.
  destruct (negb (has_c e) || (aw a <=? 8) || (ah a <=? 8) || (ah a >? Z.of_nat (wr1 e)) || (aw a >? Z.of_nat (wc1 e))) eqn:E.
  - eexists. split; [reflexivity|]. cbn [ah aw px correlate_y correlate_x]. split; auto. split; auto.
    intros y x Hy Hx. rewrite taps_sum. unfold PsfProps.conv. apply vsum_ext_in. intros ky Hky. cbv zeta.
    destruct ((0 <=? y + Z.of_nat ky - 3) && (y + Z.of_nat ky - 3 <? ah a)) eqn:EY.
    + rewrite taps_sum. rewrite (vsum_mul zero one add mul sub opp rt), map_map. apply vsum_ext_in. intros kx Hkx. cbv zeta.
      unfold PsfProps.plane. rewrite EY. cbn [andb].
      destruct ((0 <=? x + Z.of_nat kx - 3) && (x + Z.of_nat kx - 3 <? aw a)); ring.
    + rewrite (vsum_ext_in _ (fun _ => zero)).
      * rewrite (vsum_zero zero one add mul sub opp rt). ring.
      * intros kx _. unfold PsfProps.plane. rewrite EY. cbn [andb]. ring.
  - rewrite !orb_false_iff in E. destruct E as [[[[E0 E1] E2] E3] E4]. rewrite Z.leb_gt in E1, E2. rewrite Z.gtb_ltb in E3, E4. apply Z.ltb_ge in E3, E4.
    set (h := Z.to_nat (ah a)). set (w := Z.to_nat (aw a)).
    destruct (C46_inout zero add mul (flat a) h w (junk e (h * w)) (filt dx) (filt dy) (work e) (wr1 e) (wc1 e)) as (out & wk & EC & L & _ & HV & _); auto; try lia.
    { unfold flat. rewrite map_length, seq_length. reflexivity. }
    cbv zeta. rewrite EC. cbn [bind]. eexists. split; [reflexivity|]. cbn [ah aw px unflat]. split; auto. split; auto.
    intros y x Hy Hx. specialize (HV (Z.to_nat y) (Z.to_nat x) ltac:(lia) ltac:(lia)). unfold pic in HV at 1.
    replace (Z.to_nat (y * aw a + x)) with (Z.to_nat y * w + Z.to_nat x)%nat
      by (apply Nat2Z.inj; rewrite Nat2Z.inj_add, Nat2Z.inj_mul; unfold w; rewrite !Z2Nat.id by nia; reflexivity).
    rewrite HV. rewrite (C46_neighbourhood zero one add mul sub opp rt). unfold neighbourhood, PsfProps.conv.
    apply vsum_ext_in. intros ky _. apply vsum_ext_in. intros kx _. apply f_equal.
    unfold padded, PsfProps.plane. unfold h, w. rewrite !Z2Nat.id by lia. rewrite !Nat2Z.inj_add, !Z2Nat.id by lia.
    destruct ((0 <=? y + Z.of_nat ky - 3) && (y + Z.of_nat ky - 3 <? ah a) && (0 <=? x + Z.of_nat kx - 3) && (x + Z.of_nat kx - 3 <? aw a)) eqn:EB; auto.
    rewrite !andb_true_iff, !Z.leb_le, !Z.ltb_lt in EB. unfold pic. apply nth_flat; lia.
Qed.

(** Box of the stamp on the image plane. *)
Definition box_x0 (img : @arr V) (ix : Z) : Z := ix - aw img / 2.
Definition box_y0 (img : @arr V) (iy : Z) : Z := iy - ah img / 2.
Definition in_box (img : @arr V) (ix iy y x : Z) : Prop :=
  box_y0 img iy <= y < box_y0 img iy + ah img /\ box_x0 img ix <= x < box_x0 img ix + aw img.
Definition in_mask (m : mask) (y x : Z) : Prop := my0 m <= y < my0 m + mh m /\ mx0 m <= x < mx0 m + mw m.

(** The full rendering covers the box of the stamp. *)
Theorem C50_full : forall e img ix iy dx dy d, env_ok e -> 0 <= ah img -> 0 <= aw img ->
  exists out, render e img ix iy dx dy None None d = Ok (One (mkPatch (box_x0 img ix) (box_y0 img iy) (Some out))) /\
    ah out = ah img /\ aw out = aw img /\
    forall y x, in_box img ix iy y x ->
      px out (y - box_y0 img iy) (x - box_x0 img ix) = conv (filt dx) (filt dy) img (y - box_y0 img iy) (x - box_x0 img ix).
Proof.
  intros e img ix iy dx dy d HE Hh Hw. destruct (C50_shift e img dx dy HE Hh Hw) as (out & E & E1 & E2 & E3).
  exists out. unfold point_source_patch. rewrite E. cbn [bind]. split; [reflexivity|]. split; auto. split; auto.
  intros y x [A B]. apply E3; lia.
Qed.

(** A mask that meets the box: the picture covers the mask exactly and shows
    the correlation of the stamp at every mask pixel; hence it agrees with the
    full rendering wherever that has a pixel. *)
Theorem C50_mask : forall e img ix iy dx dy m, env_ok e -> 0 <= ah img -> 0 <= aw img -> 0 <= mh m -> 0 <= mw m ->
  (exists y x, in_box img ix iy y x /\ in_mask m y x) ->
  exists mm full, render e img ix iy dx dy None (Some m) false = Ok (One (mkPatch (mx0 m) (my0 m) (Some mm))) /\
    render e img ix iy dx dy None None false = Ok (One (mkPatch (box_x0 img ix) (box_y0 img iy) (Some full))) /\
    ah mm = mh m /\ aw mm = mw m /\
    (forall y x, in_mask m y x -> px mm (y - my0 m) (x - mx0 m) = conv (filt dx) (filt dy) img (y - box_y0 img iy) (x - box_x0 img ix)) /\
    (forall y x, in_mask m y x -> in_box img ix iy y x ->
       px mm (y - my0 m) (x - mx0 m) = px full (y - box_y0 img iy) (x - box_x0 img ix)).
Proof.
  intros e img ix iy dx dy m HE Hh Hw Hmh Hmw (cy & cx & [C1 C2] & [C3 C4]).
  destruct (C50_full e img ix iy dx dy false HE Hh Hw) as (full & EF & _ & _ & VF).
  assert (G : exists mm, render e img ix iy dx dy None (Some m) false = Ok (One (mkPatch (mx0 m) (my0 m) (Some mm))) /\
    ah mm = mh m /\ aw mm = mw m /\
    (forall y x, in_mask m y x -> px mm (y - my0 m) (x - mx0 m) = conv (filt dx) (filt dy) img (y - box_y0 img iy) (x - box_x0 img ix))).
  { unfold point_source_patch. cbv zeta. fold (box_x0 img ix). fold (box_y0 img iy).
    set (X0 := box_x0 img ix) in *. set (Y0 := box_y0 img iy) in *. set (H := ah img) in *. set (W := aw img) in *.
    replace ((mx0 m >=? X0 + W) || (mx0 m + mw m <=? X0) || (my0 m >=? Y0 + H) || (my0 m + mh m <=? Y0)) with false by (zb; reflexivity).
    unfold get_overlapping_region. cbv zeta.
    replace ((my0 m - Y0 - 3 >? H - 1) || (my0 m - Y0 + mh m - 1 + 3 <? 0) || (my0 m - Y0 - 3 >? my0 m - Y0 + mh m - 1 + 3) || (0 >? H - 1)) with false by (zb; reflexivity).
    replace ((mx0 m - X0 - 3 >? W - 1) || (mx0 m - X0 + mw m - 1 + 3 <? 0) || (mx0 m - X0 - 3 >? mx0 m - X0 + mw m - 1 + 3) || (0 >? W - 1)) with false by (zb; reflexivity).
    set (ylo := my0 m - Y0 - 3). set (yhi := my0 m - Y0 + mh m - 1 + 3). set (xlo := mx0 m - X0 - 3). set (xhi := mx0 m - X0 + mw m - 1 + 3).
    unfold aupd, asub. cbn [ah aw px]. unfold sl_len, sl_start, norm_idx. cbn [sstart sstop]. fold H W.
    replace (Z.max ylo 0 <? 0) with false by (symmetry; apply Z.ltb_ge; lia).
    replace (Z.max xlo 0 <? 0) with false by (symmetry; apply Z.ltb_ge; lia).
    replace (Z.min yhi (H - 1) + 1 <? 0) with false by (symmetry; apply Z.ltb_ge; lia).
    replace (Z.min xhi (W - 1) + 1 <? 0) with false by (symmetry; apply Z.ltb_ge; lia).
    replace (Z.max ylo 0 - ylo <? 0) with false by (symmetry; apply Z.ltb_ge; lia).
    replace (Z.max xlo 0 - xlo <? 0) with false by (symmetry; apply Z.ltb_ge; lia).
    replace (Z.max ylo 0 - ylo + (Z.min yhi (H - 1) - Z.max ylo 0) + 1 <? 0) with false by (symmetry; apply Z.ltb_ge; lia).
    replace (Z.max xlo 0 - xlo + (Z.min xhi (W - 1) - Z.max xlo 0) + 1 <? 0) with false by (symmetry; apply Z.ltb_ge; lia).
    replace (Z.max 0 (Z.min (Z.min yhi (H - 1) + 1) H - Z.min (Z.max ylo 0) H)) with (Z.min yhi (H - 1) + 1 - Z.max ylo 0) by lia.
    replace (Z.max 0 (Z.min (Z.min xhi (W - 1) + 1) W - Z.min (Z.max xlo 0) W)) with (Z.min xhi (W - 1) + 1 - Z.max xlo 0) by lia.
    match goal with |- context [if ?c then Ok _ else _] => replace c with true by
      (symmetry; apply andb_true_intro; split; apply Z.eqb_eq; lia) end.
    cbn [bind].
    match goal with |- context [lanczos_shift_image _ _ _ _ e ?a dx dy] => set (big := a) end.
    assert (PB : forall y x, 0 <= y < mh m + 6 -> 0 <= x < mw m + 6 -> px big y x = plane img (y + ylo) (x + xlo)).
    { intros y x Hy Hx. unfold big. cbn [px]. unfold PsfProps.plane. fold H W.
      replace (Z.min (Z.max ylo 0 - ylo) (mh m + 2 * 3)) with (Z.max ylo 0 - ylo) by lia.
      replace (Z.min (Z.max xlo 0 - xlo) (mw m + 2 * 3)) with (Z.max xlo 0 - xlo) by lia.
      match goal with |- (if ?c then _ else _) = (if ?c' then _ else _) => replace c with c' end.
      - destruct ((0 <=? y + ylo) && (y + ylo <? H) && (0 <=? x + xlo) && (x + xlo <? W)); auto. f_equal; lia.
      - apply eq_true_iff_eq. rewrite !andb_true_iff, !Z.leb_le, !Z.ltb_lt. lia. }
    destruct (C50_shift e big dx dy HE) as (out & ES & S1 & S2 & S3); [cbn; lia|cbn; lia|].
    rewrite ES. cbn [bind negb]. eexists. split; [reflexivity|].
    unfold big in S1, S2. cbn [ah aw] in S1, S2. cbn [ah aw px asub].
    rewrite S1, S2. change (- (3)) with (-3). cbn [Z.ltb Z.compare]. split; [lia|]. split; [lia|].
    intros y x [A B]. replace (Z.min 3 (mh m + 2 * 3)) with 3 by lia. replace (Z.min 3 (mw m + 2 * 3)) with 3 by lia.
    rewrite S3 by (unfold big; cbn [ah aw]; lia).
    apply conv_ext. intros i j Hi Hj. rewrite plane_in by (unfold big; cbn [ah aw]; lia). rewrite PB by lia. f_equal; unfold ylo, xlo; lia. }
  destruct G as (mm & EM & A1 & A2 & VM). exists mm, full. split; auto. split; auto. split; auto. split; auto. split; auto.
  intros y x M B. rewrite VM, VF by auto. reflexivity.
Qed.

(** No model exactly when box and mask share no pixel (non-empty stamp and
    mask). *)
Theorem C50_none : forall e img ix iy dx dy m d, env_ok e -> 1 <= ah img -> 1 <= aw img -> 1 <= mh m -> 1 <= mw m ->
  (render e img ix iy dx dy None (Some m) d = Ok NoModel <-> ~ exists y x, in_box img ix iy y x /\ in_mask m y x).
Proof.
  intros e img ix iy dx dy m d HE Hh Hw Hmh Hmw.
  set (X0 := box_x0 img ix). set (Y0 := box_y0 img iy).
  assert (T : (mx0 m >=? X0 + aw img) || (mx0 m + mw m <=? X0) || (my0 m >=? Y0 + ah img) || (my0 m + mh m <=? Y0) = true <->
              ~ exists y x, in_box img ix iy y x /\ in_mask m y x).
  { rewrite !Z.geb_leb, !orb_true_iff, !Z.leb_le. split.
    - intros H (y & x & [A B] & [C D']). fold X0 Y0 in A, B. lia.
    - intros H. destruct (Z_le_dec (X0 + aw img) (mx0 m)); [auto|]. destruct (Z_le_dec (mx0 m + mw m) X0); [auto|].
      destruct (Z_le_dec (Y0 + ah img) (my0 m)); [auto|]. destruct (Z_le_dec (my0 m + mh m) Y0); [auto|].
      exfalso. apply H. exists (Z.max Y0 (my0 m)), (Z.max X0 (mx0 m)). unfold in_box, in_mask. fold X0 Y0. lia. }
  rewrite <- T. unfold point_source_patch. cbv zeta. fold (box_x0 img ix) (box_y0 img iy). fold X0 Y0.
  destruct ((mx0 m >=? X0 + aw img) || (mx0 m + mw m <=? X0) || (my0 m >=? Y0 + ah img) || (my0 m + mh m <=? Y0)); [tauto|].
  split; [|discriminate]. intros H. exfalso. revert H.
  destruct (get_overlapping_region _ _ 0 (ah img - 1)) as [[yi yo]|]; [|discriminate].
  destruct (get_overlapping_region _ _ 0 (aw img - 1)) as [[xi xo]|]; [|discriminate].
  destruct (aupd _ _ _ _ _) as [a|]; [|discriminate]. cbn [bind].
  destruct (lanczos_shift_image _ _ _ _ _ a dx dy) as [b|]; [|discriminate]. cbn [bind].
  destruct d; cbn [negb]; [|discriminate]. destruct (deriv_x _ _ _) as [gx|]; [|discriminate]. cbn [bind].
  destruct (deriv_y _ _ _) as [gy|]; [|discriminate]. discriminate.
Qed.

(** Derivative images: half the difference of the neighbours, in a margin of
    zeros; without a mask the request is ignored. *)
Theorem C50_derivatives : forall e img ix iy dx dy m, env_ok e -> 0 <= ah img -> 0 <= aw img -> 0 <= mh m -> 0 <= mw m ->
  (exists y x, in_box img ix iy y x /\ in_mask m y x) ->
  exists mm gx gy, render e img ix iy dx dy None (Some m) false = Ok (One (mkPatch (mx0 m) (my0 m) (Some mm))) /\
    render e img ix iy dx dy None (Some m) true =
      Ok (Three (mkPatch (mx0 m) (my0 m) (Some mm)) (mkPatch (mx0 m) (my0 m) (Some gx)) (mkPatch (mx0 m) (my0 m) (Some gy))) /\
    ah gx = mh m /\ aw gx = mw m /\ ah gy = mh m /\ aw gy = mw m /\
    (forall y x, 0 <= y < mh m -> 0 <= x < mw m ->
       px gx y x = (if (1 <=? y) && (y <? mh m - 1) && (1 <=? x) && (x <? mw m - 1) then halfdiff (px mm y (x + 1)) (px mm y (x - 1)) else zero) /\
       px gy y x = (if (1 <=? y) && (y <? mh m - 1) && (1 <=? x) && (x <? mw m - 1) then halfdiff (px mm (y + 1) x) (px mm (y - 1) x) else zero)).
Proof.
  intros e img ix iy dx dy m HE Hh Hw Hmh Hmw HO.
  destruct (C50_mask e img ix iy dx dy m HE Hh Hw Hmh Hmw HO) as (mm & _ & EM & _ & A1 & A2 & _).
  assert (S1 : forall n, 0 <= n -> sl_len n (mkSl 1 (-1)) = Z.max 0 (n - 2) /\ (1 < n -> sl_start n (mkSl 1 (-1)) = 1)).
  { intros n Hn. unfold sl_len, sl_start, norm_idx. cbn [sstart sstop]. cbn [Z.ltb Z.compare]. lia. }
  assert (S2 : forall n, 0 <= n -> sl_len n (sl_to (-2)) = Z.max 0 (n - 2) /\ sl_start n (sl_to (-2)) = 0).
  { intros n Hn. unfold sl_len, sl_start, norm_idx, sl_to. cbn [sstart sstop]. cbn [Z.ltb Z.compare]. lia. }
  assert (S3 : forall n, 0 <= n -> sl_len n (sl_from 2 n) = Z.max 0 (n - 2) /\ (2 < n -> sl_start n (sl_from 2 n) = 2)).
  { intros n Hn. unfold sl_len, sl_start, norm_idx, sl_from. cbn [sstart sstop]. destruct (Z.ltb_spec n 0); [lia|]. cbn [Z.ltb Z.compare]. lia. }
  assert (GX : exists gx, deriv_x zero halfdiff mm = Ok gx /\ ah gx = mh m /\ aw gx = mw m /\
    forall y x, 0 <= y < mh m -> 0 <= x < mw m ->
       px gx y x = (if (1 <=? y) && (y <? mh m - 1) && (1 <=? x) && (x <? mw m - 1) then halfdiff (px mm y (x + 1)) (px mm y (x - 1)) else zero)).
  { unfold deriv_x. cbv zeta. unfold aupd. cbn [ah aw px asub]. rewrite A1, A2.
    destruct (S1 (mh m) Hmh) as [L1 P1]. destruct (S1 (mw m) Hmw) as [L2 P2]. destruct (S3 (mw m) Hmw) as [L3 P3]. destruct (S2 (mw m) Hmw) as [L4 P4].
    rewrite L1, L2, L3, !Z.eqb_refl. cbn [andb]. eexists. split; [reflexivity|]. cbn [ah aw px]. split; auto. split; auto.
    intros y x Hy Hx. rewrite P4.
    destruct (Z_le_dec (mh m) 1) as [Q1|Q1]; [zb; reflexivity|]. rewrite P1 by lia.
    destruct (Z_le_dec (mw m) 2) as [Q2|Q2]; [zb; reflexivity|]. rewrite P2, P3 by lia. 
    zb; cbn [andb]; try reflexivity. f_equal; f_equal; lia. }
  assert (GY : exists gy, deriv_y zero halfdiff mm = Ok gy /\ ah gy = mh m /\ aw gy = mw m /\
    forall y x, 0 <= y < mh m -> 0 <= x < mw m ->
       px gy y x = (if (1 <=? y) && (y <? mh m - 1) && (1 <=? x) && (x <? mw m - 1) then halfdiff (px mm (y + 1) x) (px mm (y - 1) x) else zero)).
  { unfold deriv_y. cbv zeta. unfold aupd. cbn [ah aw px asub]. rewrite A1, A2.
    destruct (S1 (mh m) Hmh) as [L1 P1]. destruct (S1 (mw m) Hmw) as [L2 P2]. destruct (S3 (mh m) Hmh) as [L3 P3]. destruct (S2 (mh m) Hmh) as [L4 P4].
    rewrite L1, L2, L3, !Z.eqb_refl. cbn [andb]. eexists. split; [reflexivity|]. cbn [ah aw px]. split; auto. split; auto.
    intros y x Hy Hx. rewrite P4.
    destruct (Z_le_dec (mw m) 1) as [Q1|Q1]; [zb; reflexivity|]. rewrite P2 by lia.
    destruct (Z_le_dec (mh m) 2) as [Q2|Q2]; [zb; reflexivity|]. rewrite P1, P3 by lia.
    zb; cbn [andb]; try reflexivity. f_equal; f_equal; lia. }
  destruct GX as (gx & EX & X1 & X2 & X3). destruct GY as (gy & EY & Y1 & Y2 & Y3).
  exists mm, gx, gy. split; auto. split.
  { revert EM. unfold point_source_patch. cbv zeta.
    match goal with |- context [if ?c then Ok NoModel else _] => destruct c end; [discriminate|].
    destruct (get_overlapping_region _ _ 0 (ah img - 1)) as [[yi yo]|]; [|discriminate].
    destruct (get_overlapping_region _ _ 0 (aw img - 1)) as [[xi xo]|]; [|discriminate].
    destruct (aupd _ _ _ _ _) as [a|]; [|discriminate]. cbn [bind].
    destruct (lanczos_shift_image _ _ _ _ _ a dx dy) as [b|]; [|discriminate]. cbn [bind negb].
    intros E. injection E as E. change (- (3)) with (-3). rewrite E, EX. cbn [bind]. rewrite EY. reflexivity. }
  repeat split; auto.
Qed.

(** A radius of at most half the stamp keeps the centred window of half-width
    R; the pixels keep their places. *)
Theorem C50_radius : forall (img : @arr V) R ix iy, ah img mod 2 = 1 -> aw img mod 2 = 1 -> 0 <= R -> R < ah img / 2 -> R < aw img / 2 ->
  let c := crop_radius img R in
  ah c = 2 * R + 1 /\ aw c = 2 * R + 1 /\
  forall y x, in_box c ix iy y x -> px c (y - box_y0 c iy) (x - box_x0 c ix) = px img (y - box_y0 img iy) (x - box_x0 img ix).
Proof.
  intros img R ix iy O1 O2 HR R1 R2 c.
  assert (A : forall n, n mod 2 = 1 -> R < n / 2 -> sl_len n (mkSl (Z.max (n / 2 - R) 0) (Z.min (n / 2 + R + 1) (n - 1))) = 2 * R + 1 /\
     sl_start n (mkSl (Z.max (n / 2 - R) 0) (Z.min (n / 2 + R + 1) (n - 1))) = n / 2 - R).
  { intros n On Rn. assert (n = 2 * (n / 2) + 1) by dlia. set (q := n / 2) in *.
    unfold sl_len, sl_start, norm_idx. cbn [sstart sstop].
    destruct (Z.ltb_spec (Z.max (q - R) 0) 0); [lia|]. destruct (Z.ltb_spec (Z.min (q + R + 1) (n - 1)) 0); lia. }
  destruct (A _ O1 R1) as [L1 P1]. destruct (A _ O2 R2) as [L2 P2].
  assert (C1 : ah c = 2 * R + 1) by exact L1. assert (C2 : aw c = 2 * R + 1) by exact L2.
  split; auto. split; auto. intros y x _.
  assert (PC : forall a b, px c a b = px img (a + (ah img / 2 - R)) (b + (aw img / 2 - R))) by
    (intros a b; unfold c, crop_radius; cbn [px asub]; rewrite P1, P2; reflexivity).
  rewrite PC. unfold box_y0, box_x0. rewrite C1, C2. clear -O1 O2 HR R1 R2. f_equal; dlia.
Qed.
(** A larger radius loses the last row and the last column. *)
Theorem C50_radius_refuted : forall (img : @arr V) R, 1 <= ah img -> 1 <= aw img -> ah img <= R -> aw img <= R ->
  ah (crop_radius img R) = ah img - 1 /\ aw (crop_radius img R) = aw img - 1.
Proof.
  intros img R H1 H2 R1 R2. unfold crop_radius. cbn [ah aw asub].
  assert (A : forall n, 1 <= n -> n <= R -> sl_len n (mkSl (Z.max (n / 2 - R) 0) (Z.min (n / 2 + R + 1) (n - 1))) = n - 1).
  { intros n Hn HR. assert (0 <= n / 2 <= n) by dlia. unfold sl_len, norm_idx. cbn [sstart sstop].
    destruct (Z.ltb_spec (Z.max (n / 2 - R) 0) 0); [lia|]. destruct (Z.ltb_spec (Z.min (n / 2 + R + 1) (n - 1)) 0); lia. }
  split; apply A; auto.
Qed.
End C50.

(** *** Examples (integers, a filter that spreads to the right) *)
Definition ex_filt (d : Z) : list Z := if d =? 0 then [0; 0; 0; 1; 0; 0; 0] else [1; 0; 2; 5; 0; 3; 1].
Definition ex_env : @env Z := mkEnv true 12 12 (repeat 77 144) (fun n => repeat 55 n).
Definition ex_stamp : @arr Z := mkArr 3 3 (fun y x => 1 + 3 * y + x).
Definition ex_render := point_source_patch 0 Z.add Z.mul (fun a b => a - b) ex_filt ex_env ex_stamp.
Lemma ex_env_ok : env_ok ex_env.
Proof. split; [reflexivity|]. intros n. apply repeat_length. Qed.
Definition ex_mask : mask := mkMask 6 6 4 4.
Lemma ex_filt7 d : length (ex_filt d) = 7%nat.
Proof. unfold ex_filt. destruct (d =? 0); reflexivity. Qed.
(** A mask of 4 x 4 meeting the stamp in one pixel; the C code runs on the
    10 x 10 padded array. *)
Example C50_ex : exists mm full,
  ex_render 5 5 1 1 None (Some ex_mask) false = Ok (One (mkPatch 6 6 (Some mm))) /\
  ex_render 5 5 1 1 None None false = Ok (One (mkPatch 4 4 (Some full))) /\
  px mm 0 0 = 385 /\ px full 2 2 = 385 /\ in_box ex_stamp 5 5 6 6 /\ in_mask ex_mask 6 6.
Proof.
  assert (B : in_box ex_stamp 5 5 6 6) by (unfold in_box, box_x0, box_y0; cbn; lia).
  assert (M : in_mask ex_mask 6 6) by (unfold in_mask; cbn; lia).
  destruct (C50_mask 0 1 Z.add Z.mul Z.sub Z.opp (fun a b => a - b) Zth ex_filt ex_filt7 ex_env ex_stamp 5 5 1 1 ex_mask ex_env_ok)
    as (mm & full & E1 & E2 & _ & _ & V1 & V2); try (cbn; lia).
  { exists 6, 6. auto. }
  exists mm, full. split; [exact E1|]. split; [exact E2|].
  assert (P : px mm 0 0 = 385) by (etransitivity; [exact (V1 6 6 M)|vm_compute; reflexivity]).
  split; [exact P|]. split; [|auto]. etransitivity; [symmetry; exact (V2 6 6 M B)|exact P].
Qed.
(** Refutation: just outside the stamp the masked picture is not zero, though
    the full rendering has nothing there. *)
Theorem C50_wings_refuted : exists mm full,
  ex_render 5 5 1 1 None (Some ex_mask) false = Ok (One (mkPatch 6 6 (Some mm))) /\
  ex_render 5 5 1 1 None None false = Ok (One (mkPatch 4 4 (Some full))) /\
  aw full = 3 /\ px mm 0 1 <> 0 /\ in_mask ex_mask 6 7 /\ ~ in_box ex_stamp 5 5 6 7.
Proof.
  assert (M : in_mask ex_mask 6 7) by (unfold in_mask; cbn; lia).
  destruct (C50_mask 0 1 Z.add Z.mul Z.sub Z.opp (fun a b => a - b) Zth ex_filt ex_filt7 ex_env ex_stamp 5 5 1 1 ex_mask ex_env_ok)
    as (mm & _ & E1 & _ & _ & _ & V1 & _); try (cbn; lia).
  { exists 6, 6. unfold in_box, in_mask, box_x0, box_y0; cbn; lia. }
  destruct (C50_full 0 1 Z.add Z.mul Z.sub Z.opp (fun a b => a - b) Zth ex_filt ex_filt7 ex_env ex_stamp 5 5 1 1 false ex_env_ok) as (full & E2 & _ & W & _); try (cbn; lia).
  exists mm, full. split; [exact E1|]. split; [exact E2|]. split; [exact W|]. split; [|split; auto].
  - intros Z0. assert (C : px mm 0 1 = conv 0 Z.add Z.mul (ex_filt 1) (ex_filt 1) ex_stamp 2 3) by exact (V1 6 7 M).
    rewrite Z0 in C. vm_compute in C. discriminate.
  - unfold in_box, box_x0, box_y0. cbn. lia.
Qed.

Print Assumptions C49_padding.
Print Assumptions C50_shift.
Print Assumptions C50_full.
Print Assumptions C50_mask.
Print Assumptions C50_none.
Print Assumptions C50_derivatives.
Print Assumptions C50_radius.
Print Assumptions C50_radius_refuted.
Print Assumptions C50_wings_refuted.
