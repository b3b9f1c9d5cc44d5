(** C41: regions of interest. *)
From Coq Require Import List ZArith QArith Qround Qabs Bool Lia Lqa.
From Verif Require Import RoiModel.
Import ListNotations.
Open Scope Z_scope.

(** Nearest integer. *)
Lemma np_round_nearest q : (Qabs (inject_Z (np_round q) - q) <= 1 # 2)%Q.
Proof.
  unfold np_round. assert (H1 := Qfloor_le q). assert (H2 := Qlt_floor q).
  rewrite inject_Z_plus in H2. change (inject_Z 1) with 1%Q in H2.
  assert (HA : forall z, (inject_Z z - q <= 1 # 2)%Q -> (q - inject_Z z <= 1 # 2)%Q -> (Qabs (inject_Z z - q) <= 1 # 2)%Q)
    by (intros z A B; apply Qabs_Qle_condition; split; lra).
  destruct (q - inject_Z (Qfloor q) ?= 1 # 2)%Q eqn:E.
  - apply Qeq_alt in E. destruct (Z.even (Qfloor q)); apply HA; rewrite ?inject_Z_plus; change (inject_Z 1) with 1%Q; lra.
  - apply Qlt_alt in E. apply HA; lra.
  - apply Qgt_alt in E. apply HA; rewrite ?inject_Z_plus; change (inject_Z 1) with 1%Q; lra.
Qed.

Lemma clip_spec a lo hi : lo <= hi -> lo <= clip a lo hi <= hi.
Proof. unfold clip. lia. Qed.

Section Props.
Context (to_pixel : Q * Q -> Q * Q).
Notation interpret_roi := (interpret_roi to_pixel).

(** [r] is the part of the image inside lo..hi (in each axis), and not empty. *)
Definition is_intersection (W H xlo xhi ylo yhi : Z) (r : region) : Prop :=
  let '(x0, x1, y0, y1) := r in
  0 <= x0 < x1 /\ x1 <= W /\ 0 <= y0 < y1 /\ y1 <= H /\
  (forall x, x0 <= x < x1 <-> 0 <= x < W /\ xlo <= x <= xhi) /\
  (forall y, y0 <= y < y1 <-> 0 <= y < H /\ ylo <= y <= yhi).
Definition misses (W H xlo xhi ylo yhi : Z) : Prop :=
  forall x y, 0 <= x < W -> 0 <= y < H -> xlo <= x <= xhi -> ylo <= y <= yhi -> False.

Lemma clip_region W H xlo xhi ylo yhi : 0 <= W -> 0 <= H -> xlo <= xhi -> ylo <= yhi ->
  let r := (clip xlo 0 W, clip (xhi + 1) 0 W, clip ylo 0 H, clip (yhi + 1) 0 H) in
  if empty r then misses W H xlo xhi ylo yhi else is_intersection W H xlo xhi ylo yhi r.
Proof.
  intros HW HH HX HY r. unfold r, empty, is_intersection, misses, clip.
  destruct (Z.eqb_spec (Z.min (Z.max xlo 0) W) (Z.min (Z.max (xhi + 1) 0) W)); simpl; [intros; lia|].
  destruct (Z.eqb_spec (Z.min (Z.max ylo 0) H) (Z.min (Z.max (yhi + 1) 0) H)); [intros; lia|].
  repeat split; intros; lia.
Qed.

Lemma flag_spec W H (r : region) : let '(x0, x1, y0, y1) := r in
  (negb (x0 =? 0) || negb (y0 =? 0) || negb (x1 =? W) || negb (y1 =? H)) = true <-> r <> (0, W, 0, H).
Proof.
  destruct r as [[[x0 x1] y0] y1].
  destruct (Z.eqb_spec x0 0), (Z.eqb_spec y0 0), (Z.eqb_spec x1 W), (Z.eqb_spec y1 H); simpl; split; intros; try congruence; auto.
Qed.

(** *** C41: a region around a position *)
Theorem C41_around_position : forall H W ra dec sz roi, 0 <= W -> 0 <= H -> 0 <= sz ->
  let xc := np_round (fst (to_pixel (ra, dec))) in
  let yc := np_round (snd (to_pixel (ra, dec))) in
  match interpret_roi H W roi (Some (ra, dec, sz)) None with
  | Some (r, flag) =>
      is_intersection W H (xc - sz) (xc + sz) (yc - sz) (yc + sz) r /\ (flag = true <-> r <> (0, W, 0, H))
  | None => misses W H (xc - sz) (xc + sz) (yc - sz) (yc + sz)
  end.
Proof.
  intros H W ra dec sz roi HW HH HS xc yc. unfold RoiModel.interpret_roi, size_roi. fold xc yc.
  assert (C := clip_region W H (xc - sz) (xc + sz) (yc - sz) (yc + sz) HW HH ltac:(lia) ltac:(lia)). cbv zeta in C.
  destruct (empty _); auto. split; auto. apply (flag_spec W H (_, _, _, _)).
Qed.

(** *** C41: a region covering a box on the sky *)
Theorem C41_sky_box : forall H W ra0 ra1 dec0 dec1 roi, 0 <= W -> 0 <= H ->
  let corners := map to_pixel [(ra0, dec0); (ra1, dec0); (ra0, dec1); (ra1, dec1)] in
  exists xlo xhi ylo yhi,
    (* the smallest box that holds the four rounded corners *)
    (forall c, In c corners -> xlo <= np_round (fst c) <= xhi /\ ylo <= np_round (snd c) <= yhi) /\
    (exists c, In c corners /\ np_round (fst c) = xlo) /\ (exists c, In c corners /\ np_round (fst c) = xhi) /\
    (exists c, In c corners /\ np_round (snd c) = ylo) /\ (exists c, In c corners /\ np_round (snd c) = yhi) /\
    match interpret_roi H W roi None (Some (ra0, ra1, dec0, dec1)) with
    | Some (r, flag) => is_intersection W H xlo xhi ylo yhi r /\ (flag = true <-> r <> (0, W, 0, H))
    | None => misses W H xlo xhi ylo yhi
    end.
Proof.
  intros H W ra0 ra1 dec0 dec1 roi HW HH corners.
  set (px r d := np_round (fst (to_pixel (r, d)))). set (py r d := np_round (snd (to_pixel (r, d)))).
  exists (min4 (px ra0 dec0) (px ra1 dec0) (px ra0 dec1) (px ra1 dec1)),
         (max4 (px ra0 dec0) (px ra1 dec0) (px ra0 dec1) (px ra1 dec1)),
         (min4 (py ra0 dec0) (py ra1 dec0) (py ra0 dec1) (py ra1 dec1)),
         (max4 (py ra0 dec0) (py ra1 dec0) (py ra0 dec1) (py ra1 dec1)).
  assert (HM : forall f : Q * Q -> Z, (exists c, In c corners /\ f c = min4 (f (to_pixel (ra0, dec0))) (f (to_pixel (ra1, dec0))) (f (to_pixel (ra0, dec1))) (f (to_pixel (ra1, dec1)))) /\
     (exists c, In c corners /\ f c = max4 (f (to_pixel (ra0, dec0))) (f (to_pixel (ra1, dec0))) (f (to_pixel (ra0, dec1))) (f (to_pixel (ra1, dec1))))).
  { intros f. assert (HC : forall q, In q [(ra0, dec0); (ra1, dec0); (ra0, dec1); (ra1, dec1)] -> In (to_pixel q) corners) by (intros; apply in_map; auto).
    assert (K0 := HC (ra0, dec0) ltac:(simpl; auto)). assert (K1 := HC (ra1, dec0) ltac:(simpl; auto)).
    assert (K2 := HC (ra0, dec1) ltac:(simpl; auto)). assert (K3 := HC (ra1, dec1) ltac:(simpl; auto)). clear HC.
    unfold min4, max4. split.
    - destruct (Z.min_spec (Z.min (Z.min (f (to_pixel (ra0, dec0))) (f (to_pixel (ra1, dec0)))) (f (to_pixel (ra0, dec1)))) (f (to_pixel (ra1, dec1)))) as [[_ E]|[_ E]]; rewrite E; [|eauto 4].
      destruct (Z.min_spec (Z.min (f (to_pixel (ra0, dec0))) (f (to_pixel (ra1, dec0)))) (f (to_pixel (ra0, dec1)))) as [[_ E2]|[_ E2]]; rewrite E2; [|eauto 4].
      destruct (Z.min_spec (f (to_pixel (ra0, dec0))) (f (to_pixel (ra1, dec0)))) as [[_ E3]|[_ E3]]; rewrite E3; eauto 4.
    - destruct (Z.max_spec (Z.max (Z.max (f (to_pixel (ra0, dec0))) (f (to_pixel (ra1, dec0)))) (f (to_pixel (ra0, dec1)))) (f (to_pixel (ra1, dec1)))) as [[_ E]|[_ E]]; rewrite E; [eauto 4|].
      destruct (Z.max_spec (Z.max (f (to_pixel (ra0, dec0))) (f (to_pixel (ra1, dec0)))) (f (to_pixel (ra0, dec1)))) as [[_ E2]|[_ E2]]; rewrite E2; [eauto 4|].
      destruct (Z.max_spec (f (to_pixel (ra0, dec0))) (f (to_pixel (ra1, dec0)))) as [[_ E3]|[_ E3]]; rewrite E3; eauto 4. }
  split; [|split; [|split; [|split; [|split]]]].
  - intros c Hc. unfold corners in Hc. simpl in Hc. unfold min4, max4, px, py.
    destruct Hc as [<-|[<-|[<-|[<-|[]]]]]; lia.
  - apply (HM (fun c => np_round (fst c))).
  - apply (HM (fun c => np_round (fst c))).
  - apply (HM (fun c => np_round (snd c))).
  - apply (HM (fun c => np_round (snd c))).
  - unfold RoiModel.interpret_roi, box_roi. fold px py.
    match goal with |- context [empty (clip ?xlo 0 W, clip (?xhi + 1) 0 W, clip ?ylo 0 H, clip (?yhi + 1) 0 H)] =>
      assert (C := clip_region W H xlo xhi ylo yhi HW HH ltac:(unfold min4, max4; lia) ltac:(unfold min4, max4; lia)); cbv zeta in C end.
    destruct (empty _); auto. split; auto. apply (flag_spec W H (_, _, _, _)).
Qed.

(** Nothing requested: the full image. *)
Theorem C41_default : forall H W, interpret_roi H W None None None = Some ((0, W, 0, H), false).
Proof. intros. unfold RoiModel.interpret_roi. rewrite !Z.eqb_refl. reflexivity. Qed.

(** An explicit region is handed back unchecked: it may be empty or outside
    the image.  The flag is still right. *)
Theorem C41_explicit_roi_refuted : forall H W r, exists flag,
  interpret_roi H W (Some r) None None = Some (r, flag) /\ (flag = true <-> r <> (0, W, 0, H)).
Proof.
  intros H W [[[x0 x1] y0] y1]. eexists. split; [reflexivity|]. apply (flag_spec W H (x0, x1, y0, y1)).
Qed.
End Props.

Definition flat_sky (p : Q * Q) : Q * Q := p.
Example C41_ex1 : interpret_roi flat_sky 20 30 None (Some (27 # 2, 1 # 4, 5%Z)%Q) None = Some ((9, 20, 0, 6), true).
Proof. reflexivity. Qed.
Example C41_ex2 : interpret_roi flat_sky 20 30 None None (Some (-3 # 1, 40 # 1, 5 # 2, 7 # 2)%Q) = Some ((0, 30, 2, 5), true).
Proof. reflexivity. Qed.
Example C41_ex3 : interpret_roi flat_sky 20 30 None (Some (40 # 1, 1 # 4, 5%Z)%Q) None = None.
Proof. reflexivity. Qed.
(** Outside the image and empty, yet accepted. *)
Example C41_explicit_ex : interpret_roi flat_sky 20 30 (Some (100, 100, -5, 3)) None None = Some ((100, 100, -5, 3), true).
Proof. reflexivity. Qed.
(** A negative half-size gives a region with its ends exchanged. *)
Theorem C41_negative_size_refuted : exists H W ra dec sz x0 x1 y0 y1 flag, sz < 0 /\
  interpret_roi flat_sky H W None (Some (ra, dec, sz)) None = Some ((x0, x1, y0, y1), flag) /\ x1 < x0.
Proof. exists 20, 30, (10 # 1)%Q, (10 # 1)%Q, (-3), 13, 8, 13, 8, true. repeat split; lia. Qed.

Print Assumptions C41_around_position.
Print Assumptions C41_sky_box.
Print Assumptions C41_default.
Print Assumptions C41_explicit_roi_refuted.
Print Assumptions C41_negative_size_refuted.
Print Assumptions np_round_nearest.
