(** Properties C16-C23: image patches.  [val_at p X Y] is the value the patch
    gives to pixel (X, Y) of the plane, [None] outside its extent;
    [img_at zero p X Y] reads the patch as zero outside (PatchSpec.v). *)
From Coq Require Import List ZArith Bool Lia Reals Lra.
From Verif Require Import Base PatchModel PatchSpec PatchProofs.
Import ListNotations.
Open Scope Z_scope.

(** A 2x3 patch at (-1, 1) used in the examples: pixel values 10*row+col. *)
Definition ex_patch : patch Z := mkPatch (-1) 1 (Some (mkArr 2 3 (fun y x => 10 * y + x))).

(** ** C16 *)
Theorem C16_add_to : forall (V : Type) (add mul : V -> V -> V) (p : patch V) (img : arr V) (scale : V),
  wf_patch p -> wf_arr img ->
  exists img', add_to add mul p img scale = Ok img' /\
    ah img' = ah img /\ aw img' = aw img /\
    forall Y X, 0 <= Y < ah img -> 0 <= X < aw img ->
      px img' Y X = match val_at p X Y with
                    | Some v => add (px img Y X) (mul v scale)
                    | None => px img Y X
                    end.
Proof. intros. apply add_to_spec; auto. Qed.

(** The patch hangs over the left and top edges of a 2x2 image. *)
Example C16_ex : match add_to Z.add Z.mul ex_patch (mkArr 2 2 (fun _ _ => 100)) 2 with
  | Ok i => (px i 0 0, px i 0 1, px i 1 0, px i 1 1) = (100, 100, 102, 104)
  | Err _ => False end.
Proof. reflexivity. Qed.

(** ** C17 *)
Theorem C17_clip_to : forall (V : Type) (p : patch V) W H, wf_patch p -> 0 <= W -> 0 <= H ->
  exists p' b, clip_to p W H = Ok (p', b) /\ wf_patch p' /\
    (forall X Y, val_at p' X Y = if in_box 0 W 0 H X Y then val_at p X Y else None) /\
    (b = false -> forall X Y, in_box 0 W 0 H X Y = true -> val_at p X Y = None) /\
    (b = true -> exists a, pimg p' = Some a /\ 0 <= x0 p' /\ 0 <= y0 p' /\
                           x0 p' + aw a <= W /\ y0 p' + ah a <= H).
Proof.
  intros V p W H WF HW HH. destruct (clip_to_spec p W H WF HW HH) as (p' & b & E & Wf' & HV & HF & HT).
  exists p', b. split; auto. split; auto. split; auto. split; auto.
  intros Hb X Y HI. specialize (HV X Y). rewrite HI in HV. rewrite <- HV.
  unfold val_at. rewrite HF; auto.
Qed.

(** The return value True does not mean that anything is left: a patch wholly
    to the left of the image is reported as overlapping. *)
Theorem C17_true_without_overlap_refuted :
  exists (p : patch Z) W H p', wf_patch p /\ 0 < W /\ 0 < H /\
    clip_to p W H = Ok (p', true) /\
    (forall X Y, in_box 0 W 0 H X Y = true -> val_at p X Y = None) /\
    exists a, pimg p' = Some a /\ aw a = 0.
Proof.
  exists (mkPatch (-5) 0 (Some (mkArr 2 3 (fun _ _ => 1)))), 4, 4.
  eexists. split; [split; simpl; lia|]. split; [lia|]. split; [lia|]. split; [reflexivity|]. split.
  - intros X Y HI. unfold in_box in HI. apply val_at_out; simpl.
    apply andb_prop in HI. destruct HI as (HI & _). apply andb_prop in HI. destruct HI as (HI & _).
    apply andb_prop in HI. destruct HI as (HI & _). apply Z.leb_le in HI. lia.
  - eexists; split; reflexivity.
Qed.

Example C17_ex : match clip_to ex_patch 2 2 with
  | Ok (p, true) => (x0 p, y0 p, pshape p, val_at p 0 1, val_at p 1 1, val_at p 2 1)
                    = (0, 1, (1, 2), Some 1, Some 2, None)
  | _ => False end.
Proof. reflexivity. Qed.

(** ** C18 *)
Theorem C18_clip_to_roi : forall (V : Type) (p : patch V) L R T B, wf_patch p -> L <= R -> T <= B ->
  let '(p', b) := clip_to_roi p L R T B in
    wf_patch p' /\
    (forall X Y, val_at p' X Y = if in_box L R T B X Y then val_at p X Y else None) /\
    (b = true -> exists a, pimg p' = Some a /\ L <= x0 p' /\ T <= y0 p' /\
                           x0 p' + aw a <= R /\ y0 p' + ah a <= B) /\
    (b = false -> forall X Y, in_box L R T B X Y = true -> val_at p X Y = None).
Proof.
  intros V p L R T B WF H1 H2. pose proof (clip_roi_spec p L R T B WF H1 H2) as HS.
  destruct (clip_to_roi p L R T B) as [p' b]. destruct HS as (A & HV & HT & HF).
  split; auto. split; auto. split; auto.
  intros Hb X Y HI. specialize (HV X Y). rewrite HI in HV. rewrite <- HV.
  unfold val_at. rewrite HF; auto.
Qed.

(** For a patch with pixels and a region with pixels, True is returned exactly
    when the two share a pixel. *)
Theorem C18_reports_overlap : forall (V : Type) (p : patch V) L R T B a,
  pimg p = Some a -> 0 < aw a -> 0 < ah a -> L < R -> T < B ->
  (snd (clip_to_roi p L R T B) = true <->
   exists X Y, in_box L R T B X Y = true /\ val_at p X Y <> None).
Proof.
  intros V p L R T B a Ea Hw Hh HL HT.
  rewrite clip_roi_true by (try lia; unfold wf_patch; rewrite Ea; split; lia). split.
  - intros (a' & E & H1 & H2 & H3 & H4). rewrite Ea in E; injection E; intros <-.
    exists (Z.max L (x0 p)), (Z.max T (y0 p)). unfold in_box, val_at. rewrite Ea.
    split; [repeat (apply andb_true_intro; split); try apply Z.leb_le; try apply Z.ltb_lt; lia|].
    match goal with |- (if ?c then _ else _) <> _ => replace c with true end; [discriminate|].
    symmetry. repeat (apply andb_true_intro; split); try apply Z.leb_le; try apply Z.ltb_lt; lia.
  - intros (X & Y & HI & HV). exists a. split; auto.
    unfold in_box in HI. unfold val_at in HV. rewrite Ea in HV.
    match type of HV with (if ?c then _ else _) <> _ => destruct c eqn:E; [|congruence] end.
    repeat match goal with H : _ && _ = true |- _ => apply andb_prop in H; destruct H end.
    repeat match goal with H : (_ <=? _) = true |- _ => apply Z.leb_le in H
                         | H : (_ <? _) = true |- _ => apply Z.ltb_lt in H end. lia.
Qed.

Example C18_ex : match clip_to_roi ex_patch 0 5 2 9 with
  | (p, true) => (x0 p, y0 p, pshape p, val_at p 1 2) = (0, 2, (1, 2), Some 12)
  | _ => False end.
Proof. reflexivity. Qed.

(** ** C19 *)
Theorem C19_arithmetic_pointwise : forall (V : Type) (zero : V) (f : V -> V -> V) (p q : patch V) a b,
  pimg p = Some a -> pimg q = Some b -> wf_arr a -> wf_arr b ->
  (forall x, f x zero = x) ->
  exists r c, perform_arithmetic zero f p q = Ok r /\ pimg r = Some c /\
    x0 r = Z.min (x0 p) (x0 q) /\ y0 r = Z.min (y0 p) (y0 q) /\
    x0 r + aw c = Z.max (x0 p + aw a) (x0 q + aw b) /\
    y0 r + ah c = Z.max (y0 p + ah a) (y0 q + ah b) /\
    forall X Y, img_at zero r X Y = f (img_at zero p X Y) (img_at zero q X Y).
Proof.
  intros V zero f p q a b Ea Eb Wa Wb Hf.
  destruct (perform_spec zero f p q a b Ea Eb Wa Wb) as (r & c & E & Ec & X1 & Y1 & X2 & Y2 & HV).
  exists r, c. repeat (split; [assumption|]).
  intros X Y. unfold img_at. rewrite HV.
  destruct (in_box _ _ _ _ X Y) eqn:EI.
  - destruct (val_at p X Y), (val_at q X Y); auto.
  - assert (val_at p X Y = None /\ val_at q X Y = None) as (-> & ->); [|auto].
    unfold in_box in EI. destruct p as [PX PY pp], q as [QX QY qq]; simpl in *; subst.
    destruct Wa, Wb.
    repeat match goal with H : _ && _ = false |- _ => apply andb_false_iff in H; destruct H as [H|H] end;
    try apply Z.leb_gt in EI; try apply Z.ltb_ge in EI;
    split; apply val_at_out; lia.
Qed.

(** A no-data operand makes the sum fail, unless origins and shapes agree:
    the no-data patch cannot be used as "nothing". *)
Theorem C19_no_data_operand_refuted :
  exists (p q : patch Z),
    pimg q = None /\ (exists a, pimg p = Some a /\ wf_arr a) /\
    perform_arithmetic 0 Z.add p q = Err TypeError /\
    perform_arithmetic 0 Z.add q p = Err AttributeError.
Proof.
  exists ex_patch, (mkPatch 0 0 None). split; [reflexivity|]. split; [|split; reflexivity].
  eexists; split; [reflexivity|]. split; simpl; lia.
Qed.

(** add_patches treats the Python value None as nothing. *)
Theorem C19_add_patches_none : forall (V : Type) (zero : V) add (p : option (patch V)),
  add_patches zero add p None = Ok p /\ add_patches zero add None p = Ok p.
Proof. intros. destruct p; split; reflexivity. Qed.

Example C19_ex : match perform_arithmetic 0 Z.sub ex_patch
      (mkPatch 1 2 (Some (mkArr 2 2 (fun _ _ => 7)))) with
  | Ok r => (x0 r, y0 r, pshape r, img_at 0 r 1 2, img_at 0 r 2 2, img_at 0 r (-1) 2, img_at 0 r (-1) 3)
            = (-1, 1, (3, 4), 5, -7, 10, 0)
  | _ => False end.
Proof. reflexivity. Qed.

(** ** C20 *)
Theorem C20_trim_keeps_image : forall (V : Type) (isz : V -> bool) (zero : V) (p : patch V), wf_patch p ->
  (forall v, isz v = true -> v = zero) ->
  forall X Y, img_at zero (trim isz p) X Y = img_at zero p X Y.
Proof.
  intros V isz zero p WF HZ X Y. destruct (trim_val isz p WF) as (A & B & _).
  unfold img_at. destruct (val_at (trim isz p) X Y) as [v|] eqn:E.
  - rewrite (A _ _ _ E). auto.
  - destruct (val_at p X Y) as [v|] eqn:E2; auto. symmetry; apply HZ.
    destruct (isz v) eqn:Ez; auto. rewrite (B _ _ _ E2 Ez) in E. discriminate.
Qed.

Theorem C20_trim_tight : forall (V : Type) (isz : V -> bool) (p : patch V), wf_patch p ->
  (exists X Y v, val_at p X Y = Some v /\ isz v = false) ->
  exists a, pimg (trim isz p) = Some a /\ wf_arr a /\
    let q := trim isz p in
    (exists Y v, val_at q (x0 q) Y = Some v /\ isz v = false) /\
    (exists Y v, val_at q (x0 q + aw a - 1) Y = Some v /\ isz v = false) /\
    (exists X v, val_at q X (y0 q) = Some v /\ isz v = false) /\
    (exists X v, val_at q X (y0 q + ah a - 1) = Some v /\ isz v = false).
Proof. intros V isz p WF. apply (trim_val isz p WF). Qed.

(** An all-zero patch becomes the no-data patch, except that an empty or a
    one-pixel patch is left as it is. *)
Theorem C20_trim_all_zero : forall (V : Type) (isz : V -> bool) (p : patch V), wf_patch p ->
  (forall X Y v, val_at p X Y = Some v -> isz v = true) ->
  pimg (trim isz p) = None \/
  (trim isz p = p /\ exists a, pimg p = Some a /\ (ah a = 0 \/ aw a = 0 \/ ah a = 1 /\ aw a = 1)).
Proof. intros V isz p WF. apply (trim_val isz p WF). Qed.

(** Only pixel (row 1, col 2) of a 3x4 patch is nonzero. *)
Example C20_ex :
  let p := mkPatch 5 6 (Some (mkArr 3 4 (fun y x => if (y =? 1) && (x =? 2) then 9 else 0))) in
  let q := trim (Z.eqb 0) p in (x0 q, y0 q, pshape q, val_at q 7 7) = (7, 7, (1, 1), Some 9).
Proof. reflexivity. Qed.

(** ** C21 *)
Theorem C21_pixel_indices : forall (V : Type) (p : patch V) a H W,
  pimg p = Some a -> 0 <= aw a -> 0 <= ah a ->
  0 <= x0 p -> 0 <= y0 p -> x0 p + aw a <= W -> y0 p + ah a <= H -> H * W < 2147483648 ->
  length (get_pixel_indices p W) = Z.to_nat (ah a * aw a) /\
  (forall i j, 0 <= i < ah a -> 0 <= j < aw a ->
     nth_error (get_pixel_indices p W) (Z.to_nat (i * aw a + j)) = Some ((y0 p + i) * W + (x0 p + j))) /\
  NoDup (get_pixel_indices p W) /\
  Forall (fun k => 0 <= k < H * W) (get_pixel_indices p W).
Proof.
  intros V p a H W Ea Hw Hh Hx Hy HW HH HB.
  destruct (pixel_indices_nth p a H W) as (HL & HN); auto.
  split; auto. split; auto.
  assert (DEC : forall k v, nth_error (get_pixel_indices p W) k = Some v ->
    exists i j, 0 <= i < ah a /\ 0 <= j < aw a /\ Z.of_nat k = i * aw a + j /\
      v = (y0 p + i) * W + (x0 p + j)).
  { intros k v E. assert (HK : (k < length (get_pixel_indices p W))%nat)
      by (apply nth_error_Some; congruence).
    rewrite HL in HK. assert (0 < aw a) by nia.
    pose proof (Z.div_mod (Z.of_nat k) (aw a) ltac:(lia)) as DM.
    pose proof (Z.mod_pos_bound (Z.of_nat k) (aw a) ltac:(lia)) as MB.
    assert (0 <= Z.of_nat k / aw a) by (apply Z.div_pos; lia).
    assert (Z.of_nat k / aw a < ah a) by (apply Z.div_lt_upper_bound; nia).
    exists (Z.of_nat k / aw a), (Z.of_nat k mod aw a).
    split; [lia|]. split; [lia|]. split; [lia|].
    specialize (HN (Z.of_nat k / aw a) (Z.of_nat k mod aw a) ltac:(lia) ltac:(lia)).
    replace (Z.to_nat (Z.of_nat k / aw a * aw a + Z.of_nat k mod aw a)) with k in HN by lia.
    congruence. }
  split.
  - apply NoDup_nth_error. intros k k' HK EQ.
    destruct (nth_error (get_pixel_indices p W) k) as [v|] eqn:E1;
      [|apply nth_error_None in E1; lia].
    symmetry in EQ. destruct (DEC _ _ E1) as (i & j & Hi & Hj & Ek & Ev).
    destruct (DEC _ _ EQ) as (i' & j' & Hi' & Hj' & Ek' & Ev').
    assert (i = i') by nia. subst i'. assert (j = j') by nia. nia.
  - apply Forall_forall. intros v HI. apply In_nth_error in HI. destruct HI as (k & E).
    destruct (DEC _ _ E) as (i & j & Hi & Hj & Ek & Ev). nia.
Qed.

(** With the default 32-bit index type, indices of an image of 2^31 pixels or
    more wrap around to negative numbers. *)
Theorem C21_large_image_refuted : exists (p : patch Z) a H W,
  pimg p = Some a /\ 0 < aw a /\ 0 < ah a /\
  0 <= x0 p /\ 0 <= y0 p /\ x0 p + aw a <= W /\ y0 p + ah a <= H /\
  get_pixel_indices p W = [-2147483648].
Proof.
  exists (mkPatch 0 32768 (Some (mkArr 1 1 (fun _ _ => 0)))).
  eexists. exists 65536, 65536. split; [reflexivity|]. cbn [x0 y0 pimg aw ah].
  repeat (split; [lia|]). reflexivity.
Qed.

Example C21_ex : get_pixel_indices (mkPatch 1 2 (Some (mkArr 2 3 (fun _ _ => tt)))) 10
  = [21; 22; 23; 31; 32; 33].
Proof. reflexivity. Qed.

(** ** C22 *)
Theorem C22_bbox_overlap : forall (V : Type) (p q : patch V) a b,
  pimg p = Some a -> pimg q = Some b ->
  0 < aw a -> 0 < ah a -> 0 < aw b -> 0 < ah b ->
  (has_bbox_overlap p q = true <-> exists X Y, val_at p X Y <> None /\ val_at q X Y <> None).
Proof.
  intros V p q a b Ea Eb H1 H2 H3 H4. unfold has_bbox_overlap.
  unfold get_extent, pshape. rewrite Eb.
  rewrite (overlaps_bbox_iff p _ _ _ _ a) by (auto; lia).
  unfold val_at, in_box. rewrite Ea, Eb.
  split; intros (X & Y & A & B); exists X, Y.
  - rewrite A, B. split; discriminate.
  - destruct (_ && _ && _ && _); [|congruence].
    destruct (_ && _ && _ && _); [auto|congruence].
Qed.

Theorem C22_box_overlap : forall (V : Type) (p : patch V) bx0 bx1 by0 by1 a, pimg p = Some a ->
  0 < aw a -> 0 < ah a -> bx0 < bx1 -> by0 < by1 ->
  (overlaps_bbox p (bx0, bx1, by0, by1) = true <->
   exists X Y, bx0 <= X < bx1 /\ by0 <= Y < by1 /\ val_at p X Y <> None).
Proof.
  intros V p bx0 bx1 by0 by1 a Ea H1 H2 H3 H4.
  rewrite (overlaps_bbox_iff p _ _ _ _ a) by (auto; lia).
  unfold val_at. rewrite Ea. unfold in_box.
  split; intros (X & Y & A & B); exists X, Y.
  - rewrite A.
    repeat match goal with H : _ && _ = true |- _ => apply andb_prop in H; destruct H end.
    repeat match goal with H : (_ <=? _) = true |- _ => apply Z.leb_le in H
                         | H : (_ <? _) = true |- _ => apply Z.ltb_lt in H end.
    split; [lia|]. split; [lia|discriminate].
  - destruct B as (B & C).
    destruct (_ && _ && _ && _); [|congruence]. split; auto.
    repeat (apply andb_true_intro; split); try apply Z.leb_le; try apply Z.ltb_lt; lia.
Qed.

(** A patch without pixels is reported to overlap a box around its origin, and
    the nonzero test then raises instead of answering. *)
Theorem C22_empty_patch_refuted : exists (p q : patch Z),
  wf_patch p /\ wf_patch q /\ (forall X Y, val_at p X Y = None) /\
  has_bbox_overlap p q = true /\
  has_nonzero_overlap Z.add Z.mul 0 (fun v => 0 <? v) p q = Err AttributeError.
Proof.
  exists (mkPatch 0 2 None), ex_patch. split; [exact I|]. split; [split; simpl; lia|].
  split; [intros; reflexivity|]. split; reflexivity.
Qed.

(** The nonzero test over the reals. *)
Definition Rgt0 (r : R) : bool := if Rlt_dec 0 r then true else false.

Lemma sum_upto_zero f n : (forall k, (k < n)%nat -> f k = 0%R) -> sum_upto Rplus 0%R f n = 0%R.
Proof. induction n; simpl; intros H; auto. rewrite IHn, H by auto with arith. lra. Qed.
Lemma sum_upto_nonneg f n : (forall k, (k < n)%nat -> (0 <= f k)%R) -> (0 <= sum_upto Rplus 0 f n)%R.
Proof. induction n; simpl; intros H; [lra|]. pose proof (H n (Nat.lt_succ_diag_r n)).
  assert (0 <= sum_upto Rplus 0 f n)%R by (apply IHn; auto with arith). lra. Qed.
Lemma sum_upto_pos f n k : (forall k, (k < n)%nat -> (0 <= f k)%R) -> (k < n)%nat -> (0 < f k)%R ->
  (0 < sum_upto Rplus 0 f n)%R.
Proof.
  induction n; simpl; intros H Hk Hp; [lia|].
  pose proof (H n (Nat.lt_succ_diag_r n)).
  assert (0 <= sum_upto Rplus 0 f n)%R by (apply sum_upto_nonneg; auto with arith).
  destruct (Nat.eq_dec k n) as [->|]; [lra|].
  assert (0 < sum_upto Rplus 0 f n)%R by (apply IHn; auto with arith; lia). lra.
Qed.
Lemma sum_upto_not_zero f n : sum_upto Rplus 0%R f n <> 0%R -> exists k, (k < n)%nat /\ f k <> 0%R.
Proof.
  induction n; simpl; intros H; [lra|].
  destruct (Req_dec (f n) 0) as [E|E].
  - rewrite E, Rplus_0_r in H. destruct (IHn H) as (k & ? & ?); eauto with arith.
  - exists n; split; auto with arith.
Qed.

Lemma val_at_in (p : patch R) a X Y : pimg p = Some a ->
  x0 p <= X < x0 p + aw a -> y0 p <= Y < y0 p + ah a ->
  val_at p X Y = Some (px a (Y - y0 p) (X - x0 p)).
Proof.
  intros E HX HY. unfold val_at. rewrite E.
  match goal with |- (if ?c then _ else _) = _ => replace c with true end; auto.
  symmetry. repeat (apply andb_true_intro; split); try apply Z.leb_le; try apply Z.ltb_lt; lia.
Qed.
Lemma val_at_inv (p : patch R) a X Y v : pimg p = Some a -> val_at p X Y = Some v ->
  x0 p <= X < x0 p + aw a /\ y0 p <= Y < y0 p + ah a /\ v = px a (Y - y0 p) (X - x0 p).
Proof.
  intros E HV. unfold val_at in HV. rewrite E in HV.
  match type of HV with (if ?c then _ else _) = _ => destruct c eqn:EE; [|discriminate] end.
  repeat match goal with H : _ && _ = true |- _ => apply andb_prop in H; destruct H end.
  repeat match goal with H : (_ <=? _) = true |- _ => apply Z.leb_le in H
                       | H : (_ <? _) = true |- _ => apply Z.ltb_lt in H end.
  split; [lia|]. split; [lia|congruence].
Qed.

Theorem C22_nonzero_overlap : forall (p q : patch R) a b,
  pimg p = Some a -> pimg q = Some b ->
  0 < aw a -> 0 < ah a -> 0 < aw b -> 0 < ah b ->
  exists r, has_nonzero_overlap Rplus Rmult 0%R Rgt0 p q = Ok r /\
    (r = true -> exists X Y u v, val_at p X Y = Some u /\ val_at q X Y = Some v /\ u <> 0%R /\ v <> 0%R) /\
    ((forall X Y u, val_at p X Y = Some u -> (0 <= u)%R) ->
     (forall X Y v, val_at q X Y = Some v -> (0 <= v)%R) ->
     (exists X Y u v, val_at p X Y = Some u /\ val_at q X Y = Some v /\ u <> 0%R /\ v <> 0%R) ->
     r = true).
Proof.
  intros p q a b Ea Eb H1 H2 H3 H4.
  pose proof (nonzero_overlap_reduces Rplus Rmult 0%R Rgt0 p q a b Ea Eb H1 H2 H3 H4) as HR.
  cbv zeta in HR. rewrite HR. clear HR.
  set (lx := Z.max (x0 q) (x0 p)). set (hx := Z.min (x0 q + aw b) (x0 p + aw a)).
  set (ly := Z.max (y0 q) (y0 p)). set (hy := Z.min (y0 q + ah b) (y0 p + ah a)).
  destruct ((lx <? hx) && (ly <? hy)) eqn:E.
  - apply andb_prop in E. destruct E as (E1 & E2). apply Z.ltb_lt in E1, E2.
    eexists; split; [reflexivity|]. split.
    + unfold Rgt0. intros HG.
      match type of HG with (if Rlt_dec 0 ?s then _ else _) = _ => destruct (Rlt_dec 0 s) as [G|]; [|discriminate] end.
      destruct (sum_upto_not_zero _ _ (Rgt_not_eq _ _ G)) as (y & Hy & Ny).
      destruct (sum_upto_not_zero _ _ Ny) as (x & Hx & Nx).
      exists (Z.of_nat x + lx), (Z.of_nat y + ly).
      do 2 eexists. split; [apply (val_at_in p a _ _ Ea); lia|]. split; [apply (val_at_in q b _ _ Eb); lia|].
      replace (Z.of_nat y + ly - y0 p) with (Z.of_nat y + (ly - y0 p)) by lia.
      replace (Z.of_nat x + lx - x0 p) with (Z.of_nat x + (lx - x0 p)) by lia.
      replace (Z.of_nat y + ly - y0 q) with (Z.of_nat y + (ly - y0 q)) by lia.
      replace (Z.of_nat x + lx - x0 q) with (Z.of_nat x + (lx - x0 q)) by lia.
      split; intros Z0; rewrite Z0 in Nx; apply Nx; lra.
    + intros PP QQ (X & Y & u & v & Hu & Hv & Nu & Nv).
      pose proof (PP _ _ _ Hu) as Pu. pose proof (QQ _ _ _ Hv) as Qv.
      destruct (val_at_inv p a _ _ _ Ea Hu) as (HX & HY & ->).
      destruct (val_at_inv q b _ _ _ Eb Hv) as (HX' & HY' & ->).
      assert (NN : forall y x, (y < Z.to_nat (hy - ly))%nat -> (x < Z.to_nat (hx - lx))%nat ->
        (0 <= px a (Z.of_nat y + (ly - y0 p)) (Z.of_nat x + (lx - x0 p)) *
              px b (Z.of_nat y + (ly - y0 q)) (Z.of_nat x + (lx - x0 q)))%R).
      { intros y x Hy Hx. apply Rmult_le_pos.
        - apply (PP (Z.of_nat x + lx) (Z.of_nat y + ly)). rewrite (val_at_in p a) by (auto; lia).
          do 2 f_equal; lia.
        - apply (QQ (Z.of_nat x + lx) (Z.of_nat y + ly)). rewrite (val_at_in q b) by (auto; lia).
          do 2 f_equal; lia. }
      unfold Rgt0. match goal with |- (if Rlt_dec 0 ?s then _ else _) = _ => destruct (Rlt_dec 0 s) as [|G]; [auto|exfalso; apply G] end.
      apply sum_upto_pos with (k := Z.to_nat (Y - ly)); [|lia|].
      * intros y Hy. apply sum_upto_nonneg. intros x Hx. apply NN; auto.
      * apply sum_upto_pos with (k := Z.to_nat (X - lx)); [|lia|].
        -- intros x Hx. apply NN; auto; lia.
        -- rewrite !Z2Nat.id by lia.
           replace (Y - ly + (ly - y0 p)) with (Y - y0 p) by lia.
           replace (X - lx + (lx - x0 p)) with (X - x0 p) by lia.
           replace (Y - ly + (ly - y0 q)) with (Y - y0 q) by lia.
           replace (X - lx + (lx - x0 q)) with (X - x0 q) by lia.
           apply Rmult_lt_0_compat; lra.
  - eexists; split; [reflexivity|]. split; [discriminate|].
    intros _ _ (X & Y & u & v & Hu & Hv & _ & _).
    destruct (val_at_inv p a _ _ _ Ea Hu) as (HX & HY & _).
    destruct (val_at_inv q b _ _ _ Eb Hv) as (HX' & HY' & _).
    apply andb_false_iff in E. destruct E as [E|E]; apply Z.ltb_ge in E; lia.
Qed.

(** Without the sign condition the nonzero test misses overlaps. *)
Theorem C22_negative_pixels_refuted : exists (p q : patch Z) X Y u v,
  val_at p X Y = Some u /\ val_at q X Y = Some v /\ u <> 0 /\ v <> 0 /\
  has_nonzero_overlap Z.add Z.mul 0 (fun v => 0 <? v) p q = Ok false.
Proof.
  exists (mkPatch 0 0 (Some (mkArr 1 1 (fun _ _ => -1)))), (mkPatch 0 0 (Some (mkArr 1 1 (fun _ _ => 1)))), 0, 0, (-1), 1.
  repeat split; lia.
Qed.

Example C22_ex :
  has_nonzero_overlap Z.add Z.mul 0 (fun v => 0 <? v) ex_patch (mkPatch 1 2 (Some (mkArr 2 2 (fun _ _ => 7)))) = Ok true.
Proof. reflexivity. Qed.

(** ** C23 *)
Theorem C23_get_slices : forall (V : Type) (p : patch V) ih iw, wf_patch p -> 0 <= ih -> 0 <= iw ->
  let '(iny, inx, (outy, outx)) := get_slices p ih iw in
  let '(ph, pw) := pshape p in
  sl_len ph iny = sl_len ih outy /\ sl_len pw inx = sl_len iw outx /\
  (forall i, 0 <= i < sl_len ph iny -> y0 p + (sl_start ph iny + i) = sl_start ih outy + i) /\
  (forall j, 0 <= j < sl_len pw inx -> x0 p + (sl_start pw inx + j) = sl_start iw outx + j) /\
  (forall X Y, in_box 0 iw 0 ih X Y = true ->
     in_box (x0 p) (x0 p + pw) (y0 p) (y0 p + ph) X Y = true ->
     0 <= Y - sl_start ih outy < sl_len ih outy /\ 0 <= X - sl_start iw outx < sl_len iw outx).
Proof. intros. apply get_slices_spec; auto. Qed.

(** getSlice(parent) selects, in the parent, exactly the pixels the patch covers. *)
Theorem C23_get_slice_in_parent : forall (V : Type) (p : patch V) H W a,
  pimg p = Some a -> wf_arr a -> 0 <= H -> 0 <= W ->
  exists ys xs, get_slice_in p H W = Some (ys, xs) /\
    forall X Y, in_box 0 W 0 H X Y = true ->
      ((0 <= Y - sl_start H ys < sl_len H ys /\ 0 <= X - sl_start W xs < sl_len W xs) <->
        in_box (x0 p) (x0 p + aw a) (y0 p) (y0 p + ah a) X Y = true).
Proof. intros. apply get_slice_spec; auto. Qed.

Example C23_ex : get_slices ex_patch 2 2 = (mkSl 0 1, mkSl 1 3, (mkSl 1 2, mkSl 0 2)).
Proof. reflexivity. Qed.

Print Assumptions C16_add_to.
Print Assumptions C17_clip_to.
Print Assumptions C17_true_without_overlap_refuted.
Print Assumptions C18_clip_to_roi.
Print Assumptions C18_reports_overlap.
Print Assumptions C19_arithmetic_pointwise.
Print Assumptions C19_no_data_operand_refuted.
Print Assumptions C20_trim_keeps_image.
Print Assumptions C20_trim_tight.
Print Assumptions C20_trim_all_zero.
Print Assumptions C21_pixel_indices.
Print Assumptions C21_large_image_refuted.
Print Assumptions C22_bbox_overlap.
Print Assumptions C22_box_overlap.
Print Assumptions C22_nonzero_overlap.
Print Assumptions C23_get_slices.
Print Assumptions C23_get_slice_in_parent.
