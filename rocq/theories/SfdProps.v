(** C88: what the dust maps give at a position. *)
From Coq Require Import String List ZArith Reals Bool Lia Lra.
From Verif Require Import Base SfdModel.
Import ListNotations.
Local Open Scope R_scope.
Local Open Scope list_scope.

(** *** Specification *)
(** Row r and column c hold a pixel whose centre is within one pixel of (x, y). *)
Definition near (im : image) (x y : R) (r c : Z) : Prop :=
  (0 <= r < im_h im)%Z /\ (0 <= c < im_w im)%Z /\
  IZR c - 1 <= x < IZR c + 1 /\ IZR r - 1 <= y < IZR r + 1.
(** (x, y) lies within the pixels of the image (0-indexed centres). *)
Definition on_image (im : image) (x y : R) : Prop :=
  - / 2 <= x <= IZR (im_w im) - / 2 /\ - / 2 <= y <= IZR (im_h im) - / 2.
Definition nonempty (im : image) : Prop := (0 < im_h im)%Z /\ (0 < im_w im)%Z.

(** *** Lemmas *)
Lemma floor_unique : forall x c, IZR c <= x < IZR c + 1 -> Int_part x = c.
Proof.
  intros x c [A B]. destruct (base_Int_part x) as [C D].
  assert (IZR (Int_part x) < IZR (c + 1)) by (rewrite plus_IZR; lra).
  assert (IZR c < IZR (Int_part x + 1)) by (rewrite plus_IZR; lra).
  apply lt_IZR in H. apply lt_IZR in H0. lia.
Qed.
Lemma floor_bounds : forall x, IZR (Int_part x) <= x < IZR (Int_part x) + 1.
Proof. intros x. destruct (base_Int_part x). lra. Qed.
Lemma frac_id : forall x, rclip (x - IZR (Int_part x)) 0 1 = x - IZR (Int_part x).
Proof. intros x. destruct (floor_bounds x). unfold rclip. rewrite Rmax_left by lra. apply Rmin_left. lra. Qed.
Lemma np_in : forall n i, (0 <= i < n)%Z -> np_index n i = Ok i.
Proof.
  intros n i H. unfold np_index. replace (i <? 0)%Z with false by (symmetry; apply Z.ltb_ge; lia). rewrite andb_false_r.
  replace ((0 <=? i) && (i <? n))%Z with true by (symmetry; apply andb_true_iff; split; [apply Z.leb_le|apply Z.ltb_lt]; lia). reflexivity.
Qed.
Lemma np_last : forall n, (0 < n)%Z -> np_index n (-1) = Ok (n - 1)%Z.
Proof.
  intros n H. unfold np_index. replace ((- n <=? -1) && (-1 <? 0))%Z with true by (symmetry; apply andb_true_iff; split; [apply Z.leb_le|apply Z.ltb_lt]; lia).
  f_equal. lia.
Qed.
(** the index read for floor i: the last one for -1 *)
Definition wrap (n i : Z) : Z := if (i <? 0)%Z then (i + n)%Z else i.
Definition next (n i : Z) : Z := zclip (i + 1) 0 (n - 1).
Lemma np_wrap : forall n i, (0 < n)%Z -> (-1 <= i < n)%Z -> np_index n i = Ok (wrap n i).
Proof.
  intros n i N H. unfold wrap. destruct (i <? 0)%Z eqn:E.
  - apply Z.ltb_lt in E. replace i with (-1)%Z by lia. rewrite np_last by lia. f_equal. lia.
  - apply Z.ltb_ge in E. apply np_in. lia.
Qed.
Lemma next_in : forall n i, (0 < n)%Z -> (0 <= next n i < n)%Z.
Proof. intros. unfold next, zclip. lia. Qed.
Lemma floor_range : forall n x, (0 < n)%Z -> - / 2 <= x <= IZR n - / 2 -> (-1 <= Int_part x < n)%Z.
Proof.
  intros n x N H. destruct (floor_bounds x) as [A B].
  assert (IZR (Int_part x) < IZR n) by lra. apply lt_IZR in H0.
  assert (IZR (-2) < IZR (Int_part x)) by (change (IZR (-2)) with (-2); lra). apply lt_IZR in H1. lia.
Qed.
Lemma interp_eq : forall im x y, nonempty im -> on_image im x y ->
  let c := Int_part x in let r := Int_part y in
  interp im x y = Ok (mix_nonzero (y - IZR r)
    (mix_nonzero (x - IZR c) (im_px im (wrap (im_h im) r) (wrap (im_w im) c)) (im_px im (wrap (im_h im) r) (next (im_w im) c)))
    (mix_nonzero (x - IZR c) (im_px im (next (im_h im) r) (wrap (im_w im) c)) (im_px im (next (im_h im) r) (next (im_w im) c)))).
Proof.
  intros im x y [HH HW] [X Y] c r. assert (RX := floor_range _ _ HW X). assert (RY := floor_range _ _ HH Y).
  unfold interp, im_get. rewrite !frac_id. fold (next (im_w im) (Int_part x)). fold (next (im_h im) (Int_part y)).
  rewrite (np_wrap (im_h im) (Int_part y)) by lia. rewrite (np_wrap (im_w im) (Int_part x)) by lia.
  rewrite (np_in (im_w im) (next (im_w im) (Int_part x))) by (apply next_in; lia). cbn [bind].
  rewrite (np_in (im_h im) (next (im_h im) (Int_part y))) by (apply next_in; lia). reflexivity.
Qed.
Lemma mix_pos : forall f a b, a <> 0 -> b <> 0 -> mix_nonzero f a b = (1 - f) * a + f * b.
Proof. intros f a b A B. unfold mix_nonzero. destruct (Req_EM_T a 0); [contradiction|]. destruct (Req_EM_T b 0); [contradiction|reflexivity]. Qed.
Lemma mix_same : forall f a, mix_nonzero f a a = a.
Proof. intros f a. unfold mix_nonzero. destruct (Req_EM_T a 0); [reflexivity|]. ring. Qed.
Lemma mix_zero : forall a b, a <> 0 -> mix_nonzero 0 a b = a.
Proof. intros a b A. unfold mix_nonzero. destruct (Req_EM_T a 0); [contradiction|]. destruct (Req_EM_T b 0); [reflexivity|ring]. Qed.
(** of values that are zero or between lo and hi, with 0 < lo *)
Definition okv (lo hi v : R) : Prop := v = 0 \/ lo <= v <= hi.
Lemma mix_range : forall f a b lo hi, 0 <= f <= 1 -> 0 < lo -> okv lo hi a -> okv lo hi b ->
  okv lo hi (mix_nonzero f a b) /\ (mix_nonzero f a b = 0 <-> a = 0 /\ b = 0).
Proof.
  intros f a b lo hi F L A B. unfold mix_nonzero. destruct (Req_EM_T b 0) as [->|NB].
  - split; [exact A|]. split; [intros ->; auto|intros [E _]; exact E].
  - destruct (Req_EM_T a 0) as [->|NA].
    + split; [exact B|]. split; [intros E; contradiction|intros [_ E]; contradiction].
    + destruct A as [A|A]; [contradiction|]. destruct B as [B|B]; [contradiction|].
      assert (lo <= (1 - f) * a + f * b <= hi) by (split; nra). split; [right; exact H|]. split; [intros E; lra|intros [E _]; contradiction].
Qed.
Lemma near_all : forall im x y, nonempty im -> on_image im x y -> 0 <= x -> 0 <= y ->
  let c := Int_part x in let r := Int_part y in
  wrap (im_w im) c = c /\ wrap (im_h im) r = r /\
  near im x y r c /\
  (near im x y r (next (im_w im) c)) /\ near im x y (next (im_h im) r) c /\ near im x y (next (im_h im) r) (next (im_w im) c).
Proof.
  intros im x y [HH HW] [X Y] PX PY c r. assert (RX := floor_range _ _ HW X). assert (RY := floor_range _ _ HH Y).
  destruct (floor_bounds x) as [A B]. destruct (floor_bounds y) as [A' B'].
  assert (C0 : (0 <= c)%Z). { assert (IZR (-1) < IZR c) by (change (IZR (-1)) with (-1); unfold c; lra). apply lt_IZR in H. lia. }
  assert (R0 : (0 <= r)%Z). { assert (IZR (-1) < IZR r) by (change (IZR (-1)) with (-1); unfold r; lra). apply lt_IZR in H. lia. }
  assert (NC : next (im_w im) c = c \/ next (im_w im) c = (c + 1)%Z) by (unfold next, zclip, c in *; lia).
  assert (NR : next (im_h im) r = r \/ next (im_h im) r = (r + 1)%Z) by (unfold next, zclip, r in *; lia).
  assert (IC := next_in (im_w im) c HW). assert (IR := next_in (im_h im) r HH).
  assert (BC : IZR (next (im_w im) c) - 1 <= x < IZR (next (im_w im) c) + 1) by (destruct NC as [-> | ->]; rewrite ?plus_IZR; unfold c; lra).
  assert (BR : IZR (next (im_h im) r) - 1 <= y < IZR (next (im_h im) r) + 1) by (destruct NR as [-> | ->]; rewrite ?plus_IZR; unfold r; lra).
  unfold wrap. replace (c <? 0)%Z with false by (symmetry; apply Z.ltb_ge; exact C0). replace (r <? 0)%Z with false by (symmetry; apply Z.ltb_ge; exact R0).
  split; [reflexivity|]. split; [reflexivity|]. unfold near. unfold c, r in *. repeat split; try lia; lra.
Qed.

(** *** Interpolation *)
(** Positions on the image always give a value. *)
Theorem C88_works : forall im x y, nonempty im -> on_image im x y -> exists v, interp im x y = Ok v.
Proof. intros im x y N P. eexists. apply interp_eq; assumption. Qed.
(** Between four pixels that are positive, the interpolation is the bilinear one. *)
Theorem C88_bilinear : forall im x y r c, (0 <= r)%Z -> (r + 1 < im_h im)%Z -> (0 <= c)%Z -> (c + 1 < im_w im)%Z ->
  IZR c <= x < IZR c + 1 -> IZR r <= y < IZR r + 1 ->
  0 < im_px im r c -> 0 < im_px im r (c + 1) -> 0 < im_px im (r + 1) c -> 0 < im_px im (r + 1) (c + 1) ->
  let fx := x - IZR c in let fy := y - IZR r in
  interp im x y = Ok ((1 - fx) * (1 - fy) * im_px im r c + fx * (1 - fy) * im_px im r (c + 1) +
    (1 - fx) * fy * im_px im (r + 1) c + fx * fy * im_px im (r + 1) (c + 1)).
Proof.
  intros im x y r c R0 RH C0 CW X Y P1 P2 P3 P4 fx fy. assert (NE : nonempty im) by (split; lia).
  assert (W2 : IZR (c + 2) <= IZR (im_w im)) by (apply IZR_le; lia). assert (H2 : IZR (r + 2) <= IZR (im_h im)) by (apply IZR_le; lia). rewrite plus_IZR in W2, H2. apply IZR_le in R0 as R0'. apply IZR_le in C0 as C0'.
  assert (OI : on_image im x y) by (unfold on_image; lra).
  rewrite (interp_eq im x y NE OI). rewrite (floor_unique x c X), (floor_unique y r Y).
  assert (N1 : next (im_w im) c = (c + 1)%Z) by (unfold next, zclip; lia). assert (N2 : next (im_h im) r = (r + 1)%Z) by (unfold next, zclip; lia).
  rewrite N1, N2. unfold wrap. replace (c <? 0)%Z with false by (symmetry; apply Z.ltb_ge; exact C0). replace (r <? 0)%Z with false by (symmetry; apply Z.ltb_ge; exact R0).
  fold fx fy. assert (F : 0 <= fx < 1) by (unfold fx; lra). assert (F' : 0 <= fy < 1) by (unfold fy; lra).
  rewrite (mix_pos fx) by lra. rewrite (mix_pos fx) by lra. rewrite mix_pos; [f_equal; ring| |].
  - assert (0 < (1 - fx) * im_px im r c) by (apply Rmult_lt_0_compat; lra). assert (0 <= fx * im_px im r (c + 1)) by (apply Rmult_le_pos; lra). lra.
  - assert (0 < (1 - fx) * im_px im (r + 1) c) by (apply Rmult_lt_0_compat; lra). assert (0 <= fx * im_px im (r + 1) (c + 1)) by (apply Rmult_le_pos; lra). lra.
Qed.
(** At the centre of a pixel that is not zero: this pixel. *)
Theorem C88_center : forall im r c, (0 <= r < im_h im)%Z -> (0 <= c < im_w im)%Z -> im_px im r c <> 0 ->
  interp im (IZR c) (IZR r) = Ok (im_px im r c).
Proof.
  intros im r c HR HC NZ. assert (NE : nonempty im) by (split; lia).
  assert (OI : on_image im (IZR c) (IZR r)).
  { unfold on_image. assert (IZR 0 <= IZR c) by (apply IZR_le; lia). assert (IZR 0 <= IZR r) by (apply IZR_le; lia).
    assert (IZR (c + 1) <= IZR (im_w im)) by (apply IZR_le; lia). assert (IZR (r + 1) <= IZR (im_h im)) by (apply IZR_le; lia). rewrite plus_IZR in *. lra. }
  rewrite (interp_eq im _ _ NE OI). rewrite (floor_unique (IZR c) c), (floor_unique (IZR r) r) by lra.
  unfold wrap. replace (c <? 0)%Z with false by (symmetry; apply Z.ltb_ge; lia). replace (r <? 0)%Z with false by (symmetry; apply Z.ltb_ge; lia).
  rewrite !Rminus_eq_0. f_equal. rewrite (mix_zero (im_px im r c)) by exact NZ. apply mix_zero, NZ.
Qed.
(** A constant image gives this constant, on all of the image. *)
Theorem C88_constant : forall im x y v, nonempty im -> on_image im x y ->
  (forall r c, (0 <= r < im_h im)%Z -> (0 <= c < im_w im)%Z -> im_px im r c = v) -> interp im x y = Ok v.
Proof.
  intros im x y v NE OI K. rewrite (interp_eq im x y NE OI). destruct NE as [HH HW]. destruct OI as [X Y].
  assert (RX := floor_range _ _ HW X). assert (RY := floor_range _ _ HH Y).
  assert (WX : (0 <= wrap (im_w im) (Int_part x) < im_w im)%Z) by (unfold wrap; destruct (_ <? 0)%Z eqn:E; [apply Z.ltb_lt in E|apply Z.ltb_ge in E]; lia).
  assert (WY : (0 <= wrap (im_h im) (Int_part y) < im_h im)%Z) by (unfold wrap; destruct (_ <? 0)%Z eqn:E; [apply Z.ltb_lt in E|apply Z.ltb_ge in E]; lia).
  assert (NX := next_in (im_w im) (Int_part x) HW). assert (NY := next_in (im_h im) (Int_part y) HH).
  rewrite !K by assumption. rewrite !mix_same. reflexivity.
Qed.
(** From pixel centres on, only near pixels matter; zero pixels (no data) are
    left out: the value is zero only if all near pixels are, and else within
    the range of those that are not. *)
Theorem C88_range : forall im x y lo hi, nonempty im -> on_image im x y -> 0 <= x -> 0 <= y -> 0 < lo ->
  (forall r c, near im x y r c -> im_px im r c = 0 \/ lo <= im_px im r c <= hi) ->
  exists v, interp im x y = Ok v /\ (v = 0 \/ lo <= v <= hi) /\ (v = 0 <-> forall r c, near im x y r c -> im_px im r c = 0).
Proof.
  intros im x y lo hi NE OI PX PY L K. eexists. split; [apply interp_eq; assumption|].
  destruct (near_all im x y NE OI PX PY) as (W1 & W2 & N1 & N2 & N3 & N4). cbn zeta in *. rewrite W1, W2.
  destruct (floor_bounds x). destruct (floor_bounds y).
  destruct (mix_range (x - IZR (Int_part x)) _ _ lo hi ltac:(lra) L (K _ _ N1) (K _ _ N2)) as [E1 Z1].
  destruct (mix_range (x - IZR (Int_part x)) _ _ lo hi ltac:(lra) L (K _ _ N3) (K _ _ N4)) as [E2 Z2].
  destruct (mix_range (y - IZR (Int_part y)) _ _ lo hi ltac:(lra) L E1 E2) as [E3 Z3]. split; [exact E3|]. rewrite Z3, Z1, Z2. split.
  - intros ((A & B) & C & D) r c NR.
    assert (RC : forall z n m, IZR m <= z < IZR m + 1 -> IZR n - 1 <= z < IZR n + 1 -> n = m \/ n = (m + 1)%Z).
    { intros z n m Q P. assert (IZR m < IZR (n + 1)) by (rewrite plus_IZR; lra). assert (IZR n < IZR (m + 2)) by (rewrite plus_IZR; lra). apply lt_IZR in H3. apply lt_IZR in H4. lia. }
    destruct NR as (IR & IC & CX & CY). destruct (RC x c _ (floor_bounds x) CX) as [EC|EC]; destruct (RC y r _ (floor_bounds y) CY) as [ER|ER]; subst.
    + exact A.
    + replace (next (im_h im) (Int_part y)) with (Int_part y + 1)%Z in C by (unfold next, zclip; lia). exact C.
    + replace (next (im_w im) (Int_part x)) with (Int_part x + 1)%Z in B by (unfold next, zclip; lia). exact B.
    + replace (next (im_h im) (Int_part y)) with (Int_part y + 1)%Z in D by (unfold next, zclip; lia).
      replace (next (im_w im) (Int_part x)) with (Int_part x + 1)%Z in D by (unfold next, zclip; lia). exact D.
  - intros AZ. auto.
Qed.
Theorem C88_local : forall im im' x y, nonempty im -> on_image im x y -> 0 <= x -> 0 <= y -> im_h im' = im_h im -> im_w im' = im_w im ->
  (forall r c, near im x y r c -> im_px im' r c = im_px im r c) -> interp im' x y = interp im x y.
Proof.
  intros im im' x y NE OI PX PY EH EW K. assert (NE' : nonempty im') by (unfold nonempty in *; lia). assert (OI' : on_image im' x y) by (unfold on_image in *; rewrite EH, EW; exact OI).
  rewrite (interp_eq im' x y NE' OI'), (interp_eq im x y NE OI). destruct (near_all im x y NE OI PX PY) as (W1 & W2 & N1 & N2 & N3 & N4). cbn zeta in *.
  rewrite EH, EW, W1, W2. rewrite (K _ _ N1), (K _ _ N2), (K _ _ N3), (K _ _ N4). reflexivity.
Qed.
(** Refutation: in the first half pixel the opposite edge of the map is mixed in. *)
Theorem C88_wrap_refuted : forall im x y a b, nonempty im -> on_image im x y -> x < 0 -> 0 <= y -> a <> 0 -> b <> 0 ->
  (forall r, im_px im r (im_w im - 1) = a) -> (forall r, im_px im r 0 = b) ->
  interp im x y = Ok ((- x) * a + (1 + x) * b).
Proof.
  intros im x y a b NE OI NX PY A B KA KB. rewrite (interp_eq im x y NE OI). assert (OI' := OI). destruct OI' as [X _].
  assert (FX : Int_part x = (-1)%Z) by (apply floor_unique; change (IZR (-1)) with (-1); lra). rewrite FX.
  replace (wrap (im_w im) (-1)) with (im_w im - 1)%Z by (unfold wrap; change (-1 <? 0)%Z with true; cbv iota; lia).
  replace (next (im_w im) (-1)) with 0%Z by (unfold next, zclip; destruct NE; lia).
  rewrite !KA, !KB. rewrite mix_same. f_equal. rewrite mix_pos by assumption. change (IZR (-1)) with (-1). ring.
Qed.
Theorem C88_wrap_rows_refuted : forall im x y a b, nonempty im -> on_image im x y -> y < 0 -> 0 <= x -> a <> 0 -> b <> 0 ->
  (forall c, im_px im (im_h im - 1) c = a) -> (forall c, im_px im 0 c = b) ->
  interp im x y = Ok ((- y) * a + (1 + y) * b).
Proof.
  intros im x y a b NE OI NX PY A B KA KB. rewrite (interp_eq im x y NE OI). assert (OI' := OI). destruct OI' as [_ Y].
  assert (FY : Int_part y = (-1)%Z) by (apply floor_unique; change (IZR (-1)) with (-1); lra). rewrite FY.
  replace (wrap (im_h im) (-1)) with (im_h im - 1)%Z by (unfold wrap; change (-1 <? 0)%Z with true; cbv iota; lia).
  replace (next (im_h im) (-1)) with 0%Z by (unfold next, zclip; destruct NE; lia).
  rewrite !KA, !KB. rewrite !mix_same. f_equal. rewrite mix_pos by assumption. change (IZR (-1)) with (-1). ring.
Qed.

(** *** Catalogues *)
Section Cat.
Context (radectolb : R * R -> R * R) (north south : image) (northwcs southwcs : R * R -> R * R).
Context (NN : nonempty north) (NS : nonempty south).
Notation ebv := (ebv radectolb north south northwcs southwcs).
Notation extinction := (extinction radectolb north south northwcs southwcs).
(** The map and pixel of a position: the northern map for latitudes from 0 on. *)
Definition on_map (p : R * R) (im : image) (q : R * R) : Prop :=
  let lb := radectolb p in (0 <= snd lb /\ im = north /\ q = northwcs lb) \/ (snd lb < 0 /\ im = south /\ q = southwcs lb).
Definition covered (p : R * R) : Prop := forall im q, on_map p im q -> on_image im (fst q - 1) (snd q - 1).

Definition one (p : R * R) : res R := let lb := radectolb p in
  if le_b 0 (snd lb) then (let q := northwcs lb in if in_image north q then interp north (fst q - 1) (snd q - 1) else Err AssertionError)
  else (let q := southwcs lb in if in_image south q then interp south (fst q - 1) (snd q - 1) else Err AssertionError).
Lemma in_image_on : forall im q, in_image im q = true <-> on_image im (fst q - 1) (snd q - 1).
Proof.
  intros im [x y]. unfold in_image, on_image, le_b. cbn [fst snd]. repeat destruct (Rle_dec _ _); cbn; split; intros H; try discriminate; try lra; try reflexivity.
Qed.
Lemma turn_spec : forall wcs im lb cut e, nonempty im -> length cut = length lb -> length e = length lb ->
  match turn wcs im cut lb e with
  | Ok e' => length e' = length lb /\ forall i p, nth_error lb i = Some p ->
      match nth_error cut i with
      | Some true => in_image im (wcs p) = true /\ exists v, nth_error e' i = Some v /\ interp im (fst (wcs p) - 1) (snd (wcs p) - 1) = Ok v
      | _ => nth_error e' i = nth_error e i
      end
  | Err x => x = AssertionError /\ exists i p, nth_error lb i = Some p /\ nth_error cut i = Some true /\ in_image im (wcs p) = false
  end.
Proof.
  intros wcs im lb cut e NE LC LE. unfold turn. destruct (count_true cut =? 0)%nat eqn:C0.
  - apply Nat.eqb_eq in C0. split; [exact LE|]. intros i p I.
    assert (NT : forall i, nth_error cut i <> Some true).
    { clear - C0. induction cut as [|b cut IH]; intros i; [destruct i; discriminate|]. rewrite count_true_cons in C0. destruct b; [discriminate|]. destruct i; [discriminate|]. cbn. apply IH. exact C0. }
    destruct (nth_error cut i) as [[]|] eqn:E; [exfalso; eapply NT; eauto|reflexivity|reflexivity].
  - clear C0. destruct (forallb (in_image im) (map wcs (select cut lb))) eqn:F; cbn [negb].
    + revert cut e LC LE F. induction lb as [|p lb IH]; intros [|b cut] [|x e] LC LE F; try discriminate; [cbn; split; [reflexivity|]; intros [|i] p I; discriminate|].
      injection LC as LC. injection LE as LE. destruct b.
      * cbn [select keep map forallb] in F. apply andb_true_iff in F. destruct F as [F1 F]. specialize (IH cut e LC LE F).
        destruct (C88_works im _ _ NE (proj1 (in_image_on _ _) F1)) as [v EV].
        unfold select in *. cbn [keep map mapr]. rewrite EV. cbn [bind].
        destruct (mapr _ (map wcs (keep cut lb))) as [vs|]; cbn [bind] in *; [|destruct IH as (-> & i & q & I1 & I2 & I3); split; [reflexivity|]; exists (S i), q; auto].
        cbn [assign]. destruct IH as (L & IH). split; [cbn; lia|]. intros [|i] q I; cbn in I |- *; [injection I as <-; split; [exact F1|]; exists v; auto|apply IH; exact I].
      * specialize (IH cut e LC LE F). unfold select in *. cbn [keep].
        destruct (mapr _ (map wcs (keep cut lb))) as [vs|]; cbn [bind] in *; [|destruct IH as (-> & i & q & I1 & I2 & I3); split; [reflexivity|]; exists (S i), q; auto].
        cbn [assign]. destruct IH as (L & IH). split; [cbn; lia|]. intros [|i] q I; cbn in I |- *; [reflexivity|apply IH; exact I].
    + split; [reflexivity|]. clear e LE. revert cut LC F. induction lb as [|p lb IH]; intros [|b cut] LC F; try discriminate.
      injection LC as LC. destruct b; cbn [select keep map forallb] in F.
      * apply andb_false_iff in F. destruct F as [F|F]; [exists 0%nat, p; auto|]. destruct (IH cut LC F) as (i & q & I). exists (S i), q. exact I.
      * destruct (IH cut LC F) as (i & q & I). exists (S i), q. exact I.
Qed.
(** Each position gets the value of the map of its own hemisphere at its own
    pixel, whichever others are asked for; if a position is not on its map
    nothing is returned. *)
Theorem C88_ebv : forall pos, 
  (Forall covered pos -> exists out, ebv pos = Ok out /\
     Forall2 (fun p v => exists im q, on_map p im q /\ interp im (fst q - 1) (snd q - 1) = Ok v) pos out) /\
  (~ Forall covered pos -> ebv pos = Err AssertionError) /\
  (forall out, ebv pos = Ok out -> Forall covered pos).
Proof.
  intros pos. unfold SfdModel.ebv. set (lb := map radectolb pos). set (n := map (fun p => le_b 0 (snd p)) lb). set (z := map (fun _ => 0) lb).
  assert (LN : length n = length lb) by (unfold n; apply map_length). assert (LZ : length z = length lb) by (unfold z; apply map_length).
  assert (LM : length (map negb n) = length lb) by (rewrite map_length; exact LN).
  assert (NB : forall i p, nth_error lb i = Some p -> nth_error n i = Some (le_b 0 (snd p))) by (intros i p I; unfold n; rewrite nth_error_map, I; reflexivity).
  assert (NNB : forall i p, nth_error lb i = Some p -> nth_error (map negb n) i = Some (negb (le_b 0 (snd p)))) by (intros i p I; rewrite nth_error_map, (NB i p I); reflexivity).
  assert (LBP : forall i p, nth_error lb i = Some p -> exists s, nth_error pos i = Some s /\ p = radectolb s).
  { intros i p I. unfold lb in I. rewrite nth_error_map in I. destruct (nth_error pos i) as [s|]; [|discriminate]. injection I as <-. eauto. }
  assert (NCOV : forall i p im w, nth_error lb i = Some p -> (forall s, p = radectolb s -> on_map s im (w p)) -> in_image im (w p) = false -> ~ Forall covered pos).
  { intros i p im w I M F C. destruct (LBP i p I) as (s & IS & EP). rewrite Forall_forall in C. specialize (C s (nth_error_In _ _ IS) im (w p) (M s EP)). apply in_image_on in C. congruence. }
  assert (BT : forall p : R * R, le_b 0 (snd p) = true -> 0 <= snd p) by (intros p; unfold le_b; destruct (Rle_dec _ _); [auto|discriminate]).
  assert (BF : forall p : R * R, le_b 0 (snd p) = false -> snd p < 0) by (intros p; unfold le_b; destruct (Rle_dec _ _); [discriminate|lra]).
  assert (T1 := turn_spec northwcs north lb n z NN LN LZ). destruct (turn northwcs north n lb z) as [e|x1]; cbn [bind].
  - destruct T1 as (L1 & T1). assert (T2 := turn_spec southwcs south lb (map negb n) e NS LM L1). destruct (turn southwcs south (map negb n) lb e) as [e2|x2].
    + destruct T2 as (L2 & T2).
      assert (ALL : forall i s, nth_error pos i = Some s -> covered s /\ exists v, nth_error e2 i = Some v /\ exists im q, on_map s im q /\ interp im (fst q - 1) (snd q - 1) = Ok v).
      { intros i s I. assert (IL : nth_error lb i = Some (radectolb s)) by (unfold lb; rewrite nth_error_map, I; reflexivity).
        specialize (T1 i _ IL). specialize (T2 i _ IL). rewrite (NB i _ IL) in T1. rewrite (NNB i _ IL) in T2. destruct (le_b 0 (snd (radectolb s))) eqn:B; cbn [negb] in T2.
        - apply BT in B. destruct T1 as (A & v & V & EV). split.
          + intros im q [(_ & -> & ->)|(Q & _)]; [apply in_image_on; exact A|lra].
          + exists v. rewrite T2. split; [exact V|]. exists north, (northwcs (radectolb s)). split; [left; auto|exact EV].
        - apply BF in B. destruct T2 as (A & v & V & EV). split.
          + intros im q [(Q & _)|(_ & -> & ->)]; [lra|apply in_image_on; exact A].
          + exists v. split; [exact V|]. exists south, (southwcs (radectolb s)). split; [right; auto|exact EV]. }
      split.
      * intros _. exists e2. split; [reflexivity|]. assert (LP : length e2 = length pos) by (rewrite L2; unfold lb; apply map_length). clear - ALL LP.
        revert e2 ALL LP. induction pos as [|s pos IH]; intros [|v e2] ALL LP; try discriminate; constructor.
        -- destruct (ALL 0%nat s eq_refl) as (_ & v' & V & EX). injection V as ->. exact EX.
        -- apply IH; [|cbn in LP; lia]. intros i s' I. apply (ALL (S i) s' I).
      * assert (FC : Forall covered pos) by (apply Forall_forall; intros s IN; apply In_nth_error in IN; destruct IN as [i I]; apply (ALL i s I)).
        split; [intros NC; contradiction|intros _ _; exact FC].
    + destruct T2 as (-> & i & p & I & CI & F). assert (NC : ~ Forall covered pos).
      { apply (NCOV i p south southwcs I); [|exact F]. rewrite (NNB i p I) in CI. injection CI as CI. apply negb_true_iff in CI. intros s EP. right. rewrite <- EP. auto. }
      split; [intros C; contradiction|]. split; [reflexivity|discriminate].
  - destruct T1 as (-> & i & p & I & CI & F). assert (NC : ~ Forall covered pos).
    { apply (NCOV i p north northwcs I); [|exact F]. rewrite (NB i p I) in CI. injection CI as CI. intros s EP. left. rewrite <- EP. auto. }
    split; [intros C; contradiction|]. split; [reflexivity|discriminate].
Qed.
(** Extinctions: for each position and filter the E(B-V) times the coefficient
    of the filter. *)
Theorem C88_extinction : forall filts pos e, ebv pos = Ok e -> Forall (fun f => In f (map fst extinctions)) filts -> exists a,
  extinction filts pos = Ok a /\ length a = length pos /\
  forall i j v f k, nth_error e i = Some v -> nth_error filts j = Some f -> In (f, k) extinctions ->
  exists row, nth_error a i = Some row /\ nth_error row j = Some (k * v) /\ length row = length filts.
Proof.
  intros filts pos e E K. unfold SfdModel.extinction. rewrite E. cbn [bind].
  assert (LK : forall f, In f (map fst extinctions) -> exists k, lookup extinctions f = Ok k /\ forall k', In (f, k') extinctions -> k' = k).
  { intros f I. unfold extinctions in I. cbn [map fst In] in I.
    repeat (destruct I as [<-|I]; [eexists; split; [reflexivity|]; intros k' J; unfold extinctions in J; cbn [In] in J; repeat (destruct J as [J|J]; [injection J; intros; try discriminate; congruence|]); contradiction|]). contradiction. }
  assert (MR : exists fs, mapr (lookup extinctions) filts = Ok fs /\ length fs = length filts /\
    forall j f k, nth_error filts j = Some f -> In (f, k) extinctions -> nth_error fs j = Some k).
  { clear E e. induction filts as [|f filts IH]; [exists []; repeat split; intros [|j]; discriminate|]. inversion K as [|? ? KF KR]; subst. destruct (IH KR) as (fs & EF & LF & NF).
    destruct (LK f KF) as (k & EK & UK). exists (k :: fs). cbn [mapr]. rewrite EK. cbn [bind]. rewrite EF. cbn [bind]. split; [reflexivity|]. split; [cbn; lia|].
    intros [|j] g k' G J; cbn in G |- *; [injection G as <-; f_equal; symmetry; apply UK; exact J|apply (NF j g); assumption]. }
  destruct MR as (fs & EF & LF & NF). rewrite EF. cbn [bind]. eexists. split; [reflexivity|]. split.
  - rewrite map_length. destruct (C88_ebv pos) as (P & _ & Q). destruct (P (Q e E)) as (o & EO & F2). rewrite E in EO. injection EO as ->.
    clear - F2. induction F2; cbn; congruence.
  - intros i j v f k I J IK. exists (map (fun g => g * v) fs). rewrite nth_error_map, I. split; [reflexivity|]. split; [|rewrite map_length; exact LF].
    rewrite nth_error_map, (NF j f k J IK). reflexivity.
Qed.
(** A filter without coefficient is refused. *)
Theorem C88_unknown_filter : forall f filts pos e, ebv pos = Ok e -> In f filts -> ~ In f (map fst extinctions) -> extinction filts pos = Err KeyError.
Proof.
  intros f filts pos e E I NI. unfold SfdModel.extinction. rewrite E. cbn [bind].
  assert (LF : lookup extinctions f = Err KeyError).
  { clear - NI. induction extinctions as [|[g k] l IH]; [reflexivity|]. cbn [lookup]. destruct (String.eqb f g) eqn:Q; [apply String.eqb_eq in Q; subst; cbn in NI; tauto|apply IH; cbn in NI; tauto]. }
  assert (LE : forall g x, lookup extinctions g = Err x -> x = KeyError).
  { clear. induction extinctions as [|[h k] l IH]; intros g x; cbn [lookup]; [intros Q; injection Q; auto|]. destruct (String.eqb g h); [discriminate|apply IH]. }
  assert (ME : mapr (lookup extinctions) filts = Err KeyError).
  { clear E. induction filts as [|g filts IH]; [contradiction|]. cbn [mapr]. destruct I as [->|I]; [rewrite LF; reflexivity|].
    destruct (lookup extinctions g) as [k|x] eqn:Q; [|apply LE in Q; subst; reflexivity]. cbn [bind]. rewrite (IH I). reflexivity. }
  rewrite ME. reflexivity.
Qed.
End Cat.
(** Filters from short to long wavelengths: dust dims the former more, and none
    brightens. *)
Definition by_wavelength : list string :=
  ["FUV"; "NUV"; "SDSS u"; "DES u"; "DES g"; "DES r"; "DES i"; "DES z"; "DES Y"; "WISE W1"; "WISE W2"; "WISE W3"; "WISE W4"]%string.
Theorem C88_reddening : forall i j f g a b, (i < j)%nat -> nth_error by_wavelength i = Some f -> nth_error by_wavelength j = Some g ->
  In (f, a) extinctions -> In (g, b) extinctions -> 0 < b < a.
Proof.
  assert (K : forall i f a, nth_error by_wavelength i = Some f -> In (f, a) extinctions -> nth_error (map snd extinctions) i = Some a).
  { intros i f a E J. unfold extinctions in J. cbn [In] in J. do 13 (destruct i as [|i]; [injection E as <-; repeat (destruct J as [J|J]; [injection J; intros; try discriminate; subst; reflexivity|]); contradiction|]). destruct i; discriminate. }
  assert (D : forall i a b, nth_error (map snd extinctions) i = Some a -> nth_error (map snd extinctions) (S i) = Some b -> 0 < b < a).
  { intros i a b. do 13 (destruct i as [|i]; [cbn; intros A B; try discriminate; injection A as <-; injection B as <-; lra|]). destruct i; discriminate. }
  assert (DD : forall n i a b, nth_error (map snd extinctions) i = Some a -> nth_error (map snd extinctions) (i + S n) = Some b -> 0 < b < a).
  { induction n as [|n IH]; intros i a b A B; [rewrite Nat.add_1_r in B; eapply D; eauto|].
    destruct (nth_error (map snd extinctions) (i + S n)) as [c|] eqn:C.
    - assert (0 < c < a) by (eapply IH; eauto). replace (i + S (S n))%nat with (S (i + S n)) in B by lia. assert (0 < b < c) by (eapply D; eauto). lra.
    - apply nth_error_None in C. assert (nth_error (map snd extinctions) (i + S (S n)) <> None) by congruence. apply nth_error_Some in H. lia. }
  intros i j f g a b L F G A B. apply (DD (j - i - 1)%nat i); [eapply K; eauto|]. replace (i + S (j - i - 1))%nat with j by lia. eapply K; eauto.
Qed.

(** A map of 3 x 2 pixels, columns 1, 2, 0 (no data) and rows alike. *)
Definition ex_im : image := mkIm 2 3 (fun r c => if (c =? 0)%Z then 1 else if (c =? 1)%Z then 2 else 0).
Example C88_ex : nonempty ex_im /\ on_image ex_im (/ 2) (/ 2) /\ interp ex_im (/ 2) (/ 2) = Ok (3 / 2) /\
  interp ex_im (3 / 2) 0 = Ok 2 /\
  ebv (fun p => p) ex_im ex_im (fun p => p) (fun p => (fst p, - snd p)) [(3 / 2, 1); (2, -1)] = Ok [3 / 2; 2].
Proof.
  assert (NE : nonempty ex_im) by (split; cbn; lia).
  assert (I1 : interp ex_im (/ 2) (/ 2) = Ok (3 / 2)).
  { rewrite (C88_bilinear ex_im (/ 2) (/ 2) 0 0) by (cbn; lia || lra). cbn. f_equal. lra. }
  assert (FX : Int_part (3 / 2) = 1%Z) by (apply floor_unique; lra). assert (F0 : Int_part 0 = 0%Z) by (apply floor_unique; lra).
  assert (I2 : interp ex_im (3 / 2) 0 = Ok 2).
  { rewrite (interp_eq ex_im _ _ NE) by (unfold on_image; cbn; lra). rewrite FX, F0. cbn. unfold mix_nonzero.
    repeat destruct (Req_EM_T _ _); try lra; f_equal; lra. }
  split; [exact NE|]. split; [unfold on_image; cbn; lra|]. split; [exact I1|]. split; [exact I2|].
  destruct (C88_ebv (fun p => p) ex_im ex_im (fun p => p) (fun p => (fst p, - snd p)) NE NE [(3 / 2, 1); (2, -1)]) as [P _]. destruct P as (o & E & F2).
  { constructor; [|constructor; [|apply Forall_nil]]; intros im q [(Q & -> & ->)|(Q & -> & ->)]; unfold on_image; cbn in *; lra. }
  rewrite E. inversion F2 as [|? v1 ? o1 (im1 & q1 & M1 & V1) F2']; subst. inversion F2' as [|? v2 ? o2 (im2 & q2 & M2 & V2) F2'']; subst. inversion F2''; subst.
  destruct M1 as [(Q & -> & ->)|(Q & _)]; cbn in Q; [|lra]. destruct M2 as [(Q2 & _)|(Q2 & -> & ->)]; cbn in Q2; [lra|]. cbn [fst snd] in V1, V2.
  assert (J1 : interp ex_im (3 / 2 - 1) (1 - 1) = Ok (3 / 2)).
  { rewrite (C88_bilinear ex_im (3 / 2 - 1) (1 - 1) 0 0) by (cbn; lia || lra). cbn. f_equal. lra. }
  assert (J2 : interp ex_im (2 - 1) (- -1 - 1) = Ok 2).
  { replace (2 - 1) with (IZR 1) by lra. replace (- -1 - 1) with (IZR 0) by lra. rewrite (C88_center ex_im 0 1); cbn; try lia; [reflexivity|lra]. }
  rewrite J1 in V1. rewrite J2 in V2. injection V1 as <-. injection V2 as <-. reflexivity.
Qed.

Print Assumptions C88_works.
Print Assumptions C88_bilinear.
Print Assumptions C88_center.
Print Assumptions C88_constant.
Print Assumptions C88_range.
Print Assumptions C88_local.
Print Assumptions C88_wrap_refuted.
Print Assumptions C88_wrap_rows_refuted.
Print Assumptions C88_ebv.
Print Assumptions C88_extinction.
Print Assumptions C88_unknown_filter.
Print Assumptions C88_reddening.
