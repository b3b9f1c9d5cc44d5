(** C110: the model image in the type it is made in, float32. *)
From Coq Require Import Reals List ZArith Bool Lia Lra Sorting.Permutation.
From Flocq Require Import Core Relative Plus_error.
From Flocq Require BinarySingleNaN Bits.
From Verif Require Import Base PatchModel PatchSpec PatchProofs EngineModel EngineProps RoundModel RoundArith RoundLikProps.
Import ListNotations.
Open Scope R_scope.

(** ** Specification: what is added to a pixel, in the order of the catalogue *)
Definition values {Mask} (render : nat -> nat -> option Mask -> option (patch R)) (t : tractor Mask) (img : nat)
    (srcs : list (option nat)) (X Y : Z) : list R :=
  flat_map (fun s => match source_at render t img s X Y with Some v => [v] | None => [] end) srcs.
Definition absum (l : list R) : R := rsum (map Rabs l).

Lemma fold_values {Mask} (render : nat -> nat -> option Mask -> option (patch R)) t img (add mul : R -> R -> R) srcs X Y : forall a,
  (forall v, In v (values render t img srcs X Y) -> mul v 1 = v) ->
  fold_left (fun acc s => match source_at render t img s X Y with Some v => add acc (mul v 1) | None => acc end) srcs a =
  fold_left add (values render t img srcs X Y) a.
Proof.
  unfold values. induction srcs as [|s srcs IH]; intros a H; simpl in *; auto.
  destruct (source_at render t img s X Y) as [v|]; simpl in *; [|apply IH; auto].
  rewrite H by auto. apply IH. auto.
Qed.
Lemma values_perm {Mask} (render : nat -> nat -> option Mask -> option (patch R)) t img a b X Y :
  Permutation a b -> Permutation (values render t img a X Y) (values render t img b X Y).
Proof. apply Permutation_flat_map. Qed.
Lemma rsum_perm a b : Permutation a b -> rsum a = rsum b.
Proof. induction 1; simpl; lra. Qed.

Lemma fold_near vs : forall k A x X, near 24 (-149) k A x X -> Forall fmt32 vs ->
  near 24 (-149) (k + length vs) (A + absum vs) (fold_left add32 vs x) (X + rsum vs).
Proof.
  unfold absum. induction vs as [|v vs IH]; intros k A x X N F; simpl.
  - rewrite !Rplus_0_r, Nat.add_0_r. auto.
  - inversion F; subst. replace (k + S (length vs))%nat with (S k + length vs)%nat by lia.
    rewrite <- !Rplus_assoc. apply IH; auto. apply near_add; [lia|auto|].
    eapply near_weaken; [| |apply near_exact; auto]; [lia|lra].
Qed.
Lemma near0_32 v : fmt32 v -> add32 0 v = v.
Proof. intros F. unfold add32, fadd. rewrite Rplus_0_l. apply rn_fmt. auto. Qed.
Lemma mul32_1 v : fmt32 v -> mul32 v 1 = v.
Proof. intros F. unfold mul32, fmul. rewrite Rmult_1_r. apply rn_fmt. auto. Qed.

(** A model image of float32 patches: each pixel is within n roundings of sky
    plus sources, n the number of sources that reach the pixel. *)
Theorem C110_error : forall Mask (render : nat -> nat -> option Mask -> option (patch R)) shape sky (t : tractor Mask) img srcs,
  (0 <= fst (shape img))%Z -> (0 <= snd (shape img))%Z -> sources_ok render t img srcs ->
  (forall Y X, fmt32 (sky img Y X)) -> (forall Y X, Forall fmt32 (values render t img srcs X Y)) ->
  exists m, get_model_image render 0 1 add32 mul32 shape sky t img srcs true = Ok m /\ (ah m, aw m) = shape img /\
    forall Y X, (0 <= Y < ah m)%Z -> (0 <= X < aw m)%Z ->
      let vs := values render t img srcs X Y in
      fmt32 (px m Y X) /\
      Rabs (px m Y X - (sky img Y X + rsum vs)) <= ((1 + u32) ^ length vs - 1) * (Rabs (sky img Y X) + absum vs).
Proof.
  intros Mask render shape sky t img srcs H0 H1 OK Fs Fv.
  destruct (C24_model_image R Mask render 0 1 add32 mul32 shape sky t img srcs true H0 H1 OK) as (m & E & Sh & H).
  exists m. split; auto. split; auto. intros Y X HY HX vs. rewrite (H Y X HY HX).
  rewrite fold_values, near0_32 by (auto; intros v Hv; apply mul32_1; pose proof (Fv Y X) as G; rewrite Forall_forall in G; auto).
  destruct (fold_near vs 0 (Rabs (sky img Y X)) (sky img Y X) (sky img Y X) (near_exact _ _ _ (Fs Y X)) (Fv Y X)) as (F & _ & B).
  split; auto.
Qed.

(** Two orders of the catalogue differ by at most twice that. *)
Theorem C110_order : forall Mask (render : nat -> nat -> option Mask -> option (patch R)) shape sky (t : tractor Mask) img a b m m',
  (0 <= fst (shape img))%Z -> (0 <= snd (shape img))%Z -> sources_ok render t img a -> Permutation a b ->
  (forall Y X, fmt32 (sky img Y X)) -> (forall Y X, Forall fmt32 (values render t img a X Y)) ->
  get_model_image render 0 1 add32 mul32 shape sky t img a true = Ok m ->
  get_model_image render 0 1 add32 mul32 shape sky t img b true = Ok m' ->
  forall Y X, (0 <= Y < ah m)%Z -> (0 <= X < aw m)%Z ->
    let vs := values render t img a X Y in
    Rabs (px m Y X - px m' Y X) <= 2 * ((1 + u32) ^ length vs - 1) * (Rabs (sky img Y X) + absum vs).
Proof.
  intros Mask render shape sky t img a b m m' H0 H1 OK P Fs Fv Ea Eb Y X HY HX vs.
  destruct (C110_error Mask render shape sky t img a H0 H1 OK Fs Fv) as (m1 & E1 & S1 & B1).
  destruct (C110_error Mask render shape sky t img b H0 H1) as (m2 & E2 & S2 & B2); auto.
  { intros s Hs. apply OK. eapply Permutation_in; [apply Permutation_sym; exact P|auto]. }
  { intros Y' X'. eapply Permutation_Forall; [apply (values_perm render t img a b X' Y' P)|auto]. }
  rewrite Ea in E1. rewrite Eb in E2. injection E1 as <-. injection E2 as <-.
  assert (Q : ah m = ah m' /\ aw m = aw m') by (split; congruence). destruct Q as [Qh Qw].
  destruct (B1 Y X HY HX) as [_ C1]. destruct (B2 Y X ltac:(lia) ltac:(lia)) as [_ C2].
  pose proof (values_perm render t img a b X Y P) as PV.
  rewrite <- (Permutation_length PV), <- (rsum_perm _ _ PV) in C2. unfold absum in C2. rewrite <- (rsum_perm _ _ (Permutation_map Rabs PV)) in C2.
  fold (absum (values render t img a X Y)) in C2. fold vs in C1, C2.
  set (T := sky img Y X + rsum vs) in *.
  replace (px m Y X - px m' Y X) with ((px m Y X - T) - (px m' Y X - T)) by ring.
  eapply Rle_trans; [apply Rabs_triang|]. rewrite Rabs_Ropp. lra.
Qed.

(** Light that is not negative is not lost: a pixel is at least the sky and at
    least each source, and not negative. *)
Lemma fold_ge vs : Forall fmt32 vs -> Forall (fun v => 0 <= v) vs -> forall x, fmt32 x -> 0 <= x ->
  x <= fold_left add32 vs x /\ Forall (fun v => v <= fold_left add32 vs x) vs.
Proof.
  induction vs as [|v vs IH]; intros F N x Fx Nx; simpl; [split; [lra|constructor]|].
  inversion F as [|? ? F1 F2]; inversion N as [|? ? N1 N2]; subst.
  assert (G1 : x <= add32 x v) by (apply (fadd_ge 24 (-149)); auto; [lia|left; lra]).
  assert (G2 : v <= add32 x v) by (apply (fadd_ge 24 (-149)); auto; [lia|right; lra]).
  destruct (IH F2 N2 (add32 x v)) as [A B]; [apply fmt_rn; lia|lra|].
  split; [lra|]. constructor; [lra|auto].
Qed.
Theorem C110_light : forall Mask (render : nat -> nat -> option Mask -> option (patch R)) shape sky (t : tractor Mask) img srcs,
  (0 <= fst (shape img))%Z -> (0 <= snd (shape img))%Z -> sources_ok render t img srcs ->
  (forall Y X, fmt32 (sky img Y X)) -> (forall Y X, Forall fmt32 (values render t img srcs X Y)) ->
  exists m, get_model_image render 0 1 add32 mul32 shape sky t img srcs true = Ok m /\
    forall Y X, (0 <= Y < ah m)%Z -> (0 <= X < aw m)%Z ->
      0 <= sky img Y X -> Forall (fun v => 0 <= v) (values render t img srcs X Y) ->
      0 <= px m Y X /\ sky img Y X <= px m Y X /\ Forall (fun v => v <= px m Y X) (values render t img srcs X Y).
Proof.
  intros Mask render shape sky t img srcs H0 H1 OK Fs Fv.
  destruct (C24_model_image R Mask render 0 1 add32 mul32 shape sky t img srcs true H0 H1 OK) as (m & E & Sh & H).
  exists m. split; auto. intros Y X HY HX S0 V0. rewrite (H Y X HY HX).
  rewrite fold_values, near0_32 by (auto; intros v Hv; apply mul32_1; pose proof (Fv Y X) as G; rewrite Forall_forall in G; auto).
  destruct (fold_ge _ (Fv Y X) V0 _ (Fs Y X) S0) as [A B]. split; [lra|auto].
Qed.

(** Whole counts of at most 2^24 in all: no rounding, in any order. *)
Definition whole (x : R) : Prop := exists n : Z, x = IZR n.
Lemma fold_whole vs : Forall whole vs -> forall n, IZR (Z.abs n) + absum vs <= bpow radix2 24 ->
  fold_left add32 vs (IZR n) = IZR n + rsum vs.
Proof.
  unfold absum. induction 1 as [|v vs (k & ->) Hv IH]; intros n B; simpl in *; [lra|].
  assert (A : 0 <= rsum (map Rabs vs)) by (apply rsum_nonneg, Forall_map, Forall_forall; intros; apply Rabs_pos).
  assert (C : IZR (Z.abs (n + k)) <= IZR (Z.abs n) + Rabs (IZR k)).
  { rewrite !abs_IZR, plus_IZR. apply Rabs_triang. }
  assert (E : add32 (IZR n) (IZR k) = IZR (n + k)).
  { unfold add32, fadd. rewrite <- plus_IZR. apply rn_fmt. apply fmt_int; [lia|lia|]. simpl in *. lra. }
  rewrite E, IH by (simpl in *; lra). rewrite plus_IZR. ring.
Qed.
Theorem C110_counts : forall Mask (render : nat -> nat -> option Mask -> option (patch R)) shape sky (t : tractor Mask) img srcs,
  (0 <= fst (shape img))%Z -> (0 <= snd (shape img))%Z -> sources_ok render t img srcs ->
  (forall Y X, whole (sky img Y X)) -> (forall Y X, Forall whole (values render t img srcs X Y)) ->
  (forall Y X, Rabs (sky img Y X) + absum (values render t img srcs X Y) <= 2 ^ 24) ->
  exists m, get_model_image render 0 1 add32 mul32 shape sky t img srcs true = Ok m /\
    forall Y X, (0 <= Y < ah m)%Z -> (0 <= X < aw m)%Z -> px m Y X = sky img Y X + rsum (values render t img srcs X Y).
Proof.
  intros Mask render shape sky t img srcs H0 H1 OK Fs Fv B.
  destruct (C24_model_image R Mask render 0 1 add32 mul32 shape sky t img srcs true H0 H1 OK) as (m & E & Sh & H).
  exists m. split; auto. intros Y X HY HX. rewrite (H Y X HY HX).
  assert (P24 : bpow radix2 24 = 2 ^ 24) by (simpl; lra).
  assert (A : forall l, 0 <= absum l) by (intros; apply rsum_nonneg, Forall_map, Forall_forall; intros; apply Rabs_pos).
  specialize (B Y X). destruct (Fs Y X) as (n & En). pose proof (Fv Y X) as W.
  assert (FW : forall v, whole v -> Rabs v <= bpow radix2 24 -> fmt32 v).
  { intros v (k & ->) Hk. apply fmt_int; [lia|lia|]. rewrite abs_IZR. exact Hk. }
  assert (M : forall v, In v (values render t img srcs X Y) -> Rabs v <= absum (values render t img srcs X Y)).
  { unfold absum. generalize (values render t img srcs X Y). intros l. induction l as [|w l IH]; simpl; [tauto|].
    pose proof (Rabs_pos w). pose proof (A l) as Al. unfold absum in Al. intros v [->|I]; [lra|]. specialize (IH v I). lra. }
  pose proof (Rabs_pos (sky img Y X)).
  rewrite fold_values.
  2:{ intros v Hv. apply mul32_1. rewrite Forall_forall in W. apply FW; auto. specialize (M v Hv). lra. }
  rewrite near0_32.
  2:{ apply FW; [exists n; auto|]. specialize (A (values render t img srcs X Y)). lra. }
  rewrite En in *. rewrite fold_whole; auto. rewrite abs_IZR. lra.
Qed.

(** ** Patches in float64: two roundings per source, and underflow *)
(** 2^-24 + 2^-53 + 2^-77 *)
Definition v32 : R := u32 + u64 + u32 * u64.
Lemma fmt_32_64 x : fmt32 x -> fmt64 x.
Proof.
  apply generic_inclusion_mag. intros. unfold FLT_exp. lia.
Qed.
Lemma into_err x y : fmt32 x -> fmt64 y ->
  Rabs (add_into x y - (x + y)) <= v32 * Rabs (x + y) + bpow radix2 (-150).
Proof.
  intros Fx Fy. unfold add_into.
  pose proof (add_err 53 (-1074) ltac:(lia) x y (fmt_32_64 x Fx) Fy) as E1.
  change (fadd 53 (-1074) x y) with (add64 x y) in E1. unfold unit_err in E1. simpl (- (53))%Z in E1. set (w := add64 x y) in *.
  destruct (relative_error_N_FLT'_ex radix2 (-149) 24 ltac:(reflexivity) (fun n => negb (Z.even n)) w) as (e & h & He & Hh & _ & E2).
  pose proof (u_rod1pu_ro_le_u_ro radix2 24) as UL. rewrite u_ro_u in *. unfold unit_err in *. simpl (- (24))%Z in *.
  assert (E3 : Rabs (rn 24 (-149) w - w) <= u32 * Rabs w + bpow radix2 (-150)).
  { unfold rn. rewrite E2. replace (w * (1 + e) + h - w) with (e * w + h) by ring.
    eapply Rle_trans; [apply Rabs_triang|]. rewrite Rabs_mult. apply Rplus_le_compat.
    - apply Rmult_le_compat_r; [apply Rabs_pos|lra].
    - eapply Rle_trans; [exact Hh|]. replace (-150)%Z with (-1 + -149)%Z by lia. rewrite bpow_plus. simpl. lra. }
  assert (B : Rabs w <= (1 + u64) * Rabs (x + y)).
  { replace w with ((w - (x + y)) + (x + y)) by ring. eapply Rle_trans; [apply Rabs_triang|]. lra. }
  replace (rn 24 (-149) w - (x + y)) with ((rn 24 (-149) w - w) + (w - (x + y))) by ring.
  eapply Rle_trans; [apply Rabs_triang|]. pose proof (bpow_gt_0 radix2 (-24)) as U.
  assert (u32 * Rabs w <= u32 * ((1 + u64) * Rabs (x + y))) by (apply Rmult_le_compat_l; lra).
  unfold v32. assert (W : forall a b z, (a + b + a * b) * z = b * z + a * ((1 + b) * z)) by (intros; ring).
  rewrite W. lra.
Qed.
Lemma fold_into vs : Forall fmt64 vs -> forall k A x X, fmt32 x -> Rabs X <= A ->
  Rabs (x - X) <= ((1 + v32) ^ k - 1) * A + INR k * (1 + v32) ^ k * bpow radix2 (-150) ->
  Rabs (fold_left add_into vs x - (X + rsum vs)) <=
    ((1 + v32) ^ (k + length vs) - 1) * (A + absum vs) + INR (k + length vs) * (1 + v32) ^ (k + length vs) * bpow radix2 (-150).
Proof.
  pose proof (bpow_gt_0 radix2 (-150)) as H150. pose proof (bpow_gt_0 radix2 (-24)) as U24. pose proof (bpow_gt_0 radix2 (-53)) as U53.
  assert (Pv : 0 < v32) by (unfold v32; assert (0 < u32 * u64) by (apply Rmult_lt_0_compat; auto); lra).
  unfold absum. induction 1 as [|v vs Fv Fvs IH]; intros k A x X Fx BA E; cbn [fold_left rsum fold_right map length].
  - rewrite !Rplus_0_r, Nat.add_0_r. auto.
  - fold (rsum vs). fold (rsum (map Rabs vs)). replace (k + S (length vs))%nat with (S k + length vs)%nat by lia. rewrite <- !Rplus_assoc.
    apply IH; [apply fmt_rn; lia| |].
    + eapply Rle_trans; [apply Rabs_triang|lra].
    + pose proof (into_err x v Fx Fv) as I. rewrite S_INR. simpl ((1 + v32) ^ S k).
      pose proof (pow_R1_Rle (1 + v32) k ltac:(lra)) as G.
      set (w := v32) in *. set (g := (1 + w) ^ k) in *. set (h := bpow radix2 (-150)) in *. clearbody w g h.
      pose proof (pos_INR k) as K. set (n := INR k) in *. clearbody n.
      set (D := (g - 1) * A + n * g * h) in *.
      assert (S1 : Rabs (x + v) <= D + A + Rabs v).
      { replace (x + v) with ((x - X) + X + v) by ring. eapply Rle_trans; [apply Rabs_triang|].
        eapply Rle_trans; [apply Rplus_le_compat_r, Rabs_triang|]. lra. }
      replace (add_into x v - (X + v)) with ((add_into x v - (x + v)) + (x - X)) by ring.
      eapply Rle_trans; [apply Rabs_triang|].
      assert (S2 : w * Rabs (x + v) <= w * (D + A + Rabs v)) by (apply Rmult_le_compat_l; lra).
      pose proof (Rabs_pos v) as V0.
      assert (S3 : w * Rabs v <= ((1 + w) * g - 1) * Rabs v).
      { apply Rmult_le_compat_r; auto. assert (0 <= (1 + w) * (g - 1)) by (apply Rmult_le_pos; lra). lra. }
      assert (S4 : h <= (1 + w) * g * h).
      { assert (1 <= (1 + w) * g) by (assert (0 <= (1 + w) * (g - 1)) by (apply Rmult_le_pos; lra); lra).
        assert (0 <= ((1 + w) * g - 1) * h) by (apply Rmult_le_pos; lra). lra. }
      unfold D in *. lra.
Qed.
Theorem C110_error_double : forall Mask (render : nat -> nat -> option Mask -> option (patch R)) shape sky (t : tractor Mask) img srcs,
  (0 <= fst (shape img))%Z -> (0 <= snd (shape img))%Z -> sources_ok render t img srcs ->
  (forall Y X, fmt32 (sky img Y X)) -> (forall Y X, Forall fmt64 (values render t img srcs X Y)) ->
  exists m, get_model_image render 0 1 add_into mul64 shape sky t img srcs true = Ok m /\
    forall Y X, (0 <= Y < ah m)%Z -> (0 <= X < aw m)%Z ->
      let vs := values render t img srcs X Y in
      Rabs (px m Y X - (sky img Y X + rsum vs)) <=
        ((1 + v32) ^ length vs - 1) * (Rabs (sky img Y X) + absum vs) + INR (length vs) * (1 + v32) ^ length vs * bpow radix2 (-150).
Proof.
  intros Mask render shape sky t img srcs H0 H1 OK Fs Fv.
  destruct (C24_model_image R Mask render 0 1 add_into mul64 shape sky t img srcs true H0 H1 OK) as (m & E & Sh & H).
  exists m. split; auto. intros Y X HY HX vs. rewrite (H Y X HY HX).
  rewrite fold_values by (intros v Hv; unfold mul64, fmul; rewrite Rmult_1_r; apply rn_fmt; pose proof (Fv Y X) as G; rewrite Forall_forall in G; auto).
  replace (add_into 0 (sky img Y X)) with (sky img Y X).
  2:{ unfold add_into, add64, fadd. rewrite Rplus_0_l, !rn_fmt; auto using fmt_32_64. rewrite rn_fmt; auto using fmt_32_64. }
  apply (fold_into vs (Fv Y X) 0); auto; [lra|]. rewrite Rminus_eq_0, Rabs_R0. simpl. lra.
Qed.

(** ** Cases, in binary32 *)
Section Case.
Import BinarySingleNaN Bits.
Definition one_pixel (v : Z) : option (patch binary32) := Some (mkPatch 0 0 (Some (mkArr 1 1 (fun _ _ => b32_of_bits v)))).
(** 2^24, 1 and 1 *)
Definition three (s i : nat) (m : option unit) : option (patch binary32) := one_pixel (if (s =? 0)%nat then 0x4b800000 else 0x3f800000)%Z.
Definition pixel_of (srcs : list (option nat)) : option Z :=
  match get_model_image three (b32_of_bits 0) (b32_of_bits 0x3f800000) (b32_plus mode_NE) (b32_mult mode_NE) (fun _ => (1, 1)%Z)
     (fun _ _ _ => b32_of_bits 0) (mkTractor [0%nat] None false) 0 srcs true with
  | Ok m => Some (bits_of_b32 (px m 0 0)) | Err _ => None end.
(** The order of the catalogue changes the model: 2^24 or 2^24 + 2. *)
Theorem C110_order_refuted : pixel_of [Some 0; Some 1; Some 2]%nat = Some 0x4b800000%Z /\ pixel_of [Some 1; Some 2; Some 0]%nat = Some 0x4b800001%Z.
Proof. split; vm_compute; reflexivity. Qed.
End Case.

Example C110_ex : let render (s i : nat) (m : option unit) := Some (mkPatch 0 0 (Some (mkArr 1 1 (fun _ _ => IZR (Z.of_nat s))))) in
  let t := mkTractor [0%nat] None false in let srcs := [Some 3%nat; None; Some 5%nat] in
  sources_ok render t 0%nat srcs /\ values render t 0%nat srcs 0 0 = [3; 5] /\ (forall Y X, Forall whole (values render t 0%nat srcs X Y)) /\
  (forall Y X, Rabs 7 + absum (values render t 0%nat srcs X Y) <= 2 ^ 24) /\ (forall Y X, Forall fmt32 (values render t 0%nat srcs X Y)).
Proof.
  intros render t srcs.
  assert (V : forall X Y, values render t 0%nat srcs X Y = [3; 5] \/ values render t 0%nat srcs X Y = []).
  { intros X Y. unfold values, srcs. simpl. unfold val_at. simpl.
    match goal with |- context [if ?b then Some 3 else None] => destruct b end; simpl; auto. }
  split; [|split; [reflexivity|split; [|split]]].
  - intros s _. eexists. split; [reflexivity|]. simpl. unfold wf_patch, wf_arr. simpl. lia.
  - intros Y X. destruct (V X Y) as [->| ->]; repeat constructor; [exists 3%Z|exists 5%Z]; auto.
  - intros Y X. destruct (V X Y) as [->| ->]; unfold absum; simpl; rewrite ?Rabs_pos_eq; lra.
  - intros Y X. destruct (V X Y) as [->| ->]; repeat constructor; apply (fmt_int 24 (-149)); try lia; simpl; lra.
Qed.

Print Assumptions C110_error.
Print Assumptions C110_order.
Print Assumptions C110_light.
Print Assumptions C110_counts.
Print Assumptions C110_error_double.
Print Assumptions C110_order_refuted.
