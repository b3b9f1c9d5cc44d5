(** C42: magnitudes, fluxes and their calibrations. *)
From Coq Require Import String List Reals Lra Bool.
From Verif Require Import Base MagsModel.
Import ListNotations.
Open Scope R_scope.

Lemma ln10_pos : 0 < ln 10.
Proof. rewrite <- ln_1. apply ln_increasing; lra. Qed.
Lemma log10_pow10 x : log10 (pow10 x) = x.
Proof. unfold log10, pow10, Rpower. rewrite ln_exp. assert (H := ln10_pos). field. lra. Qed.
Lemma pow10_log10 x : 0 < x -> pow10 (log10 x) = x.
Proof.
  intros Hx. unfold log10, pow10, Rpower. assert (H := ln10_pos).
  replace (ln x / ln 10 * ln 10) with (ln x) by (field; lra). apply exp_ln. auto.
Qed.
Lemma pow10_pos x : 0 < pow10 x.
Proof. apply exp_pos. Qed.
Lemma pow10_lt x y : x < y -> pow10 x < pow10 y.
Proof. intros H. apply Rpower_lt; lra. Qed.
Lemma pow10_plus x y : pow10 (x + y) = pow10 x * pow10 y.
Proof. apply Rpower_plus. Qed.
Lemma log10_1 : log10 1 = 0.
Proof. unfold log10. rewrite ln_1. assert (H := ln10_pos). field. lra. Qed.

(** *** C42 *)
Theorem C42_mag_flux_inverse :
  (forall m, nanomaggies_to_mag (mag_to_nanomaggies m) = m) /\
  (forall f, 0 < f -> mag_to_nanomaggies (nanomaggies_to_mag f) = f) /\
  (forall m, 0 < mag_to_nanomaggies m).
Proof.
  unfold mag_to_nanomaggies, nanomaggies_to_mag. split; [|split].
  - intros m. rewrite log10_pow10. lra.
  - intros f Hf. rewrite <- (pow10_log10 f Hf) at 2. f_equal. lra.
  - intros. apply pow10_pos.
Qed.

Theorem C42_zeropoint_inverse :
  (forall zp, scale_to_zeropoint (zeropoint_to_scale zp) = zp) /\
  (forall s, 0 < s -> zeropoint_to_scale (scale_to_zeropoint s) = s) /\
  (forall zp, 0 < zeropoint_to_scale zp).
Proof.
  unfold zeropoint_to_scale, scale_to_zeropoint. split; [|split].
  - intros m. rewrite log10_pow10. lra.
  - intros f Hf. rewrite <- (pow10_log10 f Hf) at 2. f_equal. lra.
  - intros. apply pow10_pos.
Qed.

(** Brighter is smaller, five magnitudes are a factor of one hundred, and
    22.5 is one nanomaggy. *)
Theorem C42_scale :
  (forall m n, m < n <-> mag_to_nanomaggies n < mag_to_nanomaggies m) /\
  (forall m, mag_to_nanomaggies (m - 5) = 100 * mag_to_nanomaggies m) /\
  mag_to_nanomaggies 22.5 = 1.
Proof.
  assert (HL : forall m n, m < n -> mag_to_nanomaggies n < mag_to_nanomaggies m).
  { intros m n H. unfold mag_to_nanomaggies. apply pow10_lt. lra. }
  split; [|split].
  - intros m n. split; auto. intros H. destruct (Rlt_le_dec m n) as [|L]; auto.
    destruct (Rle_lt_or_eq_dec _ _ L) as [L'| ->]; [|lra]. specialize (HL _ _ L'). lra.
  - intros m. unfold mag_to_nanomaggies. replace ((m - 5 - 22.5) / -2.5) with (2 + (m - 22.5) / -2.5) by lra.
    rewrite pow10_plus. f_equal. unfold pow10. replace 2 with (INR 2) by (simpl; lra). rewrite Rpower_pow by lra. simpl. lra.
  - unfold mag_to_nanomaggies. replace ((22.5 - 22.5) / -2.5) with 0 by lra. unfold pow10. apply Rpower_O. lra.
Qed.

(** Errors: the reported magnitude error is the flux error times the slope of
    the conversion; anything undefined is NaN. *)
Theorem C42_flux_errors : forall flux iv,
  let '(mag, dmag) := flux_errors_to_mag_errors flux iv in
  (0 < flux -> mag = Some (nanomaggies_to_mag flux)) /\
  (flux <= 0 -> mag = None) /\
  (0 < flux -> 0 < iv -> exists slope,
     derivable_pt_lim nanomaggies_to_mag flux slope /\
     dmag = Some (Rabs slope * (1 / sqrt iv))) /\
  (flux <= 0 \/ iv <= 0 -> dmag = None).
Proof.
  intros flux iv. unfold flux_errors_to_mag_errors.
  destruct (Rlt_dec 0 flux), (Rlt_dec 0 iv); simpl; repeat split; intros; try lra; auto.
  exists (- 2.5 / ln 10 / flux). assert (H10 := ln10_pos). split.
  - assert (HD : derivable_pt_lim (fun x => - 2.5 * (ln x * / ln 10 - 9)) flux (- 2.5 * ((/ flux) * / ln 10 - 0))).
    { apply (derivable_pt_lim_scal (fun x => ln x * / ln 10 - 9) (- 2.5)).
      apply (derivable_pt_lim_minus (fun x => ln x * / ln 10) (fun _ => 9)).
      - replace (/ flux * / ln 10) with (/ flux * / ln 10 + ln flux * 0) by lra.
        apply (derivable_pt_lim_mult ln (fun _ => / ln 10)).
        + apply derivable_pt_lim_ln. auto.
        + apply derivable_pt_lim_const.
      - apply derivable_pt_lim_const. }
    replace (- 2.5 / ln 10 / flux) with (- 2.5 * ((/ flux) * / ln 10 - 0)) by (field; lra). exact HD.
  - f_equal. assert (HS : 0 < sqrt iv) by (apply sqrt_lt_R0; auto).
    replace (- 2.5 / ln 10 * (1 / sqrt iv) / flux) with (- 2.5 / ln 10 / flux * (1 / sqrt iv)) by (field; repeat split; lra).
    rewrite Rabs_mult. f_equal. apply Rabs_right. apply Rle_ge. apply Rlt_le. apply Rdiv_lt_0_compat; lra.
Qed.

(** *** Multi-band brightnesses, band by band *)
Lemma over_get b f k : forall r, over_bands b f = Ok r ->
  get_band r k = (v <- get_band b k ;; f k v).
Proof.
  induction b as [|[k' v] b IH]; simpl; intros r H.
  - injection H as <-. reflexivity.
  - destruct (f k' v) as [w|] eqn:EF; [|discriminate]. cbn [bind] in H.
    destruct (over_bands b f) as [rs|] eqn:EO; [|discriminate]. cbn [bind] in H. injection H as <-. simpl.
    destruct (String.eqb_spec k k'); [subst; rewrite <- EF; reflexivity|]. apply IH. reflexivity.
Qed.
Lemma over_names b f : forall r, over_bands b f = Ok r -> map fst r = map fst b.
Proof.
  induction b as [|[k' v] b IH]; simpl; intros r H.
  - injection H as <-. reflexivity.
  - destruct (f k' v) as [w|]; [|discriminate]. cbn [bind] in H.
    destruct (over_bands b f) as [rs|] eqn:EO; [|discriminate]. cbn [bind] in H. injection H as <-. simpl. f_equal. auto.
Qed.

Definition total_map (f : R -> R) (x : res R) : res R := v <- x ;; Ok (f v).

(** Adding magnitudes adds fluxes; multiplying scales fluxes; band order is kept. *)
Theorem C42_mags_add : forall a b s, mags_add a b = Ok s -> map fst s = map fst a /\
  forall k m1 m2, get_band a k = Ok m1 -> get_band b k = Ok m2 ->
  exists m, get_band s k = Ok m /\ mag_to_nanomaggies m = mag_to_nanomaggies m1 + mag_to_nanomaggies m2.
Proof.
  intros a b s H. split; [eapply over_names; eauto|]. intros k m1 m2 H1 H2.
  eexists. split.
  - unfold mags_add in H. rewrite (over_get _ _ k _ H), H1. cbn [bind]. rewrite H2. reflexivity.
  - set (A := pow10 (- m1 / 2.5)). set (B := pow10 (- m2 / 2.5)).
    assert (HA : 0 < A) by apply pow10_pos. assert (HB : 0 < B) by apply pow10_pos.
    unfold mag_to_nanomaggies.
    replace ((- 2.5 * log10 (A + B) - 22.5) / - 2.5) with (log10 (A + B) + 9) by lra.
    replace ((m1 - 22.5) / - 2.5) with (- m1 / 2.5 + 9) by lra. replace ((m2 - 22.5) / - 2.5) with (- m2 / 2.5 + 9) by lra.
    rewrite !pow10_plus, pow10_log10 by lra. fold A B. lra.
Qed.

Theorem C42_mags_mul : forall a c s, c <> 0 -> mags_mul a c = Ok s -> map fst s = map fst a /\
  forall k m1, get_band a k = Ok m1 ->
  exists m, get_band s k = Ok m /\ mag_to_nanomaggies m = Rabs c * mag_to_nanomaggies m1.
Proof.
  intros a c s HC H. split; [eapply over_names; eauto|]. intros k m1 H1.
  eexists. split.
  - unfold mags_mul in H. rewrite (over_get _ _ k _ H), H1. reflexivity.
  - assert (HA : 0 < Rabs c) by (apply Rabs_pos_lt; auto). unfold mag_to_nanomaggies.
    replace ((m1 + - 2.5 * log10 (Rabs c) - 22.5) / - 2.5) with (log10 (Rabs c) + (m1 - 22.5) / - 2.5) by lra.
    rewrite pow10_plus, pow10_log10 by lra. reflexivity.
Qed.

(** MultiBandBrightness.copy is multiplication by one (brightness.py:62-63). *)
Theorem C42_copy_values : forall a, mags_mul a 1 = Ok a /\ fluxes_mul a 1 = Ok a.
Proof.
  intros a. unfold mags_mul, fluxes_mul. rewrite Rabs_right by lra. rewrite log10_1. split.
  - induction a as [|[k v] a IH]; simpl; auto. rewrite IH. cbn [bind]. replace (v + - 2.5 * 0) with v by lra. reflexivity.
  - induction a as [|[k v] a IH]; simpl; auto. rewrite IH. cbn [bind]. rewrite Rmult_1_r. reflexivity.
Qed.

(** NanoMaggies made from magnitudes report those magnitudes. *)
Theorem C42_from_mag : forall m, exists n, from_mag m = Ok n /\
  forall k, nmgy_get_mag n k = get_band m k.
Proof.
  intros m. assert (HE : exists n, from_mag m = Ok n).
  { unfold from_mag. induction m as [|[k v] m [n IH]]; simpl; eauto. rewrite IH. simpl. eauto. }
  destruct HE as [n E]. exists n. split; auto. intros k. unfold nmgy_get_mag.
  rewrite (over_get _ _ k _ E). destruct (get_band m k); auto. simpl. f_equal. apply C42_mag_flux_inverse.
Qed.

(** Counts: MagsPhotoCal on magnitudes and LinearPhotoCal with the converted
    zeropoint on nanomaggies give the same counts (up to magnitude 50, beyond
    which MagsPhotoCal gives zero), and counts convert back. *)
Theorem C42_calibrations_agree : forall zp band m n v, get_band m band = Ok v -> from_mag m = Ok n ->
  v <= 50 ->
  mags_counts zp band m = linear_counts (zeropoint_to_scale zp) band n /\
  counts_to_mag zp (mags_counts_of zp (Some v)) = v.
Proof.
  intros zp band m n v Hv Hn HM. unfold mags_counts, linear_counts, mags_counts_of.
  rewrite Hv, (over_get _ _ band _ Hn), Hv. cbn [bind]. destruct (Rlt_dec 50 v); [lra|]. split.
  - f_equal. unfold mag_to_nanomaggies, zeropoint_to_scale. rewrite <- pow10_plus. f_equal. lra.
  - unfold counts_to_mag. rewrite log10_pow10. lra.
Qed.
Theorem C42_faint_cut : forall zp v, 50 < v -> mags_counts_of zp (Some v) = 0.
Proof. intros zp v H. unfold mags_counts_of. destruct (Rlt_dec 50 v); auto. lra. Qed.

(** Fluxes add and scale. *)
Theorem C42_fluxes : forall a b s c t, fluxes_add a b = Ok s -> fluxes_mul a c = Ok t ->
  map fst s = map fst a /\ map fst t = map fst a /\
  forall k x y, get_band a k = Ok x -> get_band b k = Ok y ->
    get_band s k = Ok (x + y) /\ get_band t k = Ok (x * c).
Proof.
  intros a b s c t HS HT. split; [eapply over_names; eauto|]. split; [eapply over_names; eauto|].
  intros k x y Hx Hy. split.
  - rewrite (over_get _ _ k _ HS), Hx. cbn [bind]. rewrite Hy. reflexivity.
  - rewrite (over_get _ _ k _ HT), Hx. reflexivity.
Qed.
(** A band missing from the second operand raises. *)
Theorem C42_missing_band_raises : forall a b k, In k (map fst a) -> get_band b k = Err AttributeError ->
  exists e, mags_add a b = Err e.
Proof.
  intros a b k HI HB. unfold mags_add. induction a as [|[k' v] a IH]; simpl in *; [tauto|].
  destruct (get_band b k') as [m2|e] eqn:E2; cbn [bind]; [|eauto].
  destruct HI as [->|HI]; [congruence|]. destruct (IH HI) as [e E]. rewrite E. cbn [bind]. eauto.
Qed.

Example C42_ex : exists s, mags_add [("r"%string, 20); ("g"%string, 21)] [("g"%string, 21); ("r"%string, 20)] = Ok s /\
  exists m, get_band s "g"%string = Ok m /\ mag_to_nanomaggies m = 2 * mag_to_nanomaggies 21.
Proof.
  eexists. split; [reflexivity|].
  destruct (C42_mags_add [("r"%string, 20); ("g"%string, 21)] [("g"%string, 21); ("r"%string, 20)] _ eq_refl) as [_ H].
  destruct (H "g"%string 21 21 eq_refl eq_refl) as (m & E & EQ). exists m. split; auto. lra.
Qed.

Print Assumptions C42_mag_flux_inverse.
Print Assumptions C42_zeropoint_inverse.
Print Assumptions C42_scale.
Print Assumptions C42_flux_errors.
Print Assumptions C42_mags_add.
Print Assumptions C42_mags_mul.
Print Assumptions C42_copy_values.
Print Assumptions C42_from_mag.
Print Assumptions C42_calibrations_agree.
Print Assumptions C42_faint_cut.
Print Assumptions C42_fluxes.
Print Assumptions C42_missing_band_raises.
