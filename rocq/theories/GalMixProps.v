(** C103: the Gaussian mixtures behind ExpGalaxy and DevGalaxy have unit flux
    and follow the exponential and de Vaucouleurs profiles. *)
From Coquelicot Require Import Coquelicot.
From Interval Require Import Tactic.
From Coq Require Import List Sorted Reals Lra Lia.
From Verif Require Import Base GaussPsfModel GaussPsfProps EvalModel EvalProps GalProfModel GalProfProps.
Import ListNotations.
Open Scope R_scope.

(** ** Spec

    [mixture m x y] (EvalProps.v) is the surface brightness of the mixture [m]
    at (x, y), [light f b] (GalProfProps.v) the light inside radius b. *)

(** The distance from the centre. *)
Definition radius (x y : R) : R := sqrt (x * x + y * y).

(** A round Gaussian. *)
Definition bell (a v r : R) : R := a / (2 * PI * v) * exp (- r ^ 2 / (2 * v)).

(** ** Lemmas *)

Lemma bell_density a v x y : 0 < v ->
  density (mkG a 0 0 v 0 0 v) x y = bell a v (radius x y).
Proof.
  intros V. unfold density, peak, mahal, det, bell, radius. cbn [g_amp g_mx g_my g_xx g_xy g_yx g_yy].
  replace (v * v - 0 * 0) with (v * v) by ring. rewrite sqrt_square by lra.
  replace (sqrt (x * x + y * y) ^ 2) with (x * x + y * y) by (rewrite pow2_sqrt; nra).
  f_equal. f_equal. field. lra.
Qed.

Lemma round_value l x y : Forall (fun av => 0 < snd av) l ->
  mixture (map (fun av => mkG (fst av) 0 0 (snd av) 0 0 (snd av)) l) x y =
  sum_over (fun av => bell (fst av) (snd av) (radius x y)) l.
Proof.
  unfold mixture, sum_over. induction 1 as [|av l H F IH]; [reflexivity|].
  cbn [map fold_right]. rewrite IH, bell_density by auto. reflexivity.
Qed.

Lemma radius_axis r : 0 <= r -> radius r 0 = r.
Proof. intros. unfold radius. rewrite Rmult_0_l, Rplus_0_r. apply sqrt_square; auto. Qed.

Lemma bell_light a v b : 0 < v ->
  is_RInt (fun r => 2 * PI * r * bell a v r) 0 b (a * (1 - exp (- b ^ 2 / (2 * v)))).
Proof.
  intros V. pose proof PI_RGT_0.
  replace (a * (1 - exp (- b ^ 2 / (2 * v)))) with
    (minus (- a * exp (- b ^ 2 / (2 * v))) (- a * exp (- 0 ^ 2 / (2 * v)))).
  - apply (is_RInt_derive (V := R_CompleteNormedModule) (fun r => - a * exp (- r ^ 2 / (2 * v)))).
    + intros x _. auto_derive; [auto|]. unfold bell.
      replace (- (x * (x * 1)) * / (2 * v)) with (- x ^ 2 / (2 * v)) by (unfold Rdiv; ring).
      generalize (exp (- x ^ 2 / (2 * v))). intros e. field. lra.
    + intros x _. apply (ex_derive_continuous (V := R_NormedModule)). unfold bell. auto_derive. auto.
  - unfold minus, plus, opp; cbn. replace (- (0 * (0 * 1)) / (2 * v)) with 0 by (field; lra).
    rewrite exp_0. ring.
Qed.

Lemma sum_light l b : Forall (fun av => 0 < snd av) l ->
  is_RInt (fun r => 2 * PI * r * sum_over (fun av => bell (fst av) (snd av) r) l) 0 b
    (sum_over (fun av => fst av * (1 - exp (- b ^ 2 / (2 * snd av)))) l).
Proof.
  unfold sum_over. induction 1 as [|av l H F IH]; cbn [fold_right].
  - apply (is_RInt_ext (fun _ => zero)); [intros; cbn; ring|].
    replace 0 with (scal (b - 0) (zero : R)) at 2 by (unfold scal, zero; cbn; unfold mult; cbn; ring).
    apply (is_RInt_const (V := R_NormedModule)).
  - apply (is_RInt_ext (fun r => plus (2 * PI * r * bell (fst av) (snd av) r)
      (2 * PI * r * fold_right (fun c a => bell (fst c) (snd c) r + a) 0 l))).
    + intros. unfold plus; cbn. ring.
    + apply (is_RInt_plus (V := R_NormedModule)); [apply bell_light; auto|exact IH].
Qed.

(** The components of the two profiles, after the normalizations. *)
Definition exp_comps : list (R * R) := map (fun av => (fst av / total exp_amp0, snd av)) (combine exp_amp0 exp_var).
Definition dev_comps : list (R * R) :=
  map (fun av => (fst av * ((1 - dev_core) / total dev_amp0), snd av)) (combine dev_amp0 dev_var0).

Lemma exp_total0 : total exp_amp0 = 11.77294849813.
Proof. unfold total, exp_amp0. cbn. lra. Qed.
Lemma dev_total0 : total dev_amp0 = 21.1232923102.
Proof. unfold total, dev_amp0. cbn. lra. Qed.
Lemma exp_total : total exp_amp = 1.
Proof. unfold exp_amp. rewrite exp_total0. unfold total, exp_amp0. cbn. lra. Qed.
Lemma dev_total : total dev_amp = 1.
Proof. unfold dev_amp, dev_core. rewrite dev_total0. unfold total, dev_amp0. cbn. lra. Qed.

Lemma normalize_unit m : total (map g_amp m) = 1 -> normalize m = m.
Proof.
  intros E. unfold normalize. rewrite E. rewrite <- (map_id m) at 2. apply map_ext. intros [].
  cbn. f_equal. field.
Qed.

Lemma amps_of amp var : length amp = length var -> map g_amp (round_mixture amp var) = amp.
Proof.
  unfold round_mixture. revert var. induction amp; intros [|v var] H; try discriminate; auto.
  cbn. f_equal. apply IHamp. cbn in H. lia.
Qed.

Lemma exp_profile_is : exp_profile = map (fun av => mkG (fst av) 0 0 (snd av) 0 0 (snd av)) exp_comps.
Proof.
  unfold exp_profile. rewrite normalize_unit by (rewrite amps_of; [apply exp_total|reflexivity]).
  reflexivity.
Qed.
Lemma dev_profile_is : dev_profile =
  mkG dev_core 0 0 0 0 0 0 :: map (fun av => mkG (fst av) 0 0 (snd av) 0 0 (snd av)) dev_comps.
Proof.
  unfold dev_profile. rewrite normalize_unit by (rewrite amps_of; [apply dev_total|reflexivity]).
  reflexivity.
Qed.

Lemma exp_vars : Forall (fun av => 0 < snd av) exp_comps.
Proof. unfold exp_comps, exp_amp0, exp_var. cbn [combine map]. repeat constructor; cbn; lra. Qed.
Lemma dev_vars : Forall (fun av => 0 < snd av) dev_comps.
Proof. unfold dev_comps, dev_amp0, dev_var0. cbn [combine map]. repeat constructor; cbn; lra. Qed.

(** The surface brightness at radius r, before the normalizations. *)
Definition exp_raw (r : R) : R :=
  bell 0.00234853813 0.00120078965 r + bell 0.0307995260 0.00884526493 r +
  bell 0.223364214 0.0391463084 r + bell 1.17949102 0.139976817 r +
  bell 4.33873750 0.460962500 r + bell 5.99820770 1.50159566 r.
Definition dev_raw (r : R) : R :=
  bell 0.0426347652 0.000223759216 r + bell 0.240127183 0.00100220099 r +
  bell 0.685907632 0.00418731126 r + bell 1.51937350 0.0169432589 r +
  bell 2.83627243 0.0684850479 r + bell 4.46467501 0.287207080 r +
  bell 5.72440830 1.33320254 r + bell 5.60989349 8.40215071 r.

Lemma bell_scale k a v r : bell (a * k) v r = k * bell a v r.
Proof. unfold bell, Rdiv. ring. Qed.

Lemma exp_value x y : mixture exp_profile x y = exp_raw (radius x y) / 11.77294849813.
Proof.
  rewrite exp_profile_is, round_value by apply exp_vars.
  unfold exp_comps. rewrite exp_total0. unfold exp_amp0, exp_var, sum_over, exp_raw.
  cbn [combine map fold_right fst snd]. unfold Rdiv. rewrite !bell_scale. ring.
Qed.
Lemma dev_value x y : mixture (tl dev_profile) x y = dev_raw (radius x y) * ((1 - dev_core) / 21.1232923102).
Proof.
  rewrite dev_profile_is. cbn [tl]. rewrite round_value by apply dev_vars.
  unfold dev_comps. rewrite dev_total0. unfold dev_amp0, dev_var0, sum_over, dev_raw.
  cbn [combine map fold_right fst snd]. rewrite !bell_scale. ring.
Qed.

(** ** Numerical facts *)

Lemma exp_close r : 0 <= r <= 2.7 ->
  -0.021 <= exp_raw r / exp (-1.67835 * (r - 1)) - 1 <= 0.021.
Proof. intros H. unfold exp_raw, bell. interval with (i_bisect r, i_depth 20). Qed.

Lemma exp_far1 r : 2.7 <= r <= 3 -> -0.0042 <= exp_raw r - exp (-1.67835 * (r - 1)) <= 0.0042.
Proof. intros H. unfold exp_raw, bell. interval with (i_bisect r, i_depth 20). Qed.
Lemma exp_far2 r : 3 <= r <= 4 -> -0.0042 <=
  exp_raw r - exp (-1.67835 * (r - 1)) * (1 - ((r - 3) / (4 - 3)) ^ 2) ^ 2 <= 0.0042.
Proof. intros H. unfold exp_raw, bell. interval with (i_bisect r, i_depth 20). Qed.

Lemma dev_close r : 0 <= r <= 6 ->
  -0.05 <= dev_raw r / exp (-7.66925 * (exp (0.125 * ln (r * r + 0.0004)) - 1)) - 1 <= 0.078.
Proof. intros H. unfold dev_raw, bell. interval with (i_bisect r, i_depth 25). Qed.
Lemma dev_far1 r : 6 <= r <= 7 -> -0.004 <=
  dev_raw r - exp (-7.66925 * (exp (0.125 * ln (r * r + 0.0004)) - 1)) <= 0.004.
Proof. intros H. unfold dev_raw, bell. interval with (i_bisect r, i_depth 20). Qed.
Lemma dev_far2 r : 7 <= r <= 8 -> -0.004 <=
  dev_raw r - exp (-7.66925 * (exp (0.125 * ln (r * r + 0.0004)) - 1)) * (1 - ((r - 7) / (8 - 7)) ^ 2) ^ 2 <= 0.004.
Proof. intros H. unfold dev_raw, bell. interval with (i_bisect r, i_depth 20). Qed.

Lemma bell_falls a v r s : 0 < v -> 0 <= a -> 0 <= s <= r -> 0 <= bell a v r <= bell a v s.
Proof.
  intros V A H. unfold bell. pose proof PI_RGT_0.
  assert (P : 0 <= a / (2 * PI * v)).
  { apply Rmult_le_pos; auto. left. apply Rinv_0_lt_compat. apply Rmult_lt_0_compat; lra. }
  assert (E : exp (- r ^ 2 / (2 * v)) <= exp (- s ^ 2 / (2 * v))).
  { assert (D : - r ^ 2 / (2 * v) <= - s ^ 2 / (2 * v)).
    { apply Rmult_le_compat_r; [left; apply Rinv_0_lt_compat; lra|]. nra. }
    destruct D as [D| ->]; [left; now apply exp_increasing|lra]. }
  pose proof (exp_pos (- r ^ 2 / (2 * v))).
  split; [apply Rmult_le_pos; lra|apply Rmult_le_compat_l; lra].
Qed.

Lemma exp_falls r s : 0 <= s <= r -> 0 <= exp_raw r <= exp_raw s.
Proof.
  intros H. unfold exp_raw.
  repeat match goal with |- context [bell ?a ?v r] =>
    let Q := fresh in assert (Q := bell_falls a v r s ltac:(lra) ltac:(lra) H);
    revert Q; generalize (bell a v r) (bell a v s); intros ? ? Q end.
  lra.
Qed.
Lemma dev_falls r s : 0 <= s <= r -> 0 <= dev_raw r <= dev_raw s.
Proof.
  intros H. unfold dev_raw.
  repeat match goal with |- context [bell ?a ?v r] =>
    let Q := fresh in assert (Q := bell_falls a v r s ltac:(lra) ltac:(lra) H);
    revert Q; generalize (bell a v r) (bell a v s); intros ? ? Q end.
  lra.
Qed.

Lemma exp_at r : profile_exp1 r / 2048 =
  if Rlt_dec 4 r then 0 else if Rlt_dec 3 r then exp (-1.67835 * (r - 1)) * (1 - ((r - 3) / (4 - 3)) ^ 2) ^ 2
  else exp (-1.67835 * (r - 1)).
Proof.
  unfold profile_exp1, profile_exp. rewrite truncated_one, exp_cut_3. unfold exp_out, exp_nc.
  destruct (Rlt_dec 4 r), (Rlt_dec 3 r); lra.
Qed.
Lemma dev_at r : profile_dev1 r / 512 =
  if Rlt_dec 8 r then 0 else if Rlt_dec 7 r then
    exp (-7.66925 * (exp (0.125 * ln (r * r + 0.0004)) - 1)) * (1 - ((r - 7) / (8 - 7)) ^ 2) ^ 2
  else exp (-7.66925 * (exp (0.125 * ln (r * r + 0.0004)) - 1)).
Proof.
  unfold profile_dev1, profile_dev. rewrite truncated_one, dev_cut_7. unfold dev_out, dev_nc, Rpower.
  destruct (Rlt_dec 8 r), (Rlt_dec 7 r); lra.
Qed.

Lemma profile_light p l b : 0 <= b -> Forall (fun av => 0 < snd av) l ->
  p = map (fun av => mkG (fst av) 0 0 (snd av) 0 0 (snd av)) l ->
  light (fun r => mixture p r 0) b = sum_over (fun av => fst av * (1 - exp (- b ^ 2 / (2 * snd av)))) l.
Proof.
  intros B V ->. unfold light. apply is_RInt_unique.
  eapply is_RInt_ext; [|apply sum_light; exact V].
  rewrite Rmin_left, Rmax_right by auto. intros x Hx. cbv beta.
  rewrite round_value, radius_axis by (auto; lra). reflexivity.
Qed.

Lemma near0 (f : R -> R) C : 0 < C -> (forall r, 0 <= f r <= C) ->
  continuous (fun r => 2 * PI * r * f r) 0.
Proof.
  intros HC H. apply continuity_pt_filterlim. intros eps He.
  pose proof PI_RGT_0. assert (P : 0 < 2 * PI * C) by (apply Rmult_lt_0_compat; lra).
  exists (eps / (2 * PI * C)). split; [apply Rdiv_lt_0_compat; lra|].
  intros x [_ Hx]. cbn in *. unfold R_dist in *. rewrite Rminus_0_r in Hx.
  replace (2 * PI * x * f x - 2 * PI * 0 * f 0) with (x * (2 * PI * f x)) by ring.
  rewrite Rabs_mult. specialize (H x).
  assert (Q : 0 <= 2 * PI * f x <= 2 * PI * C) by nra.
  rewrite (Rabs_right (2 * PI * f x)) by lra.
  assert (Hx' : Rabs x * (2 * PI * C) < eps).
  { replace eps with (eps / (2 * PI * C) * (2 * PI * C)) by (field; lra).
    apply Rmult_lt_compat_r; auto. }
  pose proof (Rabs_pos x). nra.
Qed.

(** ** Theorems *)

(** The mixtures have unit flux, positive parts, one centre, round components
    and growing widths. *)
Theorem C103_unit (m : list gcomp) : In m [gauss_profile; exp_profile; dev_profile] ->
  total (map g_amp m) = 1 /\ Forall (Rlt 0) (map g_amp m) /\
  Forall (fun c => exists v, 0 <= v /\ c = mkG (g_amp c) 0 0 v 0 0 v) m /\
  Sorted Rlt (map g_xx m).
Proof.
  assert (SC : forall k l, 0 < k -> Forall (Rlt 0) l -> Forall (Rlt 0) (map (fun a => a * k) l)).
  { intros k l K. induction 1; constructor; auto. now apply Rmult_lt_0_compat. }
  intros [<-|[<-|[<-|[]]]].
  - unfold gauss_profile, normalize, round_mixture, total. cbn. repeat split; try lra.
    + repeat constructor; lra.
    + repeat constructor. exists 1. split; [lra|reflexivity].
    + repeat constructor.
  - unfold exp_profile. rewrite normalize_unit by (rewrite amps_of; [apply exp_total|reflexivity]).
    rewrite amps_of by reflexivity. split; [apply exp_total|]. repeat split.
    + unfold exp_amp. rewrite exp_total0. apply (SC (/ 11.77294849813)); [lra|].
      unfold exp_amp0. repeat constructor; lra.
    + unfold round_mixture, exp_amp, exp_amp0, exp_var. cbn [map combine fst snd].
      repeat constructor; eexists; (split; [|reflexivity]); lra.
    + unfold round_mixture, exp_amp, exp_amp0, exp_var. cbn [map combine fst snd g_xx].
      repeat constructor; lra.
  - unfold dev_profile. rewrite normalize_unit by (rewrite amps_of; [apply dev_total|reflexivity]).
    rewrite amps_of by reflexivity. split; [apply dev_total|]. repeat split.
    + unfold dev_amp, dev_core. rewrite dev_total0. constructor; [lra|].
      apply (SC ((1 - 0.010233) / 21.1232923102)); [lra|]. unfold dev_amp0. repeat constructor; lra.
    + unfold round_mixture, dev_amp, dev_amp0, dev_var, dev_var0. cbn [map combine fst snd].
      repeat constructor; eexists; (split; [|reflexivity]); lra.
    + unfold round_mixture, dev_amp, dev_amp0, dev_var, dev_var0. cbn [map combine fst snd g_xx].
      repeat constructor; lra.
Qed.

(** ExpGalaxy's mixture follows the exponential profile, the profile being
    scaled to the same flux within half a per cent: to 2.1 per cent of the
    brightness out to 2.7 half-light radii, and to a thousandth of the central
    brightness beyond. *)
Theorem C103_exp : exists k, Rabs (k * light profile_exp1 4 - 1) <= 0.005 /\
  forall x y, let r := radius x y in
    (r <= 2.7 -> Rabs (mixture exp_profile x y - k * profile_exp1 r) <= 0.021 * (k * profile_exp1 r)) /\
    (2.7 <= r -> Rabs (mixture exp_profile x y - k * profile_exp1 r) <= 0.001 * (k * profile_exp1 0)).
Proof.
  exists (/ 2048 / 11.77294849813). split.
  { pose proof exp_light_4. apply Rabs_le. lra. }
  intros x y. cbv zeta. rewrite exp_value.
  assert (R0 : 0 <= radius x y) by apply sqrt_pos.
  generalize dependent (radius x y). intros r R0.
  replace (/ 2048 / 11.77294849813 * profile_exp1 r) with (profile_exp1 r / 2048 / 11.77294849813) by lra.
  replace (/ 2048 / 11.77294849813 * profile_exp1 0) with (profile_exp1 0 / 2048 / 11.77294849813) by lra.
  rewrite !exp_at.
  assert (E0 : 5.3 <= exp (-1.67835 * (0 - 1))) by interval.
  destruct (Rlt_dec 4 0), (Rlt_dec 3 0); try lra. split; intros H.
  - destruct (Rlt_dec 4 r), (Rlt_dec 3 r); try lra. pose proof (exp_close r ltac:(lra)) as Q.
    set (e := exp (-1.67835 * (r - 1))) in *. assert (P : 0 < e) by apply exp_pos.
    replace (exp_raw r) with (exp_raw r / e * e) by (field; lra).
    generalize dependent (exp_raw r / e). intros q Q. apply Rabs_le. nra.
  - apply Rabs_le. destruct (Rlt_dec 4 r).
    + pose proof (exp_falls r 4 ltac:(lra)). pose proof (exp_far2 4 ltac:(lra)) as Q.
      replace ((1 - ((4 - 3) / (4 - 3)) ^ 2) ^ 2) with 0 in Q by lra. lra.
    + destruct (Rlt_dec 3 r).
      * pose proof (exp_far2 r ltac:(lra)). lra.
      * pose proof (exp_far1 r ltac:(lra)). lra.
Qed.

(** DevGalaxy's mixture, but for its point-like core, follows the softened de
    Vaucouleurs profile: to 8 per cent out to 6 half-light radii, and to 1 part
    in 20000 of the central brightness beyond. *)
Theorem C103_dev : exists k, Rabs (k * light profile_dev1 8 - (1 - dev_core)) <= 0.005 /\
  forall x y, let r := radius x y in
    (r <= 6 -> Rabs (mixture (tl dev_profile) x y - k * profile_dev1 r) <= 0.08 * (k * profile_dev1 r)) /\
    (6 <= r -> Rabs (mixture (tl dev_profile) x y - k * profile_dev1 r) <= 0.00005 * (k * profile_dev1 0)).
Proof.
  exists (/ 512 * ((1 - dev_core) / 21.1232923102)). unfold dev_core. split.
  { pose proof dev_light_8. apply Rabs_le. lra. }
  intros x y. cbv zeta. rewrite dev_value. unfold dev_core.
  assert (R0 : 0 <= radius x y) by apply sqrt_pos.
  generalize dependent (radius x y). intros r R0.
  replace (/ 512 * ((1 - 0.010233) / 21.1232923102) * profile_dev1 r)
    with (profile_dev1 r / 512 * ((1 - 0.010233) / 21.1232923102)) by lra.
  replace (/ 512 * ((1 - 0.010233) / 21.1232923102) * profile_dev1 0)
    with (profile_dev1 0 / 512 * ((1 - 0.010233) / 21.1232923102)) by lra.
  rewrite !dev_at.
  assert (E0 : 100 <= exp (-7.66925 * (exp (0.125 * ln (0 * 0 + 0.0004)) - 1))) by interval.
  destruct (Rlt_dec 8 0), (Rlt_dec 7 0); try lra. split; intros H.
  - destruct (Rlt_dec 8 r), (Rlt_dec 7 r); try lra. pose proof (dev_close r ltac:(lra)) as Q.
    set (e := exp (-7.66925 * (exp (0.125 * ln (r * r + 0.0004)) - 1))) in *.
    assert (P : 0 < e) by apply exp_pos.
    replace (dev_raw r) with (dev_raw r / e * e) by (field; lra).
    generalize dependent (dev_raw r / e). intros q Q. apply Rabs_le. nra.
  - apply Rabs_le. destruct (Rlt_dec 8 r).
    + pose proof (dev_falls r 8 ltac:(lra)). pose proof (dev_far2 8 ltac:(lra)) as Q.
      replace ((1 - ((8 - 7) / (8 - 7)) ^ 2) ^ 2) with 0 in Q by lra. lra.
    + destruct (Rlt_dec 7 r).
      * pose proof (dev_far2 r ltac:(lra)). lra.
      * pose proof (dev_far1 r ltac:(lra)). lra.
Qed.

(** The light of the mixtures inside one half-light radius: a half, to within
    one and a little over three per cent; and inside the radius to which a
    galaxy is drawn (nre half-light radii): all but 0.3 and 0.6 per cent. *)
Theorem C103_light :
  0.5 < light (fun r => mixture exp_profile r 0) 1 < 0.51 /\
  0.997 < light (fun r => mixture exp_profile r 0) exp_nre < 1 /\
  0.53 < dev_core + light (fun r => mixture (tl dev_profile) r 0) 1 < 0.532 /\
  0.994 < dev_core + light (fun r => mixture (tl dev_profile) r 0) dev_nre < 1.
Proof.
  rewrite dev_profile_is. cbn [tl]. unfold exp_nre, dev_nre.
  rewrite !(profile_light exp_profile exp_comps) by (try apply exp_profile_is; try apply exp_vars; lra).
  rewrite !(profile_light _ dev_comps) by (try reflexivity; try apply dev_vars; lra).
  unfold exp_comps, dev_comps, dev_core. rewrite exp_total0, dev_total0.
  unfold exp_amp0, exp_var, dev_amp0, dev_var0, sum_over. cbn [combine map fold_right fst snd].
  repeat split; interval.
Qed.

(** GaussianGalaxy has its width, not half its light, at r = 1. *)
Theorem C103_gaussian_refuted :
  light (fun r => mixture gauss_profile r 0) 1 = 1 - exp (- (1 / 2)) /\
  light (fun r => mixture gauss_profile r 0) 1 < 0.394 /\
  0.999999 < light (fun r => mixture gauss_profile r 0) gauss_nre < 1.
Proof.
  assert (G : gauss_profile = map (fun av => mkG (fst av) 0 0 (snd av) 0 0 (snd av)) [(1, 1)]).
  { unfold gauss_profile, normalize, round_mixture, total. cbn. repeat f_equal. lra. }
  assert (V : Forall (fun av : R * R => 0 < snd av) [(1, 1)]) by (repeat constructor; cbn; lra).
  unfold gauss_nre.
  rewrite !(fun b B => profile_light gauss_profile _ b B V G) by lra. unfold sum_over. cbn [fold_right fst snd].
  replace (- 1 ^ 2 / (2 * 1)) with (- (1 / 2)) by lra.
  repeat split; [lra|interval|interval|interval].
Qed.

(** The r^(1/4) law itself, without softening at the centre, cut off in the
    same way at 7 to 8 half-light radii. *)
Definition sharp (r : R) : R :=
  if Rle_dec r 7 then quarter_law r else quarter_law r * (1 - (r - 7) ^ 2) ^ 2.

Lemma quarter_pos r : 0 < quarter_law r.
Proof. unfold quarter_law. pose proof (exp_pos (-7.66925 * (Rpower r (1 / 4) - 1))). lra. Qed.
Lemma quarter_le r : quarter_law r <= 512 * exp 7.66925.
Proof.
  unfold quarter_law. apply Rmult_le_compat_l; [lra|]. left. apply exp_increasing.
  assert (0 < Rpower r (1 / 4)) by apply exp_pos. lra.
Qed.

Lemma quarter_int a b : 0 <= a <= b -> ex_RInt (fun r => 2 * PI * r * quarter_law r) a b.
Proof.
  intros H. apply (ex_RInt_continuous (V := R_CompleteNormedModule)).
  rewrite Rmin_left, Rmax_right by lra. intros z Hz.
  destruct (Req_dec z 0) as [->|N].
  - apply (near0 quarter_law (512 * exp 7.66925)).
    + pose proof (exp_pos 7.66925). lra.
    + intros r. pose proof (quarter_pos r). pose proof (quarter_le r). lra.
  - apply (ex_derive_continuous (V := R_NormedModule)). unfold quarter_law, Rpower. auto_derive. lra.
Qed.
Lemma tail_int : ex_RInt (fun r => 2 * PI * r * (quarter_law r * (1 - (r - 7) ^ 2) ^ 2)) 7 8.
Proof.
  apply (ex_RInt_continuous (V := R_CompleteNormedModule)).
  rewrite Rmin_left, Rmax_right by lra. intros z Hz.
  apply (ex_derive_continuous (V := R_NormedModule)). unfold quarter_law, Rpower. auto_derive. lra.
Qed.

Lemma sharp_light : 21.23755 * 512 <= light sharp 8 <= 21.2376 * 512.
Proof.
  unfold light.
  assert (E1 : forall r, Rmin 0 7 < r < Rmax 0 7 -> 2 * PI * r * quarter_law r = 2 * PI * r * sharp r).
  { rewrite Rmin_left, Rmax_right by lra. intros r H. unfold sharp. destruct (Rle_dec r 7); lra. }
  assert (E2 : forall r, Rmin 7 8 < r < Rmax 7 8 ->
     2 * PI * r * (quarter_law r * (1 - (r - 7) ^ 2) ^ 2) = 2 * PI * r * sharp r).
  { rewrite Rmin_left, Rmax_right by lra. intros r H. unfold sharp. destruct (Rle_dec r 7); lra. }
  rewrite <- (RInt_Chasles (V := R_CompleteNormedModule) (fun r => 2 * PI * r * sharp r) 0 7 8);
    [|apply (ex_RInt_ext _ _ _ _ E1), quarter_int; lra|apply (ex_RInt_ext _ _ _ _ E2), tail_int].
  rewrite <- (RInt_ext _ _ _ _ E1), <- (RInt_ext _ _ _ _ E2).
  rewrite <- (RInt_Chasles (V := R_CompleteNormedModule) (fun r => 2 * PI * r * quarter_law r) 0 0.00001 7);
    [|apply quarter_int; lra|apply quarter_int; lra].
  assert (A : 0 <= RInt (fun r => 2 * PI * r * quarter_law r) 0 0.00001 <= 0.001).
  { split.
    - apply RInt_ge_0; [lra|apply quarter_int; lra|]. intros r H. pose proof (quarter_pos r).
      pose proof PI_RGT_0. apply Rmult_le_pos; [|lra]. apply Rmult_le_pos; lra.
    - apply Rle_trans with (RInt (fun r => 2 * PI * r * (512 * exp 7.66925)) 0 0.00001).
      + apply RInt_le; [lra|apply quarter_int; lra| |].
        * apply (ex_RInt_continuous (V := R_CompleteNormedModule)). intros z _.
          apply (ex_derive_continuous (V := R_NormedModule)). auto_derive. auto.
        * intros r H. apply Rmult_le_compat_l; [|apply quarter_le]. pose proof PI_RGT_0.
          apply Rmult_le_pos; lra.
      + assert (0 <= RInt (fun r => 2 * PI * r * (512 * exp 7.66925)) 0 0.00001 <= 0.001) by integral. lra. }
  assert (B : 21.06222 * 512 <= RInt (fun r => 2 * PI * r * quarter_law r) 0.00001 7 <= 21.06223 * 512).
  { unfold quarter_law, Rpower. integral. }
  assert (C : 0.17534 * 512 <= RInt (fun r => 2 * PI * r * (quarter_law r * (1 - (r - 7) ^ 2) ^ 2)) 7 8 <= 0.17535 * 512).
  { unfold quarter_law, Rpower. integral. }
  change plus with Rplus. lra.
Qed.

(** The core of the mixture is the light that the softening takes away: the
    part of the light of the sharp law that the softened profile lacks. *)
Theorem C103_core :
  Rabs (g_amp (hd (mkG 0 0 0 0 0 0 0) dev_profile) -
        (light sharp 8 - light profile_dev1 8) / light sharp 8) <= 0.00001 /\
  g_xx (hd (mkG 0 0 0 0 0 0 0) dev_profile) = 0.
Proof.
  rewrite dev_profile_is. cbn [hd g_amp g_xx]. split; [|reflexivity].
  pose proof sharp_light as A. pose proof dev_light_8 as B. unfold dev_core.
  replace ((light sharp 8 - light profile_dev1 8) / light sharp 8)
    with (1 - light profile_dev1 8 / light sharp 8) by (field; lra).
  set (s := light sharp 8) in *. set (d := light profile_dev1 8) in *. clearbody s d.
  assert (Q : 0.989757 <= d / s <= 0.989777).
  { split; apply Rmult_le_reg_r with s; try lra; unfold Rdiv; rewrite Rmult_assoc, Rinv_l; lra. }
  apply Rabs_le. lra.
Qed.

(** A point in the body of the profile and one in its outskirts. *)
Example ex_mixture_close :
  radius 0.6 0.8 = 1 /\ radius 3 0 = 3 /\
  Rabs (mixture exp_profile 0.6 0.8 - 0.0849) < 0.0001.
Proof.
  assert (E : radius 0.6 0.8 = 1).
  { unfold radius. replace (0.6 * 0.6 + 0.8 * 0.8) with 1 by lra. apply sqrt_1. }
  split; [exact E|]. split; [apply radius_axis; lra|].
  rewrite exp_value, E. unfold exp_raw, bell. interval.
Qed.

Print Assumptions C103_unit.
Print Assumptions C103_exp.
Print Assumptions C103_dev.
Print Assumptions C103_light.
Print Assumptions C103_gaussian_refuted.
Print Assumptions C103_core.
