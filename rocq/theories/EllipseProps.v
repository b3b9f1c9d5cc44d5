(** C43: the ellipse parameterisations describe the same ellipse. *)
From Coq Require Import Reals Lra Psatz.
From Verif Require Import Base EllipseModel.
Open Scope R_scope.

(** *** Specification *)
(** The curve drawn by a basis matrix: the image of the unit circle, as
    (delta-RA, delta-Dec) offsets. *)
Definition drawn (g : mat) (p : R * R) : Prop :=
  exists u v, u * u + v * v = 1 /\
    p = (m00 g * u + m01 g * v, m10 g * u + m11 g * v).
(** The ellipse with semi-axes [a], [b] whose first axis points in direction
    (sin ang, cos ang), that is, at angle [ang] from Dec towards RA. *)
Definition ellipse (a b ang : R) (p : R * R) : Prop :=
  let along := fst p * sin ang + snd p * cos ang in
  let across := fst p * cos ang - snd p * sin ang in
  (along / a) * (along / a) + (across / b) * (across / b) = 1.

(** *** Lemmas *)
Lemma hypot_sq x y : hypot x y * hypot x y = x * x + y * y.
Proof. unfold hypot. apply sqrt_sqrt. nra. Qed.
Lemma hypot_pos x y : 0 <= hypot x y.
Proof. apply sqrt_pos. Qed.
Lemma hypot_scale k x y : 0 <= k -> hypot (k * x) (k * y) = k * hypot x y.
Proof.
  intros H. unfold hypot. replace (k * x * (k * x) + k * y * (k * y)) with (k * k * (x * x + y * y)) by ring.
  rewrite sqrt_mult_alt by nra. rewrite sqrt_square by auto. reflexivity.
Qed.
Lemma hypot_trig a : hypot (cos a) (sin a) = 1.
Proof.
  unfold hypot. assert (H := sin2_cos2 a). unfold Rsqr in H.
  replace (cos a * cos a + sin a * sin a) with 1 by lra. apply sqrt_1.
Qed.
Lemma hypot_polar e a : 0 <= e -> hypot (e * cos a) (e * sin a) = e.
Proof. intros. rewrite hypot_scale, hypot_trig by auto. ring. Qed.
Lemma hypot_zero x y : hypot x y = 0 -> x = 0 /\ y = 0.
Proof. intros H. assert (E := hypot_sq x y). rewrite H in E. nra. Qed.

Lemma sqrt_quot x y : x <> 0 -> sqrt (1 + (y / x)²) = hypot x y / Rabs x.
Proof.
  intros N. unfold Rsqr, hypot.
  replace (1 + y / x * (y / x)) with ((x * x + y * y) / (x * x)) by (field; auto).
  rewrite sqrt_div_alt by nra. f_equal. fold (Rsqr x). apply sqrt_Rsqr_abs.
Qed.

(** atan2 is the polar angle. *)
Lemma atan2_polar x y : hypot x y * cos (atan2 y x) = x /\ hypot x y * sin (atan2 y x) = y.
Proof.
  assert (HQ := sqrt_quot x y). unfold atan2. destruct (Rlt_dec 0 x) as [P|NP]; [|destruct (Rlt_dec x 0) as [N|NN]].
  - rewrite cos_atan, sin_atan, HQ by lra. rewrite Rabs_right by lra.
    assert (0 < hypot x y) by (unfold hypot; apply sqrt_lt_R0; nra). split; field; lra.
  - assert (0 < hypot x y) by (unfold hypot; apply sqrt_lt_R0; nra).
    destruct (Rle_dec 0 y).
    + rewrite neg_cos, neg_sin, cos_atan, sin_atan, HQ by lra. rewrite Rabs_left by lra. split; field; lra.
    + replace (atan (y / x) - PI) with (- (- atan (y / x) + PI)) by ring.
      rewrite cos_neg, sin_neg, neg_cos, neg_sin, cos_neg, sin_neg, cos_atan, sin_atan, HQ by lra.
      rewrite Rabs_left by lra. split; field; lra.
  - assert (x = 0) by lra. subst x. unfold hypot. replace (0 * 0 + y * y) with (y * y) by ring.
    destruct (Rlt_dec 0 y); [|destruct (Rlt_dec y 0)].
    + rewrite sqrt_square by lra. rewrite cos_PI2, sin_PI2. lra.
    + replace (y * y) with (- y * - y) by ring. rewrite sqrt_square by lra. rewrite cos_neg, sin_neg, cos_PI2, sin_PI2. lra.
    + assert (y = 0) by lra. subst. rewrite cos_0, sin_0. rewrite Rmult_0_l, sqrt_0. lra.
Qed.
Lemma atan2_of_polar e a : 0 < e -> cos (atan2 (e * sin a) (e * cos a)) = cos a /\ sin (atan2 (e * sin a) (e * cos a)) = sin a.
Proof.
  intros H. destruct (atan2_polar (e * cos a) (e * sin a)) as [C S0]. rewrite hypot_polar in C, S0 by lra.
  split; nra.
Qed.
Lemma double_cos a : cos (2 * a) = cos a * cos a - sin a * sin a.
Proof. apply cos_2a. Qed.
Lemma trig1 a : cos a * cos a + sin a * sin a = 1.
Proof. assert (H := sin2_cos2 a). unfold Rsqr in H. lra. Qed.

(** An ellipse is determined by twice its angle; a circle by none. *)
Lemma ellipse_angle a b s t p : cos (2 * s) = cos (2 * t) -> sin (2 * s) = sin (2 * t) ->
  ellipse a b s p <-> ellipse a b t p.
Proof.
  intros C S0. rewrite !cos_2a in C. rewrite !sin_2a in S0.
  assert (T1 := trig1 s). assert (T2 := trig1 t).
  assert (EC : cos s * cos s = cos t * cos t) by lra.
  assert (ES : sin s * sin s = sin t * sin t) by lra.
  assert (EX : sin s * cos s = sin t * cos t) by lra.
  unfold ellipse. destruct p as [x y]; cbn [fst snd].
  assert (E1 : (x * sin s + y * cos s) * (x * sin s + y * cos s) = (x * sin t + y * cos t) * (x * sin t + y * cos t)).
  { transitivity (x * x * (sin s * sin s) + 2 * x * y * (sin s * cos s) + y * y * (cos s * cos s)); [ring|].
    rewrite ES, EX, EC. ring. }
  assert (E2 : (x * cos s - y * sin s) * (x * cos s - y * sin s) = (x * cos t - y * sin t) * (x * cos t - y * sin t)).
  { transitivity (x * x * (cos s * cos s) - 2 * x * y * (sin s * cos s) + y * y * (sin s * sin s)); [ring|].
    rewrite ES, EX, EC. ring. }
  unfold Rdiv.
  replace ((x * sin s + y * cos s) * / a * ((x * sin s + y * cos s) * / a)) with ((x * sin s + y * cos s) * (x * sin s + y * cos s) * / a * / a) by ring.
  replace ((x * cos s - y * sin s) * / b * ((x * cos s - y * sin s) * / b)) with ((x * cos s - y * sin s) * (x * cos s - y * sin s) * / b * / b) by ring.
  rewrite E1, E2.
  replace ((x * sin t + y * cos t) * (x * sin t + y * cos t) * / a * / a) with ((x * sin t + y * cos t) * / a * ((x * sin t + y * cos t) * / a)) by ring.
  replace ((x * cos t - y * sin t) * (x * cos t - y * sin t) * / b * / b) with ((x * cos t - y * sin t) * / b * ((x * cos t - y * sin t) * / b)) by ring.
  tauto.
Qed.
Lemma circle_angle a s t p : ellipse a a s p <-> ellipse a a t p.
Proof.
  assert (G : forall z, let '(x, y) := p in ellipse a a z p <-> (x * x + y * y) * / a * / a = 1).
  { intros z. destruct p as [x y]. unfold ellipse, Rdiv; cbn [fst snd]. assert (T := trig1 z).
    match goal with |- ?A = 1 <-> ?B = 1 => replace A with (B * (cos z * cos z + sin z * sin z)) by ring end.
    rewrite T, Rmult_1_r. tauto. }
  assert (G1 := G s). assert (G2 := G t). destruct p. tauto.
Qed.

(** *** C43: the basis matrix draws the requested ellipse. *)
Lemma drawn_form a b c s p : a <> 0 -> b <> 0 -> c * c + s * s = 1 ->
  (drawn (mkMat (b * c) (a * s) (- (b * s)) (a * c)) p <->
   let along := fst p * s + snd p * c in let across := fst p * c - snd p * s in
   (along / a) * (along / a) + (across / b) * (across / b) = 1).
Proof.
  intros HA HB T. destruct p as [x y]; unfold drawn; cbn [fst snd m00 m01 m10 m11]. split.
  - intros (u & v & E & P). injection P as -> ->.
    replace ((b * c * u + a * s * v) * s + (- (b * s) * u + a * c * v) * c) with (a * v * (c * c + s * s)) by ring.
    replace ((b * c * u + a * s * v) * c - (- (b * s) * u + a * c * v) * s) with (b * u * (c * c + s * s)) by ring.
    rewrite T. transitivity (u * u + v * v); [field; auto|exact E].
  - intros E. exists ((x * c - y * s) / b), ((x * s + y * c) / a). split; [lra|].
    f_equal.
    + replace (b * c * ((x * c - y * s) / b) + a * s * ((x * s + y * c) / a)) with (x * (c * c + s * s)) by (field; auto). rewrite T. ring.
    + replace (- (b * s) * ((x * c - y * s) / b) + a * c * ((x * s + y * c) / a)) with (y * (c * c + s * s)) by (field; auto). rewrite T. ring.
Qed.

(** Axis ratio used by the basis: (1-e)/(1+e), but never below 1/1000 (also
    for the illegal e >= 1). *)
Lemma basis_ratio e : 0 <= e ->
  let ab := if Rle_dec 1 e then 1000 else Rmin 1000 ((1 + e) / (1 - e)) in
  0 < ab /\ 1 / ab = Rmax (1 / 1000) (ab_of e).
Proof.
  intros H. cbv zeta. unfold ab_of. destruct (Rle_dec 1 e).
  - split; [lra|]. rewrite Rmax_left; [lra|]. apply Rle_trans with 0; [|lra].
    assert (HI : 0 < / (1 + e)) by (apply Rinv_0_lt_compat; lra). unfold Rdiv. nra.
  - assert (HI : 0 < / (1 - e)) by (apply Rinv_0_lt_compat; lra).
    assert (HP : 0 < (1 + e) / (1 - e)) by (unfold Rdiv; nra).
    assert (HR : (1 - e) / (1 + e) = / ((1 + e) / (1 - e))) by (field; lra).
    rewrite HR. set (q := (1 + e) / (1 - e)) in *. clearbody q. unfold Rmin. destruct (Rle_dec 1000 q).
    + split; [lra|]. rewrite Rmax_left; [lra|]. unfold Rdiv. rewrite Rmult_1_l. apply Rinv_le_contravar; lra.
    + split; [lra|]. rewrite Rmax_right; [unfold Rdiv; ring|]. unfold Rdiv. rewrite Rmult_1_l. apply Rinv_le_contravar; lra.
Qed.

Lemma basis_drawn re e theta p : 0 < re -> 0 <= e ->
  drawn (basis re e theta) p <->
  ellipse (re / 3600) (re * Rmax (1 / 1000) (ab_of e) / 3600) theta p.
Proof.
  intros HR HE. destruct (basis_ratio e HE) as [HP HQ]. unfold basis.
  set (ab := if Rle_dec 1 e then 1000 else Rmin 1000 ((1 + e) / (1 - e))) in *. cbv zeta in *. rewrite <- HQ.
  clearbody ab. unfold mscale, ellipse; cbn [m00 m01 m10 m11].
  assert (B0 : 0 < re * (1 / ab) / 3600).
  { assert (0 < / ab) by (apply Rinv_0_lt_compat; auto). unfold Rdiv. nra. }
  rewrite <- (drawn_form (re / 3600) (re * (1 / ab) / 3600) (cos theta) (sin theta) p); [|lra|lra|apply trig1].
  replace (re / 3600 * (cos theta / ab)) with (re * (1 / ab) / 3600 * cos theta) by (field; lra).
  replace (re / 3600 * (- sin theta / ab)) with (- (re * (1 / ab) / 3600 * sin theta)) by (field; lra).
  tauto.
Qed.

Theorem C43_basis : forall l, 0 < el_re l -> forall p,
  drawn (el_basis l) p <->
  ellipse (el_re l / 3600) (el_re l * Rmax (1 / 1000) (el_ab l) / 3600) (el_theta l) p.
Proof. intros l H p. apply basis_drawn; auto. apply hypot_pos. Qed.
Theorem C43_soft_basis : forall s, forall p,
  drawn (so_basis s) p <->
  ellipse (so_re s / 3600) (so_re s * Rmax (1 / 1000) (so_ab s) / 3600) (so_theta s) p.
Proof.
  intros s p. apply basis_drawn. { apply exp_pos. }
  unfold so_e. assert (exp (- hypot (so_ee1 s) (so_ee2 s)) <= exp 0).
  { assert (H := hypot_pos (so_ee1 s) (so_ee2 s)). destruct (Rle_lt_or_eq_dec _ _ H) as [L|E].
    - left. apply exp_increasing. lra.
    - right. f_equal. lra. }
  rewrite exp_0 in H. lra.
Qed.

(** The softened ellipticity is in [0, 1) for every parameter vector, and the
    radius positive: there are no forbidden parameters. *)
Theorem C43_soft_range : forall s, 0 <= so_e s < 1 /\ 0 < so_ab s <= 1 /\ 0 < so_re s.
Proof.
  intros s. assert (HE : 0 <= so_e s < 1).
  { unfold so_e. assert (P := exp_pos (- hypot (so_ee1 s) (so_ee2 s))). split; [|lra].
    assert (exp (- hypot (so_ee1 s) (so_ee2 s)) <= exp 0).
    { assert (H := hypot_pos (so_ee1 s) (so_ee2 s)). destruct (Rle_lt_or_eq_dec _ _ H) as [L|E].
      - left. apply exp_increasing. lra.
      - right. f_equal. lra. }
    rewrite exp_0 in H. lra. }
  split; [exact HE|]. split; [|apply exp_pos]. unfold so_ab, ab_of.
  assert (HI : 0 < / (1 + so_e s)) by (apply Rinv_0_lt_compat; lra).
  split; [unfold Rdiv; nra|]. apply Rmult_le_reg_r with (1 + so_e s); [lra|]. unfold Rdiv.
  rewrite Rmult_assoc, Rinv_l by lra. lra.
Qed.

(** *** Axis ratio and angle *)
Lemma e_of_ba ba : 0 < ba <= 1 -> exists e, pdiv 1 ba = Ok (1 / ba) /\ pdiv (1 / ba - 1) (1 / ba + 1) = Ok e /\
  0 <= e < 1 /\ ab_of e = ba /\ (ba < 1 -> 0 < e).
Proof.
  intros [H0 H1]. exists ((1 / ba - 1) / (1 / ba + 1)). unfold pdiv. destruct (Req_EM_T ba 0); [lra|].
  assert (HB : 1 <= 1 / ba). { unfold Rdiv. rewrite Rmult_1_l. rewrite <- Rinv_1 at 1. apply Rinv_le_contravar; lra. }
  destruct (Req_EM_T (1 / ba + 1) 0); [lra|].
  assert (HE : (1 / ba - 1) / (1 / ba + 1) = (1 - ba) / (1 + ba)) by (field; lra).
  assert (HI : 0 < / (1 + ba)) by (apply Rinv_0_lt_compat; lra).
  split; [reflexivity|]. split; [reflexivity|]. rewrite HE. repeat split.
  - unfold Rdiv. nra.
  - apply Rmult_lt_reg_r with (1 + ba); [lra|]. unfold Rdiv. rewrite Rmult_assoc, Rinv_l by lra. lra.
  - unfold ab_of. field. split; [lra|]. lra.
  - intros. unfold Rdiv. nra.
Qed.

(** The angle stored by fromRAbPhi: minus phi, up to half turns. *)
Theorem C43_from_rabphi : forall r ba phi, 0 < r -> 0 < ba <= 1 ->
  exists l, el_from_rabphi r ba phi = Ok l /\ el_legal l /\ el_re l = r /\ el_ab l = ba /\
    (ba < 1 -> cos (2 * el_theta l) = cos (2 * radians (- phi)) /\
               sin (2 * el_theta l) = sin (2 * radians (- phi))).
Proof.
  intros r ba phi Hr Hba. destruct (e_of_ba ba Hba) as (e & E1 & E2 & HE & HAB & HS).
  unfold el_from_rabphi. rewrite E1. cbn [bind]. rewrite E2. cbn [bind]. eexists. split; [reflexivity|].
  unfold el_legal, el_ab, el_e, el_theta; cbn [el_re el_e1 el_e2].
  rewrite hypot_polar by lra.
  set (A := radians (2 * - phi)). assert (T := trig1 A).
  split; [split; [|lra]|].
  { replace (e * cos A * (e * cos A) + e * sin A * (e * sin A)) with (e * e * (cos A * cos A + sin A * sin A)) by ring.
    rewrite T. nra. }
  split; [reflexivity|]. split; [exact HAB|]. intros L. specialize (HS L).
  replace (2 * (atan2 (e * sin A) (e * cos A) / 2)) with (atan2 (e * sin A) (e * cos A)) by lra.
  replace (2 * radians (- phi)) with A by (unfold A, radians; lra). apply atan2_of_polar. auto.
Qed.

Theorem C43_soft_from_rabphi : forall r ba phi, 0 < r -> 0 < ba <= 1 ->
  exists s, so_from_rabphi r ba phi = Ok s /\ so_re s = r /\ so_ab s = ba /\
    (ba < 1 -> cos (2 * so_theta s) = cos (2 * radians (- phi)) /\
               sin (2 * so_theta s) = sin (2 * radians (- phi))).
Proof.
  intros r ba phi Hr Hba. destruct (e_of_ba ba Hba) as (e & E1 & E2 & HE & HAB & HS).
  unfold so_from_rabphi. rewrite E1. cbn [bind]. rewrite E2. cbn [bind]. unfold mlog.
  destruct (Rlt_dec 0 (1 - e)); [|lra]. cbn [bind]. destruct (Rlt_dec 0 r); [|lra]. cbn [bind].
  eexists. split; [reflexivity|].
  set (A := radians (2 * - phi)). assert (HL : 0 <= - ln (1 - e)).
  { destruct (Rle_lt_or_eq_dec 0 e (proj1 HE)) as [L| <-].
    - assert (ln (1 - e) < ln 1) by (apply ln_increasing; lra). rewrite ln_1 in H. lra.
    - rewrite Rminus_0_r, ln_1. lra. }
  unfold so_re, so_ab, so_e, so_theta; cbn [so_logre so_ee1 so_ee2]. rewrite hypot_polar by auto.
  split; [apply exp_ln; auto|]. rewrite Ropp_involutive, exp_ln by auto.
  replace (1 - (1 - e)) with e by ring. split; [exact HAB|]. intros L. specialize (HS L).
  replace (2 * radians (- phi)) with A by (unfold A, radians; lra).
  assert (HL2 : 0 < - ln (1 - e)). { assert (ln (1 - e) < ln 1) by (apply ln_increasing; lra). rewrite ln_1 in H. lra. }
  match goal with |- context [atan2 ?a ?b] => replace (2 * (atan2 a b / 2)) with (atan2 a b) by lra end.
  apply atan2_of_polar. auto.
Qed.

(** All three classes draw the same ellipse: semi-axes r and r*ba (in degrees),
    major axis at -phi from Dec towards RA. *)
Theorem C43_same_ellipse : forall r ba phi l s, 0 < r -> 1 / 1000 <= ba <= 1 ->
  el_from_rabphi r ba phi = Ok l -> so_from_rabphi r ba phi = Ok s -> forall p,
  (drawn (el_basis l) p <-> ellipse (r / 3600) (r * ba / 3600) (radians (- phi)) p) /\
  (drawn (so_basis s) p <-> ellipse (r / 3600) (r * ba / 3600) (radians (- phi)) p) /\
  (1 / 30 <= r -> drawn (gs_basis r ba phi) p <-> ellipse (r / 3600) (r * ba / 3600) (radians (- phi)) p).
Proof.
  intros r ba phi l s Hr Hba El Es p.
  assert (Hb : 0 < ba <= 1) by lra.
  destruct (C43_from_rabphi r ba phi Hr Hb) as (l' & El' & _ & Lr & Lab & Lt).
  destruct (C43_soft_from_rabphi r ba phi Hr Hb) as (s' & Es' & Sr & Sab & St).
  assert (l' = l) by congruence. assert (s' = s) by congruence. subst l' s'.
  assert (HM : Rmax (1 / 1000) ba = ba) by (apply Rmax_right; lra).
  split; [|split].
  - rewrite C43_basis by lra. rewrite Lr, Lab, HM. destruct (Rlt_dec ba 1) as [L|L].
    + apply ellipse_angle; apply Lt; auto.
    + assert (ba = 1) by lra. rewrite H. rewrite Rmult_1_r. apply circle_angle.
  - rewrite C43_soft_basis. rewrite Sr, Sab, HM. destruct (Rlt_dec ba 1) as [L|L].
    + apply ellipse_angle; apply St; auto.
    + assert (ba = 1) by lra. rewrite H. rewrite Rmult_1_r. apply circle_angle.
  - intros H30. unfold gs_basis. rewrite Rmax_right by lra.
    assert (EP : radians (90 - phi) = PI / 2 - radians phi) by (unfold radians; lra).
    rewrite EP, cos_shift, sin_shift. unfold mscale, ellipse; cbn [m00 m01 m10 m11].
    assert (EN : radians (- phi) = - radians phi) by (unfold radians; lra).
    rewrite EN, cos_neg, sin_neg. set (P := radians phi). assert (T := trig1 P).
    rewrite <- (drawn_form (r / 3600) (r * ba / 3600) (cos P) (- sin P) p); [|lra|nra|nra].
    unfold drawn; cbn [m00 m01 m10 m11]. split; intros (u & v & E & ->).
    + exists v, (- u). split; [lra|]. f_equal; field.
    + exists (- v), u. split; [lra|]. f_equal; field.
Qed.

(** The documentation of GalaxyShape says that phi is measured "E of N"
    (towards increasing RA) and that the basis maps to (delta-RA, delta-Dec);
    at phi = 45 degrees the major axis points to decreasing RA. *)
Theorem C43_phi_east_of_north_refuted :
  ~ drawn (gs_basis 1 (1 / 2) 45) (sin (radians 45) / 3600, cos (radians 45) / 3600) /\
  drawn (gs_basis 1 (1 / 2) 45) (- sin (radians 45) / 3600, cos (radians 45) / 3600).
Proof.
  assert (R45 : radians 45 = PI / 4) by (unfold radians; lra).
  assert (RN : radians (Ropp 45) = - (PI / 4)) by (unfold radians; lra).
  destruct (C43_from_rabphi 1 (1 / 2) 45) as (l & El & _); [lra|lra|].
  destruct (C43_soft_from_rabphi 1 (1 / 2) 45) as (s & Es & _); [lra|lra|].
  assert (G := fun p => proj2 (proj2 (C43_same_ellipse 1 (1 / 2) 45 l s ltac:(lra) ltac:(lra) El Es p)) ltac:(lra)).
  split; rewrite G; unfold ellipse; cbn [fst snd]; rewrite R45, RN, cos_neg, sin_neg.
  - assert (T := trig1 (PI / 4)). assert (E : sin (PI / 4) = cos (PI / 4)) by (rewrite sin_PI4, cos_PI4; reflexivity).
    rewrite E in *. set (c := cos (PI / 4)) in *. clearbody c. intros H.
    replace ((c / 3600 * - c + c / 3600 * c)) with 0 in H by field.
    replace (c / 3600 * c - c / 3600 * - c) with ((c * c + c * c) / 3600) in H by field. rewrite T in H. lra.
  - assert (T := trig1 (PI / 4)). assert (E : sin (PI / 4) = cos (PI / 4)) by (rewrite sin_PI4, cos_PI4; reflexivity).
    rewrite E in *. set (c := cos (PI / 4)) in *. clearbody c.
    replace (- c / 3600 * - c + c / 3600 * c) with ((c * c + c * c) / 3600) by field. rewrite T.
    replace (- c / 3600 * c - c / 3600 * - c) with 0 by field. field.
Qed.

(** *** Converting between the two forms *)
Theorem C43_soft_round_trip : forall l maxe, 0 < maxe < 1 -> 0 < el_re l -> 0 < el_e l <= maxe ->
  exists s, so_from_el l maxe = Ok s /\ so_re s = el_re l /\ so_e s = el_e l /\
    el_from_soft s maxe = l.
Proof.
  intros l maxe HM Hr [He Hle]. unfold so_from_el. rewrite Rmin_left by auto. unfold mlog, pdiv.
  destruct (Rlt_dec 0 (1 - el_e l)); [|lra]. cbn [bind]. destruct (Rlt_dec 0 (el_re l)); [|lra]. cbn [bind].
  destruct (Req_EM_T (el_e l) 0); [lra|]. cbn [bind]. eexists. split; [reflexivity|].
  set (E := el_e l) in *. set (k := - ln (1 - E) / E).
  assert (HK : 0 < k). { unfold k. assert (ln (1 - E) < ln 1) by (apply ln_increasing; lra). rewrite ln_1 in H.
    apply Rdiv_lt_0_compat; lra. }
  assert (HH : hypot (el_e1 l / E * - ln (1 - E)) (el_e2 l / E * - ln (1 - E)) = - ln (1 - E)).
  { replace (el_e1 l / E * - ln (1 - E)) with (k * el_e1 l) by (unfold k; field; lra).
    replace (el_e2 l / E * - ln (1 - E)) with (k * el_e2 l) by (unfold k; field; lra).
    rewrite hypot_scale by lra. fold (el_e l). fold E. unfold k. field. lra. }
  assert (HSE : so_e (mkSoft (ln (el_re l)) (el_e1 l / E * - ln (1 - E)) (el_e2 l / E * - ln (1 - E))) = E).
  { unfold so_e; cbn [so_ee1 so_ee2]. rewrite HH, Ropp_involutive, exp_ln by lra. ring. }
  assert (HSR : so_re (mkSoft (ln (el_re l)) (el_e1 l / E * - ln (1 - E)) (el_e2 l / E * - ln (1 - E))) = el_re l).
  { unfold so_re; cbn. apply exp_ln. auto. }
  split; [exact HSR|]. split; [exact HSE|]. unfold el_from_soft. rewrite HSE, HSR. rewrite Rmin_right by auto.
  unfold so_theta; cbn [so_ee1 so_ee2].
  match goal with |- context [atan2 ?a ?b] => replace (2 * (atan2 a b / 2)) with (atan2 a b) by lra;
    destruct (atan2_polar b a) as [C S0] end.
  rewrite HH in C, S0.
  assert (HL : 0 < - ln (1 - E)). { assert (ln (1 - E) < ln 1) by (apply ln_increasing; lra). rewrite ln_1 in H. lra. }
  destruct l as [rr e1 e2]; cbn [el_re el_e1 el_e2] in *. f_equal.
  - apply Rmult_eq_reg_l with (- ln (1 - E)); [|lra].
    match goal with |- _ = ?Z => idtac end. rewrite <- Rmult_assoc. rewrite (Rmult_comm _ E), Rmult_assoc, C. field. lra.
  - apply Rmult_eq_reg_l with (- ln (1 - E)); [|lra].
    rewrite <- Rmult_assoc. rewrite (Rmult_comm _ E), Rmult_assoc, S0. field. lra.
Qed.

(** Softened to plain: the same ellipse (radius, ellipticity up to the limit
    [maxe], twice the angle); in particular it is legal. *)
Theorem C43_to_plain : forall s maxe, 0 < maxe < 1 -> let l := el_from_soft s maxe in
  el_re l = so_re s /\ el_e l = Rmin maxe (so_e s) /\ el_legal l /\
  (0 < so_e s -> cos (2 * el_theta l) = cos (2 * so_theta s) /\ sin (2 * el_theta l) = sin (2 * so_theta s)).
Proof.
  intros s maxe HM. cbv zeta. destruct (C43_soft_range s) as (HE & _ & HR).
  assert (HN : 0 <= Rmin maxe (so_e s) < 1). { unfold Rmin. destruct (Rle_dec maxe (so_e s)); lra. }
  unfold el_from_soft, el_e, el_legal, el_theta; cbn [el_re el_e1 el_e2].
  set (e := Rmin maxe (so_e s)) in *. set (A := 2 * so_theta s). assert (T := trig1 A).
  split; [reflexivity|]. rewrite hypot_polar by lra. split; [reflexivity|]. split; [split; [|lra]|].
  - replace (e * cos A * (e * cos A) + e * sin A * (e * sin A)) with (e * e * (cos A * cos A + sin A * sin A)) by ring.
    rewrite T. nra.
  - intros HP. assert (0 < e). { unfold e, Rmin. destruct (Rle_dec maxe (so_e s)); lra. }
    match goal with |- context [atan2 ?a ?b] => replace (2 * (atan2 a b / 2)) with (atan2 a b) by lra end.
    apply atan2_of_polar. auto.
Qed.

(** A round ellipse cannot be converted to the softened form. *)
Theorem C43_round_to_soft_refuted : forall r maxe, 0 < r -> 0 < maxe < 1 ->
  el_legal (mkEll r 0 0) /\ so_from_el (mkEll r 0 0) maxe = Err ZeroDivisionError.
Proof.
  intros r maxe Hr HM. split; [split; cbn; lra|]. unfold so_from_el, el_e; cbn [el_re el_e1 el_e2].
  replace (hypot 0 0) with 0 by (unfold hypot; rewrite Rmult_0_l, Rplus_0_r, sqrt_0; reflexivity).
  rewrite Rmin_left by lra. unfold mlog, pdiv. destruct (Rlt_dec 0 (1 - 0)); [|lra]. cbn [bind].
  destruct (Rlt_dec 0 r); [|lra]. cbn [bind]. destruct (Req_EM_T 0 0); [|lra]. reflexivity.
Qed.

(** *** Covariance and tensor *)
(** The iso-density contour of the Gaussian with this covariance lies on the
    ellipse: every drawn point p (in arcsec) has p^T C^-1 p = 1. *)
Theorem C43_covariance : forall g p c, mdet g <> 0 -> drawn g p -> covariance g = c ->
  exists w0 w1, m00 c * w0 + m01 c * w1 = 3600 * fst p /\ m10 c * w0 + m11 c * w1 = 3600 * snd p /\
    (3600 * fst p) * w0 + (3600 * snd p) * w1 = 1.
Proof.
  intros g p c HD (u & v & E & ->) <-. destruct g as [a b d f]. unfold mdet in HD; cbn in HD.
  exists ((f * u - d * v) / (3600 * (a * f - b * d))), ((- b * u + a * v) / (3600 * (a * f - b * d))).
  unfold covariance, mdot, mtrans, mscale; cbn. split; [field; lra|]. split; [field; lra|].
  transitivity (u * u + v * v); [field; lra|exact E].
Qed.
Theorem C43_covariance_symmetric : forall g, m01 (covariance g) = m10 (covariance g) /\
  0 <= m00 (covariance g) /\ 0 <= m11 (covariance g) /\ 0 <= mdet (covariance g).
Proof.
  intros [a b d f]. unfold covariance, mdet, mdot, mtrans, mscale; cbn. repeat split; try ring; try nra.
  match goal with |- 0 <= ?x => replace x with (3600 * 3600 * 3600 * 3600 * ((a * f - b * d) * (a * f - b * d))) by ring end.
  assert (0 <= (a * f - b * d) * (a * f - b * d)) by apply Rle_0_sqr. lra.
Qed.
(** The tensor takes pixels to unit vectors: basis times tensor is the CD
    matrix; it exists whenever the radius is positive. *)
Theorem C43_tensor : forall re e theta cd, 0 < re -> 0 <= e ->
  exists t, tensor (basis re e theta) cd = Ok t /\ mdot (basis re e theta) t = cd.
Proof.
  intros re e theta cd Hr He. assert (HD : mdet (basis re e theta) <> 0).
  { destruct (basis_ratio e He) as [HP _]. unfold basis, mdet, mscale; cbn [m00 m01 m10 m11]. cbv zeta in *.
    set (ab := if Rle_dec 1 e then 1000 else Rmin 1000 ((1 + e) / (1 - e))) in *. clearbody ab.
    assert (T := trig1 theta).
    replace (re / 3600 * (cos theta / ab) * (re / 3600 * cos theta) - re / 3600 * sin theta * (re / 3600 * (- sin theta / ab)))
      with (re * re / (3600 * 3600 * ab) * (cos theta * cos theta + sin theta * sin theta)) by (field; lra).
    rewrite T, Rmult_1_r. apply Rgt_not_eq. apply Rdiv_lt_0_compat; nra. }
  unfold tensor, minv. destruct (Req_EM_T (mdet (basis re e theta)) 0); [contradiction|]. cbn [bind].
  eexists. split; [reflexivity|]. set (g := basis re e theta) in *. clearbody g.
  destruct g as [a b d f], cd as [c0 c1 c2 c3]. unfold mdet in *; cbn in *. unfold mdot; cbn. f_equal; field; auto.
Qed.

(** *** From a covariance *)
(** The entries of the covariance in terms of twice the angle. *)
Lemma covariance_entries re e theta : 0 <= e ->
  let b := Rmax (1 / 1000) (ab_of e) in
  covariance (basis re e theta) =
  mkMat (re * re * (b * b * (1 + cos (2 * theta)) / 2 + (1 - cos (2 * theta)) / 2))
        (re * re * (1 - b * b) * sin (2 * theta) / 2) (re * re * (1 - b * b) * sin (2 * theta) / 2)
        (re * re * (b * b * (1 - cos (2 * theta)) / 2 + (1 + cos (2 * theta)) / 2)).
Proof.
  intros He. destruct (basis_ratio e He) as [HP HQ]. cbv zeta in *. rewrite <- HQ. unfold basis.
  set (ab := if Rle_dec 1 e then 1000 else Rmin 1000 ((1 + e) / (1 - e))) in *. clearbody ab.
  unfold covariance, mdot, mtrans, mscale; cbn [m00 m01 m10 m11]. rewrite cos_2a, sin_2a.
  assert (T := trig1 theta). set (c := cos theta) in *. set (d := sin theta) in *. clearbody c d.
  assert (E1 : (1 + (c * c - d * d)) / 2 = c * c) by lra. assert (E2 : (1 - (c * c - d * d)) / 2 = d * d) by lra.
  f_equal.
  - transitivity (re * re * (1 / ab * (1 / ab) * (c * c) + d * d)); [field; lra|].
    transitivity (re * re * (1 / ab * (1 / ab) * ((1 + (c * c - d * d)) / 2) + (1 - (c * c - d * d)) / 2)); [rewrite E1, E2; reflexivity|field; lra].
  - field. lra.
  - field. lra.
  - transitivity (re * re * (1 / ab * (1 / ab) * (d * d) + c * c)); [field; lra|].
    transitivity (re * re * (1 / ab * (1 / ab) * ((1 - (c * c - d * d)) / 2) + (1 + (c * c - d * d)) / 2)); [rewrite E1, E2; reflexivity|field; lra].
Qed.

(** What np.linalg.svd gives for a symmetric positive definite matrix: an
    orthogonal matrix of eigenvectors (columns) and the eigenvalues in
    decreasing order.  The signs of the columns are not specified. *)
Definition is_svd (c u : mat) (s0 s1 : R) : Prop :=
  mdot u (mtrans u) = mkMat 1 0 0 1 /\ s1 <= s0 /\
  c = mdot (mdot u (mkMat s0 0 0 s1)) (mtrans u).

(** If the singular vectors form a reflection, fromCovariance inverts
    getCovariance (axis ratio at least 1/1000)... *)
Theorem C43_from_covariance : forall c u s0 s1, is_svd c u s0 s1 -> 0 < s0 ->
  1 / 1000 * (1 / 1000) * s0 <= s1 -> mdet u = - 1 ->
  exists l, el_from_svd u s0 s1 = Ok l /\ covariance (el_basis l) = c.
Proof.
  intros c u s0 s1 (HU & HS & HC) H0 H1 HD.
  destruct u as [p q q' p']. unfold mdet in HD; cbn in HD. unfold mdot, mtrans in HU; cbn in HU.
  injection HU as U00 U01 U10 U11.
  assert (HZ : (p + p') * (p + p') + (q - q') * (q - q') = 0) by lra.
  destruct (Rplus_sqr_eq_0 _ _ HZ) as [Z1 Z2].
  assert (q' = q) by lra. assert (p' = - p) by lra. subst q' p'. clear U01 U10 U11 HD.
  unfold el_from_svd. unfold pdiv at 1. destruct (Req_EM_T s0 0); [lra|]. cbn [bind m00 m01].
  set (b := sqrt (s1 / s0)).
  assert (HB2 : b * b = s1 / s0). { apply sqrt_sqrt. unfold Rdiv. assert (0 < / s0) by (apply Rinv_0_lt_compat; auto). nra. }
  assert (HBS : b * b * s0 = s1) by (rewrite HB2; field; lra).
  assert (HB0 : 0 <= b) by apply sqrt_pos.
  assert (HB : 1 / 1000 <= b <= 1).
  { assert (1 / 1000 * (1 / 1000) <= b * b) by (apply Rmult_le_reg_r with s0; lra).
    assert (b * b <= 1) by (apply Rmult_le_reg_r with s0; lra).
    split; apply Rnot_lt_le; intros L; nra. }
  set (A := atan2 p q). destruct (atan2_polar q p) as [CA SA]. fold A in CA, SA.
  replace (hypot q p) with 1 in CA, SA by (unfold hypot; replace (q * q + p * p) with 1 by lra; rewrite sqrt_1; reflexivity).
  rewrite Rmult_1_l in CA, SA.
  assert (HR : 0 < sqrt s0) by (apply sqrt_lt_R0; auto).
  destruct (C43_from_rabphi (sqrt s0) b (- degrees A) HR) as (l & El & _ & Lr & Lab & Lt); [lra|].
  exists l. split; [exact El|]. unfold el_basis. rewrite covariance_entries by apply hypot_pos. cbv zeta.
  fold (el_ab l). rewrite Lr, Lab, Rmax_right by lra. rewrite sqrt_sqrt by lra.
  assert (EA : 2 * radians (- - degrees A) = 2 * A).
  { unfold radians, degrees. assert (P := PI_RGT_0). field. lra. }
  rewrite EA in Lt. rewrite HC. unfold mdot, mtrans; cbn [m00 m01 m10 m11].
  destruct (Rlt_dec b 1) as [L|L].
  - destruct (Lt L) as [-> ->]. rewrite cos_2a, sin_2a, CA, SA. rewrite <- HBS. f_equal; nra.
  - assert (EB : b = 1) by lra. rewrite EB in *. assert (s1 = s0) by lra. subst s1. f_equal; nra.
Qed.

(** ...but if they form a rotation, which is just as good a decomposition, the
    ellipse comes out mirrored. *)
Theorem C43_from_covariance_refuted : exists c u l,
  is_svd c u 4 1 /\ mdet u = 1 /\ el_from_svd u 4 1 = Ok l /\ m01 c = 36 / 25 /\ m01 (covariance (el_basis l)) = - (36 / 25).
Proof.
  set (u := mkMat (3 / 5) (- (4 / 5)) (4 / 5) (3 / 5)).
  assert (HU : is_svd (mdot (mdot u (mkMat 4 0 0 1)) (mtrans u)) u 4 1).
  { split; [|split; [lra|reflexivity]]. unfold u, mdot, mtrans; cbn. f_equal; field. }
  set (A := atan2 (3 / 5) (- (4 / 5))). destruct (atan2_polar (- (4 / 5)) (3 / 5)) as [CA SA]. fold A in CA, SA.
  replace (hypot (- (4 / 5)) (3 / 5)) with 1 in CA, SA
    by (unfold hypot; replace (- (4 / 5) * - (4 / 5) + 3 / 5 * (3 / 5)) with 1 by field; rewrite sqrt_1; reflexivity).
  rewrite Rmult_1_l in CA, SA.
  assert (HQ4 : sqrt 4 = 2). { replace 4 with (2 * 2) by ring. apply sqrt_square. lra. }
  assert (HQ : sqrt (1 / 4) = 1 / 2). { replace (1 / 4) with (1 / 2 * (1 / 2)) by field. apply sqrt_square. lra. }
  destruct (C43_from_rabphi 2 (1 / 2) (- degrees A)) as (l & El & _ & Lr & Lab & Lt); [lra|lra|].
  exists (mdot (mdot u (mkMat 4 0 0 1)) (mtrans u)), u, l. split; [exact HU|]. split; [unfold u, mdet; cbn; field|].
  split. { unfold el_from_svd, pdiv at 1. destruct (Req_EM_T 4 0); [lra|]. cbn [bind]. rewrite HQ4, HQ. exact El. }
  split; [unfold u, mdot, mtrans; cbn; field|].
  unfold el_basis. rewrite covariance_entries by apply hypot_pos. cbv zeta. cbn [m01].
  fold (el_ab l). rewrite Lr, Lab, Rmax_right by lra. destruct Lt as [_ ->]; [lra|].
  assert (EA : 2 * radians (- - degrees A) = 2 * A).
  { unfold radians, degrees. assert (P := PI_RGT_0). field. lra. }
  rewrite EA, sin_2a, CA, SA. field.
Qed.

Example C43_ex : exists l, el_from_rabphi 2 (1 / 2) 30 = Ok l /\ el_ab l = 1 / 2 /\ el_re l = 2.
Proof. destruct (C43_from_rabphi 2 (1 / 2) 30) as (l & E & _ & R & A & _); [lra|lra|]. eauto. Qed.
Example C43_ex_soft : exists s, so_from_el (mkEll 2 (1 / 2) 0) (999999 / 1000000) = Ok s /\
  el_from_soft s (999999 / 1000000) = mkEll 2 (1 / 2) 0.
Proof.
  assert (E : el_e (mkEll 2 (1 / 2) 0) = 1 / 2).
  { unfold el_e, hypot; cbn. replace (1 / 2 * (1 / 2) + 0 * 0) with (1 / 2 * (1 / 2)) by ring. apply sqrt_square. lra. }
  destruct (C43_soft_round_trip (mkEll 2 (1 / 2) 0) (999999 / 1000000)) as (s & ES & _ & _ & EL); cbn; rewrite ?E; try lra. eauto.
Qed.
Example C43_ex_cov : exists c u l, is_svd c u 4 1 /\ el_from_svd u 4 1 = Ok l /\ covariance (el_basis l) = c /\ m01 c = 36 / 25.
Proof.
  set (u := mkMat (3 / 5) (4 / 5) (4 / 5) (- (3 / 5))).
  assert (HU : is_svd (mdot (mdot u (mkMat 4 0 0 1)) (mtrans u)) u 4 1).
  { split; [|split; [lra|reflexivity]]. unfold u, mdot, mtrans; cbn. f_equal; field. }
  destruct (C43_from_covariance _ u 4 1 HU) as (l & E & C); [lra|lra|unfold u, mdet; cbn; field|].
  exists (mdot (mdot u (mkMat 4 0 0 1)) (mtrans u)), u, l. split; [exact HU|]. split; [exact E|]. split; [exact C|].
  unfold u, mdot, mtrans; cbn. field.
Qed.

Print Assumptions C43_basis.
Print Assumptions C43_soft_basis.
Print Assumptions C43_soft_range.
Print Assumptions C43_from_rabphi.
Print Assumptions C43_soft_from_rabphi.
Print Assumptions C43_same_ellipse.
Print Assumptions C43_phi_east_of_north_refuted.
Print Assumptions C43_soft_round_trip.
Print Assumptions C43_to_plain.
Print Assumptions C43_round_to_soft_refuted.
Print Assumptions C43_covariance.
Print Assumptions C43_covariance_symmetric.
Print Assumptions C43_tensor.
Print Assumptions C43_from_covariance.
Print Assumptions C43_from_covariance_refuted.
