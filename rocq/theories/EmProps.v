(** C72, C73: fits of Gaussian mixtures by expectation maximisation. *)
From Coq Require Import List ZArith Reals Bool Lia Lra.
From Verif Require Import Base GalPatchModel GpuMixModel EmModel.
From Verif Require GpuMixProps.
Import ListNotations.
Open Scope R_scope.

(** ** Sums *)
Lemma rsum_ext {A} (f g : A -> R) l : (forall a, In a l -> f a = g a) -> rsum f l = rsum g l.
Proof. induction l as [|a l IH]; intros H; [reflexivity|]. cbn. rewrite (H a (or_introl eq_refl)). f_equal. apply IH. intros; apply H; right; auto. Qed.
Lemma rsum_add {A} (f g : A -> R) l : rsum (fun a => f a + g a) l = rsum f l + rsum g l.
Proof. induction l as [|a l IH]; cbn; [ring|]. unfold rsum in *. rewrite IH. ring. Qed.
Lemma rsum_mul {A} c (f : A -> R) l : rsum (fun a => c * f a) l = c * rsum f l.
Proof. induction l as [|a l IH]; cbn; [ring|]. unfold rsum in *. rewrite IH. ring. Qed.
Lemma rsum_zero {A} (l : list A) : rsum (fun _ => 0) l = 0.
Proof. induction l as [|a l IH]; cbn; [reflexivity|]. unfold rsum in IH. rewrite IH. ring. Qed.
Lemma rsum_le {A} (f g : A -> R) l : (forall a, In a l -> f a <= g a) -> rsum f l <= rsum g l.
Proof. induction l as [|a l IH]; intros H; cbn; [lra|]. apply Rplus_le_compat; [apply H; left; auto|apply IH; intros; apply H; right; auto]. Qed.
Lemma rsum_nonneg {A} (f : A -> R) l : (forall a, In a l -> 0 <= f a) -> 0 <= rsum f l.
Proof. intros H. rewrite <- (rsum_zero l). apply rsum_le. exact H. Qed.
Lemma rsum_swap {A B} (f : A -> B -> R) l m : rsum (fun a => rsum (f a) m) l = rsum (fun b => rsum (fun a => f a b) l) m.
Proof. induction l as [|a l IH]; cbn; [rewrite rsum_zero; reflexivity|]. rewrite rsum_add. f_equal. exact IH. Qed.
Lemma rsum_map {A B} (f : B -> R) (g : A -> B) l : rsum f (map g l) = rsum (fun a => f (g a)) l.
Proof. induction l as [|a l IH]; cbn; [reflexivity|]. f_equal. exact IH. Qed.
Lemma rsum_in_le {A} (f : A -> R) l a : (forall b, In b l -> 0 <= f b) -> In a l -> f a <= rsum f l.
Proof.
  induction l as [|b l IH]; intros H I; [destruct I|]. cbn. destruct I as [->|I].
  - pose proof (rsum_nonneg f l ltac:(intros; apply H; right; auto)). unfold rsum in *. lra.
  - specialize (IH ltac:(intros; apply H; right; auto) I). pose proof (H b (or_introl eq_refl)). unfold rsum in *. lra.
Qed.
Lemma rsum_pos_ex {A} (f : A -> R) l : 0 < rsum f l -> exists a, In a l /\ 0 < f a.
Proof.
  induction l as [|a l IH]; cbn; intros H; [lra|]. destruct (Rlt_dec 0 (f a)) as [P|P]; [exists a; auto|].
  destruct IH as (b & I & Q); [unfold rsum; lra|]. exists b; auto.
Qed.
Lemma rsum_nth {A} (d : A) (f : A -> R) l : rsum f l = rsum (fun k => f (nth k l d)) (seq 0 (length l)).
Proof.
  induction l as [|a l IH]; [reflexivity|]. cbn [length seq]. rewrite <- seq_shift.
  change (f a + rsum f l = f a + rsum (fun k => f (nth k (a :: l) d)) (map S (seq 0 (length l)))). rewrite rsum_map, IH. reflexivity.
Qed.

(** ** Logarithms *)
Lemma ln_le x : 0 < x -> ln x <= x - 1.
Proof.
  intros H. pose proof (exp_ineq1_le (ln x)) as E. rewrite exp_ln in E by exact H. lra.
Qed.
(** Jensen: what one datum gains. *)
Lemma em_point (ks : list nat) (g f : nat -> R) : (forall k, In k ks -> 0 <= g k) -> (forall k, In k ks -> 0 <= f k) ->
  (forall k, In k ks -> 0 < g k -> 0 < f k) -> 0 < rsum g ks ->
  rsum (fun k => g k / rsum g ks * (ln (f k) - ln (g k))) ks <= ln (rsum f ks) - ln (rsum g ks).
Proof.
  intros G F P T. set (t := rsum g ks) in *. set (q := rsum f ks).
  assert (Q : 0 < q). { destruct (rsum_pos_ex g ks T) as (k & I & H). pose proof (rsum_in_le f ks k F I). pose proof (P k I H). unfold q. lra. }
  assert (H : rsum (fun k => g k / t * (ln (f k) - ln (g k)) - g k / t * (ln q - ln t)) ks <= rsum (fun k => f k / q - g k / t) ks).
  { apply rsum_le. intros k I. destruct (Req_dec (g k) 0) as [Z|N].
    - rewrite Z. pose proof (F k I). assert (0 <= f k / q) by (apply Rmult_le_pos; [auto|apply Rlt_le, Rinv_0_lt_compat; auto]). unfold Rdiv. lra.
    - assert (G0 : 0 < g k) by (pose proof (G k I); lra). assert (F0 := P k I G0).
      assert (E : g k / t * (ln (f k) - ln (g k)) - g k / t * (ln q - ln t) = g k / t * ln (f k * t / (g k * q))).
      { replace (f k * t / (g k * q)) with (f k * t * / (g k * q)) by reflexivity. assert (0 < f k * t) by (apply Rmult_lt_0_compat; auto). assert (0 < g k * q) by (apply Rmult_lt_0_compat; auto).
        rewrite (ln_mult (f k * t)), ln_Rinv, !ln_mult; auto; [ring|apply Rinv_0_lt_compat; auto]. }
      rewrite E. replace (f k / q - g k / t) with (g k / t * (f k * t / (g k * q) - 1)) by (field; lra).
      apply Rmult_le_compat_l; [apply Rmult_le_pos; [lra|apply Rlt_le, Rinv_0_lt_compat; auto]|]. apply ln_le.
      apply Rmult_lt_0_compat; [apply Rmult_lt_0_compat; auto|apply Rinv_0_lt_compat, Rmult_lt_0_compat; auto]. }
  assert (E1 : rsum (fun k => f k / q - g k / t) ks = 0).
  { rewrite (rsum_ext _ (fun k => / q * f k + (- / t) * g k)) by (intros; unfold Rdiv; ring). rewrite rsum_add, !rsum_mul. fold q t. field. lra. }
  assert (E2 : rsum (fun k => g k / t * (ln (f k) - ln (g k)) - g k / t * (ln q - ln t)) ks = rsum (fun k => g k / t * (ln (f k) - ln (g k))) ks - (ln q - ln t)).
  { rewrite (rsum_ext _ (fun k => g k / t * (ln (f k) - ln (g k)) + (- (ln q - ln t) / t) * g k)) by (intros; field; lra). rewrite rsum_add, rsum_mul. fold t. field. lra. }
  lra.
Qed.
(** All data: the gain is at least that of the expected log likelihood. *)
Lemma em_total {T} (L : list T) (I : T -> R) (ks : list nat) (g f : nat -> T -> R) :
  (forall t, In t L -> 0 <= I t) -> (forall k t, In k ks -> In t L -> 0 <= g k t) -> (forall k t, In k ks -> In t L -> 0 <= f k t) ->
  (forall k t, In k ks -> In t L -> 0 < g k t -> 0 < f k t) -> (forall t, In t L -> 0 < rsum (fun k => g k t) ks) ->
  rsum (fun k => rsum (fun t => I t * (g k t / rsum (fun k => g k t) ks) * (ln (f k t) - ln (g k t))) L) ks <=
  rsum (fun t => I t * (ln (rsum (fun k => f k t) ks) - ln (rsum (fun k => g k t) ks))) L.
Proof.
  intros HI G F P TT. rewrite rsum_swap. apply rsum_le. intros t It.
  rewrite (rsum_ext _ (fun k => I t * (g k t / rsum (fun k => g k t) ks * (ln (f k t) - ln (g k t))))) by (intros; ring). rewrite rsum_mul.
  apply Rmult_le_compat_l; auto. apply em_point; auto.
Qed.
(** Gibbs: proportions equal to the weights are the best. *)
Lemma gibbs (ks : list nat) (W a : nat -> R) : (forall k, In k ks -> 0 <= W k) -> (forall k, In k ks -> 0 <= a k) -> (forall k, In k ks -> 0 < W k -> 0 < a k) ->
  0 < rsum W ks -> 0 <= rsum (fun k => W k * (ln (W k) - ln (a k))) ks - rsum W ks * (ln (rsum W ks) - ln (rsum a ks)).
Proof.
  intros HW HA HP T. set (t := rsum W ks) in *. pose proof (em_point ks W a HW HA HP T) as E. fold t in E.
  assert (Q : rsum (fun k => W k / t * (ln (a k) - ln (W k))) ks = - / t * rsum (fun k => W k * (ln (W k) - ln (a k))) ks).
  { rewrite <- rsum_mul. apply rsum_ext. intros. field. lra. }
  rewrite Q in E. apply (Rmult_le_compat_l t) in E; [|lra].
  replace (t * (- / t * rsum (fun k => W k * (ln (W k) - ln (a k))) ks)) with (- rsum (fun k => W k * (ln (W k) - ln (a k))) ks) in E by (field; lra).
  fold t in E. lra.
Qed.

(** ** Gaussians *)
(** The best variance: tr(V^-1 V') - 2 >= ln (det V' / det V) for 2 x 2 matrices. *)
Lemma best_var v0 v1 v3 a0 a1 a3 : 0 < v0 -> 0 < v0 * v3 - v1 * v1 -> 0 < a0 -> 0 < a0 * a3 - a1 * a1 ->
  ln (a0 * a3 - a1 * a1) - ln (v0 * v3 - v1 * v1) <= (v3 * a0 - 2 * v1 * a1 + v0 * a3) / (v0 * v3 - v1 * v1) - 2.
Proof.
  intros V0 DV A0 DA. set (d := v0 * v3 - v1 * v1) in *. set (e := a0 * a3 - a1 * a1) in *. set (t := v3 * a0 - 2 * v1 * a1 + v0 * a3).
  assert (V3 : 0 < v3). { destruct (Rlt_dec 0 v3); auto. exfalso. assert (v0 * v3 <= 0) by nra. unfold d in DV. nra. }
  assert (A3 : 0 < a3). { destruct (Rlt_dec 0 a3); auto. exfalso. assert (a0 * a3 <= 0) by nra. unfold e in DA. nra. }
  assert (TT : 4 * (d * e) <= t * t).
  { assert (H : v0 * v0 * (t * t - 4 * (d * e)) = (v0 * (v3 * a0 - 2 * v1 * a1 + v0 * a3) - 2 * (d * a0)) ^ 2 + 4 * d * (v0 * a1 - v1 * a0) ^ 2 + 0).
    { unfold t, d, e. ring. }
    assert (0 <= v0 * v0 * (t * t - 4 * (d * e))). { rewrite H. pose proof (pow2_ge_0 (v0 * (v3 * a0 - 2 * v1 * a1 + v0 * a3) - 2 * (d * a0))). pose proof (pow2_ge_0 (v0 * a1 - v1 * a0)). nra. }
    assert (0 < v0 * v0) by nra. nra. }
  assert (T0 : 0 < t). { assert (H : v0 * t = d * a0 + ((v1 * a0 - v0 * a1) ^ 2 + v0 * v0 * e) / a0) by (unfold t, d, e; field; lra).
    assert (0 < v0 * t). { rewrite H. assert (0 < d * a0) by nra. assert (0 <= ((v1 * a0 - v0 * a1) ^ 2 + v0 * v0 * e) / a0). { apply Rmult_le_pos; [pose proof (pow2_ge_0 (v1 * a0 - v0 * a1)); nra|apply Rlt_le, Rinv_0_lt_compat; lra]. } lra. }
    nra. }
  set (s := sqrt (e / d)). assert (ED : 0 < e / d) by (apply Rmult_lt_0_compat; [lra|apply Rinv_0_lt_compat; lra]).
  assert (S0 : 0 < s) by (apply sqrt_lt_R0; auto). assert (SS : s * s = e / d) by (apply sqrt_sqrt; lra).
  assert (L : ln e - ln d = 2 * ln s). { assert (ID : 0 < / d) by (apply Rinv_0_lt_compat; lra). assert (EQ : ln (e / d) = ln e - ln d) by (unfold Rdiv; rewrite (ln_mult e (/ d) DA ID), (ln_Rinv d DV); ring). rewrite <- EQ, <- SS, (ln_mult s s S0 S0). ring. }
  rewrite L. pose proof (ln_le s S0). assert (2 * s <= t / d); [|lra].
  assert (K : (2 * s) * (2 * s) <= (t / d) * (t / d)).
  { replace (2 * s * (2 * s)) with (4 * (d * e) * / (d * d)) by (replace (2 * s * (2 * s)) with (4 * (s * s)) by ring; rewrite SS; field; lra).
    replace (t / d * (t / d)) with (t * t * / (d * d)) by (field; lra). apply Rmult_le_compat_r; [apply Rlt_le, Rinv_0_lt_compat; nra|exact TT]. }
  assert (0 < t / d) by (apply Rmult_lt_0_compat; [lra|apply Rinv_0_lt_compat; lra]). nra.
Qed.
(** (x - m)^T V^-1 (x - m) for a symmetric V, and the density. *)
Definition quad (v0 v1 v3 dx dy : R) : R := (v3 * dx ^ 2 - 2 * v1 * (dx * dy) + v0 * dy ^ 2) / (v0 * v3 - v1 * v1).
Definition normal (mx my v0 v1 v3 x y : R) : R := exp (- quad v0 v1 v3 (x - mx) (y - my) / 2) / (2 * PI * sqrt (v0 * v3 - v1 * v1)).
Lemma normal_pos mx my v0 v1 v3 x y : 0 < v0 * v3 - v1 * v1 -> 0 < normal mx my v0 v1 v3 x y.
Proof.
  intros D. unfold normal. apply Rmult_lt_0_compat; [apply exp_pos|]. apply Rinv_0_lt_compat. apply Rmult_lt_0_compat; [pose proof PI_RGT_0; lra|apply sqrt_lt_R0; auto].
Qed.
Lemma ln_sqrt d : 0 < d -> ln (sqrt d) = ln d / 2.
Proof. intros D. assert (S0 : 0 < sqrt d) by (apply sqrt_lt_R0; auto). assert (E : ln d = ln (sqrt d * sqrt d)) by (rewrite sqrt_sqrt; lra). rewrite E, ln_mult by auto. field. Qed.
Lemma ln_normal mx my v0 v1 v3 x y : 0 < v0 * v3 - v1 * v1 ->
  ln (normal mx my v0 v1 v3 x y) = - quad v0 v1 v3 (x - mx) (y - my) / 2 - ln (2 * PI) - ln (v0 * v3 - v1 * v1) / 2.
Proof.
  intros D. unfold normal. set (d := v0 * v3 - v1 * v1) in *. assert (S0 : 0 < sqrt d) by (apply sqrt_lt_R0; auto). assert (P0 : 0 < 2 * PI) by (pose proof PI_RGT_0; lra).
  assert (Q0 : 0 < 2 * PI * sqrt d) by (apply Rmult_lt_0_compat; auto). unfold Rdiv at 1. rewrite ln_mult; [|apply exp_pos|apply Rinv_0_lt_compat; auto].
  rewrite ln_exp, ln_Rinv, ln_mult, ln_sqrt by auto. unfold Rdiv. ring.
Qed.
Lemma quad_nonneg v0 v1 v3 dx dy : 0 < v0 -> 0 < v0 * v3 - v1 * v1 -> 0 <= quad v0 v1 v3 dx dy.
Proof.
  intros V0 D. unfold quad. apply Rmult_le_pos; [|apply Rlt_le, Rinv_0_lt_compat; auto].
  assert (H : v0 * (v3 * dx ^ 2 - 2 * v1 * (dx * dy) + v0 * dy ^ 2) = (v0 * dy - v1 * dx) ^ 2 + (v0 * v3 - v1 * v1) * dx ^ 2) by ring.
  assert (0 <= v0 * (v3 * dx ^ 2 - 2 * v1 * (dx * dy) + v0 * dy ^ 2)). { rewrite H. pose proof (pow2_ge_0 (v0 * dy - v1 * dx)). pose proof (pow2_ge_0 dx). nra. }
  nra.
Qed.
Section Moments.
Context {T : Type}.
Variables (L : list T) (w x y : T -> R).
Lemma moment (f g : T -> R) a b : rsum (fun t => w t * (f t - a) * (g t - b)) L =
  rsum (fun t => w t * f t * g t) L - a * rsum (fun t => w t * g t) L - b * rsum (fun t => w t * f t) L + a * b * rsum w L.
Proof.
  rewrite (rsum_ext _ (fun t => (w t * f t * g t + (- a) * (w t * g t)) + ((- b) * (w t * f t) + (a * b) * w t))) by (intros; ring).
  rewrite !rsum_add, !rsum_mul. ring.
Qed.
(** The penalised expected log likelihood of one component does not decrease: mean
    of the weighted data, variance about a point between the old and new mean. *)
Lemma gauss_step alpha c mx my v0 v1 v3 nx ny u0 u1 u3 :
  let W := rsum w L in 0 < W -> 0 <= alpha -> 0 <= c <= 1 -> 0 < v0 -> 0 < v0 * v3 - v1 * v1 -> 0 < u0 -> 0 < u0 * u3 - u1 * u1 ->
  nx = rsum (fun t => w t * x t) L / W -> ny = rsum (fun t => w t * y t) L / W ->
  (W + alpha) * u0 = alpha + rsum (fun t => w t * (x t - nx) * (x t - nx)) L + c * W * (nx - mx) ^ 2 ->
  (W + alpha) * u1 = rsum (fun t => w t * (x t - nx) * (y t - ny)) L + c * W * ((nx - mx) * (ny - my)) ->
  (W + alpha) * u3 = alpha + rsum (fun t => w t * (y t - ny) * (y t - ny)) L + c * W * (ny - my) ^ 2 ->
  alpha / 2 * ((ln (u0 * u3 - u1 * u1) + (u0 + u3) / (u0 * u3 - u1 * u1)) - (ln (v0 * v3 - v1 * v1) + (v0 + v3) / (v0 * v3 - v1 * v1))) <=
  rsum (fun t => w t * (ln (normal nx ny u0 u1 u3 (x t) (y t)) - ln (normal mx my v0 v1 v3 (x t) (y t)))) L.
Proof.
  intros W W0 A0 C V0 DV U0 DU NX NY E0 E1 E3. set (X := rsum (fun t => w t * (x t - nx) * (x t - nx)) L) in *.
  set (Y := rsum (fun t => w t * (x t - nx) * (y t - ny)) L) in *. set (Z := rsum (fun t => w t * (y t - ny) * (y t - ny)) L) in *.
  set (p := nx - mx) in *. set (q := ny - my) in *. set (dv := v0 * v3 - v1 * v1) in *. set (du := u0 * u3 - u1 * u1) in *.
  assert (SX : rsum (fun t => w t * x t) L = W * nx) by (rewrite NX; field; lra). assert (SY : rsum (fun t => w t * y t) L = W * ny) by (rewrite NY; field; lra).
  assert (MX : rsum (fun t => w t * (x t - mx) * (x t - mx)) L = X + W * p ^ 2) by (unfold X; rewrite !moment, SX; unfold p; fold W; ring).
  assert (MY : rsum (fun t => w t * (x t - mx) * (y t - my)) L = Y + W * (p * q)) by (unfold Y; rewrite !moment, SX, SY; unfold p, q; fold W; ring).
  assert (MZ : rsum (fun t => w t * (y t - my) * (y t - my)) L = Z + W * q ^ 2) by (unfold Z; rewrite !moment, SY; unfold q; fold W; ring).
  assert (QS : forall r0 r1 r3 a b, rsum (fun t => w t * quad r0 r1 r3 (x t - a) (y t - b)) L =
     (r3 * rsum (fun t => w t * (x t - a) * (x t - a)) L - 2 * r1 * rsum (fun t => w t * (x t - a) * (y t - b)) L + r0 * rsum (fun t => w t * (y t - b) * (y t - b)) L) / (r0 * r3 - r1 * r1)).
  { intros. rewrite (rsum_ext _ (fun t => (r3 / (r0 * r3 - r1 * r1)) * (w t * (x t - a) * (x t - a)) + ((- 2 * r1 / (r0 * r3 - r1 * r1)) * (w t * (x t - a) * (y t - b)) + (r0 / (r0 * r3 - r1 * r1)) * (w t * (y t - b) * (y t - b))))).
    - rewrite !rsum_add, !rsum_mul. unfold Rdiv. ring.
    - intros. unfold quad, Rdiv. ring. }
  assert (LHS : rsum (fun t => w t * (ln (normal nx ny u0 u1 u3 (x t) (y t)) - ln (normal mx my v0 v1 v3 (x t) (y t)))) L =
    - ((u3 * X - 2 * u1 * Y + u0 * Z) / du) / 2 + ((v3 * (X + W * p ^ 2) - 2 * v1 * (Y + W * (p * q)) + v0 * (Z + W * q ^ 2)) / dv) / 2 + W * (ln dv - ln du) / 2).
  { rewrite (rsum_ext _ (fun t => (- (1 / 2)) * (w t * quad u0 u1 u3 (x t - nx) (y t - ny)) + ((1 / 2) * (w t * quad v0 v1 v3 (x t - mx) (y t - my)) + ((ln dv - ln du) / 2) * w t))).
    - rewrite !rsum_add, !rsum_mul, !QS, MX, MY, MZ. fold X Y Z dv du W. lra.
    - intros. rewrite !ln_normal by auto. fold dv du. lra. }
  rewrite LHS. clear LHS QS MX MY MZ.
  assert (BU : (u3 * X - 2 * u1 * Y + u0 * Z) / du + alpha * ((u0 + u3) / du) = 2 * (W + alpha) - c * W * quad u0 u1 u3 p q).
  { unfold quad. fold du. replace X with ((W + alpha) * u0 - alpha - c * W * p ^ 2) by lra. replace Y with ((W + alpha) * u1 - c * W * (p * q)) by lra. replace Z with ((W + alpha) * u3 - alpha - c * W * q ^ 2) by lra.
    unfold du. field. fold du. lra. }
  assert (BV : (v3 * (X + W * p ^ 2) - 2 * v1 * (Y + W * (p * q)) + v0 * (Z + W * q ^ 2)) / dv + alpha * ((v0 + v3) / dv) = (W + alpha) * ((v3 * u0 - 2 * v1 * u1 + v0 * u3) / dv) + (1 - c) * W * quad v0 v1 v3 p q).
  { unfold quad. fold dv. replace X with ((W + alpha) * u0 - alpha - c * W * p ^ 2) by lra. replace Y with ((W + alpha) * u1 - c * W * (p * q)) by lra. replace Z with ((W + alpha) * u3 - alpha - c * W * q ^ 2) by lra.
    field. lra. }
  pose proof (best_var v0 v1 v3 u0 u1 u3 V0 DV U0 DU) as B. fold dv du in B.
  pose proof (quad_nonneg u0 u1 u3 p q U0 DU) as QU. pose proof (quad_nonneg v0 v1 v3 p q V0 DV) as QV.
  apply (Rmult_le_compat_l (W + alpha)) in B; [|lra]. assert (0 <= c * W * quad u0 u1 u3 p q) by (apply Rmult_le_pos; [nra|auto]). assert (0 <= (1 - c) * W * quad v0 v1 v3 p q) by (apply Rmult_le_pos; [nra|auto]).
  set (tu := (u0 + u3) / du) in *. set (tv := (v0 + v3) / dv) in *. set (qu := (u3 * X - 2 * u1 * Y + u0 * Z) / du) in *.
  set (qv := (v3 * (X + W * p ^ 2) - 2 * v1 * (Y + W * (p * q)) + v0 * (Z + W * q ^ 2)) / dv) in *. set (tr := (v3 * u0 - 2 * v1 * u1 + v0 * u3) / dv) in *. nra.
Qed.
(** Variances are positive definite unless the weighted data lie on a line. *)
Lemma cauchy (f g : T -> R) : (forall t, In t L -> 0 <= w t) ->
  rsum (fun t => w t * f t * g t) L * rsum (fun t => w t * f t * g t) L <= rsum (fun t => w t * f t * f t) L * rsum (fun t => w t * g t * g t) L.
Proof.
  intros H. set (a := rsum (fun t => w t * f t * f t) L). set (b := rsum (fun t => w t * f t * g t) L). set (d := rsum (fun t => w t * g t * g t) L).
  assert (Q : forall u v, 0 <= u * u * a + 2 * (u * v) * b + v * v * d).
  { intros u v. replace (u * u * a + 2 * (u * v) * b + v * v * d) with (rsum (fun t => w t * (u * f t + v * g t) ^ 2) L).
    - apply rsum_nonneg. intros t I. apply Rmult_le_pos; [auto|apply pow2_ge_0].
    - rewrite (rsum_ext _ (fun t => (u * u) * (w t * f t * f t) + ((2 * (u * v)) * (w t * f t * g t) + (v * v) * (w t * g t * g t)))) by (intros; ring). rewrite !rsum_add, !rsum_mul. unfold a, b, d. ring. }
  assert (A : 0 <= a) by (specialize (Q 1 0); nra). assert (D : 0 <= d) by (specialize (Q 0 1); nra).
  destruct (Req_dec a 0) as [Z|N].
  - rewrite Z in *. assert (b = 0). { specialize (Q (- (d + 1)) b) as Q1. specialize (Q (-1 - d) (2 * b)) as Q2. nra. } nra.
  - specialize (Q (- b) a). assert (0 <= a * (a * d - b * b)) by nra. nra.
Qed.
End Moments.

(** What one component gains, with its weights [w] at the data. *)
Lemma comp_gain {T} (L : list T) (w x y g : T -> R) alpha c amp mx my v0 v1 v3 nx ny u0 u1 u3 :
  let W := rsum w L in 0 < W -> 0 <= alpha -> 0 <= c <= 1 -> 0 < v0 -> 0 < v0 * v3 - v1 * v1 -> 0 < u0 -> 0 < u0 * u3 - u1 * u1 -> 0 < amp ->
  nx = rsum (fun t => w t * x t) L / W -> ny = rsum (fun t => w t * y t) L / W ->
  (W + alpha) * u0 = alpha + rsum (fun t => w t * (x t - nx) * (x t - nx)) L + c * W * (nx - mx) ^ 2 ->
  (W + alpha) * u1 = rsum (fun t => w t * (x t - nx) * (y t - ny)) L + c * W * ((nx - mx) * (ny - my)) ->
  (W + alpha) * u3 = alpha + rsum (fun t => w t * (y t - ny) * (y t - ny)) L + c * W * (ny - my) ^ 2 ->
  (forall t, In t L -> w t <> 0 -> g t = amp * normal mx my v0 v1 v3 (x t) (y t)) ->
  W * (ln W - ln amp) + alpha / 2 * ((ln (u0 * u3 - u1 * u1) + (u0 + u3) / (u0 * u3 - u1 * u1)) - (ln (v0 * v3 - v1 * v1) + (v0 + v3) / (v0 * v3 - v1 * v1))) <=
  rsum (fun t => w t * (ln (W * normal nx ny u0 u1 u3 (x t) (y t)) - ln (g t))) L.
Proof.
  intros W W0 A0 C V0 DV U0 DU AM NX NY E0 E1 E3 HG. pose proof (gauss_step L w x y alpha c mx my v0 v1 v3 nx ny u0 u1 u3 W0 A0 C V0 DV U0 DU NX NY E0 E1 E3) as G.
  rewrite (rsum_ext _ (fun t => (ln W - ln amp) * w t + w t * (ln (normal nx ny u0 u1 u3 (x t) (y t)) - ln (normal mx my v0 v1 v3 (x t) (y t))))).
  - rewrite rsum_add, rsum_mul. fold W. lra.
  - intros t I. destruct (Req_dec (w t) 0) as [Z|N]; [rewrite Z; ring|]. rewrite (HG t I N).
    rewrite !ln_mult; auto using normal_pos. ring.
Qed.

(** ** Specification *)
(** Flux per pixel of a component at a pixel; its variance; the total flux. *)
Definition shape (c : gcomp) (p : pix) : R := normal (g_mx c) (g_my c) (g_v0 c) (g_v1 c) (g_v3 c) (p_x p) (p_y p).
Definition value (c : gcomp) (p : pix) : R := g_amp c * shape c p.
Definition total (cs : list gcomp) (p : pix) : R := rsum (fun c => value c p) cs.
Definition flux (cs : list gcomp) : R := rsum g_amp cs.
Definition vdet (c : gcomp) : R := g_v0 c * g_v3 c - g_v1 c * g_v1 c.
Definition good (c : gcomp) : Prop := 0 < g_amp c /\ g_v2 c = g_v1 c /\ 0 < g_v0 c /\ 0 < vdet c.
(** Number of standard deviations from the centre, squared. *)
Definition away (c : gcomp) (p : pix) : R := quad (g_v0 c) (g_v1 c) (g_v3 c) (p_x p - g_mx c) (p_y p - g_my c).
(** The log likelihood of flux-weighted pixels under the normalised mixture, less the
    negative log of an inverse-Wishart prior on the variances. *)
Definition loglik (ps : list pix) (cs : list gcomp) : R := rsum (fun p => p_img p * ln (total cs p / flux cs)) ps.
Definition penalty (alpha : R) (cs : list gcomp) : R := alpha / 2 * rsum (fun c => ln (vdet c) + (g_v0 c + g_v3 c) / vdet c) cs.
(** The mixture with every component cut off at ten standard deviations. *)
Definition cutvalue (c : gcomp) (p : pix) : R := if Rle_dec 100 (away c p) then 0 else value c p.
Definition cuttotal (cs : list gcomp) (p : pix) : R := rsum (fun c => cutvalue c p) cs.
Definition cutlik (ps : list pix) (cs : list gcomp) : R := rsum (fun p => p_img p * ln (cuttotal cs p / flux cs)) ps.
Definition reached (cs : list gcomp) (p : pix) : bool := existsb (fun c => if Rlt_dec (away c p) 100 then true else false) cs.

Lemma shape_pos c p : good c -> 0 < shape c p.
Proof. intros (A & B & C & D). apply normal_pos. exact D. Qed.
Lemma value_pos c p : good c -> 0 < value c p.
Proof. intros G. apply Rmult_lt_0_compat; [apply G|apply shape_pos; auto]. Qed.
Lemma cutvalue_nonneg c p : good c -> 0 <= cutvalue c p.
Proof. intros G. unfold cutvalue. destruct (Rle_dec 100 (away c p)); [lra|]. apply Rlt_le, value_pos; auto. Qed.
Lemma flux_pos cs : cs <> [] -> Forall good cs -> 0 < flux cs.
Proof.
  intros N G. destruct cs as [|c cs]; [congruence|]. rewrite Forall_forall in G. pose proof (rsum_in_le g_amp (c :: cs) c) as H.
  specialize (H ltac:(intros b Ib; apply Rlt_le, G; auto) (or_introl eq_refl)). pose proof (proj1 (G c (or_introl eq_refl))). unfold flux. lra.
Qed.
Lemma det2_good c : good c -> det2 c = vdet c.
Proof. intros (A & B & C & D). unfold det2, vdet. rewrite B. reflexivity. Qed.
Lemma dsq2_good c p : good c -> dsq2 c p = away c p.
Proof. intros G. pose proof G as (A & B & C & D). unfold dsq2, away, quad. rewrite (det2_good c G), B. fold (vdet c). field. lra. Qed.
Lemma sqrt_tpd d : 0 < d -> sqrt (tpd * d) = 2 * PI * sqrt d.
Proof.
  intros H. unfold tpd. pose proof PI_RGT_0. rewrite sqrt_mult by (try lra; apply pow2_ge_0). replace ((2 * PI) ^ 2) with (Rsqr (2 * PI)) by (unfold Rsqr; ring).
  rewrite sqrt_Rsqr by lra. reflexivity.
Qed.
Lemma z2_good c p : good c -> z2 p c = cutvalue c p.
Proof.
  intros G. pose proof G as (A & B & C & D). unfold z2, cutvalue, rleb. rewrite (dsq2_good c p G). destruct (Rle_dec 100 (away c p)); [reflexivity|].
  unfold value, shape, normal. rewrite (det2_good c G), (sqrt_tpd _ D). fold (vdet c) (away c p). replace (- (1 / 2) * away c p) with (- away c p / 2) by lra.
  assert (0 < sqrt (vdet c)) by (apply sqrt_lt_R0; auto). pose proof PI_RGT_0. field. split; lra.
Qed.
Lemma reached_pos cs p : Forall good cs -> if reached cs p then 0 < cuttotal cs p else cuttotal cs p = 0 /\ forall c, In c cs -> cutvalue c p = 0.
Proof.
  intros G. rewrite Forall_forall in G. destruct (reached cs p) eqn:E.
  - unfold reached in E. apply existsb_exists in E. destruct E as (c & I & H). destruct (Rlt_dec (away c p) 100) as [L|L]; [|discriminate].
    pose proof (rsum_in_le (fun c => cutvalue c p) cs c ltac:(intros; apply cutvalue_nonneg; auto) I) as Q. cbn in Q. unfold cutvalue at 1 in Q. destruct (Rle_dec 100 (away c p)); [lra|].
    pose proof (value_pos c p (G c I)). unfold cuttotal. lra.
  - assert (Z : forall c, In c cs -> cutvalue c p = 0).
    { intros c I. unfold cutvalue. destruct (Rle_dec 100 (away c p)) as [L|L]; [reflexivity|]. exfalso. assert (reached cs p = true); [|congruence].
      unfold reached. apply existsb_exists. exists c. split; auto. destruct (Rlt_dec (away c p) 100); auto. lra. }
    split; auto. unfold cuttotal. rewrite (rsum_ext _ (fun _ => 0)) by auto. apply rsum_zero.
Qed.
Lemma znorm_nth (z : list R) k : rsum (fun v => v) z <> 0 -> nth k (znorm z) 0 = nth k z 0 / rsum (fun v => v) z.
Proof.
  intros N. unfold znorm. unfold reqb. destruct (Req_EM_T (rsum (fun v => v) z) 0); [contradiction|].
  assert (D : 0 = (fun v => v / rsum (fun v => v) z) 0) by (unfold Rdiv; ring). rewrite D at 1. exact (map_nth (fun v => v / rsum (fun v => v) z) z 0 k).
Qed.
Definition g0 : gcomp := mkG 0 0 0 0 0 0 0.
Lemma w2_good cs p k : Forall good cs -> (k < length cs)%nat ->
  w2 cs k p = if reached cs p then p_img p * (cutvalue (nth k cs g0) p / cuttotal cs p) else 0.
Proof.
  intros G K. pose proof (reached_pos cs p G) as R. rewrite Forall_forall in G. unfold w2.
  assert (E : map (z2 p) cs = map (fun c => cutvalue c p) cs) by (apply map_ext_in; intros; apply z2_good; auto). rewrite E.
  assert (S0 : rsum (fun v => v) (map (fun c => cutvalue c p) cs) = cuttotal cs p) by apply rsum_map.
  assert (NT : nth k (map (fun c => cutvalue c p) cs) 0 = cutvalue (nth k cs g0) p).
  { rewrite (nth_indep _ 0 ((fun c => cutvalue c p) g0)) by (rewrite map_length; auto). apply (map_nth (fun c => cutvalue c p)). }
  destruct (reached cs p).
  - rewrite znorm_nth, S0, NT by lra. reflexivity.
  - destruct R as [R Z]. unfold znorm. rewrite S0, R. unfold reqb. destruct (Req_EM_T 0 0); [|congruence]. rewrite NT, Z; [ring|apply nth_In; auto].
Qed.

Lemma rsum_filter {A} (f : A -> R) (b : A -> bool) l : rsum (fun a => if b a then f a else 0) l = rsum f (filter b l).
Proof. induction l as [|a l IH]; cbn; [reflexivity|]. destruct (b a); cbn; unfold rsum in *; rewrite IH; ring. Qed.
Lemma existsb_false {A} (b : A -> bool) l : existsb b l = false -> forall a, In a l -> b a = false.
Proof. intros H a I. destruct (b a) eqn:E; auto. assert (existsb b l = true) by (apply existsb_exists; exists a; auto). congruence. Qed.
Lemma reqb_false x y : reqb x y = false -> x <> y.
Proof. unfold reqb. destruct (Req_EM_T x y); congruence. Qed.

Lemma ridge a X Y Z : 0 <= a -> 0 <= X -> 0 <= Z -> Y * Y <= X * Z -> 0 <= (a + X) * (a + Z) - Y * Y /\ (0 < a -> 0 < (a + X) * (a + Z) - Y * Y).
Proof. intros A HX HZ H. assert (0 <= a * X) by (apply Rmult_le_pos; auto). assert (0 <= a * Z) by (apply Rmult_le_pos; auto). split; intros; nra. Qed.

(** The new component [k], written with sums over the reached pixels. *)
Section Step2.
Variables (alpha : R) (ps : list pix) (cs cs' : list gcomp).
Hypothesis Step : step2 alpha ps cs = Done cs'.
Hypothesis Img : forall p, In p ps -> 0 <= p_img p.
Hypothesis Good : Forall good cs.
Hypothesis Alpha : 0 <= alpha.
Let L := filter (reached cs) ps.
Let w k p := p_img p * (cutvalue (nth k cs g0) p / cuttotal cs p).
Let W k := rsum (w k) L.
Lemma L_in p : In p L -> In p ps /\ 0 < cuttotal cs p.
Proof. intros I. apply filter_In in I. destruct I as [I R]. pose proof (reached_pos cs p Good) as H. rewrite R in H. auto. Qed.
Lemma k_good k : (k < length cs)%nat -> good (nth k cs g0).
Proof. intros K. rewrite Forall_forall in Good. apply Good, nth_In; auto. Qed.
Lemma w_nonneg k p : (k < length cs)%nat -> In p L -> 0 <= w k p.
Proof.
  intros K I. destruct (L_in p I) as [Ip T]. unfold w. apply Rmult_le_pos; auto. apply Rmult_le_pos; [apply cutvalue_nonneg, k_good; auto|apply Rlt_le, Rinv_0_lt_compat; auto].
Qed.
Lemma w2_sum k (f : pix -> R) : (k < length cs)%nat -> rsum (fun p => w2 cs k p * f p) ps = rsum (fun p => w k p * f p) L.
Proof. intros K. unfold L. rewrite <- rsum_filter. apply rsum_ext. intros p I. rewrite (w2_good cs p k Good K). destruct (reached cs p); [reflexivity|ring]. Qed.
Lemma w2_wsum k : (k < length cs)%nat -> rsum (w2 cs k) ps = W k.
Proof.
  intros K. unfold W. rewrite (rsum_ext (w2 cs k) (fun p => w2 cs k p * 1)) by (intros; ring). rewrite (rsum_ext (w k) (fun p => w k p * 1)) by (intros; ring). apply w2_sum; auto.
Qed.
Lemma w2_sum2 k (f g : pix -> R) : (k < length cs)%nat -> rsum (fun p => w2 cs k p * f p * g p) ps = rsum (fun p => w k p * f p * g p) L.
Proof.
  intros K. rewrite (rsum_ext _ (fun p => w2 cs k p * (f p * g p))) by (intros; ring). rewrite (w2_sum k (fun p => f p * g p) K). apply rsum_ext. intros; ring.
Qed.
Definition new_of (k : nat) : gcomp :=
  let mx := rsum (fun p => w k p * p_x p) L / W k in
  let my := rsum (fun p => w k p * p_y p) L / W k in
  let v a f g := (a + rsum (fun p => w k p * f p * g p) L) / (W k + alpha) in
  let dx p := p_x p - mx in
  let dy p := p_y p - my in
  mkG (W k) mx my (v alpha dx dx) (v 0 dx dy) (v 0 dx dy) (v alpha dy dy).
Lemma step2_new : cs' = map new_of (seq 0 (length cs)) /\ forall k, (k < length cs)%nat -> 0 < W k.
Proof.
  pose proof Step as H. unfold step2 in H. destruct (existsb _ cs); [discriminate|]. destruct (existsb _ (seq 0 (length cs))) eqn:E; [discriminate|].
  assert (HW : forall k, (k < length cs)%nat -> 0 < W k).
  { intros k K. pose proof (existsb_false _ _ E k ltac:(apply in_seq; lia)) as B. apply orb_false_iff in B. destruct B as [B _]. apply reqb_false in B. rewrite (w2_wsum k K) in B.
    assert (0 <= W k) by (apply rsum_nonneg; intros p I; apply w_nonneg; auto). lra. }
  split; auto. injection H as <-. apply map_ext_in. intros k I. apply in_seq in I. assert (K : (k < length cs)%nat) by lia.
  unfold new_of. rewrite !(w2_sum2 k _ _ K), (w2_wsum k K), !(w2_sum k _ K). f_equal. f_equal. f_equal. apply rsum_ext. intros; ring.
Qed.
Lemma new_len : length cs' = length cs.
Proof. rewrite (proj1 step2_new), map_length, seq_length. reflexivity. Qed.
Lemma nth_new k : (k < length cs)%nat -> nth k cs' g0 = new_of k.
Proof.
  intros K. rewrite (proj1 step2_new). rewrite (nth_indep _ g0 (new_of 0)) by (rewrite map_length, seq_length; auto). rewrite (map_nth new_of), seq_nth by auto. reflexivity.
Qed.
(** The variances are symmetric and positive semidefinite, and definite with alpha > 0. *)
Lemma new_psd k : (k < length cs)%nat -> let c := new_of k in g_amp c = W k /\ g_v2 c = g_v1 c /\ 0 <= g_v0 c /\ 0 <= g_v3 c /\ 0 <= vdet c /\ (0 < alpha -> good c).
Proof.
  intros K c. pose proof (proj2 step2_new k K) as W0. set (nx := g_mx c). set (ny := g_my c).
  set (X := rsum (fun p => w k p * (p_x p - nx) * (p_x p - nx)) L). set (Y := rsum (fun p => w k p * (p_x p - nx) * (p_y p - ny)) L). set (Z := rsum (fun p => w k p * (p_y p - ny) * (p_y p - ny)) L).
  assert (WN : forall p, In p L -> 0 <= w k p) by (intros; apply w_nonneg; auto).
  assert (X0 : 0 <= X) by (apply rsum_nonneg; intros p I; rewrite Rmult_assoc; apply Rmult_le_pos; [auto|apply (Rle_0_sqr (p_x p - nx))]). assert (Z0 : 0 <= Z) by (apply rsum_nonneg; intros p I; rewrite Rmult_assoc; apply Rmult_le_pos; [auto|apply (Rle_0_sqr (p_y p - ny))]).
  pose proof (cauchy L (w k) (fun p => p_x p - nx) (fun p => p_y p - ny) WN) as CS. fold X Y Z in CS.
  assert (E0 : g_v0 c = (alpha + X) / (W k + alpha)) by reflexivity. assert (E1 : g_v1 c = (0 + Y) / (W k + alpha)) by reflexivity. assert (E3 : g_v3 c = (alpha + Z) / (W k + alpha)) by reflexivity.
  assert (IW : 0 < / (W k + alpha)) by (apply Rinv_0_lt_compat; lra).
  assert (ED : vdet c = ((alpha + X) * (alpha + Z) - Y * Y) * (/ (W k + alpha) * / (W k + alpha))) by (unfold vdet; rewrite E0, E1, E3; unfold Rdiv; ring).
  assert (I2 : 0 < / (W k + alpha) * / (W k + alpha)) by (apply Rmult_lt_0_compat; auto).
  repeat split.
  - rewrite E0. apply Rmult_le_pos; lra.
  - rewrite E3. apply Rmult_le_pos; lra.
  - rewrite ED. apply Rmult_le_pos; [|lra]. apply (ridge alpha X Y Z); auto.
  - exact W0.
  - rewrite E0. apply Rmult_lt_0_compat; lra.
  - rewrite ED. apply Rmult_lt_0_compat; [|lra]. apply (ridge alpha X Y Z); auto.
Qed.
Lemma w_total p : In p L -> rsum (fun k => w k p) (seq 0 (length cs)) = p_img p.
Proof.
  intros I. destruct (L_in p I) as [Ip T]. unfold w. rewrite (rsum_ext _ (fun k => (p_img p / cuttotal cs p) * cutvalue (nth k cs g0) p)) by (intros; unfold Rdiv; ring).
  rewrite rsum_mul. rewrite <- (rsum_nth g0 (fun c => cutvalue c p) cs). fold (cuttotal cs p). field. lra.
Qed.
Lemma W_total : rsum W (seq 0 (length cs)) = rsum p_img L.
Proof. unfold W. rewrite (rsum_swap w). apply rsum_ext. intros p I. apply w_total; auto. Qed.
Lemma flux_new : flux cs' = rsum p_img L.
Proof. unfold flux. rewrite (proj1 step2_new), rsum_map. rewrite <- W_total. reflexivity. Qed.

Hypothesis Good' : Forall good cs'.
Lemma step2_gain : cs <> [] -> cutlik L cs - penalty alpha cs <= loglik L cs' - penalty alpha cs'.
Proof.
  intros NE. assert (N0 : (0 < length cs)%nat) by (clear - NE; destruct cs; [congruence|cbn; lia]). set (ks := seq 0 (length cs)). destruct step2_new as [EN HW].
  assert (KS : forall k, In k ks -> (k < length cs)%nat) by (intros k I; apply in_seq in I; lia).
  assert (GN : forall k, In k ks -> good (new_of k)). { intros k I. rewrite <- (nth_new k (KS k I)). rewrite Forall_forall in Good'. apply Good', nth_In. rewrite new_len. auto. }
  set (g := fun k p => cutvalue (nth k cs g0) p). set (f := fun k p => value (new_of k) p).
  assert (TG : forall p, rsum (fun k => g k p) ks = cuttotal cs p) by (intros p; unfold g, ks; rewrite <- (rsum_nth g0 (fun c => cutvalue c p) cs); reflexivity).
  assert (TF : forall p, rsum (fun k => f k p) ks = total cs' p) by (intros p; unfold f, ks, total; rewrite EN, rsum_map; reflexivity).
  pose proof (em_total L p_img ks g f) as EM.
  specialize (EM ltac:(intros p I; apply Img, L_in; auto) ltac:(intros k p K I; apply cutvalue_nonneg, k_good; auto) ltac:(intros k p K I; apply Rlt_le, value_pos; auto) ltac:(intros k p K I H; apply value_pos; auto) ltac:(intros p I; rewrite TG; apply L_in; auto)).
  (* what each component gains *)
  assert (CG : forall k, In k ks -> W k * (ln (W k) - ln (g_amp (nth k cs g0))) + alpha / 2 * ((ln (vdet (new_of k)) + (g_v0 (new_of k) + g_v3 (new_of k)) / vdet (new_of k)) - (ln (vdet (nth k cs g0)) + (g_v0 (nth k cs g0) + g_v3 (nth k cs g0)) / vdet (nth k cs g0)))
     <= rsum (fun p => p_img p * (g k p / rsum (fun k => g k p) ks) * (ln (f k p) - ln (g k p))) L).
  { intros k I. set (c := nth k cs g0). pose proof (k_good k (KS k I)) as (A1 & A2 & A3 & A4). fold c in A1, A2, A3, A4. pose proof (GN k I) as (B1 & B2 & B3 & B4).
    pose proof (comp_gain L (w k) p_x p_y (g k) alpha 0 (g_amp c) (g_mx c) (g_my c) (g_v0 c) (g_v1 c) (g_v3 c) (g_mx (new_of k)) (g_my (new_of k)) (g_v0 (new_of k)) (g_v1 (new_of k)) (g_v3 (new_of k))) as CG. cbv zeta in CG.
    fold (W k) in CG. specialize (CG (HW k (KS k I)) Alpha ltac:(lra) A3 A4 B3 B4 A1 eq_refl eq_refl). fold (vdet c) (vdet (new_of k)) in CG.
    assert (NZ : W k + alpha <> 0) by (pose proof (HW k (KS k I)); lra).
    rewrite (rsum_ext _ (fun p => w k p * (ln (W k * normal (g_mx (new_of k)) (g_my (new_of k)) (g_v0 (new_of k)) (g_v1 (new_of k)) (g_v3 (new_of k)) (p_x p) (p_y p)) - ln (g k p)))).
    - apply CG.
      + change (g_v0 (new_of k)) with ((alpha + rsum (fun p => w k p * (p_x p - g_mx (new_of k)) * (p_x p - g_mx (new_of k))) L) / (W k + alpha)). field. auto.
      + change (g_v1 (new_of k)) with ((0 + rsum (fun p => w k p * (p_x p - g_mx (new_of k)) * (p_y p - g_my (new_of k))) L) / (W k + alpha)). field. auto.
      + change (g_v3 (new_of k)) with ((alpha + rsum (fun p => w k p * (p_y p - g_my (new_of k)) * (p_y p - g_my (new_of k))) L) / (W k + alpha)). field. auto.
      + intros p Ip N. unfold g. fold c. unfold w in N. fold c in N. unfold cutvalue in *. destruct (Rle_dec 100 (away c p)); [|reflexivity]. exfalso. apply N. unfold Rdiv. ring.
    - intros p Ip. rewrite TG. reflexivity. }
  assert (SUM := rsum_le _ _ _ CG). rewrite rsum_add, rsum_mul in SUM.
  rewrite (rsum_ext (fun k => (ln (vdet (new_of k)) + (g_v0 (new_of k) + g_v3 (new_of k)) / vdet (new_of k)) - (ln (vdet (nth k cs g0)) + (g_v0 (nth k cs g0) + g_v3 (nth k cs g0)) / vdet (nth k cs g0))) (fun k => (ln (vdet (new_of k)) + (g_v0 (new_of k) + g_v3 (new_of k)) / vdet (new_of k)) + (-1) * (ln (vdet (nth k cs g0)) + (g_v0 (nth k cs g0) + g_v3 (nth k cs g0)) / vdet (nth k cs g0)))) in SUM by (intros; ring).
  rewrite rsum_add, rsum_mul in SUM.
  assert (PO : rsum (fun k => ln (vdet (nth k cs g0)) + (g_v0 (nth k cs g0) + g_v3 (nth k cs g0)) / vdet (nth k cs g0)) ks = rsum (fun c => ln (vdet c) + (g_v0 c + g_v3 c) / vdet c) cs) by (symmetry; apply (rsum_nth g0 (fun c => ln (vdet c) + (g_v0 c + g_v3 c) / vdet c) cs)). rewrite PO in SUM.
  assert (PN : rsum (fun k => ln (vdet (new_of k)) + (g_v0 (new_of k) + g_v3 (new_of k)) / vdet (new_of k)) ks = rsum (fun c => ln (vdet c) + (g_v0 c + g_v3 c) / vdet c) cs') by (rewrite EN, rsum_map; reflexivity).
  rewrite PN in SUM.
  (* proportions *)
  assert (KP : 0 < rsum W ks). { unfold ks. pose proof (rsum_in_le W (seq 0 (length cs)) 0%nat) as H. specialize (H ltac:(intros j J; apply in_seq in J; apply Rlt_le, HW; lia) ltac:(apply in_seq; lia)). pose proof (HW 0%nat ltac:(exact N0)). lra. }
  pose proof (gibbs ks W (fun k => g_amp (nth k cs g0))) as GB. specialize (GB ltac:(intros k I; apply Rlt_le, HW; auto) ltac:(intros k I; apply Rlt_le, k_good; auto) ltac:(intros k I _; apply k_good; auto) KP).
  assert (AO : rsum (fun k => g_amp (nth k cs g0)) ks = flux cs) by (symmetry; apply (rsum_nth g0 g_amp cs)). assert (WT : rsum W ks = flux cs') by (rewrite flux_new; apply W_total).
  rewrite AO, WT in GB.
  assert (FP : 0 < flux cs') by (rewrite <- WT; exact KP). assert (FQ : 0 < flux cs) by (apply flux_pos; auto).
  (* the log likelihoods *)
  assert (LL : loglik L cs' - cutlik L cs = rsum (fun p => p_img p * (ln (rsum (fun k => f k p) ks) - ln (rsum (fun k => g k p) ks))) L - flux cs' * (ln (flux cs') - ln (flux cs))).
  { unfold loglik, cutlik. rewrite (rsum_ext (fun p => p_img p * ln (total cs' p / flux cs')) (fun p => p_img p * (ln (rsum (fun k => f k p) ks) - ln (rsum (fun k => g k p) ks)) + ((- (ln (flux cs') - ln (flux cs))) * p_img p + p_img p * ln (cuttotal cs p / flux cs)))).
    - rewrite !rsum_add, rsum_mul, <- flux_new. ring.
    - intros p I. rewrite TF, TG. destruct (L_in p I) as [Ip T]. assert (0 < total cs' p). { rewrite <- TF. pose proof (rsum_in_le (fun k => f k p) ks 0%nat) as H. assert (I0 : In 0%nat ks) by (apply in_seq; lia). specialize (H ltac:(intros j J; apply Rlt_le, value_pos; auto) I0). pose proof (value_pos (new_of 0%nat) p (GN 0%nat I0)). unfold f in H at 1. lra. }
      unfold Rdiv. rewrite !ln_mult, !ln_Rinv; auto using Rinv_0_lt_compat. ring. }
  unfold penalty. lra.
Qed.
End Step2.

(** ** C72: the fits never get worse *)
(** Every pixel is within ten standard deviations of every component. *)
Definition near (ps : list pix) (cs : list gcomp) : Prop := forall c p, In c cs -> In p ps -> away c p < 100.
Definition objective (alpha : R) (ps : list pix) (cs : list gcomp) : R := loglik ps cs - penalty alpha cs.
Lemma near_reached ps cs : cs <> [] -> near ps cs -> filter (reached cs) ps = ps.
Proof.
  intros N H. assert (E : forall p, In p ps -> reached cs p = true).
  { intros p I. destruct cs as [|c r]; [congruence|]. unfold reached. cbn. destruct (Rlt_dec (away c p) 100) as [L|L]; [reflexivity|]. exfalso. apply L, H; [left|]; auto. }
  clear H. induction ps as [|p ps IH]; [reflexivity|]. cbn. rewrite E by (left; auto). f_equal. apply IH. intros; apply E; right; auto.
Qed.
Lemma near_cutlik ps cs : near ps cs -> cutlik ps cs = loglik ps cs.
Proof.
  intros H. unfold cutlik, loglik. apply rsum_ext. intros p I. f_equal. f_equal. f_equal. unfold cuttotal, total. apply rsum_ext. intros c Ic. unfold cutvalue.
  destruct (Rle_dec 100 (away c p)) as [L|L]; [|reflexivity]. pose proof (H c p Ic I). lra.
Qed.
(** One step: over the pixels that are within ten standard deviations of some
    component, the fit after the step is no worse than the cut-off mixture before. *)
Theorem C72_step alpha ps cs cs' : step2 alpha ps cs = Done cs' -> 0 <= alpha -> (forall p, In p ps -> 0 <= p_img p) -> cs <> [] -> Forall good cs -> Forall good cs' ->
  let r := filter (reached cs) ps in cutlik r cs - penalty alpha cs <= objective alpha r cs'.
Proof. intros H A I N G G' r. apply step2_gain; auto. Qed.
Theorem C72_flux alpha ps cs cs' : step2 alpha ps cs = Done cs' -> 0 <= alpha -> (forall p, In p ps -> 0 <= p_img p) -> Forall good cs ->
  length cs' = length cs /\ flux cs' = rsum p_img (filter (reached cs) ps) /\
  (forall c, In c cs' -> 0 < g_amp c /\ g_v2 c = g_v1 c /\ 0 <= g_v0 c /\ 0 <= g_v3 c /\ 0 <= vdet c) /\ (0 < alpha -> Forall good cs').
Proof.
  intros H A I G. pose proof (new_psd alpha ps cs cs' H I G A) as P. pose proof (step2_new alpha ps cs cs' H I G) as [E W].
  split; [eapply new_len; eauto|]. split; [eapply flux_new; eauto|]. split.
  - intros c Ic. rewrite E in Ic. apply in_map_iff in Ic. destruct Ic as (k & <- & K). apply in_seq in K. specialize (P k ltac:(lia)). cbv zeta in P. destruct P as (P1 & P2 & P3 & P4 & P5 & _). repeat split; auto. rewrite P1. apply W. lia.
  - intros A0. rewrite Forall_forall. intros c Ic. rewrite E in Ic. apply in_map_iff in Ic. destruct Ic as (k & <- & K). apply in_seq in K. apply P; auto. lia.
Qed.
Lemma step2_done alpha ps cs : 0 <= alpha -> (forall p, In p ps -> 0 <= p_img p) -> (exists p, In p ps /\ 0 < p_img p) -> Forall good cs -> near ps cs -> exists cs', step2 alpha ps cs = Done cs'.
Proof.
  intros A I (q & Iq & Q) G NR. unfold step2.
  assert (E : existsb (fun c => rleb (det2 c) 0) cs = false).
  { apply not_true_is_false. intros B. apply existsb_exists in B. destruct B as (c & Ic & B). rewrite Forall_forall in G. rewrite (det2_good c (G c Ic)) in B. unfold rleb in B. destruct (Rle_dec (vdet c) 0); [|discriminate]. pose proof (G c Ic) as (? & ? & ? & ?). lra. }
  rewrite E. destruct (existsb _ (seq 0 (length cs))) eqn:F; [|eexists; reflexivity]. exfalso. apply existsb_exists in F. destruct F as (k & K & F). apply in_seq in K. assert (K1 : (k < length cs)%nat) by lia.
  assert (W0 : 0 < rsum (w2 cs k) ps).
  { assert (NE : cs <> []) by (intros ->; cbn in K1; lia).
    assert (WN : forall p, In p ps -> 0 <= w2 cs k p). { intros p Ip. rewrite (w2_good cs p k G K1). pose proof (reached_pos cs p G) as RP. destruct (reached cs p); [|lra]. apply Rmult_le_pos; auto. apply Rmult_le_pos; [|apply Rlt_le, Rinv_0_lt_compat; auto]. apply cutvalue_nonneg. rewrite Forall_forall in G. apply G, nth_In; auto. }
    pose proof (rsum_in_le (w2 cs k) ps q WN Iq) as LE. enough (0 < w2 cs k q) by lra. rewrite (w2_good cs q k G K1). pose proof (reached_pos cs q G) as RP.
    assert (RQ : reached cs q = true). { pose proof (near_reached ps cs NE NR) as NF. rewrite <- NF in Iq. apply filter_In in Iq. apply Iq. } rewrite RQ in *.
    assert (IK : In (nth k cs g0) cs) by (apply nth_In; auto). apply Rmult_lt_0_compat; auto. apply Rmult_lt_0_compat; [|apply Rinv_0_lt_compat; auto]. unfold cutvalue. pose proof (NR _ q IK Iq). destruct (Rle_dec 100 (away (nth k cs g0) q)); [lra|]. apply value_pos. rewrite Forall_forall in G. auto. }
  apply orb_true_iff in F. unfold reqb in F. destruct F as [F|F]; destruct (Req_EM_T _ 0) as [Z|Z] in F; try discriminate; lra.
Qed.
Lemma step2_climb alpha ps cs cs' : step2 alpha ps cs = Done cs' -> 0 < alpha -> (forall p, In p ps -> 0 <= p_img p) -> cs <> [] -> Forall good cs -> near ps cs ->
  Forall good cs' /\ cs' <> [] /\ flux cs' = rsum p_img ps /\ objective alpha ps cs <= objective alpha ps cs'.
Proof.
  intros H A I N G NR. assert (A0 : 0 <= alpha) by lra. destruct (C72_flux alpha ps cs cs' H A0 I G) as (L & F & _ & GG). specialize (GG A).
  pose proof (C72_step alpha ps cs cs' H A0 I N G GG) as S. cbv zeta in S. rewrite (near_reached ps cs N NR) in *. rewrite (near_cutlik ps cs NR) in S. repeat split; auto.
  intros ->. destruct cs; [congruence|discriminate].
Qed.
(** Whole fits. *)
Theorem C72_climb alpha ps n cs : 0 < alpha -> (forall p, In p ps -> 0 <= p_img p) -> (exists p, In p ps /\ 0 < p_img p) -> cs <> [] -> Forall good cs ->
  (forall j a, (j < n)%nat -> fit2 alpha ps j cs = Done a -> near ps a) ->
  exists b, fit2 alpha ps n cs = Done b /\ Forall good b /\ length b = length cs /\ (n <> 0%nat -> flux b = rsum p_img ps) /\ objective alpha ps cs <= objective alpha ps b.
Proof.
  intros A I Q. revert cs. induction n as [|n IH]; intros cs N G V.
  - exists cs. repeat split; auto; [congruence|lra].
  - pose proof (V 0%nat cs ltac:(lia) eq_refl) as V0. destruct (step2_done alpha ps cs ltac:(lra) I Q G V0) as (c1 & H1). destruct (step2_climb alpha ps cs c1 H1 A I N G V0) as (G1 & N1 & F1 & O1).
    destruct (IH c1 N1 G1) as (b & HB & GB & LB & FB & OB).
    { intros j a J E. apply (V (S j) a ltac:(lia)). unfold fit2 in *. cbn [iterate]. rewrite H1. exact E. }
    exists b. unfold fit2 in *. cbn [iterate]. rewrite H1. assert (L1 : length c1 = length cs) by (eapply C72_flux; eauto; lra). repeat split; auto; try lra; [congruence|]. intros _. destruct n as [|n]; [|apply FB; congruence]. cbn in HB. injection HB as <-. exact F1.
Qed.

(** The M step: with its shares of the flux as weights, a component gets the best
    centre and variance of all. *)
Definition fitness (alpha : R) (w : pix -> R) (l : list pix) (mx my v0 v1 v3 : R) : R :=
  rsum (fun p => w p * ln (normal mx my v0 v1 v3 (p_x p) (p_y p))) l - alpha / 2 * (ln (v0 * v3 - v1 * v1) + (v0 + v3) / (v0 * v3 - v1 * v1)).
Theorem C72_best alpha ps cs cs' k : step2 alpha ps cs = Done cs' -> 0 <= alpha -> (forall p, In p ps -> 0 <= p_img p) -> Forall good cs -> Forall good cs' -> (k < length cs)%nat ->
  let l := filter (reached cs) ps in let w p := p_img p * (cutvalue (nth k cs g0) p / cuttotal cs p) in let c := nth k cs' g0 in
  g_amp c = rsum w l /\ forall mx my v0 v1 v3, 0 < v0 -> 0 < v0 * v3 - v1 * v1 -> fitness alpha w l mx my v0 v1 v3 <= fitness alpha w l (g_mx c) (g_my c) (g_v0 c) (g_v1 c) (g_v3 c).
Proof.
  intros H A I G G' K l w c. pose proof (nth_new alpha ps cs cs' H I G k K) as E. pose proof (step2_new alpha ps cs cs' H I G) as [_ HW]. specialize (HW k K). fold l w in HW.
  assert (GC : good c) by (rewrite Forall_forall in G'; apply G', nth_In; rewrite (new_len alpha ps cs cs' H I G); auto). destruct GC as (B1 & B2 & B3 & B4). unfold c in *. rewrite E in *. split; [reflexivity|].
  intros mx my v0 v1 v3 V0 DV. set (n := new_of alpha ps cs k) in *. assert (NZ : rsum w l + alpha <> 0) by lra.
  pose proof (gauss_step l w p_x p_y alpha 0 mx my v0 v1 v3 (g_mx n) (g_my n) (g_v0 n) (g_v1 n) (g_v3 n)) as GS. cbv zeta in GS. specialize (GS HW A ltac:(lra) V0 DV B3 B4 eq_refl eq_refl).
  assert (GS' : alpha / 2 * (ln (g_v0 n * g_v3 n - g_v1 n * g_v1 n) + (g_v0 n + g_v3 n) / (g_v0 n * g_v3 n - g_v1 n * g_v1 n) - (ln (v0 * v3 - v1 * v1) + (v0 + v3) / (v0 * v3 - v1 * v1))) <= rsum (fun t => w t * (ln (normal (g_mx n) (g_my n) (g_v0 n) (g_v1 n) (g_v3 n) (p_x t) (p_y t)) - ln (normal mx my v0 v1 v3 (p_x t) (p_y t)))) l).
  { apply GS.
    - change (g_v0 n) with ((alpha + rsum (fun p => w p * (p_x p - g_mx n) * (p_x p - g_mx n)) l) / (rsum w l + alpha)). field. auto.
    - change (g_v1 n) with ((0 + rsum (fun p => w p * (p_x p - g_mx n) * (p_y p - g_my n)) l) / (rsum w l + alpha)). field. auto.
    - change (g_v3 n) with ((alpha + rsum (fun p => w p * (p_y p - g_my n) * (p_y p - g_my n)) l) / (rsum w l + alpha)). field. auto. }
  rewrite (rsum_ext _ (fun t => w t * ln (normal (g_mx n) (g_my n) (g_v0 n) (g_v1 n) (g_v3 n) (p_x t) (p_y t)) + (-1) * (w t * ln (normal mx my v0 v1 v3 (p_x t) (p_y t))))) in GS' by (intros; ring). rewrite rsum_add, rsum_mul in GS'. unfold fitness. lra.
Qed.

(** ** C73: with a constant sky *)
(** Components are cut off where their profile of unit flux is below [approx]. *)
Definition lowvalue (approx : R) (c : gcomp) (p : pix) : R := if Rlt_dec 0 approx then (if Rle_dec (shape c p) approx then 0 else value c p) else value c p.
Definition lowtotal (approx : R) (cs : list gcomp) (p : pix) : R := rsum (fun c => lowvalue approx c p) cs.
(** Pixels with flux are data for the mixture with sky; the others are sky with the
    absolute value of their flux. *)
Definition allflux (n : nat) (cs : list gcomp) (psky : R) : R := flux cs + psky * INR n.
Definition skylik (model : pix -> R) (ps : list pix) (cs : list gcomp) (psky : R) : R :=
  rsum (fun p => if Rlt_dec 0 (p_img p) then p_img p * ln ((model p + psky) / allflux (length ps) cs psky) else Rabs (p_img p) * ln (psky / allflux (length ps) cs psky)) ps.

Lemma det3_good c : good c -> det3 c = vdet c.
Proof. intros (A & B & C & D). unfold det3, v12, vdet. rewrite B. field. Qed.
Lemma dsq3_good c p : good c -> dsq3 c p = away c p.
Proof. intros G. pose proof G as (A & B & C & D). unfold dsq3, away, quad. rewrite (det3_good c G). unfold v12. rewrite B. fold (vdet c). field. lra. Qed.
Lemma far_good approx c p : good c -> far approx c p = if Rlt_dec 0 approx then (if Rle_dec (shape c p) approx then true else false) else false.
Proof.
  intros G. pose proof G as (A & B & C & D). unfold far, rltb, rleb. rewrite (dsq3_good c p G), (det3_good c G), (sqrt_tpd _ D). destruct (Rlt_dec 0 approx) as [P|P]; [|reflexivity]. cbn [andb].
  assert (S0 : 0 < 2 * PI * sqrt (vdet c)) by (apply Rmult_lt_0_compat; [pose proof PI_RGT_0; lra|apply sqrt_lt_R0; auto]).
  assert (L : ln (shape c p) = - away c p / 2 - ln (2 * PI * sqrt (vdet c))).
  { unfold shape. rewrite (ln_normal _ _ _ _ _ _ _ D). fold (vdet c) (away c p). rewrite (ln_mult (2 * PI) (sqrt (vdet c))), (ln_sqrt _ D); [lra|pose proof PI_RGT_0; lra|apply sqrt_lt_R0; auto]. }
  rewrite (ln_mult approx (2 * PI * sqrt (vdet c)) P S0). pose proof (shape_pos c p G) as SP. replace ((ln approx + ln (2 * PI * sqrt (vdet c))) / - (1 / 2)) with (-2 * (ln approx + ln (2 * PI * sqrt (vdet c)))) by field.
  destruct (Rle_dec (shape c p) approx) as [Q|Q]; destruct (Rle_dec _ (away c p)) as [Q'|Q']; auto; exfalso.
  - apply Q'. assert (LE : ln (shape c p) <= ln approx). { destruct (Rle_lt_or_eq_dec _ _ Q) as [Q1|Q1]; [apply Rlt_le, ln_increasing; auto|rewrite Q1; lra]. } rewrite L in LE. lra.
  - assert (LT : ln approx < ln (shape c p)) by (apply ln_increasing; lra). rewrite L in LT. lra.
Qed.
Lemma z3_good approx c p : good c -> z3 approx p c = lowvalue approx c p.
Proof.
  intros G. pose proof G as (A & B & C & D). unfold z3, lowvalue. rewrite (far_good approx c p G). assert (V : g_amp c / sqrt (tpd * det3 c) * exp (- (1 / 2) * dsq3 c p) = value c p).
  { unfold value, shape, normal. rewrite (det3_good c G), (dsq3_good c p G), (sqrt_tpd _ D). fold (vdet c) (away c p). replace (- (1 / 2) * away c p) with (- away c p / 2) by lra.
    assert (0 < sqrt (vdet c)) by (apply sqrt_lt_R0; auto). pose proof PI_RGT_0. field. split; lra. }
  rewrite V. destruct (Rlt_dec 0 approx); [|reflexivity]. destruct (Rle_dec (shape c p) approx); reflexivity.
Qed.
Lemma lowvalue_nonneg approx c p : good c -> 0 <= lowvalue approx c p.
Proof. intros G. pose proof (value_pos c p G). unfold lowvalue. destruct (Rlt_dec 0 approx); [|lra]. destruct (Rle_dec (shape c p) approx); lra. Qed.
Lemma lowvalue_or approx c p : lowvalue approx c p = 0 \/ lowvalue approx c p = value c p.
Proof. unfold lowvalue. destruct (Rlt_dec 0 approx); [|auto]. destruct (Rle_dec (shape c p) approx); auto. Qed.
Lemma lowtotal_nonneg approx cs p : Forall good cs -> 0 <= lowtotal approx cs p.
Proof. intros G. rewrite Forall_forall in G. apply rsum_nonneg. intros; apply lowvalue_nonneg; auto. Qed.
Lemma zsum3_good approx cs p : Forall good cs -> zsum3 approx cs p = lowtotal approx cs p.
Proof. intros G. rewrite Forall_forall in G. unfold zsum3, lowtotal. rewrite rsum_map. apply rsum_ext. intros; apply z3_good; auto. Qed.
Definition lit (p : pix) : bool := if Rlt_dec 0 (p_img p) then true else false.
Lemma lowvalue_zero approx cs p c : Forall good cs -> lowtotal approx cs p = 0 -> In c cs -> lowvalue approx c p = 0.
Proof.
  intros G Z I. rewrite Forall_forall in G. pose proof (rsum_in_le (fun c => lowvalue approx c p) cs c ltac:(intros; apply lowvalue_nonneg; auto) I) as H. cbn in H. unfold lowtotal in Z. pose proof (lowvalue_nonneg approx c p (G c I)). lra.
Qed.
Lemma w3_good approx psky cs k p : Forall good cs -> 0 < psky -> (k < length cs)%nat ->
  w3 approx psky cs k p = if lit p then p_img p * (lowvalue approx (nth k cs g0) p / (lowtotal approx cs p + psky)) else 0.
Proof.
  intros G P K. unfold w3, lit, rleb. destruct (Rlt_dec 0 (p_img p)) as [Q|Q]; destruct (Rle_dec (p_img p) 0) as [Q'|Q']; try lra; auto.
  rewrite (zsum3_good approx cs p G). pose proof (lowtotal_nonneg approx cs p G) as T0. assert (I : In (nth k cs g0) cs) by (apply nth_In; auto).
  unfold reqb. destruct (Req_EM_T (lowtotal approx cs p) 0) as [Z|Z].
  - rewrite (lowvalue_zero approx cs p _ G Z I). unfold Rdiv. ring.
  - rewrite (nth_indep _ 0 (z3 approx p g0)) by (rewrite map_length; auto). rewrite (map_nth (z3 approx p)), z3_good; [unfold Rdiv; ring|]. rewrite Forall_forall in G. auto.
Qed.
Lemma skyshare_good approx psky cs p : Forall good cs -> 0 < psky ->
  skyshare approx psky cs p = if lit p then p_img p * (psky / (lowtotal approx cs p + psky)) else Rabs (p_img p).
Proof.
  intros G P. unfold skyshare, lit, rleb. destruct (Rlt_dec 0 (p_img p)) as [Q|Q]; destruct (Rle_dec (p_img p) 0) as [Q'|Q']; try lra; auto.
  rewrite (zsum3_good approx cs p G). unfold reqb. destruct (Req_EM_T (lowtotal approx cs p) 0) as [Z|Z]; [|reflexivity]. rewrite Z. field. lra.
Qed.
Lemma rsum_split {A} (f g : A -> R) (b : A -> bool) l : rsum (fun a => if b a then f a else g a) l = rsum f (filter b l) + rsum g (filter (fun a => negb (b a)) l).
Proof. induction l as [|a l IH]; cbn; [ring|]. destruct (b a); cbn; unfold rsum in *; rewrite IH; ring. Qed.

Section Step3.
Variables (alpha approx : R) (ps : list pix) (cs cs' : list gcomp) (psky psky' : R).
Hypothesis Step : step3 alpha approx ps (cs, psky) = Done (cs', psky').
Hypothesis Good : Forall good cs.
Hypothesis Alpha : 0 <= alpha.
Hypothesis Sky : 0 < psky.
Let L := filter lit ps.
Let M := filter (fun p => negb (lit p)) ps.
Let N := INR (length ps).
Let tot p := lowtotal approx cs p + psky.
Let w k p := p_img p * (lowvalue approx (nth k cs g0) p / tot p).
Let W k := rsum (w k) L.
Lemma L3_in p : In p L -> In p ps /\ 0 < p_img p.
Proof. intros I. apply filter_In in I. destruct I as [I R]. unfold lit in R. destruct (Rlt_dec 0 (p_img p)); [auto|discriminate]. Qed.
Lemma k3_good k : (k < length cs)%nat -> good (nth k cs g0).
Proof. intros K. rewrite Forall_forall in Good. apply Good, nth_In; auto. Qed.
Lemma tot_pos p : 0 < tot p.
Proof. pose proof (lowtotal_nonneg approx cs p Good). unfold tot. lra. Qed.
Lemma w3_nonneg k p : (k < length cs)%nat -> In p L -> 0 <= w k p.
Proof.
  intros K I. destruct (L3_in p I) as [Ip T]. unfold w. apply Rmult_le_pos; [lra|]. apply Rmult_le_pos; [apply lowvalue_nonneg, k3_good; auto|apply Rlt_le, Rinv_0_lt_compat, tot_pos].
Qed.
Lemma w3_sum k (f : pix -> R) : (k < length cs)%nat -> rsum (fun p => w3 approx psky cs k p * f p) ps = rsum (fun p => w k p * f p) L.
Proof. intros K. unfold L. rewrite <- rsum_filter. apply rsum_ext. intros p I. rewrite (w3_good approx psky cs k p Good Sky K). destruct (lit p); [reflexivity|ring]. Qed.
Lemma w3_wsum k : (k < length cs)%nat -> rsum (w3 approx psky cs k) ps = W k.
Proof.
  intros K. unfold W. rewrite (rsum_ext (w3 approx psky cs k) (fun p => w3 approx psky cs k p * 1)) by (intros; ring). rewrite (rsum_ext (w k) (fun p => w k p * 1)) by (intros; ring). apply w3_sum; auto.
Qed.
Lemma w3_sum2 k (f g : pix -> R) : (k < length cs)%nat -> rsum (fun p => w3 approx psky cs k p * f p * g p) ps = rsum (fun p => w k p * f p * g p) L.
Proof.
  intros K. rewrite (rsum_ext _ (fun p => w3 approx psky cs k p * (f p * g p))) by (intros; ring). rewrite (w3_sum k (fun p => f p * g p) K). apply rsum_ext. intros; ring.
Qed.
Definition new3_of (k : nat) : gcomp :=
  let c := nth k cs g0 in
  let v a f g := (a + rsum (fun p => w k p * f p * g p) L) / (W k + alpha) in
  let dx p := p_x p - g_mx c in
  let dy p := p_y p - g_my c in
  mkG (W k) (rsum (fun p => w k p * p_x p) L / W k) (rsum (fun p => w k p * p_y p) L / W k) (v alpha dx dx) (v 0 dx dy) (v 0 dx dy) (v alpha dy dy).
Lemma step3_new : cs' = map new3_of (seq 0 (length cs)) /\ psky' = (rsum (fun p => p_img p * (psky / tot p)) L + rsum (fun p => Rabs (p_img p)) M) / N /\ forall k, (k < length cs)%nat -> 0 < W k.
Proof.
  pose proof Step as H. unfold step3 in H. destruct (existsb _ cs); [discriminate|]. destruct (existsb _ (seq 0 (length cs))) eqn:E; [discriminate|].
  assert (HW : forall k, (k < length cs)%nat -> 0 < W k).
  { intros k K. pose proof (existsb_false _ _ E k ltac:(apply in_seq; lia)) as B. apply orb_false_iff in B. destruct B as [B _]. apply reqb_false in B. rewrite (w3_wsum k K) in B.
    assert (0 <= W k) by (apply rsum_nonneg; intros p I; apply w3_nonneg; auto). lra. }
  injection H as H1 H2. split; [|split; auto].
  - rewrite <- H1. apply map_ext_in. intros k I. apply in_seq in I. assert (K : (k < length cs)%nat) by lia.
    unfold new3_of. fold g0. rewrite !(w3_sum2 k _ _ K), (w3_wsum k K), !(w3_sum k _ K). reflexivity.
  - rewrite <- H2. unfold N. f_equal. unfold L, M. rewrite <- rsum_split. apply rsum_ext. intros p I. apply skyshare_good; auto.
Qed.
Lemma new3_len : length cs' = length cs.
Proof. rewrite (proj1 step3_new), map_length, seq_length. reflexivity. Qed.
Lemma nth_new3 k : (k < length cs)%nat -> nth k cs' g0 = new3_of k.
Proof.
  intros K. rewrite (proj1 step3_new). rewrite (nth_indep _ g0 (new3_of 0)) by (rewrite map_length, seq_length; auto). rewrite (map_nth new3_of), seq_nth by auto. reflexivity.
Qed.
Lemma new3_psd k : (k < length cs)%nat -> let c := new3_of k in g_amp c = W k /\ g_v2 c = g_v1 c /\ 0 <= g_v0 c /\ 0 <= g_v3 c /\ 0 <= vdet c /\ (0 < alpha -> good c).
Proof.
  intros K c. pose proof (proj2 (proj2 step3_new) k K) as W0. set (nx := g_mx (nth k cs g0)). set (ny := g_my (nth k cs g0)).
  set (X := rsum (fun p => w k p * (p_x p - nx) * (p_x p - nx)) L). set (Y := rsum (fun p => w k p * (p_x p - nx) * (p_y p - ny)) L). set (Z := rsum (fun p => w k p * (p_y p - ny) * (p_y p - ny)) L).
  assert (WN : forall p, In p L -> 0 <= w k p) by (intros; apply w3_nonneg; auto).
  assert (X0 : 0 <= X) by (apply rsum_nonneg; intros p I; rewrite Rmult_assoc; apply Rmult_le_pos; [auto|apply (Rle_0_sqr (p_x p - nx))]). assert (Z0 : 0 <= Z) by (apply rsum_nonneg; intros p I; rewrite Rmult_assoc; apply Rmult_le_pos; [auto|apply (Rle_0_sqr (p_y p - ny))]).
  pose proof (cauchy L (w k) (fun p => p_x p - nx) (fun p => p_y p - ny) WN) as CS. fold X Y Z in CS.
  assert (E0 : g_v0 c = (alpha + X) / (W k + alpha)) by reflexivity. assert (E1 : g_v1 c = (0 + Y) / (W k + alpha)) by reflexivity. assert (E3 : g_v3 c = (alpha + Z) / (W k + alpha)) by reflexivity.
  assert (IW : 0 < / (W k + alpha)) by (apply Rinv_0_lt_compat; lra).
  assert (ED : vdet c = ((alpha + X) * (alpha + Z) - Y * Y) * (/ (W k + alpha) * / (W k + alpha))) by (unfold vdet; rewrite E0, E1, E3; unfold Rdiv; ring).
  assert (I2 : 0 < / (W k + alpha) * / (W k + alpha)) by (apply Rmult_lt_0_compat; auto).
  repeat split.
  - rewrite E0. apply Rmult_le_pos; lra.
  - rewrite E3. apply Rmult_le_pos; lra.
  - rewrite ED. apply Rmult_le_pos; [|lra]. apply (ridge alpha X Y Z); auto.
  - exact W0.
  - rewrite E0. apply Rmult_lt_0_compat; lra.
  - rewrite ED. apply Rmult_lt_0_compat; [|lra]. apply (ridge alpha X Y Z); auto.
Qed.
Lemma w3_total p : In p L -> rsum (fun k => w k p) (seq 0 (length cs)) + p_img p * (psky / tot p) = p_img p.
Proof.
  intros I. pose proof (tot_pos p) as T. unfold w. rewrite (rsum_ext _ (fun k => (p_img p / tot p) * lowvalue approx (nth k cs g0) p)) by (intros; unfold Rdiv; ring).
  rewrite rsum_mul. rewrite <- (rsum_nth g0 (fun c => lowvalue approx c p) cs). fold (lowtotal approx cs p). unfold tot in *. field. lra.
Qed.
Lemma flux3_new : ps <> [] -> allflux (length ps) cs' psky' = rsum (fun p => Rabs (p_img p)) ps.
Proof.
  intros NE. destruct step3_new as (E & S & HW). assert (N0 : 0 < N) by (unfold N; apply lt_0_INR; clear - NE; destruct ps; [congruence|cbn; lia]).
  unfold allflux, flux. rewrite S. fold N. replace ((rsum (fun p => p_img p * (psky / tot p)) L + rsum (fun p => Rabs (p_img p)) M) / N * N) with (rsum (fun p => p_img p * (psky / tot p)) L + rsum (fun p => Rabs (p_img p)) M) by (field; lra).
  rewrite E, rsum_map. change (rsum (fun a => g_amp (new3_of a)) (seq 0 (length cs))) with (rsum W (seq 0 (length cs))). unfold W. rewrite (rsum_swap w).
  rewrite <- Rplus_assoc, <- rsum_add. rewrite (rsum_ext _ (fun p => Rabs (p_img p))).
  - unfold L, M. rewrite <- rsum_split. apply rsum_ext. intros p I. destruct (lit p); reflexivity.
  - intros p I. rewrite (w3_total p I). symmetry. apply Rabs_right. apply L3_in in I. lra.
Qed.
Lemma sky_pos : (exists p, In p ps /\ p_img p <> 0) -> 0 < psky'.
Proof.
  intros (q & Iq & Q). destruct step3_new as (E & S & HW). assert (N0 : 0 < N) by (unfold N; apply lt_0_INR; clear - Iq; destruct ps; [destruct Iq|cbn; lia]).
  rewrite S. apply Rmult_lt_0_compat; [|apply Rinv_0_lt_compat; auto]. unfold L, M. rewrite <- rsum_split.
  assert (NN : forall p, In p ps -> 0 <= (if lit p then p_img p * (psky / tot p) else Rabs (p_img p))).
  { intros p _. unfold lit. destruct (Rlt_dec 0 (p_img p)); [|apply Rabs_pos]. apply Rmult_le_pos; [lra|]. apply Rmult_le_pos; [lra|apply Rlt_le, Rinv_0_lt_compat, tot_pos]. }
  pose proof (rsum_in_le _ ps q NN Iq) as LE. eapply Rlt_le_trans; [|exact LE]. cbv beta. unfold lit. destruct (Rlt_dec 0 (p_img q)); [|apply Rabs_pos_lt; auto].
  apply Rmult_lt_0_compat; auto. apply Rmult_lt_0_compat; auto. apply Rinv_0_lt_compat, tot_pos.
Qed.

Hypothesis Good' : Forall good cs'.
Hypothesis Sky' : 0 < psky'.
Hypothesis Pixels : ps <> [].
Lemma step3_gain : skylik (lowtotal approx cs) ps cs psky - penalty alpha cs <= skylik (total cs') ps cs' psky' - penalty alpha cs'.
Proof.
  set (K := length cs). set (ks := seq 0 K). destruct step3_new as (EN & ES & HW).
  assert (N0 : 0 < N) by (unfold N; apply lt_0_INR; clear - Pixels; destruct ps; [congruence|cbn; lia]).
  assert (KS : forall k, In k ks -> (k < K)%nat) by (intros k I; apply in_seq in I; lia).
  assert (GN : forall k, In k ks -> good (new3_of k)). { intros k I. rewrite <- (nth_new3 k (KS k I)). rewrite Forall_forall in Good'. apply Good', nth_In. rewrite new3_len. auto. }
  set (g := fun k p => if (k =? K)%nat then psky else lowvalue approx (nth k cs g0) p). set (f := fun k p => if (k =? K)%nat then psky' else value (new3_of k) p).
  assert (NK : forall k, In k ks -> (k =? K)%nat = false) by (intros k I; apply Nat.eqb_neq; pose proof (KS k I); lia).
  assert (TG : forall p, rsum (fun k => g k p) (K :: ks) = tot p).
  { intros p. change (g K p + rsum (fun k => g k p) ks = tot p). unfold g at 1. rewrite Nat.eqb_refl. rewrite (rsum_ext (fun k => g k p) (fun k => lowvalue approx (nth k cs g0) p)) by (intros k I; unfold g; rewrite (NK k I); reflexivity).
    unfold ks, K. rewrite <- (rsum_nth g0 (fun c => lowvalue approx c p) cs). unfold tot, lowtotal. ring. }
  assert (TF : forall p, rsum (fun k => f k p) (K :: ks) = total cs' p + psky').
  { intros p. change (f K p + rsum (fun k => f k p) ks = total cs' p + psky'). unfold f at 1. rewrite Nat.eqb_refl. rewrite (rsum_ext (fun k => f k p) (fun k => value (new3_of k) p)) by (intros k I; unfold f; rewrite (NK k I); reflexivity).
    unfold total. rewrite EN, rsum_map. fold K ks. ring. }
  pose proof (em_total L p_img (K :: ks) g f) as EM.
  assert (GNN : forall k p, In k (K :: ks) -> In p L -> 0 <= g k p) by (intros k p [<-|I] _; unfold g; [rewrite Nat.eqb_refl; lra|rewrite (NK k I); apply lowvalue_nonneg, k3_good, KS; auto]).
  assert (FPP : forall k p, In k (K :: ks) -> In p L -> 0 < f k p) by (intros k p [<-|I] _; unfold f; [rewrite Nat.eqb_refl; lra|rewrite (NK k I); apply value_pos; auto]).
  specialize (EM ltac:(intros p I; apply L3_in in I; lra) GNN ltac:(intros k p I J; apply Rlt_le; auto) ltac:(intros k p I J _; auto) ltac:(intros p I; rewrite TG; apply tot_pos)).
  match type of EM with rsum ?h _ <= _ => change (h K + rsum h ks <= rsum (fun t => p_img t * (ln (rsum (fun k => f k t) (K :: ks)) - ln (rsum (fun k => g k t) (K :: ks)))) L) in EM end. cbv beta in EM.
  assert (SK : rsum (fun p => p_img p * (g K p / rsum (fun k => g k p) (K :: ks)) * (ln (f K p) - ln (g K p))) L = (ln psky' - ln psky) * rsum (fun p => p_img p * (psky / tot p)) L).
  { rewrite <- rsum_mul. apply rsum_ext. intros p I. rewrite TG. unfold f, g. rewrite Nat.eqb_refl. ring. }
  rewrite SK in EM.
  assert (CG : forall k, In k ks -> W k * (ln (W k) - ln (g_amp (nth k cs g0))) + alpha / 2 * ((ln (vdet (new3_of k)) + (g_v0 (new3_of k) + g_v3 (new3_of k)) / vdet (new3_of k)) - (ln (vdet (nth k cs g0)) + (g_v0 (nth k cs g0) + g_v3 (nth k cs g0)) / vdet (nth k cs g0)))
     <= rsum (fun p => p_img p * (g k p / rsum (fun k => g k p) (K :: ks)) * (ln (f k p) - ln (g k p))) L).
  { intros k I. set (c := nth k cs g0). pose proof (k3_good k (KS k I)) as (A1 & A2 & A3 & A4). fold c in A1, A2, A3, A4. pose proof (GN k I) as (B1 & B2 & B3 & B4). pose proof (HW k (KS k I)) as WK.
    pose proof (comp_gain L (w k) p_x p_y (g k) alpha 1 (g_amp c) (g_mx c) (g_my c) (g_v0 c) (g_v1 c) (g_v3 c) (g_mx (new3_of k)) (g_my (new3_of k)) (g_v0 (new3_of k)) (g_v1 (new3_of k)) (g_v3 (new3_of k))) as CG. cbv zeta in CG.
    fold (W k) in CG. specialize (CG WK Alpha ltac:(lra) A3 A4 B3 B4 A1 eq_refl eq_refl). fold (vdet c) (vdet (new3_of k)) in CG.
    assert (NZ : W k + alpha <> 0) by lra.
    assert (SX : rsum (fun p => w k p * p_x p) L = W k * g_mx (new3_of k)) by (change (g_mx (new3_of k)) with (rsum (fun p => w k p * p_x p) L / W k); field; lra). assert (SY : rsum (fun p => w k p * p_y p) L = W k * g_my (new3_of k)) by (change (g_my (new3_of k)) with (rsum (fun p => w k p * p_y p) L / W k); field; lra).
    rewrite (rsum_ext _ (fun p => w k p * (ln (W k * normal (g_mx (new3_of k)) (g_my (new3_of k)) (g_v0 (new3_of k)) (g_v1 (new3_of k)) (g_v3 (new3_of k)) (p_x p) (p_y p)) - ln (g k p)))).
    - apply CG.
      + change (g_v0 (new3_of k)) with ((alpha + rsum (fun p => w k p * (p_x p - g_mx c) * (p_x p - g_mx c)) L) / (W k + alpha)). rewrite !(moment L (w k)), SX. fold (W k). field. auto.
      + change (g_v1 (new3_of k)) with ((0 + rsum (fun p => w k p * (p_x p - g_mx c) * (p_y p - g_my c)) L) / (W k + alpha)). rewrite !(moment L (w k)), SX, SY. fold (W k). field. auto.
      + change (g_v3 (new3_of k)) with ((alpha + rsum (fun p => w k p * (p_y p - g_my c) * (p_y p - g_my c)) L) / (W k + alpha)). rewrite !(moment L (w k)), SY. fold (W k). field. auto.
      + intros p Ip Nz. unfold g. rewrite (NK k I). fold c. destruct (lowvalue_or approx c p) as [Z|Z]; [|exact Z]. exfalso. apply Nz. unfold w. fold c. rewrite Z. unfold Rdiv. ring.
    - intros p Ip. rewrite TG. unfold f, g. rewrite (NK k I). reflexivity. }
  assert (SUM := rsum_le _ _ _ CG). rewrite rsum_add, rsum_mul in SUM.
  rewrite (rsum_ext (fun k => (ln (vdet (new3_of k)) + (g_v0 (new3_of k) + g_v3 (new3_of k)) / vdet (new3_of k)) - (ln (vdet (nth k cs g0)) + (g_v0 (nth k cs g0) + g_v3 (nth k cs g0)) / vdet (nth k cs g0))) (fun k => (ln (vdet (new3_of k)) + (g_v0 (new3_of k) + g_v3 (new3_of k)) / vdet (new3_of k)) + (-1) * (ln (vdet (nth k cs g0)) + (g_v0 (nth k cs g0) + g_v3 (nth k cs g0)) / vdet (nth k cs g0)))) in SUM by (intros; ring).
  rewrite rsum_add, rsum_mul in SUM.
  assert (PO : rsum (fun k => ln (vdet (nth k cs g0)) + (g_v0 (nth k cs g0) + g_v3 (nth k cs g0)) / vdet (nth k cs g0)) ks = rsum (fun c => ln (vdet c) + (g_v0 c + g_v3 c) / vdet c) cs) by (symmetry; apply (rsum_nth g0 (fun c => ln (vdet c) + (g_v0 c + g_v3 c) / vdet c) cs)). rewrite PO in SUM.
  assert (PN : rsum (fun k => ln (vdet (new3_of k)) + (g_v0 (new3_of k) + g_v3 (new3_of k)) / vdet (new3_of k)) ks = rsum (fun c => ln (vdet c) + (g_v0 c + g_v3 c) / vdet c) cs') by (rewrite EN, rsum_map; reflexivity).
  rewrite PN in SUM.
  (* proportions *)
  set (WW := fun k => if (k =? K)%nat then psky' * N else W k). set (aa := fun k => if (k =? K)%nat then psky * N else g_amp (nth k cs g0)).
  assert (WWP : forall k, In k (K :: ks) -> 0 < WW k) by (intros k [<-|I]; unfold WW; [rewrite Nat.eqb_refl; apply Rmult_lt_0_compat; auto|rewrite (NK k I); apply HW, KS; auto]).
  assert (AAP : forall k, In k (K :: ks) -> 0 < aa k) by (intros k [<-|I]; unfold aa; [rewrite Nat.eqb_refl; apply Rmult_lt_0_compat; auto|rewrite (NK k I); apply k3_good, KS; auto]).
  assert (WT : rsum WW (K :: ks) = allflux (length ps) cs' psky').
  { change (WW K + rsum WW ks = allflux (length ps) cs' psky'). unfold WW at 1. rewrite Nat.eqb_refl. rewrite (rsum_ext WW W) by (intros k I; unfold WW; rewrite (NK k I); reflexivity).
    unfold allflux, flux. rewrite EN, rsum_map. fold N K ks. change (rsum (fun a => g_amp (new3_of a)) ks) with (rsum W ks). ring. }
  assert (AT : rsum aa (K :: ks) = allflux (length ps) cs psky).
  { change (aa K + rsum aa ks = allflux (length ps) cs psky). unfold aa at 1. rewrite Nat.eqb_refl. rewrite (rsum_ext aa (fun k => g_amp (nth k cs g0))) by (intros k I; unfold aa; rewrite (NK k I); reflexivity).
    unfold ks, K. rewrite <- (rsum_nth g0 g_amp cs). unfold allflux, flux. fold N. ring. }
  assert (KP : 0 < rsum WW (K :: ks)). { pose proof (rsum_in_le WW (K :: ks) K ltac:(intros k I; apply Rlt_le; auto) (or_introl eq_refl)). pose proof (WWP K (or_introl eq_refl)). lra. }
  pose proof (gibbs (K :: ks) WW aa ltac:(intros k I; apply Rlt_le; auto) ltac:(intros k I; apply Rlt_le; auto) ltac:(intros k I _; auto) KP) as GB.
  rewrite WT, AT in GB. assert (GS : rsum (fun k => WW k * (ln (WW k) - ln (aa k))) (K :: ks) = psky' * N * (ln psky' - ln psky) + rsum (fun k => W k * (ln (W k) - ln (g_amp (nth k cs g0)))) ks).
  { change (WW K * (ln (WW K) - ln (aa K)) + rsum (fun k => WW k * (ln (WW k) - ln (aa k))) ks = psky' * N * (ln psky' - ln psky) + rsum (fun k => W k * (ln (W k) - ln (g_amp (nth k cs g0)))) ks).
    f_equal; [|apply rsum_ext; intros k I; unfold WW, aa; rewrite (NK k I); reflexivity]. unfold WW, aa. rewrite Nat.eqb_refl. rewrite !ln_mult by auto. ring. }
  rewrite GS in GB. set (A' := allflux (length ps) cs' psky') in *. set (A := allflux (length ps) cs psky) in *.
  assert (AP' : 0 < A') by (rewrite <- WT; exact KP). assert (AP : 0 < A). { rewrite <- AT. pose proof (rsum_in_le aa (K :: ks) K ltac:(intros k I; apply Rlt_le; auto) (or_introl eq_refl)). pose proof (AAP K (or_introl eq_refl)). lra. }
  assert (SN : psky' * N = rsum (fun p => p_img p * (psky / tot p)) L + rsum (fun p => Rabs (p_img p)) M) by (rewrite ES; field; lra).
  assert (FA : A' = rsum p_img L + rsum (fun p => Rabs (p_img p)) M).
  { unfold A'. rewrite (flux3_new Pixels). rewrite (rsum_ext p_img (fun p => Rabs (p_img p))) by (intros p I; apply L3_in in I; symmetry; apply Rabs_right; lra).
    unfold L, M. rewrite <- rsum_split. apply rsum_ext. intros p I. destruct (lit p); reflexivity. }
  (* the log likelihoods *)
  assert (L1 : forall (model : pix -> R) c s, skylik model ps c s = rsum (fun p => p_img p * ln ((model p + s) / allflux (length ps) c s)) L + rsum (fun p => Rabs (p_img p) * ln (s / allflux (length ps) c s)) M).
  { intros. unfold skylik, L, M. rewrite <- rsum_split. apply rsum_ext. intros p I. unfold lit. destruct (Rlt_dec 0 (p_img p)); reflexivity. }
  rewrite !L1. fold A A'.
  assert (LL : rsum (fun p => p_img p * ln ((total cs' p + psky') / A')) L = rsum (fun p => p_img p * ln ((lowtotal approx cs p + psky) / A)) L + rsum (fun p => p_img p * (ln (rsum (fun k => f k p) (K :: ks)) - ln (rsum (fun k => g k p) (K :: ks)))) L - (ln A' - ln A) * rsum p_img L).
  { rewrite (rsum_ext (fun p => p_img p * ln ((total cs' p + psky') / A')) (fun p => p_img p * ln ((lowtotal approx cs p + psky) / A) + (p_img p * (ln (rsum (fun k => f k p) (K :: ks)) - ln (rsum (fun k => g k p) (K :: ks))) + (- (ln A' - ln A)) * p_img p))).
    - rewrite !rsum_add, rsum_mul. ring.
    - intros p I. rewrite TF, TG. fold (tot p). pose proof (tot_pos p). assert (0 < total cs' p + psky'). { assert (0 <= total cs' p); [|lra]. apply rsum_nonneg. intros c Ic. rewrite Forall_forall in Good'. apply Rlt_le, value_pos; auto. }
      unfold Rdiv. rewrite !ln_mult, !ln_Rinv; auto using Rinv_0_lt_compat. ring. }
  assert (MM : rsum (fun p => Rabs (p_img p) * ln (psky' / A')) M = rsum (fun p => Rabs (p_img p) * ln (psky / A)) M + (ln psky' - ln psky - (ln A' - ln A)) * rsum (fun p => Rabs (p_img p)) M).
  { rewrite <- rsum_mul, <- rsum_add. apply rsum_ext. intros p I. unfold Rdiv. rewrite !ln_mult, !ln_Rinv; auto using Rinv_0_lt_compat. ring. }
  rewrite LL, MM. unfold penalty. set (SL := rsum (fun p => p_img p * (psky / tot p)) L) in *. set (SM := rsum (fun p => Rabs (p_img p)) M) in *. set (IL := rsum p_img L) in *.
  rewrite SN in GB. rewrite FA in GB at 1. set (dl := ln psky' - ln psky) in *. set (da := ln A' - ln A) in *.
  assert (R1 : (dl - da) * SM = dl * SM - da * SM) by ring. assert (R2 : (SL + SM) * dl = dl * SL + dl * SM) by ring. assert (R3 : (IL + SM) * da = da * IL + da * SM) by ring. lra.
Qed.
End Step3.

Theorem C73_flux alpha approx ps cs psky cs' psky' : step3 alpha approx ps (cs, psky) = Done (cs', psky') -> 0 <= alpha -> 0 < psky -> ps <> [] -> Forall good cs ->
  length cs' = length cs /\ flux cs' + psky' * INR (length ps) = rsum (fun p => Rabs (p_img p)) ps /\
  (forall c, In c cs' -> 0 < g_amp c /\ g_v2 c = g_v1 c /\ 0 <= g_v0 c /\ 0 <= g_v3 c /\ 0 <= vdet c) /\
  (0 < alpha -> Forall good cs') /\ ((exists p, In p ps /\ p_img p <> 0) -> 0 < psky').
Proof.
  intros H A S N G. pose proof (new3_psd alpha approx ps cs cs' psky psky' H G A S) as P. pose proof (step3_new alpha approx ps cs cs' psky psky' H G S) as (E & _ & W).
  split; [eapply new3_len; eauto|]. split; [eapply flux3_new; eauto|]. split; [|split].
  - intros c Ic. rewrite E in Ic. apply in_map_iff in Ic. destruct Ic as (k & <- & K). apply in_seq in K. specialize (P k ltac:(lia)). cbv zeta in P. destruct P as (P1 & P2 & P3 & P4 & P5 & _). repeat split; auto. rewrite P1. apply W. lia.
  - intros A0. rewrite Forall_forall. intros c Ic. rewrite E in Ic. apply in_map_iff in Ic. destruct Ic as (k & <- & K). apply in_seq in K. apply P; auto. lia.
  - intros Q. eapply sky_pos; eauto.
Qed.
Theorem C73_step alpha approx ps cs psky cs' psky' : step3 alpha approx ps (cs, psky) = Done (cs', psky') -> 0 <= alpha -> 0 < psky -> (exists p, In p ps /\ p_img p <> 0) -> Forall good cs -> Forall good cs' ->
  skylik (lowtotal approx cs) ps cs psky - penalty alpha cs <= skylik (total cs') ps cs' psky' - penalty alpha cs'.
Proof.
  intros H A S Q G G'. assert (N : ps <> []) by (destruct Q as (q & I & _); intros ->; destruct I). apply (step3_gain alpha approx ps cs cs' psky psky' H G A S G'); auto.
  eapply C73_flux; eauto.
Qed.
(** No component is cut off at a pixel. *)
Definition whole (approx : R) (ps : list pix) (cs : list gcomp) : Prop := forall c p, In c cs -> In p ps -> approx < shape c p.
Definition sky_objective (alpha : R) (ps : list pix) (st : list gcomp * R) : R := skylik (total (fst st)) ps (fst st) (snd st) - penalty alpha (fst st).
Lemma whole_value approx ps cs c p : whole approx ps cs -> In c cs -> In p ps -> lowvalue approx c p = value c p.
Proof. intros H I J. unfold lowvalue. destruct (Rlt_dec 0 approx); [|reflexivity]. destruct (Rle_dec (shape c p) approx); [|reflexivity]. pose proof (H c p I J). lra. Qed.
Lemma whole_lik approx ps cs psky : whole approx ps cs -> skylik (lowtotal approx cs) ps cs psky = skylik (total cs) ps cs psky.
Proof.
  intros H. unfold skylik. apply rsum_ext. intros p I. destruct (Rlt_dec 0 (p_img p)); [|reflexivity]. do 4 f_equal. unfold lowtotal, total. apply rsum_ext. intros c Ic. eapply whole_value; eauto.
Qed.
Lemma step3_done alpha approx ps cs psky : 0 <= alpha -> 0 < psky -> (exists p, In p ps /\ 0 < p_img p) -> Forall good cs -> whole approx ps cs -> exists st, step3 alpha approx ps (cs, psky) = Done st.
Proof.
  intros A S (q & Iq & Q) G NR. unfold step3.
  assert (E : existsb (fun c => rleb (det3 c) 0) cs = false).
  { apply not_true_is_false. intros B. apply existsb_exists in B. destruct B as (c & Ic & B). rewrite Forall_forall in G. rewrite (det3_good c (G c Ic)) in B. unfold rleb in B. destruct (Rle_dec (vdet c) 0); [|discriminate]. pose proof (G c Ic) as (? & ? & ? & ?). lra. }
  rewrite E. destruct (existsb _ (seq 0 (length cs))) eqn:F; [|eexists; reflexivity]. exfalso. apply existsb_exists in F. destruct F as (k & K & F). apply in_seq in K. assert (K1 : (k < length cs)%nat) by lia.
  assert (IK : In (nth k cs g0) cs) by (apply nth_In; auto). assert (GK : good (nth k cs g0)) by (rewrite Forall_forall in G; auto).
  assert (W0 : 0 < rsum (w3 approx psky cs k) ps).
  { assert (TP : forall p, 0 < lowtotal approx cs p + psky) by (intros p; pose proof (lowtotal_nonneg approx cs p G); lra).
    assert (WN : forall p, In p ps -> 0 <= w3 approx psky cs k p). { intros p Ip. rewrite (w3_good approx psky cs k p G S K1). unfold lit. destruct (Rlt_dec 0 (p_img p)); [|lra]. apply Rmult_le_pos; [lra|]. apply Rmult_le_pos; [|apply Rlt_le, Rinv_0_lt_compat; auto]. apply lowvalue_nonneg; auto. }
    pose proof (rsum_in_le (w3 approx psky cs k) ps q WN Iq) as LE. enough (0 < w3 approx psky cs k q) by lra. rewrite (w3_good approx psky cs k q G S K1). unfold lit. destruct (Rlt_dec 0 (p_img q)); [|lra].
    apply Rmult_lt_0_compat; auto. apply Rmult_lt_0_compat; [|apply Rinv_0_lt_compat; auto]. rewrite (whole_value approx ps cs _ q NR IK Iq). apply value_pos; auto. }
  apply orb_true_iff in F. unfold reqb in F. destruct F as [F|F]; destruct (Req_EM_T _ 0) as [Z|Z] in F; try discriminate; lra.
Qed.
Lemma step3_climb alpha approx ps st st' : step3 alpha approx ps st = Done st' -> 0 < alpha -> 0 < snd st -> (exists p, In p ps /\ 0 < p_img p) -> Forall good (fst st) -> whole approx ps (fst st) ->
  Forall good (fst st') /\ 0 < snd st' /\ length (fst st') = length (fst st) /\ flux (fst st') + snd st' * INR (length ps) = rsum (fun p => Rabs (p_img p)) ps /\ sky_objective alpha ps st <= sky_objective alpha ps st'.
Proof.
  destruct st as [cs psky], st' as [cs' psky']. cbn [fst snd]. intros H A S Q G NR. assert (A0 : 0 <= alpha) by lra. assert (N : ps <> []) by (destruct Q as (q & I & _); intros ->; destruct I).
  assert (Q' : exists p, In p ps /\ p_img p <> 0) by (destruct Q as (q & I & P); exists q; split; auto; lra).
  destruct (C73_flux alpha approx ps cs psky cs' psky' H A0 S N G) as (L & F & _ & GG & SP). specialize (GG A). specialize (SP Q').
  pose proof (C73_step alpha approx ps cs psky cs' psky' H A0 S Q' G GG) as ST. rewrite (whole_lik approx ps cs psky NR) in ST. repeat split; auto.
Qed.
Lemma iterate_climb alpha approx ps n st : 0 < alpha -> (exists p, In p ps /\ 0 < p_img p) -> 0 < snd st -> Forall good (fst st) ->
  (forall j a, (j < n)%nat -> iterate (step3 alpha approx ps) j st = Done a -> whole approx ps (fst a)) ->
  exists b, iterate (step3 alpha approx ps) n st = Done b /\ Forall good (fst b) /\ 0 < snd b /\ length (fst b) = length (fst st) /\ (n <> 0%nat -> flux (fst b) + snd b * INR (length ps) = rsum (fun p => Rabs (p_img p)) ps) /\ sky_objective alpha ps st <= sky_objective alpha ps b.
Proof.
  intros A Q. revert st. induction n as [|n IH]; intros st SP G V.
  - exists st. repeat split; auto; [congruence|lra].
  - pose proof (V 0%nat st ltac:(lia) eq_refl) as V0. destruct st as [cs psky]. destruct (step3_done alpha approx ps cs psky ltac:(lra) SP Q G V0) as (c1 & H1). destruct (step3_climb alpha approx ps _ c1 H1 A SP Q G V0) as (G1 & S1 & L1 & F1 & O1).
    destruct (IH c1 S1 G1) as (b & HB & GB & SB & LB & FB & OB).
    { intros j a J E. apply (V (S j) a ltac:(lia)). cbn [iterate]. rewrite H1. exact E. }
    exists b. cbn [iterate]. rewrite H1. repeat split; auto; try lra; [congruence|]. intros _. destruct n as [|n]; [|apply FB; congruence]. cbn in HB. injection HB as <-. exact F1.
Qed.
(** Whole fits: [1/100] of the mean pixel is the sky at the start. *)
Theorem C73_climb alpha approx ps n cs : 0 < alpha -> 0 < rsum p_img ps -> Forall good cs ->
  (forall j a, (j <= n)%nat -> iterate (step3 alpha approx ps) j (cs, 1 / 100 * rsum p_img ps / INR (length ps)) = Done a -> whole approx ps (fst a)) ->
  exists b, fit3 alpha approx ps (S n) cs = Done b /\ Forall good (fst b) /\ 0 < snd b /\ length (fst b) = length cs /\
    flux (fst b) + snd b * INR (length ps) = rsum (fun p => Rabs (p_img p)) ps /\
    sky_objective alpha ps (cs, 1 / 100 * rsum p_img ps / INR (length ps)) <= sky_objective alpha ps b.
Proof.
  intros A F G V. assert (Q : exists p, In p ps /\ 0 < p_img p) by (apply rsum_pos_ex; auto). assert (N0 : 0 < INR (length ps)) by (apply lt_0_INR; destruct ps; [cbn in F; lra|cbn; lia]).
  set (st := (cs, 1 / 100 * rsum p_img ps / INR (length ps))) in *. assert (S0 : 0 < snd st) by (cbn; apply Rmult_lt_0_compat; [lra|apply Rinv_0_lt_compat; auto]).
  destruct (iterate_climb alpha approx ps (S n) st A Q S0 G) as (b & H1 & H2 & H3 & H4 & H5 & H6); [intros j a J; apply V; lia|].
  exists b. split; [exact H1|]. repeat split; auto.
Qed.

(** ** C72 in one dimension *)
Definition normal1 (m v x : R) : R := exp (- ((x - m) ^ 2 / v) / 2) / sqrt (2 * PI * v).
Definition good1 (c : comp1) : Prop := 0 < u_amp c /\ 0 < u_var c.
Definition value1 (c : comp1) (x : R) : R := u_amp c * normal1 (u_mean c) (u_var c) x.
Definition away1 (c : comp1) (x : R) : R := (x - u_mean c) ^ 2 / u_var c.
Definition cutvalue1 (c : comp1) (x : R) : R := if Rle_dec 100 (away1 c x) then 0 else value1 c x.
Definition total1 (cs : list comp1) (x : R) : R := rsum (fun c => value1 c x) cs.
Definition cuttotal1 (cs : list comp1) (x : R) : R := rsum (fun c => cutvalue1 c x) cs.
Definition flux1 (cs : list comp1) : R := rsum u_amp cs.
Definition loglik1 (model : R -> R) (xs : list R) (cs : list comp1) : R := rsum (fun x => ln (model x / flux1 cs)) xs.
Definition penalty1 (alpha : R) (cs : list comp1) : R := alpha / 2 * rsum (fun c => ln (u_var c) + / u_var c) cs.
Definition reached1 (cs : list comp1) (x : R) : bool := existsb (fun c => if Rlt_dec (away1 c x) 100 then true else false) cs.
Lemma normal1_pos m v x : 0 < v -> 0 < normal1 m v x.
Proof. intros V. apply Rmult_lt_0_compat; [apply exp_pos|apply Rinv_0_lt_compat, sqrt_lt_R0]. pose proof PI_RGT_0. apply Rmult_lt_0_compat; lra. Qed.
Lemma ln_normal1 m v x : 0 < v -> ln (normal1 m v x) = - ((x - m) ^ 2 / v) / 2 - ln (2 * PI) / 2 - ln v / 2.
Proof.
  intros V. assert (P : 0 < 2 * PI) by (pose proof PI_RGT_0; lra). assert (PV : 0 < 2 * PI * v) by (apply Rmult_lt_0_compat; auto). unfold normal1. assert (S0 : 0 < sqrt (2 * PI * v)) by (apply sqrt_lt_R0; auto).
  unfold Rdiv at 1. rewrite ln_mult; [|apply exp_pos|apply Rinv_0_lt_compat; auto]. rewrite ln_exp, ln_Rinv, ln_sqrt, ln_mult by auto. unfold Rdiv. ring.
Qed.
Lemma value1_pos c x : good1 c -> 0 < value1 c x.
Proof. intros [A B]. apply Rmult_lt_0_compat; auto using normal1_pos. Qed.
Lemma cutvalue1_nonneg c x : good1 c -> 0 <= cutvalue1 c x.
Proof. intros G. unfold cutvalue1. destruct (Rle_dec 100 (away1 c x)); [lra|apply Rlt_le, value1_pos; auto]. Qed.
Lemma z1_good c x : good1 c -> z1 x c = cutvalue1 c x.
Proof.
  intros [A B]. unfold z1, cutvalue1, rleb. assert (E : 1 / u_var c * (x - u_mean c) * (x - u_mean c) = away1 c x) by (unfold away1; field; lra). rewrite E. destruct (Rle_dec 100 (away1 c x)); [reflexivity|].
  unfold value1, normal1. fold (away1 c x). replace (- (1 / 2) * away1 c x) with (- away1 c x / 2) by lra. unfold Rdiv. ring.
Qed.
Lemma reached1_pos cs x : Forall good1 cs -> if reached1 cs x then 0 < cuttotal1 cs x else cuttotal1 cs x = 0 /\ forall c, In c cs -> cutvalue1 c x = 0.
Proof.
  intros G. rewrite Forall_forall in G. destruct (reached1 cs x) eqn:E.
  - unfold reached1 in E. apply existsb_exists in E. destruct E as (c & I & H). destruct (Rlt_dec (away1 c x) 100) as [L|L]; [|discriminate].
    pose proof (rsum_in_le (fun c => cutvalue1 c x) cs c ltac:(intros; apply cutvalue1_nonneg; auto) I) as Q. cbn in Q. unfold cutvalue1 at 1 in Q. destruct (Rle_dec 100 (away1 c x)); [lra|].
    pose proof (value1_pos c x (G c I)). unfold cuttotal1. lra.
  - assert (Z : forall c, In c cs -> cutvalue1 c x = 0).
    { intros c I. unfold cutvalue1. destruct (Rle_dec 100 (away1 c x)) as [L|L]; [reflexivity|]. exfalso. assert (reached1 cs x = true); [|congruence].
      unfold reached1. apply existsb_exists. exists c. split; auto. destruct (Rlt_dec (away1 c x) 100); auto. lra. }
    split; auto. unfold cuttotal1. rewrite (rsum_ext _ (fun _ => 0)) by auto. apply rsum_zero.
Qed.
Definition c0 : comp1 := mkC1 0 0 0.
Lemma w1_good cs x k : Forall good1 cs -> (k < length cs)%nat -> w1 cs k x = if reached1 cs x then cutvalue1 (nth k cs c0) x / cuttotal1 cs x else 0.
Proof.
  intros G K. pose proof (reached1_pos cs x G) as R. rewrite Forall_forall in G. unfold w1.
  assert (E : map (z1 x) cs = map (fun c => cutvalue1 c x) cs) by (apply map_ext_in; intros; apply z1_good; auto). rewrite E.
  assert (S0 : rsum (fun v => v) (map (fun c => cutvalue1 c x) cs) = cuttotal1 cs x) by apply rsum_map.
  assert (NT : nth k (map (fun c => cutvalue1 c x) cs) 0 = cutvalue1 (nth k cs c0) x).
  { rewrite (nth_indep _ 0 ((fun c => cutvalue1 c x) c0)) by (rewrite map_length; auto). apply (map_nth (fun c => cutvalue1 c x)). }
  destruct (reached1 cs x).
  - rewrite znorm_nth, S0, NT by lra. reflexivity.
  - destruct R as [R Z]. unfold znorm. rewrite S0, R. unfold reqb. destruct (Req_EM_T 0 0); [|congruence]. rewrite NT, Z; [ring|apply nth_In; auto].
Qed.
Lemma rsum_const {A} c (l : list A) : rsum (fun _ => c) l = c * INR (length l).
Proof. induction l as [|a l IH]; [cbn; ring|]. cbn [length]. rewrite S_INR. change (c + rsum (fun _ => c) l = c * (INR (length l) + 1)). rewrite IH. ring. Qed.
Theorem C72_one alpha xs cs cs' : step1 alpha xs cs = Done cs' -> 0 <= alpha -> cs <> [] -> Forall good1 cs ->
  let r := filter (reached1 cs) xs in
  length cs' = length cs /\ flux1 cs' = INR (length r) / INR (length xs) /\ (forall c, In c cs' -> 0 < u_amp c /\ 0 <= u_var c) /\ (0 < alpha -> Forall good1 cs') /\
  (Forall good1 cs' -> loglik1 (cuttotal1 cs) r cs - penalty1 alpha cs <= loglik1 (total1 cs') r cs' - penalty1 alpha cs').
Proof.
  intros Step Alpha NE Good L. set (ks := seq 0 (length cs)). assert (N0 : (0 < length cs)%nat) by (destruct cs; [congruence|cbn; lia]).
  set (w := fun k x => cutvalue1 (nth k cs c0) x / cuttotal1 cs x). set (W := fun k => rsum (w k) L). set (T := INR (length xs)).
  assert (KS : forall k, In k ks -> (k < length cs)%nat) by (intros k I; apply in_seq in I; lia).
  assert (KG : forall k, In k ks -> good1 (nth k cs c0)) by (intros k I; rewrite Forall_forall in Good; apply Good, nth_In; auto).
  assert (LI : forall x, In x L -> In x xs /\ 0 < cuttotal1 cs x) by (intros x I; apply filter_In in I; destruct I as [I R]; pose proof (reached1_pos cs x Good) as H; rewrite R in H; auto).
  assert (WN : forall k x, In k ks -> In x L -> 0 <= w k x) by (intros k x K I; apply Rmult_le_pos; [apply cutvalue1_nonneg; auto|apply Rlt_le, Rinv_0_lt_compat, LI; auto]).
  assert (WS : forall k f, In k ks -> rsum (fun x => w1 cs k x * f x) xs = rsum (fun x => w k x * f x) L). { intros k f K. unfold L. rewrite <- rsum_filter. apply rsum_ext. intros x I. rewrite (w1_good cs x k Good (KS k K)). destruct (reached1 cs x); [reflexivity|ring]. }
  assert (WW : forall k, In k ks -> rsum (w1 cs k) xs = W k). { intros k K. unfold W. rewrite (rsum_ext (w1 cs k) (fun x => w1 cs k x * 1)) by (intros; ring). rewrite (rsum_ext (w k) (fun x => w k x * 1)) by (intros; ring). apply WS; auto. }
  set (mean := fun k => rsum (fun x => w k x * x) L / W k). set (S2 := fun k => rsum (fun x => w k x * (x - mean k) * (x - mean k)) L). set (nc := fun k => mkC1 (W k / T) (mean k) ((alpha + S2 k) / (W k + alpha))).
  pose proof Step as H. unfold step1 in H. destruct (existsb _ cs); [discriminate|]. fold ks in H. destruct (existsb _ ks) eqn:E; [discriminate|].
  assert (HW : forall k, In k ks -> 0 < W k).
  { intros k K. pose proof (existsb_false _ _ E k K) as B. apply orb_false_iff in B. destruct B as [B _]. apply reqb_false in B. rewrite (WW k K) in B. assert (0 <= W k) by (apply rsum_nonneg; intros; apply WN; auto). lra. }
  assert (EN : cs' = map nc ks).
  { injection H as <-. apply map_ext_in. intros k K. unfold nc, mean, S2. rewrite (WW k K), (WS k (fun x => x) K). f_equal. f_equal. f_equal. fold (mean k).
    rewrite (rsum_ext _ (fun x => w1 cs k x * ((x - mean k) * (x - mean k)))) by (intros; ring). rewrite (WS k (fun x => (x - mean k) * (x - mean k)) K). apply rsum_ext. intros; ring. }
  clear H. assert (T0 : 0 < T). { unfold T. apply lt_0_INR. assert (I0 : In 0%nat ks) by (apply in_seq; lia). pose proof (HW _ I0) as P. destruct xs; [cbn in P; lra|cbn; lia]. }
  assert (WT : rsum W ks = INR (length L)).
  { unfold W. rewrite (rsum_swap w). rewrite (rsum_ext _ (fun _ => 1)); [rewrite rsum_const; ring|]. intros x I. destruct (LI x I) as [Ix P]. unfold w.
    rewrite (rsum_ext _ (fun k => / cuttotal1 cs x * cutvalue1 (nth k cs c0) x)) by (intros; unfold Rdiv; ring). rewrite rsum_mul. unfold ks. rewrite <- (rsum_nth c0 (fun c => cutvalue1 c x) cs). fold (cuttotal1 cs x). field. lra. }
  assert (FN : flux1 cs' = INR (length L) / T). { unfold flux1. rewrite EN, rsum_map. rewrite <- WT. change (rsum (fun k => W k / T) ks = rsum W ks / T). rewrite (rsum_ext _ (fun k => / T * W k)) by (intros; unfold Rdiv; ring). rewrite rsum_mul. unfold Rdiv. ring. }
  assert (S20 : forall k, In k ks -> 0 <= S2 k) by (intros k K; apply rsum_nonneg; intros x I; rewrite Rmult_assoc; apply Rmult_le_pos; [apply WN; auto|apply (Rle_0_sqr (x - mean k))]).
  assert (AP : forall k, In k ks -> 0 < W k / T) by (intros k K; apply Rmult_lt_0_compat; [auto|apply Rinv_0_lt_compat; auto]).
  repeat split; auto.
  - rewrite EN, map_length. apply seq_length.
  - rewrite EN in H. apply in_map_iff in H. destruct H as (k & <- & K). apply AP; auto.
  - rewrite EN in H. apply in_map_iff in H. destruct H as (k & <- & K). cbn [nc u_var]. pose proof (HW k K). pose proof (S20 k K). apply Rmult_le_pos; [lra|apply Rlt_le, Rinv_0_lt_compat; lra].
  - intros A0. rewrite Forall_forall. intros c H. rewrite EN in H. apply in_map_iff in H. destruct H as (k & <- & K). split; [apply AP; auto|]. cbn [nc u_var]. pose proof (HW k K). pose proof (S20 k K). apply Rmult_lt_0_compat; [lra|apply Rinv_0_lt_compat; lra].
  - intros Good'. assert (GN : forall k, In k ks -> good1 (nc k)) by (intros k K; rewrite Forall_forall in Good'; apply Good'; rewrite EN; apply in_map; auto).
    set (g := fun k x => cutvalue1 (nth k cs c0) x). set (f := fun k x => value1 (nc k) x).
    assert (TG : forall x, rsum (fun k => g k x) ks = cuttotal1 cs x) by (intros x; unfold g, ks; rewrite <- (rsum_nth c0 (fun c => cutvalue1 c x) cs); reflexivity).
    assert (TF : forall x, rsum (fun k => f k x) ks = total1 cs' x) by (intros x; unfold f, total1; rewrite EN, rsum_map; reflexivity).
    pose proof (em_total L (fun _ => 1) ks g f ltac:(intros; lra) ltac:(intros k x K I; apply cutvalue1_nonneg; auto) ltac:(intros k x K I; apply Rlt_le, value1_pos; auto) ltac:(intros k x K I _; apply value1_pos; auto) ltac:(intros x I; rewrite TG; apply LI; auto)) as EM.
    assert (CG : forall k, In k ks -> W k * (ln (W k / T) - ln (u_amp (nth k cs c0))) + alpha / 2 * ((ln (u_var (nc k)) + / u_var (nc k)) - (ln (u_var (nth k cs c0)) + / u_var (nth k cs c0))) <=
       rsum (fun x => 1 * (g k x / rsum (fun k => g k x) ks) * (ln (f k x) - ln (g k x))) L).
    { intros k K. set (c := nth k cs c0). pose proof (KG k K) as [A1 A2]. fold c in A1, A2. pose proof (GN k K) as [B1 B2]. pose proof (HW k K) as WK. set (u := u_var (nc k)) in *. set (v := u_var c) in *. set (m := u_mean c).
      assert (SX : rsum (fun x => w k x * x) L = W k * mean k) by (unfold mean; field; lra).
      assert (MV : rsum (fun x => w k x * (x - m) * (x - m)) L = S2 k + W k * (mean k - m) ^ 2) by (unfold S2; rewrite !(moment L (w k) (fun x => x) (fun x => x)), SX; fold (W k); ring).
      assert (UE : (W k + alpha) * u = alpha + S2 k) by (unfold u, nc; cbn [u_var]; field; lra).
      rewrite (rsum_ext _ (fun x => (ln (W k / T) - ln (u_amp c)) * w k x + ((- / (2 * u)) * (w k x * (x - mean k) * (x - mean k)) + ((/ (2 * v)) * (w k x * (x - m) * (x - m)) + ((ln v - ln u) / 2) * w k x)))).
      - rewrite !rsum_add, !rsum_mul, MV. fold (W k) (S2 k). set (dd := (mean k - m) ^ 2). assert (DD : 0 <= dd) by apply pow2_ge_0.
        assert (RU : S2 k / u + alpha / u = W k + alpha) by (replace (S2 k / u + alpha / u) with ((alpha + S2 k) / u) by (unfold Rdiv; ring); rewrite <- UE; field; lra).
        assert (RV : S2 k / v + alpha / v = (W k + alpha) * (u / v)) by (replace (S2 k / v + alpha / v) with ((alpha + S2 k) / v) by (unfold Rdiv; ring); rewrite <- UE; field; lra).
        assert (UV : 0 < u / v) by (apply Rmult_lt_0_compat; [auto|apply Rinv_0_lt_compat; auto]). pose proof (ln_le (u / v) UV) as LE. assert (LQ : ln (u / v) = ln u - ln v) by (unfold Rdiv; rewrite ln_mult, ln_Rinv; auto using Rinv_0_lt_compat; ring). rewrite LQ in LE.
        apply (Rmult_le_compat_l (W k + alpha)) in LE; [|lra]. assert (PV : 0 <= W k * dd / v) by (apply Rmult_le_pos; [apply Rmult_le_pos; lra|apply Rlt_le, Rinv_0_lt_compat; auto]).
        replace (- / (2 * u) * S2 k) with (- (S2 k / u) / 2) by (field; lra). replace (/ (2 * v) * (S2 k + W k * dd)) with ((S2 k / v) / 2 + (W k * dd / v) / 2) by (field; lra).
        replace (alpha / 2 * (ln u + / u - (ln v + / v))) with ((alpha * (ln u - ln v) + alpha / u - alpha / v) / 2) by (field; lra). nra.
      - intros x I. destruct (LI x I) as [Ix P]. rewrite TG. fold (w k x). change (1 * w k x * (ln (f k x) - ln (g k x)) = (ln (W k / T) - ln (u_amp c)) * w k x + (- / (2 * u) * (w k x * (x - mean k) * (x - mean k)) + (/ (2 * v) * (w k x * (x - m) * (x - m)) + (ln v - ln u) / 2 * w k x))).
        destruct (Req_dec (w k x) 0) as [Z|Z]; [rewrite Z; ring|]. assert (GE : g k x = u_amp c * normal1 m v x).
        { unfold g. fold c. unfold w in Z. fold c in Z. unfold cutvalue1 in *. destruct (Rle_dec 100 (away1 c x)); [|reflexivity]. exfalso. apply Z. unfold Rdiv. ring. }
        rewrite GE. change (f k x) with (W k / T * normal1 (mean k) u x). rewrite !ln_mult; auto using normal1_pos. rewrite !ln_normal1 by auto. field. split; lra. }
    assert (SUM := rsum_le _ _ _ CG). rewrite rsum_add, rsum_mul in SUM.
    rewrite (rsum_ext (fun k => (ln (u_var (nc k)) + / u_var (nc k)) - (ln (u_var (nth k cs c0)) + / u_var (nth k cs c0))) (fun k => (ln (u_var (nc k)) + / u_var (nc k)) + (-1) * (ln (u_var (nth k cs c0)) + / u_var (nth k cs c0)))) in SUM by (intros; ring). rewrite rsum_add, rsum_mul in SUM.
    assert (PO : rsum (fun k => ln (u_var (nth k cs c0)) + / u_var (nth k cs c0)) ks = rsum (fun c => ln (u_var c) + / u_var c) cs) by (symmetry; apply (rsum_nth c0 (fun c => ln (u_var c) + / u_var c) cs)). rewrite PO in SUM.
    assert (PN : rsum (fun k => ln (u_var (nc k)) + / u_var (nc k)) ks = rsum (fun c => ln (u_var c) + / u_var c) cs') by (rewrite EN, rsum_map; reflexivity). rewrite PN in SUM.
    assert (I0 : In 0%nat ks) by (apply in_seq; lia).
    assert (KP : 0 < rsum W ks) by (pose proof (rsum_in_le W ks 0%nat ltac:(intros k K; apply Rlt_le; auto) I0); pose proof (HW _ I0); lra).
    pose proof (gibbs ks W (fun k => u_amp (nth k cs c0)) ltac:(intros k K; apply Rlt_le; auto) ltac:(intros k K; apply Rlt_le, KG; auto) ltac:(intros k K _; apply KG; auto) KP) as GB.
    assert (AO : rsum (fun k => u_amp (nth k cs c0)) ks = flux1 cs) by (symmetry; apply (rsum_nth c0 u_amp cs)). rewrite AO in GB.
    set (F := rsum W ks) in *. assert (FF : flux1 cs' = F / T) by (rewrite FN, <- WT; reflexivity).
    assert (FQ : 0 < flux1 cs) by (rewrite <- AO; pose proof (rsum_in_le (fun k => u_amp (nth k cs c0)) ks 0%nat ltac:(intros k K; apply Rlt_le, KG; auto) I0) as P; cbv beta in P; pose proof (proj1 (KG _ I0)); lra).
    assert (FP : 0 < flux1 cs') by (rewrite FF; apply Rmult_lt_0_compat; [auto|apply Rinv_0_lt_compat; auto]).
    assert (LF : ln (flux1 cs') = ln F - ln T) by (rewrite FF; unfold Rdiv; rewrite ln_mult, ln_Rinv; auto using Rinv_0_lt_compat; ring).
    assert (GW : rsum (fun k => W k * (ln (W k / T) - ln (u_amp (nth k cs c0)))) ks = rsum (fun k => W k * (ln (W k) - ln (u_amp (nth k cs c0)))) ks - ln T * F).
    { unfold F. rewrite (rsum_ext _ (fun k => W k * (ln (W k) - ln (u_amp (nth k cs c0))) + (- ln T) * W k)); [rewrite rsum_add, rsum_mul; ring|]. intros k K. unfold Rdiv. rewrite ln_mult, ln_Rinv; auto using Rinv_0_lt_compat; ring. }
    assert (LL : loglik1 (total1 cs') L cs' = loglik1 (cuttotal1 cs) L cs + rsum (fun x => 1 * (ln (rsum (fun k => f k x) ks) - ln (rsum (fun k => g k x) ks))) L - (ln (flux1 cs') - ln (flux1 cs)) * F).
    { unfold loglik1. rewrite WT. rewrite (rsum_ext (fun x => ln (total1 cs' x / flux1 cs')) (fun x => ln (cuttotal1 cs x / flux1 cs) + (1 * (ln (rsum (fun k => f k x) ks) - ln (rsum (fun k => g k x) ks)) + - (ln (flux1 cs') - ln (flux1 cs))))).
      - rewrite !rsum_add, rsum_const. ring.
      - intros x I. rewrite TF, TG. destruct (LI x I) as [Ix P]. assert (0 < total1 cs' x). { rewrite <- TF. pose proof (rsum_in_le (fun k => f k x) ks 0%nat ltac:(intros j J; apply Rlt_le, value1_pos; auto) I0) as Q. cbv beta in Q. pose proof (value1_pos (nc 0%nat) x (GN _ I0)). unfold f in Q at 1. lra. }
        unfold Rdiv. rewrite !ln_mult, !ln_Rinv; auto using Rinv_0_lt_compat. ring. }
    rewrite LL, LF. unfold penalty1. nra.
Qed.

(** The M step with sky takes the variance about the old centre. *)
Theorem C73_moments alpha approx ps cs psky cs' psky' k : step3 alpha approx ps (cs, psky) = Done (cs', psky') -> 0 <= alpha -> 0 < psky -> Forall good cs -> (k < length cs)%nat ->
  let o := nth k cs g0 in let c := nth k cs' g0 in let l := filter lit ps in let w p := p_img p * (lowvalue approx o p / (lowtotal approx cs p + psky)) in
  g_amp c = rsum w l /\ g_amp c * g_mx c = rsum (fun p => w p * p_x p) l /\ g_amp c * g_my c = rsum (fun p => w p * p_y p) l /\
  (g_amp c + alpha) * g_v0 c = alpha + rsum (fun p => w p * (p_x p - g_mx o) ^ 2) l /\ (g_amp c + alpha) * g_v3 c = alpha + rsum (fun p => w p * (p_y p - g_my o) ^ 2) l /\
  (g_amp c + alpha) * g_v1 c = rsum (fun p => w p * ((p_x p - g_mx o) * (p_y p - g_my o))) l /\ g_v2 c = g_v1 c.
Proof.
  intros H A S G K o c l w. pose proof (nth_new3 alpha approx ps cs cs' psky psky' H G S k K) as E. pose proof (step3_new alpha approx ps cs cs' psky psky' H G S) as (_ & _ & HW). specialize (HW k K). fold o in HW. fold l w in HW.
  unfold c. rewrite E. set (n := new3_of alpha approx ps cs psky k). change (g_amp n) with (rsum w l). split; [reflexivity|].
  change (g_mx n) with (rsum (fun p => w p * p_x p) l / rsum w l). change (g_my n) with (rsum (fun p => w p * p_y p) l / rsum w l).
  change (g_v0 n) with ((alpha + rsum (fun p => w p * (p_x p - g_mx o) * (p_x p - g_mx o)) l) / (rsum w l + alpha)). change (g_v3 n) with ((alpha + rsum (fun p => w p * (p_y p - g_my o) * (p_y p - g_my o)) l) / (rsum w l + alpha)).
  change (g_v1 n) with ((0 + rsum (fun p => w p * (p_x p - g_mx o) * (p_y p - g_my o)) l) / (rsum w l + alpha)).
  rewrite (rsum_ext (fun p => w p * (p_x p - g_mx o) ^ 2) (fun p => w p * (p_x p - g_mx o) * (p_x p - g_mx o))) by (intros; ring). rewrite (rsum_ext (fun p => w p * (p_y p - g_my o) ^ 2) (fun p => w p * (p_y p - g_my o) * (p_y p - g_my o))) by (intros; ring). rewrite (rsum_ext (fun p => w p * ((p_x p - g_mx o) * (p_y p - g_my o))) (fun p => w p * (p_x p - g_mx o) * (p_y p - g_my o))) by (intros; ring).
  repeat split; try (field; lra).
Qed.

(** The excess is twice the negative flux: it is counted as sky with the opposite sign. *)
Theorem C73_excess alpha approx ps cs psky cs' psky' : step3 alpha approx ps (cs, psky) = Done (cs', psky') -> 0 <= alpha -> 0 < psky -> ps <> [] -> Forall good cs ->
  flux cs' + psky' * INR (length ps) = rsum p_img ps + 2 * rsum (fun p => Rmax (- p_img p) 0) ps.
Proof.
  intros H A S N G. destruct (C73_flux alpha approx ps cs psky cs' psky' H A S N G) as (_ & F & _). rewrite F, <- rsum_mul, <- rsum_add. apply rsum_ext. intros p _.
  unfold Rabs, Rmax. destruct (Rcase_abs (p_img p)); destruct (Rle_dec (- p_img p) 0); lra.
Qed.

(** ** fromStamp *)
Lemma rsum_app {A} (f : A -> R) l m : rsum f (l ++ m) = rsum f l + rsum f m.
Proof. induction l as [|a l IH]; cbn; [unfold rsum; ring|]. unfold rsum in *. rewrite IH. ring. Qed.
Lemma pixels_sum x0 y0 NX NY img : rsum p_img (pixels x0 y0 NX NY img) = rsum img (seq 0 (NY * NX)).
Proof.
  unfold pixels. induction NY as [|NY IH]; [reflexivity|]. rewrite seq_S, flat_map_app, rsum_app, IH. cbn [plus flat_map]. rewrite app_nil_r, rsum_map. cbn [p_img].
  replace (S NY * NX)%nat with (NY * NX + NX)%nat by lia. rewrite seq_app, rsum_app. f_equal. cbn [plus]. generalize (NY * NX)%nat as o. intros o. clear IH NY.
  assert (E : seq o NX = map (fun ix => (o + ix)%nat) (seq 0 NX)). { clear. revert o. induction NX as [|n IH]; intros o; [reflexivity|]. cbn [seq map]. f_equal; [lia|]. rewrite IH, <- seq_shift, map_map. apply map_ext. intros; lia. }
  rewrite E, rsum_map. reflexivity.
Qed.
Lemma pixels_img x0 y0 NX NY img p : In p (pixels x0 y0 NX NY img) -> exists i, p_img p = img i.
Proof. unfold pixels. intros I. apply in_flat_map in I. destruct I as (iy & _ & I). apply in_map_iff in I. destruct I as (ix & <- & _). eexists; reflexivity. Qed.
Lemma init_good N : Forall good (init_params N).
Proof.
  rewrite Forall_forall. intros c I. apply in_map_iff in I. destruct I as (i & <- & I). apply in_seq in I. assert (N0 : 0 < INR N) by (apply lt_0_INR; lia). assert (P : 0 < INR (i + 1)) by (apply lt_0_INR; lia).
  assert (S0 : 0 < rsum (fun _ : nat => 1 / INR N) (seq 0 N)). { rewrite rsum_const, seq_length. replace (1 / INR N * INR N) with 1 by (field; lra). lra. }
  repeat split; cbn [g_amp g_v0 g_v1 g_v2]; auto.
  - apply Rmult_lt_0_compat; [apply Rmult_lt_0_compat; [lra|]|]; apply Rinv_0_lt_compat; auto.
  - unfold vdet. cbn [g_v0 g_v1 g_v3]. nra.
Qed.
(** The flux of the fitted PSF is the positive part of the stamp over its sum. *)
Theorem C72_stamp NX NY stamp N P0 alpha steps :
  let cs := match P0 with Some cs => cs | None => init_params N end in
  let s := rsum stamp (seq 0 (NY * NX)) in
  let ps := pixels (- (Z.of_nat NX / 2)) (- (Z.of_nat NY / 2)) NX NY (fun i => Rmax (stamp i / s) 0) in
  0 < s -> 0 < alpha -> Forall good cs -> cs <> [] -> (forall j a, (j <= steps)%nat -> fit2 alpha ps j cs = Done a -> near ps a) ->
  exists b, from_stamp NX NY stamp N P0 alpha (S steps) = Some b /\ Forall good b /\ length b = length cs /\
    flux b = rsum (fun i => Rmax (stamp i) 0) (seq 0 (NY * NX)) / s /\
    ((forall i, (i < NY * NX)%nat -> 0 <= stamp i) -> flux b = 1) /\
    objective alpha ps cs <= objective alpha ps b.
Proof.
  intros cs s ps S0 A G NE V.
  assert (FP : rsum p_img ps = rsum (fun i => Rmax (stamp i) 0) (seq 0 (NY * NX)) / s).
  { unfold ps. rewrite pixels_sum. unfold Rdiv at 2. rewrite Rmult_comm, <- rsum_mul. apply rsum_ext. intros i _. pose proof (Rinv_0_lt_compat s S0). unfold Rmax. destruct (Rle_dec (stamp i / s) 0) as [L|L]; destruct (Rle_dec (stamp i) 0) as [L'|L']; unfold Rdiv in *; nra. }
  assert (LE : s <= rsum (fun i => Rmax (stamp i) 0) (seq 0 (NY * NX))) by (apply rsum_le; intros i _; apply Rmax_l).
  assert (Q : exists p, In p ps /\ 0 < p_img p). { apply rsum_pos_ex. rewrite FP. apply Rmult_lt_0_compat; [lra|apply Rinv_0_lt_compat; auto]. }
  assert (I : forall p, In p ps -> 0 <= p_img p) by (intros p Ip; destruct (pixels_img _ _ _ _ _ _ Ip) as (i & ->); apply Rmax_r).
  destruct (C72_climb alpha ps (S steps) cs A I Q NE G) as (b & HB & GB & LB & FB & OB); [intros j a J; apply V; lia|].
  exists b. split; [|split; [auto|split; [auto|split; [|split; [|auto]]]]].
  - unfold from_stamp, prepared. fold s cs. fold ps. rewrite HB. reflexivity.
  - rewrite (FB ltac:(congruence)). exact FP.
  - intros NN. rewrite (FB ltac:(congruence)), FP. rewrite (rsum_ext _ stamp); [fold s; field; lra|]. intros i Hi. apply in_seq in Hi. unfold Rmax. destruct (Rle_dec (stamp i) 0); [|reflexivity]. pose proof (NN i ltac:(lia)). lra.
Qed.

(** ** Where it goes wrong *)
Lemma step2_single alpha ps c : good c -> let l := filter (fun p => if Rlt_dec (away c p) 100 then true else false) ps in let W := rsum p_img l in
  W <> 0 -> W + alpha <> 0 -> let mx := rsum (fun p => p_img p * p_x p) l / W in let my := rsum (fun p => p_img p * p_y p) l / W in
  step2 alpha ps [c] = Done [mkG W mx my ((alpha + rsum (fun p => p_img p * (p_x p - mx) * (p_x p - mx)) l) / (W + alpha)) ((0 + rsum (fun p => p_img p * (p_x p - mx) * (p_y p - my)) l) / (W + alpha)) ((0 + rsum (fun p => p_img p * (p_y p - my) * (p_x p - mx)) l) / (W + alpha)) ((alpha + rsum (fun p => p_img p * (p_y p - my) * (p_y p - my)) l) / (W + alpha))].
Proof.
  intros G l W W0 W1 mx my. assert (GF : Forall good [c]) by (constructor; auto).
  assert (RE : forall p, reached [c] p = if Rlt_dec (away c p) 100 then true else false) by (intros p; unfold reached; cbn; apply orb_false_r).
  assert (WE : forall p, w2 [c] 0 p = if (if Rlt_dec (away c p) 100 then true else false) then p_img p else 0).
  { intros p. rewrite (w2_good [c] p 0 GF ltac:(cbn; lia)). pose proof (reached_pos [c] p GF) as RP. rewrite (RE p) in *. destruct (Rlt_dec (away c p) 100); [|reflexivity]. unfold cuttotal in *. cbn [rsum fold_right nth] in *. field. lra. }
  assert (S1 : rsum (w2 [c] 0) ps = W). { unfold W, l. rewrite <- rsum_filter. apply rsum_ext. intros; apply WE. }
  assert (SF : forall f, rsum (fun p => w2 [c] 0 p * f p) ps = rsum (fun p => p_img p * f p) l). { intros f. unfold l. rewrite <- rsum_filter. apply rsum_ext. intros p _. rewrite WE. destruct (if Rlt_dec (away c p) 100 then true else false); ring. }
  assert (SG : forall f g, rsum (fun p => w2 [c] 0 p * f p * g p) ps = rsum (fun p => p_img p * f p * g p) l). { intros f g. unfold l. rewrite <- rsum_filter. apply rsum_ext. intros p _. rewrite WE. destruct (if Rlt_dec (away c p) 100 then true else false); ring. }
  unfold step2. cbn [existsb seq length map]. rewrite !orb_false_r.
  assert (D : rleb (det2 c) 0 = false). { unfold rleb. rewrite (det2_good c G). destruct (Rle_dec (vdet c) 0); auto. pose proof G as (? & ? & ? & ?). lra. } rewrite D.
  assert (B : reqb (rsum (w2 [c] 0) ps) 0 || reqb (rsum (w2 [c] 0) ps + alpha) 0 = false). { rewrite S1. unfold reqb. destruct (Req_EM_T W 0); [contradiction|]. destruct (Req_EM_T (W + alpha) 0); [contradiction|reflexivity]. } rewrite B.
  rewrite !SG, S1, !SF. reflexivity.
Qed.
Ltac pick := match goal with |- context [Rlt_dec ?a ?b] => destruct (Rlt_dec a b); try (exfalso; unfold away, quad in *; cbn in *; lra) end.
(** Flux beyond ten standard deviations of every component is ignored, and the
    likelihood can fall. *)
Definition thin : gcomp := mkG 1 0 0 (1 / 200) 0 0 (1 / 200).
Definition flat2 : list pix := pixels 0 0 2 1 (fun _ => 1).
Theorem C72_far_refuted : exists b, Forall good [thin] /\ step2 (1 / 399) flat2 [thin] = Done b /\ Forall good b /\ flux b = 1 /\ rsum p_img flat2 = 2 /\ objective (1 / 399) flat2 b < objective (1 / 399) flat2 [thin].
Proof.
  assert (G : good thin) by (unfold good, vdet, thin; cbn; repeat split; lra).
  assert (F : filter (fun p => if Rlt_dec (away thin p) 100 then true else false) flat2 = [mkPix 0 0 1]).
  { change flat2 with [mkPix 0 0 1; mkPix 1 0 1]. cbn [filter]. destruct (Rlt_dec (away thin (mkPix 0 0 1)) 100) as [P|P]; [|exfalso; apply P; unfold away, quad; cbn; lra].
    destruct (Rlt_dec (away thin (mkPix 1 0 1)) 100) as [Q|Q]; [exfalso; unfold away, quad in Q; cbn in Q; lra|reflexivity]. }
  pose proof (step2_single (1 / 399) flat2 thin G) as S. cbv zeta in S. rewrite F in S. cbn [rsum fold_right p_img p_x p_y] in S. specialize (S ltac:(lra) ltac:(lra)).
  eexists. split; [constructor; auto|]. split; [exact S|].
  set (b := mkG _ _ _ _ _ _ _). assert (EB : b = mkG 1 0 0 (1 / 400) 0 0 (1 / 400)) by (unfold b; f_equal; field). rewrite EB. clear b EB S F.
  split; [constructor; [unfold good, vdet; cbn; repeat split; lra|constructor]|]. split; [cbn; lra|]. split; [cbn; lra|].
  change flat2 with [mkPix 0 0 1; mkPix 1 0 1]. unfold objective, loglik, penalty, total, value, shape, flux. cbn [rsum fold_right p_img p_x p_y g_amp g_mx g_my g_v0 g_v1 g_v3 thin]. unfold vdet. cbn [g_v0 g_v1 g_v3 thin].
  rewrite !Rplus_0_r. replace (1 / 400 * (1 / 400) - 0 * 0) with (1 / 160000) by lra. replace (1 / 200 * (1 / 200) - 0 * 0) with (1 / 40000) by lra. rewrite !Rmult_1_l. assert (D1 : forall x, x / 1 = x) by (intros; field). rewrite !D1.
  rewrite !ln_normal by lra. unfold quad. replace (1 / 400 * (1 / 400) - 0 * 0) with (1 / 160000) by lra. replace (1 / 200 * (1 / 200) - 0 * 0) with (1 / 40000) by lra.
  assert (L4 : ln (1 / 40000) = ln (1 / 160000) + ln 4). { rewrite <- ln_mult by lra. f_equal. lra. } pose proof (ln_le 4 ltac:(lra)). assert (P4 : 0 < ln 4) by (rewrite <- ln_1; apply ln_increasing; lra). rewrite L4. lra.
Qed.
(** Negative pixels: the PSF has not unit flux. *)
Definition ring_stamp (i : nat) : R := match i with O => -1 | _ => 3 end.
Theorem C72_negative_refuted : exists b, rsum ring_stamp (seq 0 2) = 2 /\ from_stamp 2 1 ring_stamp 1 None 1 1 = Some b /\ flux b = 3 / 2.
Proof.
  assert (S2 : rsum ring_stamp (seq 0 (1 * 2)) = 2) by (cbn; lra).
  destruct (C72_stamp 2 1 ring_stamp 1 None 1 0) as (b & H & G & L & F & _); try lra.
  - apply init_good.
  - discriminate.
  - intros j a J. assert (j = 0%nat) by lia. subst j. cbn. intros E. injection E as <-. intros c p [<-|[]] [<-|[<-|[]]]; unfold away, quad; cbn; lra.
  - exists b. split; [cbn; lra|]. split; [exact H|]. rewrite F, S2. cbn. unfold Rmax. destruct (Rle_dec (-1) 0); [|lra]. destruct (Rle_dec 3 0); lra.
Qed.
(** A component without flux near it makes everything NaN. *)
Definition pair_far : list gcomp := [mkG 1 0 0 1 0 0 1; mkG 1 100 0 1 0 0 1].
Theorem C72_nan_refuted : Forall good pair_far /\ forall n, from_stamp 1 1 (fun _ => 1) 2 (Some pair_far) 1 (S n) = None.
Proof.
  assert (G : Forall good pair_far) by (repeat constructor; unfold vdet; cbn; lra). split; auto. intros n. unfold from_stamp, fit2. cbn [iterate].
  set (ps := pixels _ _ _ _ _). assert (PS : ps = [mkPix 0 0 1]). { unfold ps, pixels, prepared. cbn. replace (1 / (1 + 0)) with 1 by lra. rewrite Rmax_left by lra. reflexivity. } rewrite PS.
  assert (E : step2 1 [mkPix 0 0 1] pair_far = Nans); [|rewrite E; reflexivity]. unfold step2.
  assert (D : existsb (fun c => rleb (det2 c) 0) pair_far = false) by (cbn; unfold rleb, det2; cbn; destruct (Rle_dec _ 0); [lra|reflexivity]). rewrite D.
  assert (B : existsb (fun k => reqb (rsum (w2 pair_far k) [mkPix 0 0 1]) 0 || reqb (rsum (w2 pair_far k) [mkPix 0 0 1] + 1) 0) (seq 0 (length pair_far)) = true); [|rewrite B; reflexivity].
  apply existsb_exists. exists 1%nat. split; [right; left; reflexivity|]. apply orb_true_iff. left. assert (Z : rsum (w2 pair_far 1) [mkPix 0 0 1] = 0); [|rewrite Z; unfold reqb; destruct (Req_EM_T 0 0); congruence].
  cbn [rsum fold_right]. rewrite (w2_good pair_far _ 1 G ltac:(cbn; lia)). assert (C : cutvalue (nth 1 pair_far g0) (mkPix 0 0 1) = 0) by (unfold cutvalue; destruct (Rle_dec 100 _) as [L|L]; [reflexivity|exfalso; apply L; unfold away, quad; cbn; lra]).
  rewrite C. destruct (reached pair_far _); unfold Rdiv; ring.
Qed.
(** With alpha = 0, the default, the fit of a stamp with its flux on a line stops
    with a singular variance and the return value -1, which fromStamp ignores. *)
Theorem C72_singular_refuted : exists c, vdet c = 0 /\ forall n, from_stamp 2 1 (fun _ => 1) 1 None 0 (S n) = Some [c].
Proof.
  set (ps := pixels (-1) 0 2 1 (prepared 2 1 (fun _ => 1))). assert (PS : ps = [mkPix (-1) 0 (1 / 2); mkPix 0 0 (1 / 2)]). { unfold ps, pixels, prepared. cbn. replace (1 / (1 + (1 + 0))) with (1 / 2) by lra. rewrite Rmax_left by lra. reflexivity. }
  set (c1 := mkG 1 0 0 1 0 0 1). assert (IN : init_params 1 = [c1]) by (unfold init_params, c1; cbn; repeat f_equal; field).
  assert (G : good c1) by (unfold good, vdet, c1; cbn; repeat split; lra).
  assert (F : filter (fun p => if Rlt_dec (away c1 p) 100 then true else false) ps = ps).
  { rewrite PS. cbn [filter]. destruct (Rlt_dec (away c1 (mkPix (-1) 0 (1 / 2))) 100) as [P|P]; [|exfalso; apply P; unfold away, quad; cbn; lra].
    destruct (Rlt_dec (away c1 (mkPix 0 0 (1 / 2))) 100) as [Q|Q]; [reflexivity|exfalso; apply Q; unfold away, quad; cbn; lra]. }
  pose proof (step2_single 0 ps c1 G) as S. cbv zeta in S. rewrite F, PS in S. cbn [rsum fold_right p_img p_x p_y] in S. specialize (S ltac:(lra) ltac:(lra)). rewrite <- PS in S.
  match type of S with _ = Done [?b] => exists b; set (c2 := b) in * end. assert (E2 : c2 = mkG 1 (- (1 / 2)) 0 (1 / 4) 0 0 0) by (unfold c2; f_equal; field). rewrite E2 in *. clear c2 E2. split; [unfold vdet; cbn; ring|].
  intros n. unfold from_stamp, fit2. change (- (Z.of_nat 2 / 2))%Z with (-1)%Z. change (- (Z.of_nat 1 / 2))%Z with 0%Z. fold ps. rewrite IN. cbn [iterate]. rewrite S. destruct n as [|n]; [reflexivity|]. cbn [iterate].
  assert (Q : step2 0 ps [mkG 1 (- (1 / 2)) 0 (1 / 4) 0 0 0] = Singular [mkG 1 (- (1 / 2)) 0 (1 / 4) 0 0 0]); [|rewrite Q; reflexivity]. unfold step2. cbn [existsb]. unfold rleb, det2. cbn. destruct (Rle_dec _ 0); [reflexivity|lra].
Qed.
(** An image with negative total: the sky starts negative, and a component takes more
    flux than there is. *)
Definition dark : list pix := [mkPix 0 0 1; mkPix 1 0 (-3)].
Theorem C73_dark_refuted : exists b s, fit3 1 0 dark 1 [mkG 1 0 0 1 0 0 1] = Done (b, s) /\ 1 < flux b /\ rsum (fun p => Rmax (p_img p) 0) dark = 1.
Proof.
  set (c := mkG 1 0 0 1 0 0 1). assert (G : good c) by (unfold good, vdet, c; cbn; repeat split; lra). assert (GF : Forall good [c]) by (constructor; auto).
  unfold fit3. cbn [iterate]. set (ps := dark). set (psky := first_sky ps 1). assert (PK : psky = - (1 / 100)) by (unfold psky, first_sky; cbn; lra).
  pose proof PI_RGT_0. pose proof PI_4 as P4.
  assert (TOT : lowtotal 0 [c] (mkPix 0 0 1) = 1 / (2 * PI)). { unfold lowtotal. cbn [rsum fold_right]. unfold lowvalue. destruct (Rlt_dec 0 0); [lra|]. unfold value, shape, normal, quad, c. cbn. rewrite Rplus_0_r. replace (1 * 1 - 0 * 0) with 1 by ring. rewrite sqrt_1. match goal with |- context [exp ?e] => replace e with 0 by field end. rewrite exp_0. field. lra. }
  set (t := 1 / (2 * PI)) in *. assert (T0 : 1 / 100 < t). { unfold t. apply (Rmult_lt_reg_r (2 * PI)); [lra|]. replace (1 / (2 * PI) * (2 * PI)) with 1 by (field; lra). lra. }
  assert (W : rsum (w3 0 psky [c] 0) ps = t / (t + psky)).
  { unfold ps, dark. cbn [rsum fold_right]. assert (W2 : w3 0 psky [c] 0 (mkPix 1 0 (-3)) = 0) by (unfold w3, rleb; cbn; destruct (Rle_dec (-3) 0); [reflexivity|lra]). rewrite W2.
    unfold w3, rleb. cbn [p_img]. destruct (Rle_dec 1 0); [lra|]. rewrite (zsum3_good 0 [c] _ GF), TOT. unfold reqb. destruct (Req_EM_T t 0); [lra|]. cbn [map nth]. rewrite (z3_good 0 c _ G).
    assert (LV : lowvalue 0 c (mkPix 0 0 1) = t) by (rewrite <- TOT; unfold lowtotal; cbn [rsum fold_right]; ring). rewrite LV. unfold Rdiv. ring. }
  assert (WP : 1 < t / (t + psky)). { rewrite PK. apply (Rmult_lt_reg_r (t + - (1 / 100))); [lra|]. replace (t / (t + - (1 / 100)) * (t + - (1 / 100))) with t by (field; lra). lra. }
  unfold step3. cbn [existsb length seq]. assert (DD : rleb (det3 c) 0 = false) by (unfold rleb; rewrite (det3_good c G); destruct (Rle_dec (vdet c) 0); auto; unfold vdet, c in *; cbn in *; lra). rewrite DD. cbn [orb].
  assert (B : reqb (rsum (w3 0 psky [c] 0) ps) 0 || reqb (rsum (w3 0 psky [c] 0) ps + 1) 0 || false = false). { rewrite W. unfold reqb. destruct (Req_EM_T (t / (t + psky)) 0); [lra|]. destruct (Req_EM_T (t / (t + psky) + 1) 0); [lra|reflexivity]. } rewrite B.
  eexists. eexists. split; [reflexivity|]. split; [unfold flux; cbn [rsum fold_right map g_amp]; rewrite W; lra|]. unfold ps, dark. cbn. unfold Rmax. destruct (Rle_dec 1 0); [lra|]. destruct (Rle_dec (-3) 0); lra.
Qed.

(** ** Cases *)
Definition round1 : gcomp := mkG 1 0 0 1 0 0 1.
Lemma round_good : good round1.
Proof. unfold good, vdet, round1. cbn. repeat split; lra. Qed.
Example C72_step_case : exists b, step2 1 flat2 [round1] = Done b /\ cutlik (filter (reached [round1]) flat2) [round1] - penalty 1 [round1] <= objective 1 (filter (reached [round1]) flat2) b /\ flux b = rsum p_img (filter (reached [round1]) flat2).
Proof.
  assert (G : Forall good [round1]) by (constructor; [apply round_good|constructor]). assert (I : forall p, In p flat2 -> 0 <= p_img p) by (intros p [<-|[<-|[]]]; cbn; lra).
  destruct (step2_done 1 flat2 [round1]) as (b & H); try lra; auto.
  - exists (mkPix 0 0 1). split; [left; reflexivity|cbn; lra].
  - intros c p [<-|[]] [<-|[<-|[]]]; unfold away, quad; cbn; lra.
  - destruct (C72_flux 1 flat2 [round1] b H ltac:(lra) I G) as (_ & F & _ & G'). exists b. split; auto. split; auto. apply (C72_step 1 flat2 [round1] b H); auto; try lra; [discriminate|apply G'; lra].
Qed.
Example C72_climb_case : exists b, fit2 1 flat2 2 [round1] = Done b /\ flux b = 2 /\ objective 1 flat2 [round1] <= objective 1 flat2 b.
Proof.
  assert (F : filter (fun p => if Rlt_dec (away round1 p) 100 then true else false) flat2 = flat2).
  { change flat2 with [mkPix 0 0 1; mkPix 1 0 1]. cbn [filter]. destruct (Rlt_dec (away round1 (mkPix 0 0 1)) 100) as [P|P]; [|exfalso; apply P; unfold away, quad; cbn; lra].
    destruct (Rlt_dec (away round1 (mkPix 1 0 1)) 100) as [Q|Q]; [reflexivity|exfalso; apply Q; unfold away, quad; cbn; lra]. }
  pose proof (step2_single 1 flat2 round1 round_good) as S. cbv zeta in S. rewrite F in S. change flat2 with [mkPix 0 0 1; mkPix 1 0 1] in S. cbn [rsum fold_right p_img p_x p_y] in S. specialize (S ltac:(lra) ltac:(lra)).
  destruct (C72_climb 1 flat2 2 [round1]) as (b & HB & _ & _ & FB & OB); try lra.
  - intros p [<-|[<-|[]]]; cbn; lra.
  - exists (mkPix 0 0 1). split; [left; reflexivity|cbn; lra].
  - discriminate.
  - constructor; [apply round_good|constructor].
  - intros j a J. destruct j as [|[|j]]; [| |lia].
    + cbn. intros E. injection E as <-. intros c p [<-|[]] [<-|[<-|[]]]; unfold away, quad; cbn; lra.
    + unfold fit2. cbn [iterate]. change flat2 with [mkPix 0 0 1; mkPix 1 0 1] at 1. rewrite S. intros E. injection E as <-. intros c p [<-|[]] [<-|[<-|[]]]; unfold away, quad; cbn; lra.
  - exists b. split; auto. split; auto. rewrite FB by congruence. cbn. lra.
Qed.
Definition notch : list pix := [mkPix 0 0 2; mkPix 1 0 (-1)].
Example C73_case : exists b, fit3 1 0 notch 1 [round1] = Done b /\ flux (fst b) + snd b * 2 = 3 /\ 0 < snd b.
Proof.
  destruct (C73_climb 1 0 notch 0 [round1]) as (b & H1 & _ & H3 & _ & H5 & _); try lra.
  - cbn. lra.
  - constructor; [apply round_good|constructor].
  - intros j a J. assert (j = 0%nat) by lia. subst j. cbn [iterate]. intros E. injection E as <-. intros c p [<-|[]] _. apply shape_pos, round_good.
  - exists b. split; auto. split; auto. cbn [length INR notch] in H5. replace (1 + 1) with 2 in H5 by lra. rewrite H5. unfold notch. cbn. rewrite (Rabs_right 2), (Rabs_left (-1)) by lra. lra.
Qed.
Example C72_one_case : exists b, step1 1 [0; 1] [mkC1 1 0 1] = Done b /\ flux1 b = 1.
Proof.
  set (c := mkC1 1 0 1). assert (G : Forall good1 [c]) by (constructor; [split; cbn; lra|constructor]).
  assert (RE : forall x, In x [0; 1] -> reached1 [c] x = true) by (intros x [<-|[<-|[]]]; unfold reached1; cbn [existsb]; destruct (Rlt_dec _ 100) as [L|L]; try reflexivity; exfalso; apply L; unfold away1; cbn; lra).
  assert (WE : forall x, In x [0; 1] -> w1 [c] 0 x = 1). { intros x I. rewrite (w1_good [c] x 0 G ltac:(cbn; lia)), (RE x I). pose proof (reached1_pos [c] x G) as P. rewrite (RE x I) in P. unfold cuttotal1 in *. cbn [rsum fold_right nth] in *. field. lra. }
  assert (S : rsum (w1 [c] 0) [0; 1] = 2) by (cbn [rsum fold_right]; rewrite !WE by (cbn; auto); lra).
  assert (H : exists b, step1 1 [0; 1] [c] = Done b).
  { unfold step1. cbn [existsb length seq]. assert (V : rleb (u_var c) 0 = false) by (unfold rleb; cbn; destruct (Rle_dec 1 0); [lra|reflexivity]). rewrite V. cbn [orb]. rewrite S. unfold reqb. destruct (Req_EM_T 2 0); [lra|]. destruct (Req_EM_T (2 + 1) 0); [lra|]. cbn [orb]. eexists. reflexivity. }
  destruct H as (b & H). exists b. split; auto. destruct (C72_one 1 [0; 1] [c] b H ltac:(lra) ltac:(discriminate) G) as (_ & F & _). rewrite F. cbn [filter]. rewrite !RE by (cbn; auto). cbn. lra.
Qed.
Print Assumptions C72_step.
Print Assumptions C72_flux.
Print Assumptions C72_best.
Print Assumptions C72_climb.
Print Assumptions C72_one.
Print Assumptions C72_stamp.
Print Assumptions C72_far_refuted.
Print Assumptions C72_negative_refuted.
Print Assumptions C72_nan_refuted.
Print Assumptions C72_singular_refuted.
Print Assumptions C73_flux.
Print Assumptions C73_moments.
Print Assumptions C73_excess.
Print Assumptions C73_step.
Print Assumptions C73_climb.
Print Assumptions C73_dark_refuted.
