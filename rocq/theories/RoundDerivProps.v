(** C113: derivatives by differences in floating point. *)
From Coq Require Import Reals ZArith Lia Lra.
From Flocq Require Import Core Relative.
From Coq Require Import Floats.
From Verif Require Import RoundModel RoundArith RoundDerivModel.
Open Scope R_scope.

Section C113.
Variables (prec emin : Z).
Context (P : (0 < prec)%Z).
Notation fmt := (fmt prec emin).
Notation rn := (rn prec emin).
Notation u := (unit_err prec).
Notation eta := (tiny_err emin).

Lemma rn_err x : Rabs (rn x - x) <= u * Rabs x + eta.
Proof.
  destruct (error_N_FLT radix2 emin prec P (fun n => negb (Z.even n)) x) as (e & t & He & Ht & _ & E).
  unfold RoundModel.rn. rewrite E. replace (x * (1 + e) + t - x) with (e * x + t) by ring.
  eapply Rle_trans; [apply Rabs_triang|]. rewrite Rabs_mult. unfold tiny_err. apply Rplus_le_compat; auto.
  apply Rmult_le_compat_r; [apply Rabs_pos|]. rewrite <- (u_ro_u prec). exact He.
Qed.
Lemma eta_pos : 0 < eta.
Proof. unfold tiny_err. pose proof (bpow_gt_0 radix2 emin). lra. Qed.

Lemma quotient_err c1 c0 h D E : fmt c1 -> fmt c0 -> h <> 0 -> Rabs (c1 - c0 - D * h) <= E ->
  Rabs (fdiv prec emin (fsub prec emin c1 c0) h - D) <= ((1 + u) ^ 2 - 1) * Rabs D + (1 + u) ^ 2 * E / Rabs h + eta.
Proof.
  intros F1 F0 H0 HE. pose proof (u_pos prec) as U. pose proof (Rabs_pos_lt h H0) as Hp. pose proof (Rabs_pos D) as Dp.
  assert (Ep : 0 <= E) by (eapply Rle_trans; [apply Rabs_pos|exact HE]).
  pose proof (add_err prec emin P c1 (- c0) F1 (fmt_opp prec emin c0 F0)) as A. rewrite <- sub_add in A. set (d := fsub prec emin c1 c0) in *.
  replace (c1 + - c0) with (c1 - c0) in A by ring.
  assert (B : Rabs (c1 - c0) <= E + Rabs D * Rabs h).
  { replace (c1 - c0) with ((c1 - c0 - D * h) + D * h) by ring. eapply Rle_trans; [apply Rabs_triang|]. rewrite Rabs_mult. lra. }
  assert (C : Rabs (d - D * h) <= (1 + u) * E + u * (Rabs D * Rabs h)).
  { replace (d - D * h) with ((d - (c1 - c0)) + (c1 - c0 - D * h)) by ring. eapply Rle_trans; [apply Rabs_triang|].
    assert (u * Rabs (c1 - c0) <= u * (E + Rabs D * Rabs h)) by (apply Rmult_le_compat_l; lra). lra. }
  pose proof (rn_err (d / h)) as R. change (rn (d / h)) with (fdiv prec emin d h) in R. set (q := fdiv prec emin d h) in *.
  assert (X : Rabs (d / h - D) <= (1 + u) * E / Rabs h + u * Rabs D).
  { replace (d / h - D) with ((d - D * h) / h) by (field; auto). unfold Rdiv at 1. rewrite Rabs_mult, Rabs_inv.
    apply (Rmult_le_reg_r (Rabs h)); auto. rewrite Rmult_assoc, Rinv_l, Rmult_1_r by lra. eapply Rle_trans; [exact C|]. apply Req_le. field. lra. }
  assert (Y : Rabs (d / h) <= Rabs D + ((1 + u) * E / Rabs h + u * Rabs D)).
  { replace (d / h) with (D + (d / h - D)) by ring. eapply Rle_trans; [apply Rabs_triang|]. lra. }
  replace (q - D) with ((q - d / h) + (d / h - D)) by ring. eapply Rle_trans; [apply Rabs_triang|].
  assert (Z : u * Rabs (d / h) <= u * (Rabs D + ((1 + u) * E / Rabs h + u * Rabs D))) by (apply Rmult_le_compat_l; lra).
  assert (W : (1 + u) ^ 2 * E / Rabs h = (1 + u) * ((1 + u) * E / Rabs h)) by (field; lra). rewrite W. simpl.
  set (t := (1 + u) * E / Rabs h) in *. lra.
Qed.

Section Flux.
Variables (f h s : R).
Hypothesis Ff : fmt f.
Hypothesis Fh : fmt h.
Let f1 := fadd prec emin f h.
Let c1 := fmul prec emin f1 s.
Let c0 := fmul prec emin f s.
Let E1 := (((1 + u) ^ 2 - 1) * Rabs (f + h) + u * Rabs f) * Rabs s + 2 * eta.
Lemma counts_err : Rabs (c1 - c0 - h * s) <= E1.
Proof.
  pose proof (add_err prec emin P f h Ff Fh) as A1. fold f1 in A1.
  pose proof (rn_err (f1 * s)) as A2. pose proof (rn_err (f * s)) as A3. change (rn (f1 * s)) with c1 in A2. change (rn (f * s)) with c0 in A3.
  rewrite Rabs_mult in A2, A3. pose proof (u_pos prec) as U. pose proof eta_pos as T.
  assert (B : Rabs f1 <= (1 + u) * Rabs (f + h)).
  { replace f1 with ((f1 - (f + h)) + (f + h)) by ring. eapply Rle_trans; [apply Rabs_triang|]. lra. }
  replace (c1 - c0 - h * s) with ((c1 - f1 * s) + (f1 - (f + h)) * s - (c0 - f * s)) by ring.
  eapply Rle_trans; [apply Rabs_triang|]. rewrite Rabs_Ropp. eapply Rle_trans; [apply Rplus_le_compat_r, Rabs_triang|]. rewrite Rabs_mult.
  pose proof (Rabs_pos s) as S0. pose proof (Rabs_pos f) as F0. pose proof (Rabs_pos (f + h)) as G0.
  assert (C1 : Rabs (f1 - (f + h)) * Rabs s <= u * Rabs (f + h) * Rabs s) by (apply Rmult_le_compat_r; auto).
  assert (C2 : u * (Rabs f1 * Rabs s) <= u * ((1 + u) * Rabs (f + h) * Rabs s)).
  { apply Rmult_le_compat_l; [lra|]. apply Rmult_le_compat_r; auto. }
  unfold E1. simpl. nra.
Qed.
(** With a linear calibration the derivative is the scale, up to roundings of
    fluxes over the step. *)
Theorem C113_flux D : h <> 0 ->
  counts_deriv (fadd prec emin) (fsub prec emin) (fdiv prec emin) req (linear_counts (fmul prec emin) s) f h = Some D ->
  Rabs (D - s) <= ((1 + u) ^ 4 - 1) * Rabs s * ((Rabs (f + h) + Rabs f + Rabs h) / Rabs h) + (2 * (1 + u) ^ 2 / Rabs h + 1) * eta.
Proof.
  intros H0. unfold counts_deriv, linear_counts. fold f1. fold c1. fold c0. destruct (req c1 c0); [discriminate|]. intros E. injection E as <-.
  pose proof counts_err as CE. rewrite (Rmult_comm h s) in CE.
  eapply Rle_trans; [apply (quotient_err c1 c0 h s E1); auto; apply fmt_rn; auto|].
  pose proof (u_pos prec) as U. pose proof (Rabs_pos_lt h H0) as Hp. pose proof eta_pos as T. pose proof (Rabs_pos s) as Sp.
  pose proof (Rabs_pos f) as Fp. pose proof (Rabs_pos (f + h)) as Gp. unfold E1.
  set (a := Rabs s) in *. set (F := Rabs (f + h)) in *. set (G := Rabs f) in *. set (H := Rabs h) in *.
  apply (Rmult_le_reg_r H); auto.
  replace ((((1 + u) ^ 2 - 1) * a + (1 + u) ^ 2 * ((((1 + u) ^ 2 - 1) * F + u * G) * a + 2 * eta) / H + eta) * H)
    with (((1 + u) ^ 2 - 1) * a * H + (1 + u) ^ 2 * (((1 + u) ^ 2 - 1) * F + u * G) * a + (2 * (1 + u) ^ 2 + H) * eta) by (field; lra).
  replace ((((1 + u) ^ 4 - 1) * a * ((F + G + H) / H) + (2 * (1 + u) ^ 2 / H + 1) * eta) * H)
    with (((1 + u) ^ 4 - 1) * a * (F + G + H) + (2 * (1 + u) ^ 2 + H) * eta) by (field; lra).
  set (w := 1 + u) in *. assert (W : 1 <= w) by (unfold w; lra). assert (W2 : 1 <= w ^ 2) by (simpl; nra). assert (W4 : w ^ 4 = w ^ 2 * w ^ 2) by ring.
  assert (K1 : (w ^ 2 - 1) * a * H <= (w ^ 4 - 1) * a * H).
  { rewrite !Rmult_assoc. apply Rmult_le_compat_r; [apply Rmult_le_pos; lra|]. rewrite W4. nra. }
  assert (K2 : w ^ 2 * (w ^ 2 - 1) * (F * a) <= (w ^ 4 - 1) * (F * a)).
  { apply Rmult_le_compat_r; [apply Rmult_le_pos; lra|]. rewrite W4. nra. }
  assert (K3 : w ^ 2 * u * (G * a) <= (w ^ 4 - 1) * (G * a)).
  { apply Rmult_le_compat_r; [apply Rmult_le_pos; lra|]. rewrite W4. assert (w ^ 2 * (1 + u) <= w ^ 2 * w ^ 2) by (apply Rmult_le_compat_l; [lra|unfold w; simpl; nra]). lra. }
  lra.
Qed.
(** It is None, that is, missing, only if the fluxes drown the step. *)
Theorem C113_missing : s <> 0 ->
  counts_deriv (fadd prec emin) (fsub prec emin) (fdiv prec emin) req (linear_counts (fmul prec emin) s) f h = None ->
  Rabs h <= ((1 + u) ^ 2 - 1) * (Rabs (f + h) + Rabs f) + 2 * eta / Rabs s.
Proof.
  intros S0. unfold counts_deriv, linear_counts. fold f1. fold c1. fold c0. unfold req. destruct (Req_EM_T c1 c0) as [E|]; [|discriminate]. intros _.
  pose proof counts_err as CE. rewrite E in CE. replace (c0 - c0 - h * s) with (- (h * s)) in CE by ring. rewrite Rabs_Ropp, Rabs_mult in CE.
  pose proof (Rabs_pos_lt s S0) as Sp. pose proof (u_pos prec) as U. pose proof (Rabs_pos f) as Fp. unfold E1 in CE.
  apply (Rmult_le_reg_r (Rabs s)); auto. rewrite Rmult_plus_distr_r. replace (2 * eta / Rabs s * Rabs s) with (2 * eta) by (field; lra).
  eapply Rle_trans; [exact CE|]. apply Rplus_le_compat_r. apply Rmult_le_compat_r; [lra|].
  assert (u * Rabs f <= ((1 + u) ^ 2 - 1) * Rabs f) by (apply Rmult_le_compat_r; simpl; nra). lra.
Qed.
End Flux.

(** An image derivative at one pixel, for model values that are m1 and m0 up to
    e1 and e0 (C110 bounds them): right up to these over the step. *)
Theorem C113_pixel mod1 mod0 m1 m0 e1 e0 h : fmt mod1 -> fmt mod0 -> h <> 0 ->
  Rabs (mod1 - m1) <= e1 -> Rabs (mod0 - m0) <= e0 ->
  Rabs (image_deriv (fsub prec emin) (fdiv prec emin) mod1 mod0 h - (m1 - m0) / h) <=
    ((1 + u) ^ 2 - 1) * (Rabs (m1 - m0) / Rabs h) + (1 + u) ^ 2 * (e1 + e0) / Rabs h + eta.
Proof.
  intros F1 F0 H0 A1 A0. unfold image_deriv. eapply Rle_trans; [apply (quotient_err mod1 mod0 h ((m1 - m0) / h) (e1 + e0)); auto|].
  - replace (mod1 - mod0 - (m1 - m0) / h * h) with ((mod1 - m1) - (mod0 - m0)) by (field; auto).
    eapply Rle_trans; [apply Rabs_triang|]. rewrite Rabs_Ropp. lra.
  - apply Req_le. unfold Rdiv at 1. rewrite Rabs_mult, Rabs_inv. reflexivity.
Qed.

(** Stepping a parameter p by h: p + h is rounded.  For a rendering with
    Lipschitz constant L (per unit of the parameter) the difference quotient is
    off by at most L roundings of p + h over the step, also for symmetric
    differences. *)
Theorem C113_step sym (render : R -> R) L counts0 p h : fmt p -> fmt h -> h <> 0 ->
  (forall a b, Rabs (render a - render b) <= L * Rabs (a - b)) ->
  Rabs (position_deriv (fadd prec emin) (fsub prec emin) Rmult Rminus Rmult Rdiv 2 sym render counts0 p h -
        counts0 * (if sym then (render (p + h) - render (p - h)) / (2 * h) else (render (p + h) - render p) / h)) <=
    Rabs counts0 * L * u * ((Rabs p + Rabs h) / Rabs h).
Proof.
  intros Fp Fh H0 HL. assert (L0 : 0 <= L).
  { specialize (HL 1 0). replace (1 - 0) with 1 in HL by ring. rewrite Rabs_R1 in HL. pose proof (Rabs_pos (render 1 - render 0)). lra. }
  pose proof (add_err prec emin P p h Fp Fh) as A. pose proof (add_err prec emin P p (- h) Fp (fmt_opp prec emin h Fh)) as B.
  rewrite <- sub_add in B. replace (p + - h) with (p - h) in B by ring. unfold position_deriv.
  set (a := fadd prec emin p h) in *. set (b := fsub prec emin p h) in *. clearbody a b. pose proof (u_pos prec) as U.
  assert (S1 : Rabs (p + h) <= Rabs p + Rabs h) by apply Rabs_triang.
  assert (S2 : Rabs (p - h) <= Rabs p + Rabs h) by (eapply Rle_trans; [apply Rabs_triang|]; rewrite Rabs_Ropp; lra).
  assert (A' : Rabs (render a - render (p + h)) <= L * (u * (Rabs p + Rabs h))).
  { eapply Rle_trans; [apply HL|]. apply Rmult_le_compat_l; auto. eapply Rle_trans; [exact A|]. apply Rmult_le_compat_l; lra. }
  assert (B' : Rabs (render b - render (p - h)) <= L * (u * (Rabs p + Rabs h))).
  { eapply Rle_trans; [apply HL|]. apply Rmult_le_compat_l; auto. eapply Rle_trans; [exact B|]. apply Rmult_le_compat_l; lra. }
  pose proof (Rabs_pos_lt h H0) as Hp. set (w := L * (u * (Rabs p + Rabs h))) in *.
  replace (Rabs counts0 * L * u * ((Rabs p + Rabs h) / Rabs h)) with (Rabs counts0 * (w / Rabs h)) by (unfold w; field; lra).
  destruct sym.
  - replace ((render a - render b) * (counts0 / (h * 2)) - counts0 * ((render (p + h) - render (p - h)) / (2 * h)))
      with (counts0 * (((render a - render (p + h)) - (render b - render (p - h))) / (2 * h))) by (field; auto).
    rewrite Rabs_mult. apply Rmult_le_compat_l; [apply Rabs_pos|]. unfold Rdiv. rewrite Rabs_mult, Rabs_inv, Rabs_mult, (Rabs_right 2) by lra.
    replace (w * / Rabs h) with ((w + w) * / (2 * Rabs h)) by (field; lra). apply Rmult_le_compat_r; [left; apply Rinv_0_lt_compat; lra|].
    eapply Rle_trans; [apply Rabs_triang|]. rewrite Rabs_Ropp. lra.
  - replace ((render a - render p) * (counts0 / h) - counts0 * ((render (p + h) - render p) / h))
      with (counts0 * ((render a - render (p + h)) / h)) by (field; auto).
    rewrite Rabs_mult. apply Rmult_le_compat_l; [apply Rabs_pos|]. unfold Rdiv. rewrite Rabs_mult, Rabs_inv.
    apply Rmult_le_compat_r; [left; apply Rinv_0_lt_compat; lra|auto].
Qed.
End C113.

(** ** binary64, steps of one flux unit *)
(** Up to 2^40 nanomaggies (a star of magnitude -7.6) the derivative is there and
    right to 2^-9. *)
Theorem C113_nanomaggies f s : fmt 53 (-1074) f -> fmt 53 (-1074) s -> Rabs f <= bpow radix2 40 -> bpow radix2 (-1000) <= Rabs s ->
  exists D, counts_deriv (fadd 53 (-1074)) (fsub 53 (-1074)) (fdiv 53 (-1074)) req (linear_counts (fmul 53 (-1074)) s) f 1 = Some D /\
    Rabs (D - s) <= bpow radix2 (-9) * Rabs s.
Proof.
  intros Ff Fs Bf Bs. assert (F1 : fmt 53 (-1074) 1) by (apply (fmt_int 53 (-1074)); simpl; lia || lra).
  assert (B1 : Rabs (f + 1) <= bpow radix2 40 + 1) by (eapply Rle_trans; [apply Rabs_triang|]; rewrite Rabs_R1; lra).
  assert (Sp : 0 < Rabs s) by (pose proof (bpow_gt_0 radix2 (-1000)); lra).
  assert (T : tiny_err (-1074) <= bpow radix2 (-75) * Rabs s).
  { unfold tiny_err. apply Rle_trans with (bpow radix2 (-75) * bpow radix2 (-1000)).
    - rewrite <- bpow_plus. change (/ 2) with (bpow radix2 (-1)). rewrite <- bpow_plus. apply bpow_le. lia.
    - apply Rmult_le_compat_l; auto. apply bpow_ge_0. }
  assert (U : unit_err 53 = bpow radix2 (-53)) by reflexivity.
  assert (N40 : bpow radix2 40 = 1099511627776) by (simpl; lra).
  assert (N53 : bpow radix2 (-53) = / 9007199254740992) by (simpl; lra).
  assert (N75 : bpow radix2 (-75) = / 37778931862957161709568) by (simpl; lra).
  assert (N9 : bpow radix2 (-9) = / 512) by (simpl; lra).
  destruct (counts_deriv _ _ _ _ _ f 1) as [D|] eqn:E.
  - exists D. split; auto. pose proof (C113_flux 53 (-1074) ltac:(lia) f 1 s Ff F1 D R1_neq_R0 E) as H.
    rewrite Rabs_R1, U, N53 in H. rewrite N75 in T. rewrite N40 in *. rewrite N9. unfold Rdiv in H. rewrite Rinv_1, !Rmult_1_r in H.
    pose proof (Rabs_pos f) as Fp. pose proof (Rabs_pos (f + 1)) as Gp. set (a := Rabs s) in *. set (e := tiny_err (-1074)) in *.
    set (k := (1 + / 9007199254740992) ^ 4 - 1) in *.
    assert (K : 0 <= k <= 5 * / 9007199254740992) by (unfold k; simpl; lra).
    assert (M : Rabs (f + 1) + Rabs f + 1 <= 2199023255554) by lra.
    assert (Q : k * a * (Rabs (f + 1) + Rabs f + 1) <= 5 * / 9007199254740992 * a * 2199023255554).
    { apply Rmult_le_compat; try lra; [apply Rmult_le_pos; lra|]. apply Rmult_le_compat_r; lra. }
    assert (Q2 : (2 * (1 + / 9007199254740992) ^ 2 + 1) * e <= 4 * (/ 37778931862957161709568 * a)).
    { apply Rmult_le_compat; [simpl; lra|left; apply eta_pos|simpl; lra|lra]. }
    lra.
  - exfalso. pose proof (C113_missing 53 (-1074) ltac:(lia) f 1 s Ff F1 ltac:(intros ->; rewrite Rabs_R0 in Sp; lra) E) as H.
    rewrite Rabs_R1, U, N53 in H. rewrite N75 in T. rewrite N40 in *.
    assert (Q2 : 2 * tiny_err (-1074) / Rabs s <= 2 * / 37778931862957161709568).
    { apply (Rmult_le_reg_r (Rabs s)); auto. unfold Rdiv. rewrite Rmult_assoc, Rinv_l by lra. lra. }
    pose proof (Rabs_pos f) as Fp. pose proof (Rabs_pos (f + 1)) as Gp.
    assert (Q : ((1 + / 9007199254740992) ^ 2 - 1) * (Rabs (f + 1) + Rabs f) <= 3 * / 9007199254740992 * 2199023255553).
    { apply Rmult_le_compat; simpl; lra. }
    lra.
Qed.
(** A flux of 2^53 swallows the step, and the source has no flux derivative. *)
Theorem C113_swallowed_refuted :
  counts_deriv PrimFloat.add PrimFloat.sub PrimFloat.div PrimFloat.eqb (linear_counts PrimFloat.mul 1%float) 9007199254740992%float 1%float = None /\
  counts_deriv PrimFloat.add PrimFloat.sub PrimFloat.div PrimFloat.eqb (linear_counts PrimFloat.mul 2.5%float) 1000%float 1%float = Some 2.5%float.
Proof. split; reflexivity. Qed.
(** Model images of 2^24 and 2^24 + 1/2 counts, a step of 1/2, in binary32: the
    derivative of the pixel is 0 instead of 1. *)
Theorem C113_pixel_refuted : let m0 := bpow radix2 24 in let m1 := bpow radix2 24 + / 2 in
  image_deriv (fsub 24 (-149)) (fdiv 24 (-149)) (rn 24 (-149) m1) (rn 24 (-149) m0) (/ 2) = 0 /\ (m1 - m0) / / 2 = 1.
Proof.
  intros m0 m1. split; [|unfold m1, m0; field].
  assert (F : fmt 24 (-149) m0) by (apply generic_format_bpow; unfold FLT_exp; lia).
  assert (E0 : rn 24 (-149) m0 = m0) by (apply rn_fmt; auto).
  assert (E1 : rn 24 (-149) m1 = m0).
  { apply Rle_antisym.
    - apply round_N_le_midp; auto; [apply FLT_exp_valid; reflexivity|]. unfold m1, m0. rewrite succ_eq_pos by apply bpow_ge_0. rewrite ulp_bpow.
      unfold FLT_exp. simpl. lra.
    - rewrite <- E0 at 1. apply rn_le; [lia|unfold m1, m0; lra]. }
  unfold image_deriv. rewrite E0, E1. unfold fdiv, RoundModel.fsub. replace (m0 - m0) with 0 by ring.
  rewrite (rn_fmt 24 (-149) 0) by apply fmt_0. unfold Rdiv. rewrite Rmult_0_l. apply rn_fmt, fmt_0.
Qed.
(** A case of [C113_flux] and [C113_pixel]: everything exact. *)
Example C113_ex :
  counts_deriv (fadd 53 (-1074)) (fsub 53 (-1074)) (fdiv 53 (-1074)) req (linear_counts (fmul 53 (-1074)) 2) 3 1 = Some 2 /\
  image_deriv (fsub 24 (-149)) (fdiv 24 (-149)) 7 3 2 = 2.
Proof.
  assert (I : forall n, (Z.abs n <= 100)%Z -> rn 53 (-1074) (IZR n) = IZR n).
  { intros n H. apply rn_fmt. apply (fmt_int 53 (-1074)); [lia|lia|]. apply IZR_le in H. simpl. lra. }
  assert (J : forall n, (Z.abs n <= 100)%Z -> rn 24 (-149) (IZR n) = IZR n).
  { intros n H. apply rn_fmt. apply (fmt_int 24 (-149)); [lia|lia|]. apply IZR_le in H. simpl. lra. }
  unfold counts_deriv, linear_counts, image_deriv, fdiv, fadd, fsub, fmul.
  replace (3 + 1) with 4 by ring. rewrite (I 4%Z) by (simpl; lia). replace (4 * 2) with 8 by ring. replace (3 * 2) with 6 by ring.
  rewrite (I 8%Z), (I 6%Z) by (simpl; lia). unfold req. destruct (Req_EM_T 8 6); [lra|]. replace (8 - 6) with 2 by ring. rewrite (I 2%Z) by (simpl; lia).
  replace (2 / 1) with 2 by field. rewrite (I 2%Z) by (simpl; lia). split; auto.
  replace (7 - 3) with 4 by ring. rewrite (J 4%Z) by (simpl; lia). replace (4 / 2) with 2 by field. apply (J 2%Z). simpl; lia.
Qed.

Print Assumptions C113_flux.
Print Assumptions C113_missing.
Print Assumptions C113_pixel.
Print Assumptions C113_step.
Print Assumptions C113_nanomaggies.
Print Assumptions C113_swallowed_refuted.
Print Assumptions C113_pixel_refuted.
