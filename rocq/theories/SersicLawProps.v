(** C104: the light of the tabulated Sersic profiles: half inside the effective
    radius, bright everywhere and falling outwards, in proportion to the Sersic
    law.  Specification and numerical facts are in SersicLawNum.v. *)
From Coquelicot Require Import Coquelicot.
From Interval Require Import Tactic.
From Coq Require Import List ZArith QArith Bool Reals Qreals Lra Lia.
From Coq Require RMicromega.
From Verif Require Import Base SersicModel SersicProps SersicProps2 SersicLawNum.
From Verif Require GalMixProps.
Import ListNotations.
Open Scope R_scope.

Lemma laws_rows k b q e s a v : In (k, b, q, e) laws -> in_use s a v -> Q2R s = INR k / 2 -> law_row k b q e (s, a, v).
Proof.
  intros I U E. apply in_use_rows in U.
  assert (I' : In (s, a, v) (rows_at k)).
  { apply filter_In. split; [exact U|]. cbn [fst]. apply Qeq_eq_bool, eqR_Qeq. rewrite E, INR_IZR_INZ. unfold Q2R. reflexivity. }
  assert (pick : forall P l, List.Forall P l -> In (s, a, v) l -> P (s, a, v)).
  { intros P l F J. exact (proj1 (List.Forall_forall P l) F _ J). }
  destruct I as [I|[I|[I|[I|[I|[I|[I|[I|[I|[I|[I|[I|[]]]]]]]]]]]]]; injection I as <- <- <- <-.
  - exact (pick _ _ law1 I').
  - exact (pick _ _ law2 I').
  - exact (pick _ _ law3 I').
  - exact (pick _ _ law4 I').
  - exact (pick _ _ law5 I').
  - exact (pick _ _ law6 I').
  - exact (pick _ _ law7 I').
  - exact (pick _ _ law8 I').
  - exact (pick _ _ law9 I').
  - exact (pick _ _ law10 I').
  - exact (pick _ _ law11 I').
  - exact (pick _ _ law12 I').
Qed.

Lemma factorial_pos k : 0 < factorial k.
Proof. induction k; cbn [factorial]; [lra|]. apply Rmult_lt_0_compat; [apply lt_0_INR; lia|exact IHk]. Qed.

Lemma taylor_derive k t : is_derive (taylor (S k)) t (taylor k t).
Proof.
  induction k as [|k IH].
  - cbn. apply (is_derive_ext (fun _ => 1)); [intros; lra|]. apply (is_derive_const (V := R_NormedModule)).
  - cbn [taylor]. apply (is_derive_plus (V := R_NormedModule) (taylor (S k)) (fun t => t ^ S k / factorial (S k))); [exact IH|].
    pose proof (factorial_pos k). cbn [factorial]. assert (0 < INR (S k)) by (apply lt_0_INR; lia).
    evar_last; [auto_derive; auto|]. rewrite ?Nat.sub_0_r. cbn [Nat.pred]. change (match k with O => 1 | S _ => INR k + 1 end) with (INR (S k)).
    field. split; lra.
Qed.
Lemma part_derive k t : is_derive (law_part (S k)) t (exp (- t) * (t ^ k / factorial k)).
Proof.
  unfold law_part. evar_last.
  - apply (is_derive_minus (V := R_NormedModule) (fun _ => 1) (fun t => exp (- t) * taylor (S k) t)).
    + apply (is_derive_const (V := R_NormedModule)).
    + apply (is_derive_mult (fun t => exp (- t)) (taylor (S k))).
      * auto_derive; [auto|reflexivity].
      * apply taylor_derive.
      * intros; apply Rmult_comm.
  - cbn. unfold minus, plus, opp, scal, zero, mult. cbn. unfold mult. cbn. ring.
Qed.

Lemma part_zero k : law_part (S k) 0 = 0.
Proof.
  assert (T : taylor (S k) 0 = 1).
  { induction k as [|k IH]; [cbn; lra|]. change (taylor (S k) 0 + 0 ^ S k / factorial (S k) = 1). rewrite IH, pow_ne_zero by lia. lra. }
  unfold law_part. rewrite T, Ropp_0, exp_0. ring.
Qed.
Lemma part_grows k s t : 0 <= s <= t -> law_part (S k) s <= law_part (S k) t.
Proof.
  intros H. destruct (Req_dec s t) as [->|N]; [lra|].
  destruct (MVT_gen (law_part (S k)) s t (fun t => exp (- t) * (t ^ k / factorial k))) as (c & Hc & E).
  - intros x _. apply part_derive.
  - intros x _. apply derivable_continuous_pt. eexists. apply is_derive_Reals, part_derive.
  - rewrite Rmin_left, Rmax_right in Hc by lra.
    assert (0 <= exp (- c) * (c ^ k / factorial k)).
    { apply Rmult_le_pos; [left; apply exp_pos|]. apply Rmult_le_pos; [apply pow_le; lra|left; apply Rinv_0_lt_compat, factorial_pos]. }
    nra.
Qed.
Lemma taylor_double k t : 0 <= t -> taylor k (2 * t) <= 2 ^ k * taylor k t.
Proof.
  intros T. induction k as [|k IH]; [cbn; lra|]. cbn [taylor].
  assert (P : 0 <= taylor k t).
  { clear IH. induction k as [|k IH]; cbn; [lra|]. assert (0 <= t ^ k / factorial k); [|lra].
    apply Rmult_le_pos; [apply pow_le; lra|left; apply Rinv_0_lt_compat, factorial_pos]. }
  assert (Q : 0 <= t ^ k / factorial k) by (apply Rmult_le_pos; [apply pow_le; lra|left; apply Rinv_0_lt_compat, factorial_pos]).
  rewrite Rpow_mult_distr. cbn [pow]. assert (1 <= 2 ^ k) by (apply pow_R1_Rle; lra).
  replace (2 ^ k * t ^ k / factorial k) with (2 ^ k * (t ^ k / factorial k)) by (unfold Rdiv; ring). nra.
Qed.
Lemma part_tail k t : 0 <= t -> 0 <= 1 - law_part (S k) t <= 2 ^ S k * exp (- (t / 2)).
Proof.
  intros T. assert (P : forall j u, 0 <= u -> 0 <= taylor j u).
  { induction j as [|j IH]; intros u U; cbn; [lra|]. specialize (IH u U). assert (0 <= u ^ j / factorial j); [|lra].
    apply Rmult_le_pos; [apply pow_le; lra|left; apply Rinv_0_lt_compat, factorial_pos]. }
  pose proof (exp_pos (- t)) as E. split.
  - unfold law_part. replace (1 - (1 - exp (- t) * taylor (S k) t)) with (exp (- t) * taylor (S k) t) by ring.
    apply Rmult_le_pos; [lra|apply P, T].
  - pose proof (part_grows k 0 (t / 2) ltac:(lra)) as G. rewrite part_zero in G. unfold law_part in *.
    pose proof (taylor_double (S k) (t / 2) ltac:(lra)) as D. replace (2 * (t / 2)) with t in D by field.
    replace (1 - (1 - exp (- t) * taylor (S k) t)) with (exp (- t) * taylor (S k) t) by ring.
    replace (exp (- t)) with (exp (- (t / 2)) * exp (- (t / 2))) by (rewrite <- exp_plus; f_equal; field).
    replace (exp (- t)) with (exp (- (t / 2)) * exp (- (t / 2))) in E by (rewrite <- exp_plus; f_equal; field).
    pose proof (exp_pos (- (t / 2))). set (z := exp (- (t / 2))) in *. set (w := taylor (S k) (t / 2)) in *.
    assert (0 < 2 ^ S k) by (apply pow_lt; lra). apply Rle_trans with (z * z * (2 ^ S k * w)).
    + apply Rmult_le_compat_l; lra.
    + replace (z * z * (2 ^ S k * w)) with (2 ^ S k * z * (z * w)) by ring. replace (2 ^ S k * z) with (2 ^ S k * z * 1) at 2 by ring.
      apply Rmult_le_compat_l; [apply Rmult_le_pos; lra|lra].
Qed.
Lemma part_limit k : is_lim (law_part (S k)) p_infty 1.
Proof.
  apply (is_lim_le_le_loc (fun t => 1 - 2 ^ S k * exp (- (t / 2))) (fun _ => 1)).
  - exists 0. intros t T. pose proof (part_tail k t ltac:(lra)). lra.
  - replace (Finite 1) with (Rbar_minus 1 (Rbar_mult (2 ^ S k) 0)) by (cbn; f_equal; ring).
    apply is_lim_minus'; [apply is_lim_const|]. replace (Finite 0) with (Finite (2 ^ S k * 0)) by (f_equal; ring).
    apply (is_lim_scal_l (fun t => exp (- (t / 2))) (2 ^ S k) p_infty 0).
    apply (is_lim_comp exp (fun t => - (t / 2)) p_infty 0 m_infty); [apply is_lim_exp_m| |exists 0; intros; discriminate].
    apply (is_lim_ext (fun t => (- / 2) * t)); [intros; field|].
    replace m_infty with (Rbar_mult (- / 2) p_infty).
    + apply is_lim_scal_l, is_lim_id.
    + cbn. destruct (Rle_dec 0 (- / 2)); [exfalso; lra|reflexivity].
  - apply is_lim_const.
Qed.

Lemma power_k k r : (0 < k)%nat -> 0 < r -> Rpower r (1 / (INR k / 2)) ^ k = r ^ 2.
Proof.
  intros K H. assert (0 < INR k) by (apply lt_0_INR, K).
  rewrite <- Rpower_pow by apply exp_pos. rewrite Rpower_mult. replace (1 / (INR k / 2) * INR k) with (INR 2) by (cbn; field; lra).
  now apply Rpower_pow.
Qed.

Lemma law_light k b e r : (0 < k)%nat -> 0 < b -> 0 < e <= r ->
  is_RInt (fun x => 2 * PI * x * law (INR k / 2) b x) e r
    (law_total k b * (law_part k (b * Rpower r (1 / (INR k / 2))) - law_part k (b * Rpower e (1 / (INR k / 2))))).
Proof.
  intros K B H. rewrite Rmult_minus_distr_l.
  assert (KP : 0 < INR k) by (apply lt_0_INR, K).
  apply (is_RInt_derive (V := R_CompleteNormedModule) (fun x => law_total k b * law_part k (b * Rpower x (1 / (INR k / 2))))).
  - rewrite Rmin_left, Rmax_right by lra. intros x Hx. destruct k as [|k]; [lia|].
    pose proof (factorial_pos k) as FP. pose proof (power_k (S k) x K ltac:(lra)) as PK.
    set (al := 1 / (INR (S k) / 2)) in *.
    evar_last.
    + apply (is_derive_scal (fun x => law_part (S k) (b * Rpower x al)) x (law_total (S k) b)).
      apply (is_derive_comp (V := R_NormedModule) (law_part (S k)) (fun x => b * Rpower x al)); [apply part_derive|].
      unfold Rpower. auto_derive; [lra|reflexivity].
    + cbn -[INR pow factorial exp law_total]. unfold mult; cbn -[INR pow factorial exp law_total].
      change (exp (al * ln x)) with (Rpower x al). set (P := Rpower x al) in *.
      unfold law, law_total. cbn [factorial]. fold al. fold P. rewrite <- (tech_pow_Rmult b k). rewrite Rpow_mult_distr.
      replace (exp (- b * (P - 1))) with (exp b * exp (- (b * P))) by (rewrite <- exp_plus; f_equal; ring).
      assert (Q : P * P ^ k = x ^ 2) by (rewrite <- PK; reflexivity).
      assert (0 < b ^ k) by (apply pow_lt, B).
      apply Rmult_eq_reg_l with x; [|lra]. replace al with (2 / INR (S k)) by (unfold al; field; lra).
      transitivity (2 * PI * (P * P ^ k) * (exp b * exp (- (b * P)))); [field; repeat split; lra|rewrite Q; ring].
  - rewrite Rmin_left, Rmax_right by lra. intros x Hx. apply (ex_derive_continuous (V := R_NormedModule)). unfold law, Rpower. auto_derive. lra.
Qed.

(** ** From rows to profiles *)
Lemma rows_pos s a v : in_use s a v -> List.Forall (fun y => 0 < y) (map Q2R v) /\ 0 < total (combine (map Q2R a) (map Q2R v)).
Proof.
  intros I. apply in_use_rows in I.
  assert (K : forallb (fun r => pos_vars (snd r) && qlt 0 (qsum (snd (fst r))) && Nat.eqb (length (snd (fst r))) (length (snd r))) used_rows = true)
    by (vm_compute; reflexivity).
  rewrite forallb_forall in K. specialize (K _ I). cbn [fst snd] in K. apply andb_prop in K as (K & L). apply andb_prop in K as (K1 & K2).
  split; [apply pos_vars_R, K1|]. apply Nat.eqb_eq in L. rewrite total_combine by (rewrite !map_length; exact L).
  rewrite <- qsum_R. apply qlt_R in K2. rewrite RMicromega.Q2R_0 in K2. exact K2.
Qed.

Lemma surface_row core a v p r : List.Forall (fun y => 0 < y) (map Q2R v) ->
  (forall G, light G p = row_light G core a v) ->
  surface p r = (1 - core) / total (combine (map Q2R a) (map Q2R v)) * (rsurf 1 a v (r ^ 2) / (2 * PI)).
Proof.
  intros V L. pose proof PI_RGT_0. unfold surface. rewrite L. unfold row_light. destruct (Rlt_dec 0 0) as [C|_]; [lra|].
  rewrite (light_ext (fun y => 0 < y) _ (fun y => / (2 * PI) * (exp (- r ^ 2 / (2 * y)) / y ^ 1)) _ _ V).
  - rewrite light_scale. unfold rsurf. unfold Rdiv. ring.
  - intros y Hy. destruct (Rlt_dec 0 y); [|lra]. field. lra.
Qed.
Lemma inside_row core a v p r : List.Forall (fun y => 0 < y) (map Q2R v) ->
  (forall G, light G p = row_light G core a v) -> inside p r = (1 - core) * rpart a v r + core.
Proof.
  intros V L. unfold inside. rewrite L. unfold row_light, rpart. destruct (Rlt_dec 0 0) as [C|_]; [lra|].
  rewrite (light_ext (fun y => 0 < y) _ (fun y => 1 - exp (- r ^ 2 / (2 * y))) _ _ V); [ring|].
  intros y Hy. destruct (Rlt_dec 0 y); [reflexivity|lra].
Qed.

Lemma row_profile spl argsort m s a v : good_spline spl -> good_sort argsort -> sersic_mixture spl = Ok m -> in_use s a v ->
  exists p core, get_profile argsort m (Q2R s) = Ok p /\ (Q2R s <= 1 -> core = 0) /\ (1 < Q2R s -> core = m_core m (Q2R s)) /\
    (forall s' c, In (s', c) cores -> Q2R s' = Q2R s -> core = Q2R c) /\ forall G, light G p = row_light G core a v.
Proof. intros GS SO E (lo & hi & grid & I1 & I2 & H). exact (C66_rows spl argsort m lo hi grid s a v GS SO E I1 I2 H). Qed.

Lemma core_at_node spl m i s c : good_spline spl -> sersic_mixture spl = Ok m -> nth_error cores i = Some (s, c) -> m_core m (Q2R s) = Q2R c.
Proof. intros GS E I. rewrite built in E. injection E as <-. apply (core_value spl GS). eapply nth_error_In, I. Qed.

Lemma core_bounds spl m s : good_spline spl -> sersic_mixture spl = Ok m -> core_grows m -> 1 < s <= 63/10 ->
  0 <= m_core m s <= 0.028961 /\ (s <= 2 -> m_core m s <= 0.000769) /\ (s <= 4 -> m_core m s <= 0.010233).
Proof.
  intros GS E G H.
  pose proof (core_at_node spl m 0 1.00%Q 0.000000%Q GS E eq_refl) as C1.
  pose proof (core_at_node spl m 4 2.00%Q 0.000769%Q GS E eq_refl) as C2.
  pose proof (core_at_node spl m 12 4.00%Q 0.010233%Q GS E eq_refl) as C4.
  pose proof (core_at_node spl m 22 6.50%Q 0.028961%Q GS E eq_refl) as C6.
  unfold Q2R in C1, C2, C4, C6. cbn [Qnum Qden] in C1, C2, C4, C6.
  pose proof (G (100 * / 100) s) as G1. pose proof (G s (200 * / 100)) as G2. pose proof (G s (400 * / 100)) as G4.
  pose proof (G s (650 * / 100)) as G6. repeat split; lra.
Qed.

(** ** Theorems *)

(** The flux inside a radius is the integral of the surface brightness, and the
    points at the centre. *)
Theorem C104_inside p b : 0 <= b -> List.Forall (fun av => 0 <= snd av) p ->
  is_RInt (fun r => 2 * PI * r * surface p r) 0 b (inside p b - points p).
Proof.
  intros B V. pose proof PI_RGT_0. unfold surface, inside, points. induction V as [|[a v] p Hv V IH]; cbn [light snd] in *.
  - apply (is_RInt_ext (fun _ => zero)); [intros; cbn; ring|].
    replace (0 - 0) with (scal (b - 0) (zero : R)) by (unfold scal, zero; cbn; unfold mult; cbn; ring).
    apply (is_RInt_const (V := R_NormedModule)).
  - match type of IH with is_RInt ?f _ _ ?l => pose (F := f); pose (L := l) end.
    destruct (Rlt_dec 0 v) as [P|P].
    + evar_last.
      * apply (is_RInt_ext (fun r => plus (2 * PI * r * GalMixProps.bell a v r) (F r))).
        { intros r _. change (2 * PI * r * GalMixProps.bell a v r + F r = 2 * PI * r * (a * (exp (- r ^ 2 / (2 * v)) / (2 * PI * v)) +
            light (fun v0 => if Rlt_dec 0 v0 then exp (- r ^ 2 / (2 * v0)) / (2 * PI * v0) else 0) p)).
          unfold F, GalMixProps.bell. field. lra. }
        apply (is_RInt_plus (V := R_NormedModule)); [apply GalMixProps.bell_light, P|exact IH].
      * change (a * (1 - exp (- b ^ 2 / (2 * v))) + L = a * (1 - exp (- b ^ 2 / (2 * v))) +
          light (fun v0 => if Rlt_dec 0 v0 then 1 - exp (- b ^ 2 / (2 * v0)) else 1) p -
          (a * 0 + light (fun v0 => if Rlt_dec 0 v0 then 0 else 1) p)). unfold L. ring.
    + evar_last; [apply (is_RInt_ext F); [|exact IH]; intros r _; unfold F|].
      * change (2 * PI * r * light (fun v0 => if Rlt_dec 0 v0 then exp (- r ^ 2 / (2 * v0)) / (2 * PI * v0) else 0) p =
          2 * PI * r * (a * 0 + light (fun v0 => if Rlt_dec 0 v0 then exp (- r ^ 2 / (2 * v0)) / (2 * PI * v0) else 0) p)). ring.
      * change (L = a * 1 + light (fun v0 => if Rlt_dec 0 v0 then 1 - exp (- b ^ 2 / (2 * v0)) else 1) p -
          (a * 1 + light (fun v0 => if Rlt_dec 0 v0 then 0 else 1) p)). unfold L. ring.
Qed.

(** At every tabulated index close to half of the light is inside the effective
    radius: to 0.4 per cent up to index 0.85, to 0.75 per cent up to 1, 2 per
    cent up to 2, 3.2 up to 4 and 6.6 up to 6.3; and more than half above 0.5. *)
Theorem C104_half : forall spl argsort m s a v, good_spline spl -> good_sort argsort -> sersic_mixture spl = Ok m -> core_grows m ->
  in_use s a v ->
  exists p, get_profile argsort m (Q2R s) = Ok p /\
    let d := inside p 1 - 1/2 in
    (Q2R s <= 0.85 -> Rabs d <= 0.004) /\ (Q2R s <= 1 -> Rabs d <= 0.0075) /\ (Q2R s <= 2 -> Rabs d <= 0.018) /\
    (Q2R s <= 4 -> Rabs d <= 0.032) /\ Rabs d <= 0.066 /\ (0.5 < Q2R s -> 0 < d) /\ (Q2R s < 0.5 -> d < 0).
Proof.
  intros spl argsort m s a v GS SO E CG U.
  destruct (row_profile spl argsort m s a v GS SO E U) as (p & core & EP & C0 & C1 & _ & L). exists p. split; [exact EP|].
  destruct (rows_pos s a v U) as (V & T). rewrite (inside_row core a v p 1 V L).
  pose proof (proj1 (List.Forall_forall _ _) rows_half _ (in_use_rows _ _ _ U)) as H. unfold half_row in H. cbn [fst snd] in H.
  assert (S63 : Q2R s <= 63/10).
  { assert (K : forallb (fun r => Qle_bool (fst (fst r)) (63#10)) used_rows = true) by (vm_compute; reflexivity).
    rewrite forallb_forall in K. specialize (K _ (in_use_rows _ _ _ U)). cbn [fst] in K. apply Qle_bool_iff, Qle_Rle in K.
    unfold Q2R at 2 in K. cbn in K. lra. }
  assert (GAP : Q2R s <= 0.49 \/ Q2R s = 0.5 \/ 0.51 <= Q2R s).
  { assert (K : forallb (fun r => Qle_bool (fst (fst r)) (49#100) || Qeq_bool (fst (fst r)) (1#2) || Qle_bool (51#100) (fst (fst r))) used_rows = true)
      by (vm_compute; reflexivity).
    rewrite forallb_forall in K. specialize (K _ (in_use_rows _ _ _ U)). cbn [fst] in K. apply orb_prop in K as [K|K]; [apply orb_prop in K as [K|K]|].
    - left. apply Qle_bool_iff, Qle_Rle in K. unfold Q2R at 2 in K. cbn in K. lra.
    - right. left. apply Qeq_bool_iff, Qeq_eqR in K. rewrite K. unfold Q2R. cbn. lra.
    - right. right. apply Qle_bool_iff, Qle_Rle in K. unfold Q2R at 1 in K. cbn in K. lra. }
  assert (B : forall x, (Qle_bool s x = true /\ Q2R s <= Q2R x) \/ (Qle_bool s x = false /\ Q2R x < Q2R s)).
  { intros x. destruct (Qle_bool s x) eqn:Q; [left|right]; (split; [reflexivity|]).
    - apply Qle_Rle, Qle_bool_iff, Q.
    - destruct (Rlt_dec (Q2R x) (Q2R s)) as [R'|R']; [exact R'|]. apply Rnot_lt_le, Rle_Qle, Qle_bool_iff in R'. congruence. }
  assert (B' : (Qle_bool (51#100) s = true /\ Q2R (51#100) <= Q2R s) \/ (Qle_bool (51#100) s = false /\ Q2R s < Q2R (51#100))).
  { destruct (Qle_bool (51#100) s) eqn:Q; [left|right]; (split; [reflexivity|]).
    - apply Qle_Rle, Qle_bool_iff, Q.
    - destruct (Rlt_dec (Q2R s) (Q2R (51#100))) as [R'|R']; [exact R'|]. apply Rnot_lt_le, Rle_Qle, Qle_bool_iff in R'. congruence. }
  pose proof (B (49#100)) as B1. pose proof (B (85#100)) as B2. pose proof (B 1%Q) as B3. pose proof (B 2%Q) as B4. pose proof (B 4%Q) as B5. clear B.
  assert (X3 : Q2R 1 = 1) by (unfold Q2R; cbn; lra). assert (X4 : Q2R 2 = 2) by (unfold Q2R; cbn; lra).
  assert (X5 : Q2R 4 = 4) by (unfold Q2R; cbn; lra). rewrite X3 in B3. rewrite X4 in B4. rewrite X5 in B5.
    assert (CB : 1 < Q2R s -> 0 <= core <= 0.028961 /\ (Q2R s <= 2 -> core <= 0.000769) /\ (Q2R s <= 4 -> core <= 0.010233)).
  { intros G. rewrite (C1 G). exact (core_bounds spl m _ GS E CG (conj G S63)). }
  clear X3 X4 X5 L T V U EP E GS SO.
  cbv zeta. set (x := rpart a v 1) in *. clearbody x. generalize dependent (Q2R s). intros t C0 C1 S63 GAP B' B1 B2 B3 B4 B5 CB.
  unfold half_lo, half_hi in H.
  destruct GAP as [GAP|[GAP|GAP]], B' as [[Q0 B']|[Q0 B']], B1 as [[Q1 B1]|[Q1 B1]], B2 as [[Q2 B2]|[Q2 B2]], B3 as [[Q3 B3]|[Q3 B3]], B4 as [[Q4 B4]|[Q4 B4]], B5 as [[Q5 B5]|[Q5 B5]];
    try (exfalso; lra); rewrite ?Q0, ?Q1, ?Q2, ?Q3, ?Q4, ?Q5 in H; clear Q0 Q1 Q2 Q3 Q4 Q5;
    (destruct (Rle_dec t 1) as [T1|T1]; [specialize (C0 T1); subst core; clear CB C1; repeat split; intros; try (apply Rabs_le); lra|]);
    destruct (CB ltac:(lra)) as (CB1 & CB2 & CB3); clear CB C0 C1; repeat split; intros; try apply Rabs_le; try (exfalso; lra); try nra.
Qed.

(** The rows of index 4 and 6. *)
Lemma use4 : in_use 4.00 [5.60921; 5.72377; 4.46477; 2.83675; 1.51974; 0.686093; 0.240192; 0.0426452]%Q
  [8.40275; 1.33355; 0.287321; 0.0685146; 0.0169499; 0.00418865; 0.00100242; 0.000223784]%Q.
Proof.
  eexists _, _, _. split; [apply (nth_error_In fits 7); vm_compute; reflexivity|]. split; [apply (nth_error_In _ 6); vm_compute; reflexivity|].
  left. split; [apply Qle_Rle|apply Qlt_Rlt]; vm_compute; congruence.
Qed.
Lemma use6 : in_use 6.00 [6.87598; 6.01584; 4.65195; 3.14545; 1.88867; 0.990882; 0.404981; 0.0785137]%Q
  [8.75587; 1.14398; 0.217394; 0.0477077; 0.0112856; 0.00277359; 0.000690429; 0.000169168]%Q.
Proof.
  eexists _, _, _. split; [apply (nth_error_In fits 7); vm_compute; reflexivity|]. split; [apply (nth_error_In _ 10); vm_compute; reflexivity|].
  left. split; [apply Qle_Rle|apply Qlt_Rlt]; vm_compute; congruence.
Qed.

(** So the effective radius is not the half-light radius: at index 4 more than 53
    and at index 6 more than 56 per cent of the light is inside it, and half of
    the light of index 6 is inside 0.8 effective radii. *)
Theorem C104_half_refuted : forall spl argsort m, good_spline spl -> good_sort argsort -> sersic_mixture spl = Ok m ->
  exists p4 p6, get_profile argsort m 4 = Ok p4 /\ get_profile argsort m 6 = Ok p6 /\
    0.531 < inside p4 1 < 0.532 /\ 0.56 < inside p6 1 < 0.561 /\ 0.5 < inside p6 0.8.
Proof.
  intros spl argsort m GS SO E.
  pose proof use4 as U4. pose proof use6 as U6.
  destruct (row_profile spl argsort m _ _ _ GS SO E U4) as (p4 & c4 & E4 & _ & _ & C4 & L4).
  destruct (row_profile spl argsort m _ _ _ GS SO E U6) as (p6 & c6 & E6 & _ & _ & C6 & L6).
  rewrite (C4 4.00%Q 0.010233%Q (nth_error_In cores 12 eq_refl) eq_refl) in L4.
  rewrite (C6 6.00%Q 0.024683%Q (nth_error_In cores 20 eq_refl) eq_refl) in L6.
  destruct (rows_pos _ _ _ U4) as (V4 & _). destruct (rows_pos _ _ _ U6) as (V6 & _).
  replace (Q2R 4.00) with 4 in E4 by (unfold Q2R; cbn; lra). replace (Q2R 6.00) with 6 in E6 by (unfold Q2R; cbn; lra).
  exists p4, p6. split; [exact E4|]. split; [exact E6|].
  rewrite (inside_row _ _ _ p4 1 V4 L4), (inside_row _ _ _ p6 1 V6 L6), (inside_row _ _ _ p6 0.8 V6 L6).
  unfold rpart, total. cbn [map combine light]. unfold Q2R. cbn [Qnum Qden]. repeat split; interval.
Qed.

(** At every tabulated index the surface brightness is positive everywhere and
    falls outwards, negative components or not. *)
Theorem C104_falls : forall spl argsort m s a v, good_spline spl -> good_sort argsort -> sersic_mixture spl = Ok m -> core_grows m ->
  in_use s a v ->
  exists p, get_profile argsort m (Q2R s) = Ok p /\
    (forall r, 0 < surface p r) /\ (forall r r', 0 <= r < r' -> surface p r' < surface p r) /\ 0 <= points p.
Proof.
  intros spl argsort m s a v GS SO E CG U.
  destruct (row_profile spl argsort m s a v GS SO E U) as (p & core & EP & C0 & C1 & _ & L). exists p. split; [exact EP|].
  destruct (rows_pos s a v U) as (V & T). pose proof (in_use_rows _ _ _ U) as I. pose proof (rows_bright _ I) as B. unfold bright_row in B. cbn [fst snd] in B.
  assert (CB : 0 <= core < 1).
  { destruct (Rle_dec (Q2R s) 1) as [S1|S1]; [rewrite (C0 S1); lra|]. rewrite C1 by lra.
    assert (K : forallb (fun r => Qle_bool (fst (fst r)) (63#10)) used_rows = true) by (vm_compute; reflexivity).
    rewrite forallb_forall in K. specialize (K _ I). cbn [fst] in K. apply Qle_bool_iff, Qle_Rle in K.
    unfold Q2R at 2 in K. cbn in K. destruct (core_bounds spl m (Q2R s) GS E CG ltac:(lra)) as (CB & _). lra. }
  pose proof PI_RGT_0 as PP.
  assert (K : 0 < (1 - core) / total (combine (map Q2R a) (map Q2R v)) * / (2 * PI)).
  { apply Rmult_lt_0_compat; [apply Rdiv_lt_0_compat; lra|apply Rinv_0_lt_compat; lra]. }
  assert (X : forall r, surface p r = (1 - core) / total (combine (map Q2R a) (map Q2R v)) * / (2 * PI) * rsurf 1 a v (r ^ 2)).
  { intros r. rewrite (surface_row core a v p r V L). unfold Rdiv. ring. }
  split; [|split].
  - intros r. rewrite X. apply Rmult_lt_0_compat; [exact K|]. apply B. apply pow2_ge_0.
  - intros r r' H. rewrite !X. apply Rmult_lt_compat_l; [exact K|]. apply rsurf_falls; [exact V|intros x Hx; apply B, Hx|]. nra.
  - unfold points. rewrite L. unfold row_light. destruct (Rlt_dec 0 0) as [C|_]; [lra|].
    rewrite (light_ext (fun y => 0 < y) _ (fun y => 0 * 1) _ _ V).
    + rewrite light_scale. lra.
    + intros y Hy. destruct (Rlt_dec 0 y); lra.
Qed.

(** The light of Sersic's law, for 2n = k: between two radii; the part inside a
    radius goes from nothing to all; and with the constants of [laws] it is half
    inside r = 1. *)
Theorem C104_law_light : forall k b, (0 < k)%nat -> 0 < b ->
  (forall e r, 0 < e <= r -> is_RInt (fun x => 2 * PI * x * law (INR k / 2) b x) e r
    (law_total k b * (law_part k (b * Rpower r (1 / (INR k / 2))) - law_part k (b * Rpower e (1 / (INR k / 2)))))) /\
  law_part k 0 = 0 /\ continuity_pt (law_part k) 0 /\ is_lim (law_part k) p_infty 1 /\
  (forall q e, In (k, b, q, e) laws -> Rabs (law_part k (b * Rpower 1 (1 / (INR k / 2))) - 1/2) <= 0.000002).
Proof.
  intros k b K B. split; [intros; apply law_light; auto|]. destruct k as [|k]; [lia|]. split; [apply part_zero|]. split.
  { apply derivable_continuous_pt. eexists. apply is_derive_Reals, part_derive. }
  split; [apply part_limit|]. intros q e I.
  replace (Rpower 1 (1 / (INR (S k) / 2))) with 1 by (unfold Rpower; rewrite ln_1, Rmult_0_r, exp_0; reflexivity). rewrite Rmult_1_r.
  unfold law_part.
  destruct I as [I|[I|[I|[I|[I|[I|[I|[I|[I|[I|[I|[I|[]]]]]]]]]]]]]; injection I as <- <- _ _; cbn [taylor factorial INR]; unfold Q2R; cbn [Qnum Qden]; interval.
Qed.

(** At the integer and half-integer indices up to 6 the surface brightness is, to
    a few per cent between 0.1 and 3 effective radii, in proportion to Sersic's
    law; but brighter than the law of unit flux by a factor q that reaches 1.12. *)
Theorem C104_law : forall spl argsort m s a v k b q e, good_spline spl -> good_sort argsort -> sersic_mixture spl = Ok m ->
  In (k, b, q, e) laws -> in_use s a v -> Q2R s = INR k / 2 ->
  exists p c, get_profile argsort m (Q2R s) = Ok p /\ 0 < c /\ Rabs (c * law_total k b - q) <= 0.0005 /\
    forall r, 0.1 <= r <= 3 -> Rabs (surface p r - c * law (INR k / 2) b r) <= e * (c * law (INR k / 2) b r).
Proof.
  intros spl argsort m s a v k b q e GS SO E I U ES.
  destruct (row_profile spl argsort m s a v GS SO E U) as (p & core & EP & C0 & _ & CO & L).
  destruct (rows_pos s a v U) as (V & T). destruct (laws_rows k b q e s a v I U ES) as (c & K1 & K2 & K3 & K4). cbn [fst snd] in *.
  assert (KK : (0 < k)%nat).
  { destruct I as [I|[I|[I|[I|[I|[I|[I|[I|[I|[I|[I|[I|[]]]]]]]]]]]]]; injection I as <- _ _ _; lia. }
  assert (EC : core = Q2R c).
  { destruct (Nat.le_gt_cases k 2) as [G|G].
    - rewrite (K1 ltac:(lia)), RMicromega.Q2R_0. apply C0. rewrite ES. apply le_INR in G. cbn in G. lra.
    - destruct (K2 G) as (s' & I' & S'). apply (CO s' c I'). apply Qeq_eqR, S'. }
  subst core.
  assert (CL : Q2R c < 1).
  { assert (X : c = 0%Q \/ exists s', In (s', c) cores).
    { destruct (Nat.le_gt_cases k 2) as [G|G]; [left; apply K1; lia|right]. destruct (K2 G) as (s' & I' & _). eauto. }
    destruct X as [->|(s' & I')]; [rewrite RMicromega.Q2R_0; lra|].
    assert (Y : forallb (fun p => qlt (snd p) 1) cores = true) by (vm_compute; reflexivity).
    rewrite forallb_forall in Y. apply Y, qlt_R in I'. cbn [snd] in I'. rewrite RMicromega.Q2R_1 in I'. exact I'. }
  exists p, ((1 - Q2R c) / total (combine (map Q2R a) (map Q2R v))). split; [exact EP|].
  assert (P : 0 < (1 - Q2R c) / total (combine (map Q2R a) (map Q2R v))) by (apply Rdiv_lt_0_compat; lra).
  split; [exact P|]. split; [apply Rabs_le; lra|]. intros r Hr. specialize (K4 r Hr). rewrite (surface_row _ a v p r V L).
  set (C := (1 - Q2R c) / total (combine (map Q2R a) (map Q2R v))) in *.
  assert (LP : 0 < law (INR k / 2) b r) by apply exp_pos. set (w := law (INR k / 2) b r) in *.
  set (z := rsurf 1 a v (r ^ 2) / (2 * PI)) in *. replace z with (z / w * w) by (field; lra).
  set (u := z / w) in *. clearbody u w C. replace (C * (u * w) - C * w) with ((u - 1) * (C * w)) by ring.
  rewrite Rabs_mult. assert (0 < C * w) by (apply Rmult_lt_0_compat; assumption). rewrite (Rabs_right (C * w)) by lra.
  apply Rmult_le_compat_r; [lra|]. apply Rabs_le. lra.
Qed.

(** Index 6 at one effective radius: the profile is almost 12 per cent
    brighter than the
    law of the same index, radius and flux. *)
Theorem C104_law_refuted : forall spl argsort m, good_spline spl -> good_sort argsort -> sersic_mixture spl = Ok m ->
  exists p, get_profile argsort m 6 = Ok p /\ 1.119 < surface p 1 / (law 6 11.66836 1 / law_total 12 11.66836) < 1.12.
Proof.
  intros spl argsort m GS SO E. pose proof use6 as U6.
  destruct (row_profile spl argsort m _ _ _ GS SO E U6) as (p6 & c6 & E6 & _ & _ & C6 & L6).
  rewrite (C6 6.00%Q 0.024683%Q (nth_error_In cores 20 eq_refl) eq_refl) in L6. destruct (rows_pos _ _ _ U6) as (V6 & _).
  replace (Q2R 6.00) with 6 in E6 by (unfold Q2R; cbn; lra). exists p6. split; [exact E6|]. rewrite (surface_row _ _ _ p6 1 V6 L6).
  unfold law, law_total, rsurf, total, Rpower. cbn [map combine light factorial INR]. unfold Q2R. cbn [Qnum Qden].
  rewrite ln_1, Rmult_0_r, exp_0. split; interval.
Qed.

(** ** Cases *)
Fixpoint rising (x0 y0 : R) (l : list (R * R)) : Prop :=
  match l with [] => True | (x1, y1) :: r => x0 < x1 /\ y0 <= y1 /\ rising x1 y1 r end.
Lemma lin_rises l : forall x0 y0 s t, rising x0 y0 l -> s <= t -> lin_from x0 y0 l s <= lin_from x0 y0 l t.
Proof.
  induction l as [|[x1 y1] r IH]; intros x0 y0 s t H ST; cbn [lin_from]; [lra|]. destruct H as (X & Y & H).
  specialize (IH _ _ s t H ST).
  assert (R' : ramp x0 x1 s <= ramp x0 x1 t).
  { unfold ramp. unfold Rmax, Rmin. repeat destruct (Rle_dec _ _); lra. }
  assert (0 <= (y1 - y0) / (x1 - x0)) by (apply Rmult_le_pos; [lra|left; apply Rinv_0_lt_compat; lra]). nra.
Qed.
Lemma lin_grows m : sersic_mixture lin = Ok m -> core_grows m.
Proof.
  intros E. rewrite built in E. injection E as <-. intros s t H _. unfold m_core, lin. cbn [real_nodes map cores fst snd].
  apply Rplus_le_compat_l, lin_rises; [|lra]. cbn [rising]. unfold Q2R. cbn [Qnum Qden]. repeat split; lra.
Qed.

Example C104_half_ex : exists m p, sersic_mixture lin = Ok m /\ get_profile isort m (Q2R 4.00) = Ok p /\
  Rabs (inside p 1 - 1/2) <= 0.032 /\ 0 < inside p 1 - 1/2 /\ (forall r, 0 < surface p r).
Proof.
  destruct (C66_profile lin isort isort_good) as (m & E & _). exists m.
  assert (Q4 : Q2R 4.00 = 4) by (unfold Q2R; cbn; lra).
  destruct (C104_half lin isort m _ _ _ lin_good isort_good E (lin_grows m E) use4) as (p & EP & _ & _ & _ & H4 & _ & HP & _).
  destruct (C104_falls lin isort m _ _ _ lin_good isort_good E (lin_grows m E) use4) as (p' & EP' & PO & _).
  rewrite EP in EP'. injection EP' as <-. exists p. repeat split; auto; [apply H4; lra|apply HP; lra].
Qed.
Example C104_law_ex : exists m p c, sersic_mixture lin = Ok m /\ get_profile isort m (Q2R 4.00) = Ok p /\ 0 < c /\
  Rabs (c * law_total 8 7.66925 - 1.0620) <= 0.0005 /\ Rabs (surface p 1 - c) <= 0.04 * c.
Proof.
  destruct (C66_profile lin isort isort_good) as (m & E & _). exists m.
  assert (Q4 : Q2R 4.00 = INR 8 / 2) by (unfold Q2R; cbn; lra).
  assert (I : In (8%nat, 7.66925, 1.0620, 0.04) laws) by (apply (nth_error_In _ 7); reflexivity).
  destruct (C104_law lin isort m _ _ _ _ _ _ _ lin_good isort_good E I use4 Q4) as (p & c & EP & C & K & H).
  exists p, c. repeat split; auto. specialize (H 1 ltac:(lra)). unfold law, Rpower in H. rewrite ln_1, Rmult_0_r, exp_0 in H.
    replace (- (7.66925) * (1 - 1)) with 0 in H by ring. rewrite exp_0, Rmult_1_r in H. exact H.
Qed.
Example C104_inside_ex : is_RInt (fun r => 2 * PI * r * surface [(1/4, 0); (3/4, 2)] r) 0 1 (3/4 * (1 - exp (- 1 / 4))).
Proof.
  replace (3/4 * (1 - exp (- 1 / 4))) with (inside [(1/4, 0); (3/4, 2)] 1 - points [(1/4, 0); (3/4, 2)]).
  - apply C104_inside; [lra|]. repeat constructor; cbn; lra.
  - unfold inside, points. cbn [light]. destruct (Rlt_dec 0 0), (Rlt_dec 0 2); try lra.
    replace (- 1 ^ 2 / (2 * 2)) with (- 1 / 4) by field. ring.
Qed.

Print Assumptions C104_inside.
Print Assumptions C104_half.
Print Assumptions C104_half_refuted.
Print Assumptions C104_falls.
Print Assumptions C104_law_light.
Print Assumptions C104_law.
Print Assumptions C104_law_refuted.
