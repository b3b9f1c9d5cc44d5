(** C46: the filters used by the sub-pixel shift. *)
From Coq Require Import Reals List Bool Lra Lia.
From Verif Require Import Base LanczosModel.
Import ListNotations.
Open Scope R_scope.

Lemma pi3 : 3 < PI.
Proof. pose proof PI2_3_2. lra. Qed.

(** *** The kernel *)
Lemma lanczos3_nz x : x <> 0 -> Rabs x < 3 -> lanczos3 x = 3 * sin (PI * x) * sin (PI * x / 3) / ((PI * x) * (PI * x)).
Proof. intros H1 H2. unfold lanczos3. destruct (Req_EM_T x 0); [contradiction|]. destruct (Rlt_dec (Rabs x) 3); [auto|contradiction]. Qed.
Lemma lanczos3_far x : 3 <= Rabs x -> lanczos3 x = 0.
Proof.
  intros H. unfold lanczos3. destruct (Req_EM_T x 0) as [->|]; [rewrite Rabs_R0 in H; lra|].
  destruct (Rlt_dec (Rabs x) 3); [lra|auto].
Qed.
Lemma lanczos3_even x : lanczos3 (- x) = lanczos3 x.
Proof.
  unfold lanczos3. rewrite Rabs_Ropp. destruct (Req_EM_T (- x) 0), (Req_EM_T x 0); try reflexivity; try lra.
  destruct (Rlt_dec (Rabs x) 3); auto.
  replace (PI * - x) with (- (PI * x)) by ring. replace (- (PI * x) / 3) with (- (PI * x / 3)) by field. rewrite !sin_neg.
  pose proof pi3. field. split; lra.
Qed.
Lemma abs_lt x a : - a < x < a -> Rabs x < a.
Proof. intros. apply Rabs_def1; lra. Qed.

Lemma sin_1 t : sin (PI * (t + 1)) = - sin (PI * t).
Proof. replace (PI * (t + 1)) with (PI * t + PI) by ring. apply neg_sin. Qed.
Lemma a_cos_le a : 0 < a <= PI / 3 -> a * cos a <= sin a.
Proof.
  intros H. pose proof pi3. destruct (MVT_cor2 sin cos 0 a) as (c & E & HC); [lra|intros; apply derivable_pt_lim_sin|].
  rewrite sin_0 in E. assert (cos a <= cos c) by (apply cos_decr_1; lra). nra.
Qed.
(** Main lobe against first side lobe. *)
Lemma lobes_pos t : 0 < t < 1 -> 0 < lanczos3 t + lanczos3 (t + 1).
Proof.
  intros H. pose proof pi3 as P3. rewrite !lanczos3_nz by (try lra; apply abs_lt; lra). rewrite sin_1.
  set (p := sin (PI * t)). assert (HP : 0 < p) by (apply sin_gt_0; nra).
  set (a := PI * t / 3). replace (PI * (t + 1) / 3) with (a + PI / 3) by (unfold a; field).
  assert (HA : 0 < a < PI / 3) by (unfold a; nra).
  assert (HS : 0 < sin a) by (apply sin_gt_0; lra).
  assert (HB : sin (a + PI / 3) * (t * t) < sin a * ((t + 1) * (t + 1))).
  { rewrite sin_plus, sin_PI3, cos_PI3.
    assert (Q : sqrt 3 <= 2) by (apply Rsqr_incr_0_var; [rewrite Rsqr_sqrt; unfold Rsqr; lra|lra]).
    assert (Q0 : 0 <= sqrt 3) by apply sqrt_pos.
    assert (C0 : 0 <= cos a) by (apply cos_ge_0; lra).
    pose proof (a_cos_le a ltac:(lra)) as AC.
    assert (T : t * cos a <= sin a). { assert (a = PI / 3 * t) by (unfold a; field). subst a. nra. }
    assert (cos a * (sqrt 3 / 2) * (t * t) <= sin a * t).
    { assert (cos a * (sqrt 3 / 2) <= cos a) by nra. assert (cos a * (sqrt 3 / 2) * (t * t) <= cos a * (t * t)) by (apply Rmult_le_compat_r; nra). nra. }
    nra. }
  replace (3 * p * sin a / (PI * t * (PI * t)) + 3 * - p * sin (a + PI / 3) / (PI * (t + 1) * (PI * (t + 1)))) with
    ((3 * p / (PI * PI)) * ((sin a * ((t + 1) * (t + 1)) - sin (a + PI / 3) * (t * t)) / (t * t * ((t + 1) * (t + 1))))) by (field; lra).
  apply Rmult_lt_0_compat; apply Rdiv_lt_0_compat; nra.
Qed.
Lemma second_lobe t : 0 < t < 1 -> 0 <= lanczos3 (t + 2).
Proof.
  intros H. pose proof pi3. rewrite lanczos3_nz by (try lra; apply abs_lt; lra).
  replace (PI * (t + 2)) with (PI * t + 2 * PI) by ring. rewrite sin_plus, sin_2PI, cos_2PI.
  assert (0 < sin (PI * t)) by (apply sin_gt_0; nra).
  assert (0 < sin ((PI * t + 2 * PI) / 3)) by (apply sin_gt_0; nra).
  apply Rlt_le, Rdiv_lt_0_compat; [|nra]. rewrite Rmult_0_r, Rplus_0_r, Rmult_1_r. apply Rmult_lt_0_compat; [nra|auto].
Qed.

Lemma sum_pos t : 0 < t < 1 ->
  0 < lanczos3 (t - 3) + lanczos3 (t - 2) + lanczos3 (t - 1) + lanczos3 t + lanczos3 (t + 1) + lanczos3 (t + 2).
Proof.
  intros H. pose proof (lobes_pos t H). pose proof (second_lobe t H).
  pose proof (lobes_pos (1 - t) ltac:(lra)) as A. pose proof (second_lobe (1 - t) ltac:(lra)) as B.
  replace (lanczos3 (t - 3)) with (lanczos3 (1 - t + 2)) by (rewrite <- lanczos3_even; f_equal; ring).
  replace (lanczos3 (t - 2)) with (lanczos3 (1 - t + 1)) by (rewrite <- lanczos3_even; f_equal; ring).
  replace (lanczos3 (t - 1)) with (lanczos3 (1 - t)) by (rewrite <- lanczos3_even; f_equal; ring). lra.
Qed.

Lemma rsum_div l s : rsum (map (fun v => v / s) l) = rsum l / s.
Proof. induction l as [|x r IH]; cbn; [unfold Rdiv; ring|]. change (x / s + rsum (map (fun v => v / s) r) = (x + rsum r) / s). rewrite IH. unfold Rdiv. ring. Qed.
Lemma int_zero k : k <> 0 -> Rabs k <= 3 -> sin (PI * k) = 0 -> lanczos3 k = 0.
Proof.
  intros HK HA H. unfold lanczos3. destruct (Req_EM_T k 0); [contradiction|]. destruct (Rlt_dec (Rabs k) 3); auto.
  rewrite H. unfold Rdiv. ring.
Qed.
Lemma tap_lanczos i dx : INR i - 3 + dx <> 0 -> Rabs (INR i - 3 + dx) < 3 -> tap i dx = lanczos3 (INR i - 3 + dx).
Proof. intros. rewrite lanczos3_nz by auto. reflexivity. Qed.

Lemma sin_k k : sin (PI * IZR k) = 0.
Proof. rewrite Rmult_comm. apply sin_eq_0_1. exists k. reflexivity. Qed.

Lemma eq7 (a0 a1 a2 a3 a4 a5 a6 b0 b1 b2 b3 b4 b5 b6 : R) :
  a0 = b0 -> a1 = b1 -> a2 = b2 -> a3 = b3 -> a4 = b4 -> a5 = b5 -> a6 = b6 ->
  [a0;a1;a2;a3;a4;a5;a6] = [b0;b1;b2;b3;b4;b5;b6].
Proof. intros; subst; auto. Qed.
Lemma py_vals dx : map (fun i => lanczos3 (INR i - 3 + dx)) (seq 0 7) =
  [lanczos3 (dx - 3); lanczos3 (dx - 2); lanczos3 (dx - 1); lanczos3 dx; lanczos3 (dx + 1); lanczos3 (dx + 2); lanczos3 (dx + 3)].
Proof. cbn [seq map]. apply eq7; f_equal; simpl INR; ring. Qed.
Definition total (dx : R) : R := rsum (map (fun i => lanczos3 (INR i - 3 + dx)) (seq 0 7)).
Lemma total_eq dx : total dx = lanczos3 (dx - 3) + lanczos3 (dx - 2) + lanczos3 (dx - 1) + lanczos3 dx + lanczos3 (dx + 1) + lanczos3 (dx + 2) + lanczos3 (dx + 3).
Proof. unfold total. rewrite py_vals. unfold rsum. cbn. ring. Qed.

Lemma l3_0 : lanczos3 0 = 1.
Proof. unfold lanczos3. destruct (Req_EM_T 0 0); [auto|contradiction]. Qed.
Lemma l3_int (z : Z) : (z <> 0)%Z -> (-3 <= z <= 3)%Z -> lanczos3 (IZR z) = 0.
Proof.
  intros H0 [H1 H2]. apply IZR_le in H1, H2. apply int_zero; [|apply Rabs_le; lra|apply sin_k].
  intros E. apply H0. apply eq_IZR. auto.
Qed.
Lemma total_0 : total 0 = 1.
Proof.
  rewrite total_eq, l3_0. replace (0 - 3) with (IZR (-3)) by (simpl; ring). replace (0 - 2) with (IZR (-2)) by (simpl; ring).
  replace (0 - 1) with (IZR (-1)) by (simpl; ring). replace (0 + 1) with (IZR 1) by ring. replace (0 + 2) with (IZR 2) by ring.
  replace (0 + 3) with (IZR 3) by ring. rewrite !l3_int by lia. ring.
Qed.
Lemma total_pos dx : - (1/2) <= dx <= 1/2 -> 0 < total dx.
Proof.
  intros H. destruct (Req_dec dx 0) as [->|N]; [rewrite total_0; lra|].
  rewrite total_eq. destruct (Rlt_dec 0 dx).
  - rewrite (lanczos3_far (dx + 3)) by (rewrite Rabs_right; lra). pose proof (sum_pos dx ltac:(lra)). lra.
  - rewrite (lanczos3_far (dx - 3)) by (rewrite Rabs_left; lra). pose proof (sum_pos (1 + dx) ltac:(lra)) as S.
    replace (1 + dx - 3) with (dx - 2) in S by ring. replace (1 + dx - 2) with (dx - 1) in S by ring.
    replace (1 + dx - 1) with dx in S by ring. replace (1 + dx) with (dx + 1) in S by ring.
    replace (dx + 1 + 1) with (dx + 2) in S by ring. replace (dx + 1 + 2) with (dx + 3) in S by ring. lra.
Qed.

(** *** C46: the C filter is the normalised Lanczos-3 kernel sampled at the
    shifted taps, the same as the Python fallback's; it sums to one (so it
    preserves flux), and a zero shift leaves the picture alone. *)
Theorem C46_filter : forall dx, - (1/2) <= dx <= 1/2 ->
  0 < total dx /\
  c_filter dx = Ok (map (fun i => lanczos3 (INR i - 3 + dx) / total dx) (seq 0 7)) /\
  py_filter dx = map (fun i => lanczos3 (INR i - 3 + dx) / total dx) (seq 0 7) /\
  rsum (map (fun i => lanczos3 (INR i - 3 + dx) / total dx) (seq 0 7)) = 1 /\
  c_filter 0 = Ok [0; 0; 0; 1; 0; 0; 0].
Proof.
  intros dx H. pose proof (total_pos dx H) as TP. split; auto.
  assert (EM : map (fun i => lanczos3 (INR i - 3 + dx) / total dx) (seq 0 7) = map (fun v => v / total dx) (map (fun i => lanczos3 (INR i - 3 + dx)) (seq 0 7)))
    by (rewrite map_map; reflexivity).
  split; [|split; [|split]].
  - unfold c_filter. destruct (Rlt_dec dx (- (1/2))); [lra|]. destruct (Rlt_dec (1/2) dx); [lra|].
    destruct (Req_EM_T dx 0) as [->|N].
    + rewrite EM, total_0, py_vals. apply f_equal. cbn [map].
      replace (0 - 3) with (IZR (-3)) by (simpl; ring). replace (0 - 2) with (IZR (-2)) by (simpl; ring).
      replace (0 - 1) with (IZR (-1)) by (simpl; ring). replace (0 + 1) with (IZR 1) by ring. replace (0 + 2) with (IZR 2) by ring.
      replace (0 + 3) with (IZR 3) by ring. rewrite l3_0, !l3_int by lia. apply eq7; field.
    + destruct (Rlt_dec 0 dx).
      * assert (EV : map (fun i => tap i dx) (seq 0 6) = map (fun i => lanczos3 (INR i - 3 + dx)) (seq 0 6)).
        { apply map_ext_in. intros i Hi. apply in_seq in Hi. assert (C : (i = 0 \/ i = 1 \/ i = 2 \/ i = 3 \/ i = 4 \/ i = 5)%nat) by lia.
          apply tap_lanczos; [|apply abs_lt]; destruct C as [->|[->|[->|[->|[->| ->]]]]]; simpl INR; lra. }
        cbv zeta. rewrite EV.
        assert (ES : map (fun i => lanczos3 (INR i - 3 + dx)) (seq 0 7) = map (fun i => lanczos3 (INR i - 3 + dx)) (seq 0 6) ++ [0]).
        { change (seq 0 7) with (seq 0 6 ++ [6%nat]). rewrite map_app. cbn [map]. rewrite (lanczos3_far (INR 6 - 3 + dx)); auto. simpl INR. rewrite Rabs_right; lra. }
        assert (ET : rsum (map (fun i => lanczos3 (INR i - 3 + dx)) (seq 0 6)) = total dx).
        { unfold total. rewrite ES. unfold rsum. rewrite fold_right_app. cbn [fold_right]. rewrite Rplus_0_r. reflexivity. }
        rewrite ET, EM, ES, map_app. cbn [map]. replace (0 / total dx) with 0 by (unfold Rdiv; ring). reflexivity.
      * assert (EV : map (fun i => tap i dx) (seq 1 6) = map (fun i => lanczos3 (INR i - 3 + dx)) (seq 1 6)).
        { apply map_ext_in. intros i Hi. apply in_seq in Hi. assert (C : (i = 1 \/ i = 2 \/ i = 3 \/ i = 4 \/ i = 5 \/ i = 6)%nat) by lia.
          apply tap_lanczos; [|apply abs_lt]; destruct C as [->|[->|[->|[->|[->| ->]]]]]; simpl INR; lra. }
        cbv zeta. rewrite EV.
        assert (ES : map (fun i => lanczos3 (INR i - 3 + dx)) (seq 0 7) = 0 :: map (fun i => lanczos3 (INR i - 3 + dx)) (seq 1 6)).
        { change (seq 0 7) with (0%nat :: seq 1 6). cbn [map]. rewrite (lanczos3_far (INR 0 - 3 + dx)); auto. simpl INR. rewrite Rabs_left; lra. }
        assert (ET : rsum (map (fun i => lanczos3 (INR i - 3 + dx)) (seq 1 6)) = total dx).
        { unfold total. rewrite ES. unfold rsum. cbn [fold_right]. ring. }
        rewrite ET, EM, ES. cbn [map]. replace (0 / total dx) with 0 by (unfold Rdiv; ring). reflexivity.
  - rewrite EM. reflexivity.
  - rewrite EM, rsum_div. unfold total. apply Rinv_r. fold (total dx). lra.
  - unfold c_filter. destruct (Rlt_dec 0 (- (1/2))); [lra|]. destruct (Rlt_dec (1/2) 0); [lra|]. destruct (Req_EM_T 0 0); [auto|contradiction].
Qed.
(** Half a pixel: the two middle taps are equal. *)
Example C46_filter_ex : exists f, c_filter (1/2) = Ok f /\ rsum f = 1 /\ nth 2 f 0 = nth 3 f 0 /\ nth 6 f 0 = 0.
Proof.
  destruct (C46_filter (1/2) ltac:(lra)) as (_ & E & _ & S1 & _). eexists. split; [exact E|]. split; [exact S1|]. split.
  - cbn [seq map nth]. f_equal. rewrite <- lanczos3_even. f_equal. simpl INR. lra.
  - cbn [seq map nth]. rewrite lanczos3_far; [unfold Rdiv; ring|]. simpl INR. rewrite Rabs_right; lra.
Qed.

Print Assumptions C46_filter.
