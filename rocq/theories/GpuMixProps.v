(** C70: galaxy stamps of the GPU optimizer. *)
From Coq Require Import List ZArith Reals Bool Lia Lra.
From Verif Require GalPatchProps.
From Verif Require Import Base GalPatchModel GaussPsfModel GaussPsfProps GpuMixModel.
Import ListNotations.
Open Scope R_scope.

(** ** Specification *)
Section Spec.
Variable back : nat -> (R -> R -> R) -> Z -> Z -> R.
Variables (pW pH : Z) (psf_mog : nat -> list mcomp).
(** How much of a component is drawn as Gaussians: all if half the frame is at
    most three sigmas, nothing from four sigmas, linear in between. *)
Definition mog_share (c : mcomp) : R :=
  let half := IZR pW / 2 in
  let sigma := sqrt (m_a c + m_d c) in
  if Rle_dec half (3 * sigma) then 1 else if Rle_dec (4 * sigma) half then 0 else 4 - half / sigma.
(** A unit component convolved with the PSF's mixture, around the centre of the
    frame. *)
Definition as_gaussians (i : nat) (c : mcomp) (y x : Z) : R :=
  sum_over (fun q => density (mkG (m_amp q) 0 0 (m_a c + m_a q) (m_b c + m_b q) (m_b c + m_b q) (m_d c + m_d q))
                             (IZR (x - pW / 2)) (IZR (y - pH / 2))) (psf_mog i).
(** A unit component's transform times that of the PSF, transformed back. *)
Definition as_transform (i : nat) (c : mcomp) (y x : Z) : R :=
  back i (fun w v => exp (- 2 * PI ^ 2 * (m_a c * v ^ 2 + 2 * m_b c * (v * w) + m_d c * w ^ 2))) y x.
Definition stamp_of (i : nat) (cs : list mcomp) (y x : Z) : R :=
  sum_over (fun c => m_amp c * (mog_share c * as_gaussians i c y x + (1 - mog_share c) * as_transform i c y x)) cs.
End Spec.
Definition linear_back (back : nat -> (R -> R -> R) -> Z -> Z -> R) : Prop :=
  (forall i y x, back i (fun _ _ => 0) y x = 0) /\
  (forall i s a e y x, back i (fun w v => s w v + a * e w v) y x = back i s y x + a * back i e y x).
(** A variance: positive semidefinite. *)
Definition psd (c : mcomp) : Prop := 0 <= m_a c /\ 0 <= m_d c /\ m_b c ^ 2 <= m_a c * m_d c.
(** A PSF component: positive, not vanishingly small. *)
Definition psf_good (q : mcomp) : Prop := 0 < m_a q /\ 0 < m_d q /\ 1 / 10 ^ 30 <= m_a q * m_d q - m_b q ^ 2.

(** ** Weights *)
Section Weights.
Variable pW : Z.
Hypothesis HW : (1 <= pW)%Z.
Notation im := (im pW).
Notation if_ := (if_ pW).
Lemma rltb_true x y : rltb x y = true <-> x < y.
Proof. unfold rltb. destruct (Rlt_dec x y); split; auto; discriminate. Qed.
Lemma rltb_false x y : rltb x y = false <-> y <= x.
Proof. unfold rltb. destruct (Rlt_dec x y); split; try discriminate; auto; intros; lra. Qed.
Lemma reqb_true x y : reqb x y = true <-> x = y.
Proof. unfold reqb. destruct (Req_EM_T x y); split; auto; discriminate. Qed.
Lemma reqb_false x y : reqb x y = false <-> x <> y.
Proof. unfold reqb. destruct (Req_EM_T x y); split; auto; try discriminate; tauto. Qed.
Lemma half_pos : 1 / 2 <= IZR pW / 2.
Proof. apply IZR_le in HW. lra. Qed.
Lemma sq_lt x y : 0 <= x -> 0 <= y -> x * x < y * y -> x < y.
Proof. intros. nra. Qed.
Lemma im_iff c : psd c -> m_amp c <> 0 -> im c = true <-> IZR pW / 2 < 4 * sqrt (vv c).
Proof.
  intros (A & D & _) N. unfold GpuMixModel.im, sz. rewrite (proj2 (reqb_false _ _) N), andb_true_r, rltb_true.
  pose proof half_pos as HP. assert (V : 0 <= vv c) by (unfold vv; lra). pose proof (sqrt_pos (vv c)) as S. pose proof (sqrt_sqrt _ V) as SS.
  set (s := sqrt (vv c)) in *. rewrite <- SS. set (h := IZR pW / 2) in *. clearbody h s. split; intros H.
  - apply sq_lt; nra.
  - nra.
Qed.
Lemma if_iff c : psd c -> m_amp c <> 0 -> if_ c = true <-> 3 * sqrt (vv c) < IZR pW / 2.
Proof.
  intros (A & D & _) N. unfold GpuMixModel.if_, sz. rewrite (proj2 (reqb_false _ _) N), andb_true_r, rltb_true.
  pose proof half_pos as HP. assert (V : 0 <= vv c) by (unfold vv; lra). pose proof (sqrt_pos (vv c)) as S. pose proof (sqrt_sqrt _ V) as SS.
  set (s := sqrt (vv c)) in *. rewrite <- SS. set (h := IZR pW / 2) in *. clearbody h s. split; intros H.
  - apply sq_lt; nra.
  - nra.
Qed.
Lemma amp0_im c : m_amp c = 0 -> im c = false /\ if_ c = false.
Proof. intros E. unfold GpuMixModel.im, GpuMixModel.if_. rewrite (proj2 (reqb_true _ _) E), !andb_false_r. auto. Qed.
Lemma share_im c : psd c -> m_amp c <> 0 -> im c = false -> mog_share pW c = 0.
Proof.
  intros P N E. assert (H : ~ IZR pW / 2 < 4 * sqrt (vv c)) by (intros H; apply (im_iff c P N) in H; congruence).
  unfold mog_share. fold (vv c). pose proof (sqrt_pos (vv c)). pose proof half_pos. cbv zeta. destruct (Rle_dec _ _); [lra|]. destruct (Rle_dec _ _); [reflexivity|lra].
Qed.
Lemma share_if c : psd c -> m_amp c <> 0 -> if_ c = false -> mog_share pW c = 1.
Proof.
  intros P N E. assert (H : ~ 3 * sqrt (vv c) < IZR pW / 2) by (intros H; apply (if_iff c P N) in H; congruence).
  unfold mog_share. fold (vv c). cbv zeta. destruct (Rle_dec _ _); [reflexivity|lra].
Qed.
Lemma some_way c : psd c -> m_amp c <> 0 -> im c = true \/ if_ c = true.
Proof.
  intros P N. destruct (Rlt_dec (3 * sqrt (vv c)) (IZR pW / 2)).
  - right. apply if_iff; auto.
  - left. apply im_iff; auto. pose proof (sqrt_pos (vv c)). pose proof half_pos. lra.
Qed.
Lemma ramp_weights c : psd c -> m_amp c <> 0 -> wmog pW c = mog_share pW c /\ wfft pW c = 1 - mog_share pW c.
Proof.
  intros P N. unfold wmog, wfft, nsigmas, sz. pose proof (im_iff c P N) as HI. pose proof (if_iff c P N) as HF.
  unfold mog_share. fold (vv c). cbv zeta. pose proof (sqrt_pos (vv c)) as S. pose proof half_pos as HP.
  set (s := sqrt (vv c)) in *. set (h := IZR pW / 2) in *. clearbody s h.
  assert (CL0 : forall t, t <= 0 -> clip01 t = 0) by (intros t Ht; unfold clip01; rewrite Rmin_right, Rmax_left by lra; reflexivity).
  assert (CL1 : forall t, 1 <= t -> clip01 t = 1) by (intros t Ht; unfold clip01; rewrite Rmin_left, Rmax_right by lra; reflexivity).
  assert (CLM : forall t, 0 <= t <= 1 -> clip01 t = t) by (intros t Ht; unfold clip01; rewrite Rmin_right, Rmax_right by lra; reflexivity).
  destruct (Rle_dec h (3 * s)) as [L|L].
  - assert (I1 : im c = true) by (apply HI; lra). assert (F1 : if_ c = false) by (apply not_true_is_false; intros Q; apply HF in Q; lra).
    rewrite I1, F1. cbn [ind]. rewrite Rmax_right by lra. rewrite CL1; [lra|].
    assert (h / s <= 3). { apply Rmult_le_reg_r with s; [lra|]. unfold Rdiv. rewrite Rmult_assoc, Rinv_l by lra. lra. } lra.
  - destruct (Rle_dec (4 * s) h) as [G|G].
    + assert (I1 : im c = false) by (apply not_true_is_false; intros Q; apply HI in Q; lra). assert (F1 : if_ c = true) by (apply HF; lra).
      rewrite I1, F1. cbn [ind]. rewrite (CL1 ((h / Rmax (1 / 1000000) s - 3) / (4 - 3))); [lra|].
      assert (4 <= h / Rmax (1 / 1000000) s); [|lra].
      assert (PM : 0 < Rmax (1 / 1000000) s) by (eapply Rlt_le_trans; [|apply Rmax_l]; lra).
      apply Rmult_le_reg_r with (Rmax (1 / 1000000) s); auto. unfold Rdiv at 2. rewrite Rmult_assoc, Rinv_l by lra.
      unfold Rmax. destruct (Rle_dec _ _); lra.
    + assert (I1 : im c = true) by (apply HI; lra). assert (F1 : if_ c = true) by (apply HF; lra). rewrite I1, F1. cbn [ind].
      rewrite Rmax_right by lra.
      assert (B : 3 <= h / s <= 4).
      { split; (apply Rmult_le_reg_r with s; [lra|]); unfold Rdiv; rewrite Rmult_assoc, Rinv_l by lra; lra. }
      rewrite !CLM by lra. lra.
Qed.
End Weights.

(** ** Sums *)
Lemma rsum_app {A} (f : A -> R) l r : rsum f (l ++ r) = rsum f l + rsum f r.
Proof. induction l as [|a l IH]; [change (rsum f r = 0 + rsum f r); lra|]. change (f a + rsum f (l ++ r) = f a + rsum f l + rsum f r). rewrite IH. lra. Qed.
Lemma rsum_nul {A} (f : A -> R) l : (forall a, In a l -> f a = 0) -> rsum f l = 0.
Proof. induction l as [|a l IH]; intros H; cbn; [lra|]. change (f a + rsum f l = 0). rewrite (H a (or_introl eq_refl)), IH; [lra|]. intros b Hb. apply H. right; auto. Qed.
Lemma rsum_ext {A} (f g : A -> R) l : (forall a, In a l -> f a = g a) -> rsum f l = rsum g l.
Proof. induction l as [|a l IH]; intros H; cbn; [reflexivity|]. change (f a + rsum f l = g a + rsum g l). rewrite (H a (or_introl eq_refl)), IH; [reflexivity|]. intros b Hb. apply H. right; auto. Qed.
Lemma rsum_map {A B} (h : A -> B) (f : B -> R) l : rsum f (map h l) = rsum (fun a => f (h a)) l.
Proof. induction l as [|a l IH]; cbn; [reflexivity|]. change (f (h a) + rsum f (map h l) = f (h a) + rsum (fun a => f (h a)) l). rewrite IH. reflexivity. Qed.
Lemma rsum_scal {A} (k : R) (f : A -> R) l : rsum (fun a => k * f a) l = k * rsum f l.
Proof. induction l as [|a l IH]; cbn; [lra|]. change (k * f a + rsum (fun a => k * f a) l = k * (f a + rsum f l)). rewrite IH. lra. Qed.
Lemma rsum_add {A} (f g : A -> R) l : rsum (fun a => f a + g a) l = rsum f l + rsum g l.
Proof. induction l as [|a l IH]; cbn; [lra|]. change (f a + g a + rsum (fun a => f a + g a) l = f a + rsum f l + (g a + rsum g l)). rewrite IH. lra. Qed.
Lemma rsum_skip {A} (f : A -> R) n l : (forall a, In a (firstn n l) -> f a = 0) -> rsum f (skipn n l) = rsum f l.
Proof. intros H. rewrite <- (firstn_skipn n l) at 2. rewrite rsum_app, (rsum_nul f (firstn n l)) by auto. lra. Qed.
Lemma rsum_first {A} (f : A -> R) n l : (forall a, In a (skipn n l) -> f a = 0) -> rsum f (firstn n l) = rsum f l.
Proof. intros H. rewrite <- (firstn_skipn n l) at 2. rewrite rsum_app, (rsum_nul f (skipn n l)) by auto. lra. Qed.
Lemma rsum_pad (f : mcomp -> R) K l : f mnull = 0 -> rsum f (pad_to K l) = rsum f l.
Proof. intros H. unfold pad_to. rewrite rsum_app, (rsum_nul f (repeat _ _)); [lra|]. intros a Ha. apply repeat_spec in Ha. subst. exact H. Qed.

(** ** Positions *)
Lemma In_firstn_nth {A} (d : A) n l a : In a (firstn n l) -> exists k, (k < n)%nat /\ (k < length l)%nat /\ nth k l d = a.
Proof.
  revert l. induction n as [|n IH]; intros [|x l]; cbn [firstn]; try (intros []; fail). intros [->|H].
  - exists 0%nat. cbn. split; [lia|]. split; [lia|]. reflexivity.
  - destruct (IH l H) as (k & A1 & A2 & A3). exists (S k). cbn. split; [lia|]. split; [lia|]. exact A3.
Qed.
Lemma In_skipn_nth {A} (d : A) n l a : In a (skipn n l) -> exists k, (n <= k)%nat /\ (k < length l)%nat /\ nth k l d = a.
Proof.
  revert l. induction n as [|n IH]; intros l H.
  - cbn in H. destruct (In_nth l a d H) as (k & A1 & A2). exists k. split; [lia|]. auto.
  - destruct l as [|x l]; [destruct H|]. destruct (IH l H) as (k & A1 & A2 & A3). exists (S k). cbn. split; [lia|]. split; [lia|]. exact A3.
Qed.
Section Columns.
Variable pW : Z.
Lemma column_true f grid row cs k : In row grid -> In cs row -> f (nth k cs mnull) = true -> column f grid k = true.
Proof. intros H1 H2 H3. unfold column. apply existsb_exists. exists row. split; auto. apply existsb_exists. exists cs. auto. Qed.
Lemma filter_head f K k0 l : filter f (seq 0 K) = k0 :: l -> (forall k, (k < K)%nat -> f k = true -> (k0 <= k)%nat) /\ (k0 < K)%nat.
Proof.
  intros E. assert (H : forall n a, filter f (seq a n) = k0 :: l -> (forall k, (a <= k < a + n)%nat -> f k = true -> (k0 <= k)%nat) /\ (a <= k0 < a + n)%nat).
  { clear E. induction n as [|n IH]; intros a E; cbn in E; [discriminate|]. destruct (f a) eqn:Ea.
    - injection E as <- _. split; intros; lia.
    - destruct (IH (S a) E) as [H1 H2]. split; [|lia]. intros k Hk F. destruct (Nat.eq_dec k a) as [->|]; [congruence|]. apply H1; auto. lia. }
  destruct (H K 0%nat E) as [H1 H2]. split; [|lia]. intros k Hk F. apply H1; auto. lia.
Qed.
Lemma last_cons (l : list nat) : forall x d, last (x :: l) d = last l x.
Proof. induction l as [|z l IH]; intros x d; [reflexivity|]. change (last (z :: l) d = last (z :: l) x). rewrite !IH. reflexivity. Qed.
Lemma filter_last f K k0 l : filter f (seq 0 K) = k0 :: l -> (forall k, (k < K)%nat -> f k = true -> (k <= last l k0)%nat) /\ (last l k0 < K)%nat.
Proof.
  intros E. assert (H : forall n a k0 l, filter f (seq a n) = k0 :: l -> (forall k, (a <= k < a + n)%nat -> f k = true -> (k <= last l k0)%nat) /\ (a <= last l k0 < a + n)%nat).
  { clear E k0 l. induction n as [|n IH]; intros a k0 l E; cbn in E; [discriminate|]. destruct (f a) eqn:Ea.
    - injection E as <- E2. destruct l as [|k1 l].
      + cbn. split; [|lia]. intros k Hk F. destruct (Nat.eq_dec k a) as [->|]; [lia|]. exfalso.
        assert (I : In k (filter f (seq (S a) n))) by (apply filter_In; split; auto; apply in_seq; lia). rewrite E2 in I. destruct I.
      + destruct (IH (S a) k1 l E2) as [H1 H2]. replace (last (k1 :: l) a) with (last l k1).
        * split; [|lia]. intros k Hk F. destruct (Nat.eq_dec k a) as [->|]; [lia|]. apply H1; auto. lia.
        * symmetry. apply last_cons.
    - destruct (IH (S a) k0 l E) as [H1 H2]. split; [|lia]. intros k Hk F. destruct (Nat.eq_dec k a) as [->|]; [congruence|]. apply H1; auto. lia. }
  destruct (H K 0%nat k0 l E) as [H1 H2]. split; [|lia]. intros k Hk F. apply H1; auto. lia.
Qed.
Lemma mog_columns K grid row cs k : In row grid -> In cs row -> (k < K)%nat -> im pW (nth k cs mnull) = true ->
  (0 < n_mog pW K grid)%nat /\ (K - n_mog pW K grid <= k)%nat /\ (n_mog pW K grid <= K)%nat.
Proof.
  intros H1 H2 Hk H3. pose proof (column_true _ grid row cs k H1 H2 H3) as C. unfold n_mog.
  destruct (filter (column (im pW) grid) (seq 0 K)) as [|k0 l] eqn:E.
  - exfalso. assert (I : In k (filter (column (im pW) grid) (seq 0 K))) by (apply filter_In; split; auto; apply in_seq; lia). rewrite E in I. destruct I.
  - destruct (filter_head _ _ _ _ E) as [A B]. specialize (A k Hk C). lia.
Qed.
Lemma n_mog_le K grid : (n_mog pW K grid <= K)%nat.
Proof. unfold n_mog. destruct (filter _ _); lia. Qed.
Lemma fft_columns K grid row cs k : In row grid -> In cs row -> (k < K)%nat -> if_ pW (nth k cs mnull) = true -> (k < n_fft pW K grid)%nat.
Proof.
  intros H1 H2 Hk H3. pose proof (column_true _ grid row cs k H1 H2 H3) as C. unfold n_fft.
  destruct (filter (column (if_ pW) grid) (seq 0 K)) as [|k0 l] eqn:E.
  - exfalso. assert (I : In k (filter (column (if_ pW) grid) (seq 0 K))) by (apply filter_In; split; auto; apply in_seq; lia). rewrite E in I. destruct I.
  - destruct (filter_last _ _ _ _ E) as [A B]. specialize (A k Hk C). lia.
Qed.
End Columns.

(** ** One stamp *)
Lemma psd_null : psd mnull.
Proof. unfold psd. cbn. lra. Qed.
Lemma minkowski c q : psd c -> psf_good q -> 1 / 10 ^ 30 <= cdet c q.
Proof.
  intros (A & D & B) (A' & D' & B'). unfold cdet. set (a := m_a c) in *. set (b := m_b c) in *. set (d := m_d c) in *.
  set (a' := m_a q) in *. set (b' := m_b q) in *. set (d' := m_d q) in *. set (e := 1 / 10 ^ 30) in *.
  assert (E0 : 0 < e) by (unfold e; apply Rdiv_lt_0_compat; [lra|apply pow_lt; lra]). clearbody a b d a' b' d' e.
  assert (X : 2 * (b * b') <= a * d' + a' * d).
  { assert (S : (2 * (b * b')) ^ 2 <= (a * d' + a' * d) ^ 2).
    { assert (b ^ 2 * b' ^ 2 <= (a * d) * (a' * d')) by (apply Rmult_le_compat; nra).
      assert (0 <= (a * d' - a' * d) ^ 2) by apply pow2_ge_0. nra. }
    assert (0 <= a * d' + a' * d) by (assert (0 <= a * d') by (apply Rmult_le_pos; lra); assert (0 <= a' * d) by (apply Rmult_le_pos; lra); lra).
    destruct (Rle_dec (2 * (b * b')) (a * d' + a' * d)) as [|N]; auto. exfalso. nra. }
  nra.
Qed.
Lemma det_good c q : psd c -> psf_good q \/ q = mnull -> det_ok c q = true.
Proof.
  intros P [G| ->]; unfold det_ok.
  - pose proof (minkowski c q P G). assert (0 < 1 / 10 ^ 30) by (apply Rdiv_lt_0_compat; [lra|apply pow_lt; lra]).
    rewrite (proj2 (rltb_true 0 (cdet c q))) by lra. reflexivity.
  - destruct P as (A & D & B). assert (E : cdet c mnull = m_a c * m_d c - m_b c ^ 2) by (unfold cdet; cbn; ring). rewrite E.
    rewrite (proj2 (reqb_true (m_amp c * m_amp mnull) 0)) by (cbn; ring). destruct (Rlt_dec 0 (m_a c * m_d c - m_b c ^ 2)) as [L|L].
    + rewrite (proj2 (rltb_true _ _) L). reflexivity.
    + rewrite (proj2 (reqb_true (m_a c * m_d c - m_b c ^ 2) 0)) by lra. apply orb_true_r.
Qed.
Lemma gauss_null c x y : gauss c mnull x y = 0.
Proof. unfold gauss. cbn [m_amp mnull]. cbv zeta. unfold Rdiv. ring. Qed.
Lemma gauss_density c q x y : psd c -> psf_good q ->
  gauss c q x y = m_amp c * density (mkG (m_amp q) 0 0 (m_a c + m_a q) (m_b c + m_b q) (m_b c + m_b q) (m_d c + m_d q)) x y.
Proof.
  intros P G. pose proof (minkowski c q P G) as M. assert (E0 : 0 < 1 / 10 ^ 30) by (apply Rdiv_lt_0_compat; [lra|apply pow_lt; lra]).
  unfold gauss. cbv zeta. rewrite Rmax_left by lra.
  unfold density, peak, mahal, det. cbn [g_amp g_mx g_my g_xx g_xy g_yx g_yy].
  assert (ED : (m_a c + m_a q) * (m_d c + m_d q) - (m_b c + m_b q) * (m_b c + m_b q) = cdet c q) by (unfold cdet; ring).
  rewrite ED. set (dd := cdet c q) in *. clearbody dd. assert (P0 : 0 < dd) by lra. clear M E0. replace (-0.5) with (- (1 / 2)) by lra.
  replace (- (1 / 2) * ((m_d c + m_d q) / dd * x ^ 2 + -2 * (m_b c + m_b q) / dd * (x * y) + (m_a c + m_a q) / dd * y ^ 2))
    with (- (((m_d c + m_d q) * (x - 0) ^ 2 - 2 * (m_b c + m_b q) * (x - 0) * (y - 0) + (m_a c + m_a q) * (y - 0) ^ 2) / dd) / 2) by (field; lra).
  unfold Rdiv. ring.
Qed.

Section One.
Variable back : nat -> (R -> R -> R) -> Z -> Z -> R.
Hypothesis LB : linear_back back.
Variables (pW pH : Z) (psf_mog : nat -> list mcomp).
Hypothesis HW : (1 <= pW)%Z.
Variables (K : nat) (grid : list (list (list mcomp))) (row : list (list mcomp)) (cs : list mcomp).
Hypothesis (HR : In row grid) (HC : In cs row) (HL : length cs = K) (HP : Forall psd cs).
Notation Nmog := (n_mog pW K grid).
Notation Nfft := (n_fft pW K grid).
Notation im := (im pW).
Notation if_ := (if_ pW).
Lemma psd_nth k : psd (nth k cs mnull).
Proof. destruct (nth_in_or_default k cs mnull) as [I| ->]; [|apply psd_null]. rewrite Forall_forall in HP. auto. Qed.
Lemma early c : In c (firstn (K - Nmog) cs) -> im c = false.
Proof.
  intros H. destruct (In_firstn_nth mnull _ _ _ H) as (k & A & B & <-). apply not_true_is_false. intros E.
  destruct (mog_columns pW K grid row cs k HR HC ltac:(lia) E) as (_ & C & _). lia.
Qed.
Lemma late c : In c (skipn Nfft cs) -> if_ c = false.
Proof.
  intros H. destruct (In_skipn_nth mnull _ _ _ H) as (k & A & B & <-). apply not_true_is_false. intros E.
  pose proof (fft_columns pW K grid row cs k HR HC ltac:(lia) E). lia.
Qed.
Lemma none_mog c : Nmog = 0%nat -> In c cs -> im c = false.
Proof.
  intros H I. destruct (In_nth cs c mnull I) as (k & A & <-). apply not_true_is_false. intros E.
  destruct (mog_columns pW K grid row cs k HR HC ltac:(lia) E) as (C & _). lia.
Qed.
(** Is the component in the part that the other method draws? *)
Lemma apart_mog c : (K <? Nmog + Nfft)%nat = false -> In c (skipn (K - Nmog) cs) -> if_ c = false.
Proof.
  intros NR H. apply Nat.ltb_ge in NR. destruct (In_skipn_nth mnull _ _ _ H) as (k & A & B & <-). apply not_true_is_false. intros E.
  pose proof (fft_columns pW K grid row cs k HR HC ltac:(lia) E). lia.
Qed.
Lemma apart_fft c : (K <? Nmog + Nfft)%nat = false -> In c (firstn Nfft cs) -> im c = false.
Proof.
  intros NR H. apply Nat.ltb_ge in NR. destruct (In_firstn_nth mnull _ _ _ H) as (k & A & B & <-). apply not_true_is_false. intros E.
  destruct (mog_columns pW K grid row cs k HR HC ltac:(lia) E) as (_ & C & _). lia.
Qed.
Lemma in_cs_skip n c : In c (skipn n cs) -> In c cs.
Proof. intros H. rewrite <- (firstn_skipn n cs). apply in_or_app. auto. Qed.
Lemma in_cs_first n c : In c (firstn n cs) -> In c cs.
Proof. intros H. rewrite <- (firstn_skipn n cs). apply in_or_app. auto. Qed.
Lemma psd_in c : In c cs -> psd c.
Proof. rewrite Forall_forall in HP. auto. Qed.

Variable M : R -> R -> R -> R.
Notation val c := (M (m_a c) (m_b c) (m_d c)).
Lemma mog_sum : (if (0 <? Nmog)%nat then rsum (fun c => m_amp c * val c) (fst (parts pW K Nmog Nfft cs)) else 0) =
  rsum (fun c => m_amp c * mog_share pW c * val c) cs.
Proof.
  assert (Z0 : forall c, In c cs -> im c = false -> m_amp c * mog_share pW c * val c = 0).
  { intros c I E. destruct (Req_dec (m_amp c) 0) as [->|N]; [ring|]. rewrite (share_im pW HW c (psd_in c I) N E). ring. }
  destruct (Nat.ltb_spec 0 Nmog) as [LN|LN].
  - unfold parts. cbv zeta. unfold back_part. destruct (Nat.eqb_spec Nmog 0); [lia|].
    rewrite <- (rsum_skip _ (K - Nmog) cs) by (intros c H; apply Z0; [apply (in_cs_first _ _ H)|apply early; auto]).
    destruct (K <? Nmog + Nfft)%nat eqn:ER; cbn [fst].
    + unfold weigh. rewrite rsum_map. apply rsum_ext. intros c H. cbn [m_amp m_a m_b m_d]. apply in_cs_skip in H.
      destruct (Req_dec (m_amp c) 0) as [->|N]; [ring|]. destruct (ramp_weights pW HW c (psd_in c H) N) as [-> _]. ring.
    + apply rsum_ext. intros c H. pose proof (apart_mog c ER H) as F. apply in_cs_skip in H.
      destruct (Req_dec (m_amp c) 0) as [->|N]; [ring|]. rewrite (share_if pW HW c (psd_in c H) N F). ring.
  - symmetry. apply rsum_nul. intros c I. apply Z0; auto. apply none_mog; auto. lia.
Qed.
Lemma fft_sum : rsum (fun c => m_amp c * val c) (snd (parts pW K Nmog Nfft cs)) = rsum (fun c => m_amp c * (1 - mog_share pW c) * val c) cs.
Proof.
  assert (Z0 : forall c, In c cs -> if_ c = false -> m_amp c * (1 - mog_share pW c) * val c = 0).
  { intros c I E. destruct (Req_dec (m_amp c) 0) as [->|N]; [ring|]. rewrite (share_if pW HW c (psd_in c I) N E). ring. }
  unfold parts. cbv zeta. unfold front_part.
  rewrite <- (rsum_first _ Nfft cs) by (intros c H; apply Z0; [apply (in_cs_skip _ _ H)|apply late; auto]).
  destruct (K <? Nmog + Nfft)%nat eqn:ER; cbn [snd].
  - unfold weigh. rewrite rsum_map. apply rsum_ext. intros c H. cbn [m_amp m_a m_b m_d]. apply in_cs_first in H.
    destruct (Req_dec (m_amp c) 0) as [->|N]; [ring|]. destruct (ramp_weights pW HW c (psd_in c H) N) as [_ ->]. ring.
  - apply rsum_ext. intros c H. pose proof (apart_fft c ER H) as F. apply in_cs_first in H.
    destruct (Req_dec (m_amp c) 0) as [->|N]; [ring|]. rewrite (share_im pW HW c (psd_in c H) N F). ring.
Qed.
End One.

Section Stamps.
Variable back : nat -> (R -> R -> R) -> Z -> Z -> R.
Hypothesis LB : linear_back back.
Variables (pW pH : Z) (psf_mog : nat -> list mcomp).
Hypothesis HW : (1 <= pW)%Z.
Lemma back_fsum i fcs y x : back i (fsum fcs) y x = rsum (fun c => m_amp c * as_transform back i c y x) fcs.
Proof.
  destruct LB as [L0 L1].
  assert (H : forall l s, back i (fold_left (fun s c w v => s w v + m_amp c * spectrum c w v) l s) y x =
    back i s y x + rsum (fun c => m_amp c * as_transform back i c y x) l).
  { induction l as [|c l IH]; intros s; [cbn; lra|]. cbn [fold_left]. rewrite IH.
    rewrite (L1 i s (m_amp c) (spectrum c) y x). change (rsum (fun c => m_amp c * as_transform back i c y x) (c :: l)) with (m_amp c * as_transform back i c y x + rsum (fun c => m_amp c * as_transform back i c y x) l).
    unfold as_transform at 2. unfold spectrum. lra. }
  unfold fsum. rewrite H, L0. lra.
Qed.
Lemma parts_psd K Nmog Nfft cs c : Forall psd cs -> In c (fst (parts pW K Nmog Nfft cs)) -> psd c.
Proof.
  intros HP. rewrite Forall_forall in HP. unfold parts. cbv zeta.
  assert (B : forall c, In c (back_part K Nmog cs) -> psd c).
  { intros k. unfold back_part. destruct (Nmog =? 0)%nat; auto. intros H. apply HP. rewrite <- (firstn_skipn (K - Nmog) cs). apply in_or_app. auto. }
  destruct (_ <? _)%nat; cbn [fst]; [|apply B]. unfold weigh. rewrite in_map_iff. intros (k & <- & H). apply (B k H).
Qed.
Lemma stamp_spec i Kp K grid row cs y x : In row grid -> In cs row -> length cs = K -> Forall psd cs -> Forall psf_good (psf_mog i) ->
  stamp back pW pH psf_mog i Kp (n_mog pW K grid) (n_fft pW K grid) (fst (parts pW K (n_mog pW K grid) (n_fft pW K grid) cs))
    (snd (parts pW K (n_mog pW K grid) (n_fft pW K grid) cs)) y x = stamp_of back pW pH psf_mog i cs y x.
Proof.
  intros HR HC HL HP HQ. unfold stamp. cbv zeta.
  set (mcs := fst (parts pW K (n_mog pW K grid) (n_fft pW K grid) cs)). set (fcs := snd (parts pW K (n_mog pW K grid) (n_fft pW K grid) cs)).
  assert (EF : (if (0 <? n_fft pW K grid)%nat then back i (fsum fcs) y x else 0) = rsum (fun c => m_amp c * as_transform back i c y x) fcs).
  { destruct (Nat.ltb_spec 0 (n_fft pW K grid)) as [L|L]; [apply back_fsum|]. unfold fcs, parts. replace (n_fft pW K grid) with 0%nat by lia.
    cbv zeta. unfold front_part. cbn [firstn]. destruct (_ <? _)%nat; reflexivity. }
  rewrite EF.
  assert (EM : mog_value mcs (pad_to Kp (psf_mog i)) (IZR (x - pW / 2)) (IZR (y - pH / 2)) = rsum (fun c => m_amp c * as_gaussians pW pH psf_mog i c y x) mcs).
  { unfold mog_value. apply rsum_ext. intros c H. assert (PC : psd c) by (unfold mcs in H; eapply parts_psd; eauto).
    rewrite (rsum_pad (fun q => gauss c q (IZR (x - pW / 2)) (IZR (y - pH / 2)))) by apply gauss_null. unfold as_gaussians.
    rewrite <- (rsum_scal (m_amp c)). apply rsum_ext. intros q Hq. apply gauss_density; auto. rewrite Forall_forall in HQ. auto. }
  set (MV := fun a b d => as_gaussians pW pH psf_mog i (mkMcomp 0 a b d) y x).
  set (FV := fun a b d => as_transform back i (mkMcomp 0 a b d) y x).
  pose proof (mog_sum pW HW K grid row cs HR HC HL HP MV) as S1.
  pose proof (fft_sum pW HW K grid row cs HR HC HL HP FV) as S2.
  fold mcs in S1. fold fcs in S2.
  change (rsum (fun c => m_amp c * as_transform back i c y x) fcs) with (rsum (fun c => m_amp c * FV (m_a c) (m_b c) (m_d c)) fcs). rewrite S2.
  transitivity (rsum (fun c => m_amp c * (1 - mog_share pW c) * FV (m_a c) (m_b c) (m_d c)) cs + rsum (fun c => m_amp c * mog_share pW c * MV (m_a c) (m_b c) (m_d c)) cs).
  - rewrite <- S1. destruct (0 <? n_mog pW K grid)%nat; [|lra]. f_equal. exact EM.
  - rewrite <- rsum_add. unfold stamp_of. apply rsum_ext. intros c _. unfold MV, FV. unfold as_gaussians, as_transform. cbn [m_a m_b m_d]. ring.
Qed.
End Stamps.

(** ** The batch *)
Lemma filter_all_false {A} (f : A -> bool) l : (forall c, In c l -> f c = false) -> filter f l = [].
Proof. induction l as [|a l IH]; intros H; [reflexivity|]. cbn. rewrite (H a (or_introl eq_refl)). apply IH. intros c I. apply H. right. auto. Qed.
Lemma total_same f g grid : (forall row cs, In row grid -> In cs row -> filter f (g cs) = filter f cs) -> total_of f (map (map g) grid) = total_of f grid.
Proof.
  intros H. unfold total_of. f_equal. induction grid as [|row grid IH]; [reflexivity|]. cbn [map concat]. rewrite !concat_app, !filter_app.
  rewrite IH by (intros; eapply H; [right|]; eauto). f_equal.
  assert (HR : forall cs, In cs row -> filter f (g cs) = filter f cs) by (intros; eapply H; [left; reflexivity|auto]). clear -HR.
  induction row as [|cs row IH]; [reflexivity|]. cbn [map concat]. rewrite !filter_app, IH by (intros; apply HR; right; auto). rewrite (HR cs (or_introl eq_refl)). reflexivity.
Qed.
Lemma enum_from {A} (l : list A) s i a : nth_error l i = Some a -> nth_error (combine (seq s (length l)) l) i = Some ((s + i)%nat, a).
Proof.
  revert s i. induction l as [|b l IH]; intros s [|i] H; try discriminate; cbn in *.
  - injection H as ->. rewrite Nat.add_0_r. reflexivity.
  - rewrite (IH (Datatypes.S s) i H). f_equal. f_equal. lia.
Qed.
Lemma enum_nth {A} (l : list A) i a : nth_error l i = Some a -> nth_error (enum l) i = Some (i, a).
Proof. intros H. unfold enum. rewrite (enum_from l 0 i a H). reflexivity. Qed.
Lemma enum_in {A} (l : list A) i a : In (i, a) (enum l) -> nth_error l i = Some a.
Proof.
  intros H. destruct (In_nth_error _ _ H) as (k & E). destruct (nth_error l k) as [b|] eqn:Q.
  - rewrite (enum_nth l k b Q) in E. injection E as <- <-. exact Q.
  - apply nth_error_None in Q. assert (nth_error (enum l) k = None). { apply nth_error_None. unfold enum. rewrite combine_length, seq_length. lia. } congruence.
Qed.
Lemma match_ne {A B} (l : list A) (x y : B) : l <> [] -> match l with [] => x | _ :: _ => y end = y.
Proof. destruct l; congruence. Qed.
Lemma max_in l n : In n l -> (n <= fold_right Nat.max 0 l)%nat.
Proof. induction l as [|a l IH]; cbn; [tauto|]. intros [->|H]; [|specialize (IH H)]; lia. Qed.
Lemma kmax_le mogs row cs : In row mogs -> In cs row -> (length cs <= kmax mogs)%nat.
Proof.
  intros R C. transitivity (maxlen row).
  - apply max_in. apply in_map. auto.
  - apply max_in. apply in_map_iff. eauto.
Qed.
Lemma maxlen_le {A} (ls : list (list A)) l : In l ls -> (length l <= maxlen ls)%nat.
Proof. intros H. apply max_in. apply in_map. auto. Qed.
Lemma pad_length K l : (length l <= K)%nat -> length (pad_to K l) = K.
Proof. intros H. unfold pad_to. rewrite app_length, repeat_length. lia. Qed.
Lemma pad_psd K l : Forall psd l -> Forall psd (pad_to K l).
Proof. intros H. apply Forall_app. split; auto. apply Forall_forall. intros c I. apply repeat_spec in I. subst. apply psd_null. Qed.

Section Batch.
Variable back : nat -> (R -> R -> R) -> Z -> Z -> R.
Hypothesis LB : linear_back back.
Variables (pW pH : Z) (psf_mog : nat -> list mcomp).
Hypothesis HW : (1 <= pW)%Z.
Variable mogs : list (list (list mcomp)).
Hypothesis HP : forall row cs c, In row mogs -> In cs row -> In c cs -> psd c.
Hypothesis HQ : forall i q, (i < length mogs)%nat -> In q (psf_mog i) -> psf_good q.
Hypothesis HN : exists row cs c, In row mogs /\ In cs row /\ In c cs /\ m_amp c <> 0.
Let N := maxlen mogs.
Let K := kmax mogs.
Let grid := map (mixes K N) mogs.
Lemma grid_cs row cs : In row grid -> In cs row -> length cs = K /\ Forall psd cs.
Proof.
  unfold grid. rewrite in_map_iff. intros (r & <- & R) C. unfold mixes in C. apply in_app_or in C. destruct C as [C|C].
  - apply in_map_iff in C. destruct C as (l & <- & L). split; [apply pad_length; unfold K; eapply kmax_le; eauto|]. apply pad_psd. apply Forall_forall. intros c I. eapply HP; eauto.
  - apply repeat_spec in C. subst cs. split; [apply repeat_length|]. apply Forall_forall. intros c I. apply repeat_spec in I. subst. apply psd_null.
Qed.
Lemma count_mog : total_of (im pW) (map (map (back_part K (n_mog pW K grid))) grid) = total_of (im pW) grid.
Proof.
  apply total_same. intros row cs R C. destruct (grid_cs row cs R C) as [L _]. unfold back_part. destruct (Nat.eqb_spec (n_mog pW K grid) 0); auto.
  rewrite <- (firstn_skipn (K - n_mog pW K grid) cs) at 2. rewrite filter_app, (filter_all_false _ (firstn _ _)); [reflexivity|].
  intros c I. eapply early; eauto.
Qed.
Lemma count_fft : total_of (if_ pW) (map (map (front_part (n_fft pW K grid))) grid) = total_of (if_ pW) grid.
Proof.
  apply total_same. intros row cs R C. destruct (grid_cs row cs R C) as [L _]. unfold front_part.
  rewrite <- (firstn_skipn (n_fft pW K grid) cs) at 2. rewrite filter_app, (filter_all_false _ (skipn _ _)), app_nil_r; [reflexivity|].
  intros c I. eapply late; eauto.
Qed.
Lemma some_part : (n_mog pW K grid =? 0)%nat && (n_fft pW K grid =? 0)%nat = false.
Proof.
  destruct HN as (row & cs & c & R & C & I & A). pose proof (HP row cs c R C I) as P.
  assert (RG : In (mixes K N row) grid) by (apply in_map; auto).
  assert (CG : In (pad_to K cs) (mixes K N row)) by (unfold mixes; apply in_or_app; left; apply in_map; auto).
  destruct (grid_cs _ _ RG CG) as [L _].
  destruct (In_nth (pad_to K cs) c mnull) as (k & Lk & E). { unfold pad_to. apply in_or_app. auto. }
  destruct (some_way pW HW c P A) as [M|F].
  - destruct (mog_columns pW K grid _ _ k RG CG ltac:(lia) ltac:(rewrite E; exact M)) as (Q & _). destruct (Nat.eqb_spec (n_mog pW K grid) 0); [lia|reflexivity].
  - pose proof (fft_columns pW K grid _ _ k RG CG ltac:(lia) ltac:(rewrite E; exact F)). destruct (Nat.eqb_spec (n_fft pW K grid) 0); [lia|apply andb_false_r].
Qed.
Lemma dets_ok Kp : forallb (fun ir => forallb (fun mf => forallb (fun c => forallb (det_ok c) (pad_to Kp (psf_mog (fst ir)))) (fst mf)) (snd ir))
  (enum (map (map (parts pW K (n_mog pW K grid) (n_fft pW K grid))) grid)) = true.
Proof.
  apply forallb_forall. intros [i r] I. apply enum_in in I. cbn [fst snd]. apply nth_error_In in I as J.
  assert (Li : (i < length mogs)%nat). { assert (A : nth_error (map (map (parts pW K (n_mog pW K grid) (n_fft pW K grid))) grid) i <> None) by congruence. apply nth_error_Some in A. unfold grid in A. rewrite !map_length in A. exact A. }
  apply in_map_iff in J. destruct J as (row & <- & R). apply forallb_forall. intros mf M. apply in_map_iff in M. destruct M as (cs & <- & C).
  destruct (grid_cs row cs R C) as [_ P]. apply forallb_forall. intros c Hc. apply forallb_forall. intros q Hq. apply det_good.
  - eapply parts_psd; eauto.
  - unfold pad_to in Hq. apply in_app_or in Hq. destruct Hq as [Hq|Hq]; [left; eapply HQ; eauto|right; apply repeat_spec in Hq; auto].
Qed.
(** Every profile of every image gets its own stamp, whatever else is in the
    batch; positions past an image's profiles hold zeros. *)
Theorem C70_stamps : exists stamps, galaxy_profiles back pW pH psf_mog mogs = Ok stamps /\ length stamps = length mogs /\
  forall i row, nth_error mogs i = Some row -> exists out, nth_error stamps i = Some out /\ length out = maxlen mogs /\
    (forall j cs, nth_error row j = Some cs -> exists g, nth_error out j = Some g /\ forall y x, g y x = stamp_of back pW pH psf_mog i cs y x) /\
    (forall j g y x, (length row <= j)%nat -> nth_error out j = Some g -> g y x = 0).
Proof.
  assert (NE : mogs <> []) by (destruct HN as (r & _ & _ & R & _); intros E; rewrite E in R; destruct R).
  unfold galaxy_profiles. rewrite (match_ne mogs _ _ NE). fold N K. fold grid. cbv zeta. rewrite count_mog, count_fft, !Nat.eqb_refl. cbn [negb]. rewrite dets_ok, some_part. cbn [negb]. rewrite andb_false_r.
  eexists. split; [reflexivity|]. split.
  { rewrite map_length. unfold enum. rewrite combine_length, seq_length, Nat.min_id. unfold grid. rewrite !map_length. reflexivity. }
  intros i row E.
  assert (Li : (i < length mogs)%nat) by (apply nth_error_Some; congruence).
  assert (Q : Forall psf_good (psf_mog i)) by (apply Forall_forall; intros q; apply HQ; exact Li).
  pose proof (map_nth_error (mixes K N) i mogs E) as EG. fold grid in EG.
  assert (RG : In (mixes K N row) grid) by (eapply nth_error_In; exact EG).
  assert (LR : (length row <= N)%nat) by (apply maxlen_le; eapply nth_error_In; exact E).
  eexists. split.
  { apply map_nth_error. apply enum_nth. apply map_nth_error. exact EG. }
  cbn [fst snd]. split; [|split].
  - rewrite !map_length. unfold mixes. rewrite app_length, map_length, repeat_length. fold N. lia.
  - intros j cs J. eexists. split.
    { apply map_nth_error. apply map_nth_error. unfold mixes. rewrite nth_error_app1 by (rewrite map_length; apply nth_error_Some; congruence). apply map_nth_error. exact J. }
    intros y x.
    assert (CG : In (pad_to K cs) (mixes K N row)) by (unfold mixes; apply in_or_app; left; apply in_map; eapply nth_error_In; exact J).
    destruct (grid_cs _ _ RG CG) as [L P].
    etransitivity; [apply (stamp_spec back LB pW pH psf_mog HW i _ K grid _ _ y x RG CG L P Q)|]. unfold stamp_of.
    apply (rsum_pad (fun c => m_amp c * (mog_share pW c * as_gaussians pW pH psf_mog i c y x + (1 - mog_share pW c) * as_transform back i c y x))). cbn [m_amp mnull]. ring.
  - intros j g y x J G.
    assert (JL : (j < N)%nat). { assert (A : nth_error (map (fun mf => stamp back pW pH psf_mog i (fold_right Nat.max 0%nat (map (fun i0 => length (psf_mog i0)) (seq 0 (length mogs)))) (n_mog pW K grid) (n_fft pW K grid) (fst mf) (snd mf)) (map (parts pW K (n_mog pW K grid) (n_fft pW K grid)) (mixes K N row))) j <> None) by congruence.
      apply nth_error_Some in A. rewrite !map_length in A. unfold mixes in A. rewrite app_length, map_length, repeat_length in A. lia. }
    assert (NJ : nth_error (mixes K N row) j = Some (repeat mnull K)).
    { unfold mixes. rewrite nth_error_app2 by (rewrite map_length; exact J). rewrite map_length. apply nth_error_repeat. lia. }
    erewrite map_nth_error in G; [|apply map_nth_error; exact NJ]. injection G as <-.
    assert (CG : In (repeat mnull K) (mixes K N row)) by (eapply nth_error_In; exact NJ).
    destruct (grid_cs _ _ RG CG) as [L P].
    etransitivity; [apply (stamp_spec back LB pW pH psf_mog HW i _ K grid _ _ y x RG CG L P Q)|]. unfold stamp_of.
    apply rsum_nul. intros c I. apply repeat_spec in I. subst c. cbn [m_amp mnull]. ring.
Qed.
End Batch.

(** The rest of the batch is of no consequence: the stamp of a profile of image i
    is the same in any two batches that hold it at that image. *)
Corollary C70_batch_free back pW pH psf_mog mogs mogs' s s' i row row' cs j j' out out' g g' y x :
  linear_back back -> (1 <= pW)%Z ->
  (forall m, m = mogs \/ m = mogs' ->
     (forall row cs c, In row m -> In cs row -> In c cs -> psd c) /\
     (forall i q, (i < length m)%nat -> In q (psf_mog i) -> psf_good q) /\
     (exists row cs c, In row m /\ In cs row /\ In c cs /\ m_amp c <> 0)) ->
  galaxy_profiles back pW pH psf_mog mogs = Ok s -> galaxy_profiles back pW pH psf_mog mogs' = Ok s' ->
  nth_error mogs i = Some row -> nth_error mogs' i = Some row' -> nth_error row j = Some cs -> nth_error row' j' = Some cs ->
  nth_error s i = Some out -> nth_error s' i = Some out' -> nth_error out j = Some g -> nth_error out' j' = Some g' ->
  g y x = g' y x.
Proof.
  intros LB HW H E E' R R' C C' O O' G G'.
  destruct (H mogs (or_introl eq_refl)) as (A1 & A2 & A3). destruct (H mogs' (or_intror eq_refl)) as (B1 & B2 & B3).
  destruct (C70_stamps back LB pW pH psf_mog HW mogs A1 A2 A3) as (t & T & _ & TI).
  destruct (C70_stamps back LB pW pH psf_mog HW mogs' B1 B2 B3) as (t' & T' & _ & TI').
  rewrite E in T. injection T as <-. rewrite E' in T'. injection T' as <-.
  destruct (TI i row R) as (o & OE & _ & OV & _). destruct (TI' i row' R') as (o' & OE' & _ & OV' & _).
  rewrite O in OE. injection OE as <-. rewrite O' in OE'. injection OE' as <-.
  destruct (OV j cs C) as (h & HE & HV). destruct (OV' j' cs C') as (h' & HE' & HV').
  rewrite G in HE. injection HE as <-. rewrite G' in HE'. injection HE' as <-. rewrite HV, HV'. reflexivity.
Qed.

(** The share drawn as Gaussians is the CPU's ([C60_split], limits 3 and 4 sigmas)
    in a patch of the same width. *)
Theorem C70_cpu_share pW c : (1 <= pW)%Z -> psd c ->
  mog_share pW c = GalPatchProps.mog_share 3 4 (IZR pW / 2) (sqrt (m_a c + m_d c)).
Proof.
  intros HW (A & B & _). unfold mog_share, GalPatchProps.mog_share. cbv zeta. pose proof (half_pos pW HW) as H.
  assert (S0 : 0 <= sqrt (m_a c + m_d c)) by apply sqrt_pos. set (s := sqrt (m_a c + m_d c)) in *. set (h := IZR pW / 2) in *. clearbody s h.
  destruct (Req_EM_T s 0) as [->|NZ].
  - destruct (Rle_dec h (3 * 0)); [lra|]. destruct (Rle_dec (4 * 0) h); lra.
  - assert (SP : 0 < s) by lra. assert (HS : h = h / s * s) by (field; lra). set (r := h / s) in *. clearbody r. subst h.
    destruct (Rle_dec (r * s) (3 * s)) as [L|L].
    + assert (r <= 3) by (apply (Rmult_le_reg_r s); lra). rewrite Rmin_left, Rmax_right; lra.
    + assert (3 < r) by (apply (Rmult_lt_reg_r s); lra). destruct (Rle_dec (4 * s) (r * s)) as [L4|L4].
      * assert (4 <= r) by (apply (Rmult_le_reg_r s); lra). rewrite Rmax_left; auto. eapply Rle_trans; [apply Rmin_r|]. lra.
      * assert (r < 4) by (apply (Rmult_lt_reg_r s); lra). rewrite Rmin_right by lra. rewrite Rmax_right; lra.
Qed.

(** A batch without any light raises AttributeError: no stamp was made. *)
Theorem C70_needs_light back pW pH psf_mog mogs : mogs <> [] ->
  (forall row cs c, In row mogs -> In cs row -> In c cs -> m_amp c = 0) ->
  galaxy_profiles back pW pH psf_mog mogs = Err AttributeError.
Proof.
  intros NE H. unfold galaxy_profiles. rewrite (match_ne mogs _ _ NE). cbv zeta.
  set (K := kmax mogs). set (N := maxlen mogs). set (grid := map (mixes K N) mogs).
  assert (G0 : forall row cs c, In row grid -> In cs row -> In c cs -> m_amp c = 0).
  { intros row cs c R C I. unfold grid in R. apply in_map_iff in R. destruct R as (r & <- & R). unfold mixes in C. apply in_app_or in C. destruct C as [C|C].
    - apply in_map_iff in C. destruct C as (l & <- & L). unfold pad_to in I. apply in_app_or in I. destruct I as [I|I]; [eapply H; eauto|]. apply repeat_spec in I. subst. reflexivity.
    - apply repeat_spec in C. subst. apply repeat_spec in I. subst. reflexivity. }
  assert (AN : forall row cs k, In row grid -> In cs row -> m_amp (nth k cs mnull) = 0).
  { intros row cs k R C. destruct (nth_in_or_default k cs mnull) as [I| ->]; [eapply G0; eauto|reflexivity]. }
  assert (CM : forall f, (forall c, m_amp c = 0 -> f c = false) -> forall k, column f grid k = false).
  { intros f F k. unfold column. apply not_true_is_false. intros E. apply existsb_exists in E. destruct E as (row & R & E). apply existsb_exists in E. destruct E as (cs & C & E).
    rewrite F in E; [discriminate|]. eapply AN; eauto. }
  assert (FM : n_mog pW K grid = 0%nat).
  { unfold n_mog. rewrite filter_all_false; [reflexivity|]. intros k _. apply CM. intros c E. apply (amp0_im pW c E). }
  assert (FF : n_fft pW K grid = 0%nat).
  { unfold n_fft. rewrite filter_all_false; [reflexivity|]. intros k _. apply CM. intros c E. apply (amp0_im pW c E). }
  rewrite FM, FF. rewrite total_same by reflexivity.
  rewrite (total_same (if_ pW)).
  2:{ intros row cs R C. unfold front_part. cbn [firstn filter]. symmetry. apply filter_all_false. intros c I. apply (amp0_im pW c). eapply G0; eauto. }
  rewrite !Nat.eqb_refl. reflexivity.
Qed.

(** ** Examples *)
Definition ex_back (i : nat) (s : R -> R -> R) (y x : Z) : R := INR (Datatypes.S i) * s 0 0.
Definition ex_psf (i : nat) : list mcomp := match i with O => [mkMcomp (1/2) 2 0 2; mkMcomp (1/2) 5 1 4] | _ => [mkMcomp 1 3 1 3] end.
(** Two images; the first has two profiles, the second one; components small, wide
    and in between for a frame of 32. *)
Definition ex_mogs : list (list (list mcomp)) :=
  [[ [mkMcomp 3 0 0 0; mkMcomp 2 100 10 100]; [mkMcomp 1 10 0 10] ]; [ [mkMcomp 5 1 0 1] ]].
Example ex_linear : linear_back ex_back.
Proof. split; intros; unfold ex_back; ring. Qed.
Example ex_C70 : exists s out0 out1 g00 g10 g11, galaxy_profiles ex_back 32 32 ex_psf ex_mogs = Ok s /\
  s = [out0; out1] /\ out1 = [g10; g11] /\ nth_error out0 0 = Some g00 /\ g11 7%Z 8%Z = 0 /\
  (forall y x, g10 y x = 10) /\
  forall y x, g00 y x = 3 + 2 * as_gaussians 32 32 ex_psf 0 (mkMcomp 2 100 10 100) y x.
Proof.
  destruct (C70_stamps ex_back ex_linear 32 32 ex_psf ltac:(lia) ex_mogs) as (s & E & L & V).
  - intros row cs c R C I. cbn in R. repeat (destruct R as [<-|R]; [cbn in C; repeat (destruct C as [<-|C]; [cbn in I; repeat (destruct I as [<-|I]; [unfold psd; cbn; lra|]); destruct I|]); destruct C|]). destruct R.
  - intros i q Li Q. assert (T : 1 / 10 ^ 30 <= 1). { apply (Rmult_le_reg_r (10 ^ 30)); [apply pow_lt; lra|]. unfold Rdiv. rewrite Rmult_assoc, Rinv_l by (apply pow_nonzero; lra). pose proof (pow_R1_Rle 10 30 ltac:(lra)). lra. }
    set (e := 1 / 10 ^ 30) in *. destruct i as [|i]; cbn in Q; repeat (destruct Q as [<-|Q]; [unfold psf_good; fold e; clearbody e; cbn; lra|]); destruct Q.
  - exists (nth 1 ex_mogs []), [mkMcomp 5 1 0 1], (mkMcomp 5 1 0 1). cbn. repeat split; auto; lra.
  - destruct (V 0%nat _ eq_refl) as (o0 & E0 & L0 & V0 & _). destruct (V 1%nat _ eq_refl) as (o1 & E1 & L1 & V1 & Z1).
    destruct s as [|a [|b [|? ?]]]; try discriminate. injection E0 as ->. injection E1 as ->.
    destruct o1 as [|g10 [|g11 [|? ?]]]; try discriminate. destruct (V0 0%nat _ eq_refl) as (g00 & EG & VG). destruct (V1 0%nat _ eq_refl) as (h & EH & VH). injection EH as <-.
    exists [o0; [g10; g11]], o0, [g10; g11], g00, g10, g11. repeat split; auto.
    + apply (Z1 1%nat g11); [cbn; lia|reflexivity].
    + intros y x. rewrite VH. unfold stamp_of, sum_over, as_transform, ex_back, mog_share. cbn [fold_right m_amp m_a m_b m_d].
      replace (-2 * PI ^ 2 * (1 * 0 ^ 2 + 2 * 0 * (0 * 0) + 1 * 0 ^ 2)) with 0 by ring. rewrite exp_0.
      assert (SQ : sqrt (1 + 1) <= 2) by (rewrite <- (sqrt_square 2) by lra; apply sqrt_le_1_alt; lra).
      destruct (Rle_dec (32 / 2) (3 * sqrt (1 + 1))); [lra|]. destruct (Rle_dec (4 * sqrt (1 + 1)) (32 / 2)); [|lra]. cbn [INR]. lra.
    + intros y x. rewrite VG. unfold stamp_of, sum_over at 1, mog_share. cbn [fold_right m_amp m_a m_b m_d].
      unfold as_transform, ex_back. cbn [m_a m_b m_d]. replace (-2 * PI ^ 2 * (0 * 0 ^ 2 + 2 * 0 * (0 * 0) + 0 * 0 ^ 2)) with 0 by ring. rewrite exp_0.
      replace (0 + 0) with 0 by ring. rewrite sqrt_0. destruct (Rle_dec (32 / 2) (3 * 0)); [lra|]. destruct (Rle_dec (4 * 0) (32 / 2)); [|lra].
      assert (SQ : 10 <= sqrt (100 + 100)) by (rewrite <- (sqrt_square 10) by lra; apply sqrt_le_1_alt; lra).
      destruct (Rle_dec (32 / 2) (3 * sqrt (100 + 100))); [|lra]. cbn [INR]. lra.
Qed.
Example ex_dark : galaxy_profiles ex_back 32 32 ex_psf [[[mkMcomp 0 1 0 1]]] = Err AttributeError.
Proof. apply C70_needs_light; [discriminate|]. intros row cs c [<-|[]] [<-|[]] [<-|[]]. reflexivity. Qed.
Example ex_cpu_share : mog_share 32 (mkMcomp 1 10 0 10) = GalPatchProps.mog_share 3 4 (IZR 32 / 2) (sqrt (10 + 10)).
Proof. apply (C70_cpu_share 32 (mkMcomp 1 10 0 10)); [lia|]. unfold psd. cbn. lra. Qed.

Print Assumptions C70_stamps.
Print Assumptions C70_batch_free.
Print Assumptions C70_cpu_share.
Print Assumptions C70_needs_light.
