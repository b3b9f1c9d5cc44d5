(** C59 and C60: where a galaxy rendered by FFT lands in the image, and how a
    hybrid PSF divides the profile between its two rendering methods. *)
From Coq Require Import List ZArith Bool Reals Lra Lia.
From Verif Require Import Base PatchModel PatchSpec PatchProofs GalPatchModel.
Import ListNotations.
Open Scope Z_scope.

Ltac conjs := repeat match goal with |- _ /\ _ => split end.

(** ** Specification *)

(** The share of a component of standard deviation [sigma] given to the
    mixture-of-Gaussians method when the patch edge is [a] pixels away: 1 when
    the edge is within [n1] sigmas, 0 beyond [n2] sigmas, linear between. *)
Definition mog_share (n1 n2 a sigma : R) : R :=
  if Req_EM_T sigma 0 then 0%R else Rmax 0 (Rmin 1 ((n2 - a / sigma) / (n2 - n1))).

(** The sum of a quantity over the components, weighted by amplitude. *)
Definition total {D : Type} (f : R -> D -> R) (cs : list (comp D)) : R :=
  fold_right (fun c s => (camp c * f (cvv c) (cdat c) + s)%R) 0%R cs.
Definition ototal {D : Type} (f : R -> D -> R) (cs : option (list (comp D))) : R :=
  match cs with Some l => total f l | None => 0%R end.

(** The image [G] placed with its corner at (ix, iy), zero elsewhere. *)
Definition placed (G : arr R) (ix iy X Y : Z) : R :=
  if (0 <=? X - ix) && (X - ix <? aw G) && (0 <=? Y - iy) && (Y - iy <? ah G)
  then PatchModel.px G (Y - iy) (X - ix) else 0%R.

(** ** The split *)
Lemma rltb_true x y : rltb x y = true <-> (x < y)%R.
Proof. unfold rltb. destruct (Rlt_dec x y); split; intros; auto; discriminate. Qed.
Lemma rltb_false x y : rltb x y = false <-> (y <= x)%R.
Proof. unfold rltb. destruct (Rlt_dec x y); split; intros; auto; try discriminate; lra. Qed.
Lemma rleb_true x y : rleb x y = true <-> (x <= y)%R.
Proof. unfold rleb. destruct (Rle_dec x y); split; intros; auto; discriminate. Qed.

Section Split.
Variables n1 n2 : R.
Variable pW : Z.
Hypothesis N1 : (0 <= n1 < n2)%R.
Hypothesis N2 : (n2 <= 100000)%R.
Hypothesis PW : 1 <= pW.
Let a := (IZR pW / 2)%R.

Lemma a_half : (1 / 2 <= a)%R.
Proof. unfold a. assert (1 <= IZR pW)%R by (apply IZR_le in PW; auto). lra. Qed.

Lemma sq_lt x y : (0 <= x)%R -> (0 <= y)%R -> (x * x < y * y)%R <-> (x < y)%R.
Proof.
  intros HX HY. split; intros HH.
  - destruct (Rlt_le_dec x y); auto. exfalso. assert (y * y <= x * x)%R by nra. lra.
  - nra.
Qed.

Lemma isM_iff vv : (0 <= vv)%R -> isM n2 pW vv = true <-> (a < n2 * sqrt vv)%R.
Proof.
  intros HV. unfold isM. rewrite rltb_true. fold a. pose proof a_half.
  assert (S := sqrt_pos vv). rewrite <- (sq_lt a (n2 * sqrt vv)); try nra.
  replace (n2 * sqrt vv * (n2 * sqrt vv))%R with (n2 * n2 * (sqrt vv * sqrt vv))%R by ring.
  rewrite sqrt_sqrt; auto. reflexivity.
Qed.

Lemma isF_iff vv : (0 <= vv)%R -> isF n1 pW vv = true <-> (n1 * sqrt vv < a)%R.
Proof.
  intros HV. unfold isF. rewrite rltb_true. fold a. pose proof a_half.
  assert (S := sqrt_pos vv). rewrite <- (sq_lt (n1 * sqrt vv) a); try nra.
  replace (n1 * sqrt vv * (n1 * sqrt vv))%R with (n1 * n1 * (sqrt vv * sqrt vv))%R by ring.
  rewrite sqrt_sqrt; auto. reflexivity.
Qed.

Lemma div_lt_iff x y z : (0 < y)%R -> (x / y < z)%R <-> (x < z * y)%R.
Proof.
  intros HY. split; intros HH.
  - apply (Rmult_lt_compat_r y) in HH; auto. unfold Rdiv in HH. rewrite Rmult_assoc, Rinv_l in HH; lra.
  - apply (Rmult_lt_reg_r y); auto. unfold Rdiv. rewrite Rmult_assoc, Rinv_l; lra.
Qed.
Lemma lt_div_iff x y z : (0 < y)%R -> (z < x / y)%R <-> (z * y < x)%R.
Proof.
  intros HY. split; intros HH.
  - apply (Rmult_lt_compat_r y) in HH; auto. unfold Rdiv in HH. rewrite Rmult_assoc, Rinv_l in HH; lra.
  - apply (Rmult_lt_reg_r y); auto. unfold Rdiv. rewrite Rmult_assoc, Rinv_l; lra.
Qed.

Lemma maxs vv : (0 < Rmax (1 / 1000000) (sqrt vv))%R.
Proof. apply Rlt_le_trans with (1 / 1000000)%R; [lra | apply Rmax_l]. Qed.

Lemma M_ns vv : (0 <= vv)%R -> isM n2 pW vv = true ->
  (0 < sqrt vv)%R /\ nsig pW vv = (a / sqrt vv)%R /\ (nsig pW vv < n2)%R.
Proof.
  intros HV HM. apply isM_iff in HM; auto. pose proof a_half. pose proof (sqrt_pos vv).
  assert (BIG : (1 / 1000000 < sqrt vv)%R).
  { destruct (Rlt_le_dec (1 / 1000000) (sqrt vv)) as [|LE]; auto. exfalso.
    assert (n2 * sqrt vv <= 100000 * (1 / 1000000))%R; [|lra].
    apply Rmult_le_compat; lra. }
  unfold nsig. fold a. rewrite Rmax_right by lra. conjs; auto; try lra.
  apply div_lt_iff; lra.
Qed.

Lemma notM_ns vv : (0 <= vv)%R -> isM n2 pW vv = false -> (n2 <= nsig pW vv)%R.
Proof.
  intros HV HM. assert (NM : ~ (a < n2 * sqrt vv)%R).
  { intros HH. apply isM_iff in HH; auto. congruence. }
  destruct (Rlt_le_dec (nsig pW vv) n2) as [LT|]; auto. exfalso. apply NM. clear NM HM.
  unfold nsig in LT. fold a in LT. apply div_lt_iff in LT; [|apply maxs]. pose proof a_half.
  destruct (Rle_lt_dec (sqrt vv) (1 / 1000000)) as [LE|GT].
  - exfalso. rewrite Rmax_left in LT by lra.
    assert (n2 * (1 / 1000000) <= 100000 * (1 / 1000000))%R by (apply Rmult_le_compat_r; lra). lra.
  - rewrite Rmax_right in LT by lra. lra.
Qed.

Lemma F_ns vv : (0 <= vv)%R -> isF n1 pW vv = true -> (n1 < nsig pW vv)%R.
Proof.
  intros HV HF. apply isF_iff in HF; auto. pose proof a_half. unfold nsig. fold a.
  apply lt_div_iff; [apply maxs|]. destruct (Rle_lt_dec (sqrt vv) (1 / 1000000)) as [LE|GT].
  - rewrite Rmax_left by lra.
    assert (n1 * (1 / 1000000) <= 100000 * (1 / 1000000))%R by (apply Rmult_le_compat_r; lra). lra.
  - rewrite Rmax_right by lra. lra.
Qed.

Lemma notF_ns vv : (0 <= vv)%R -> isF n1 pW vv = false ->
  isM n2 pW vv = true /\ (nsig pW vv <= n1)%R.
Proof.
  intros HV HF. assert (NF : ~ (n1 * sqrt vv < a)%R).
  { intros HH. apply isF_iff in HH; auto. congruence. }
  pose proof a_half. pose proof (sqrt_pos vv).
  assert (POS : (0 < sqrt vv)%R).
  { destruct (Rle_lt_or_eq_dec 0 (sqrt vv)) as [|E]; auto. rewrite <- E in NF. lra. }
  assert (M : isM n2 pW vv = true) by (apply isM_iff; auto; nra).
  split; auto. destruct (M_ns vv HV M) as (_ & E & _). rewrite E.
  destruct (Rlt_le_dec n1 (a / sqrt vv)) as [LT|]; auto.
  apply lt_div_iff in LT; auto. contradiction.
Qed.

Lemma share_M vv : (0 <= vv)%R -> isM n2 pW vv = true ->
  mog_share n1 n2 a (sqrt vv) = mogw n1 n2 pW vv /\ (0 < mogw n1 n2 pW vv <= 1)%R.
Proof.
  intros HV HM. destruct (M_ns vv HV HM) as (POS & E & LT).
  unfold mog_share, mogw. destruct (Req_EM_T (sqrt vv) 0); [lra|]. rewrite <- E.
  assert (P : (0 < (n2 - nsig pW vv) / (n2 - n1))%R) by (apply lt_div_iff; lra).
  assert (Q : (0 < Rmin 1 ((n2 - nsig pW vv) / (n2 - n1)))%R) by (apply Rmin_glb_lt; lra).
  split; [apply Rmax_right; lra|]. split; auto. apply Rmin_l.
Qed.

Lemma share_notM vv : (0 <= vv)%R -> isM n2 pW vv = false -> mog_share n1 n2 a (sqrt vv) = 0%R.
Proof.
  intros HV HM. unfold mog_share. destruct (Req_EM_T (sqrt vv) 0) as [|NZ]; auto.
  assert (NM : ~ (a < n2 * sqrt vv)%R).
  { intros HH. apply isM_iff in HH; auto. congruence. }
  pose proof (sqrt_pos vv). assert (POS : (0 < sqrt vv)%R) by lra.
  assert (G : (n2 <= a / sqrt vv)%R).
  { destruct (Rlt_le_dec (a / sqrt vv) n2) as [LT|]; auto. apply div_lt_iff in LT; auto. contradiction. }
  apply Rmax_left. apply Rle_trans with ((n2 - a / sqrt vv) / (n2 - n1))%R; [apply Rmin_r|].
  destruct (Rlt_le_dec 0 ((n2 - a / sqrt vv) / (n2 - n1))) as [LT|]; auto.
  apply lt_div_iff in LT; lra.
Qed.

Lemma share_F vv : (0 <= vv)%R -> isF n1 pW vv = true ->
  (1 - mog_share n1 n2 a (sqrt vv))%R = fftw n1 n2 pW vv /\ (0 < fftw n1 n2 pW vv <= 1)%R.
Proof.
  intros HV HF. pose proof (F_ns vv HV HF) as LT.
  assert (P : (0 < (nsig pW vv - n1) / (n2 - n1))%R) by (apply lt_div_iff; lra).
  assert (Q : (0 < fftw n1 n2 pW vv <= 1)%R).
  { unfold fftw. split; [apply Rmin_glb_lt; lra | apply Rmin_l]. }
  split; auto. destruct (isM n2 pW vv) eqn:HM.
  - destruct (share_M vv HV HM) as [-> _]. destruct (M_ns vv HV HM) as (_ & _ & LT2).
    unfold mogw, fftw.
    assert (A1 : ((n2 - nsig pW vv) / (n2 - n1) < 1)%R) by (apply div_lt_iff; lra).
    assert (A2 : ((nsig pW vv - n1) / (n2 - n1) < 1)%R) by (apply div_lt_iff; lra).
    rewrite !Rmin_right by lra. field. lra.
  - rewrite share_notM; auto. pose proof (notM_ns vv HV HM). unfold fftw.
    assert (A1 : ~ ((nsig pW vv - n1) / (n2 - n1) < 1)%R).
    { intros HH. apply div_lt_iff in HH; lra. }
    rewrite Rmin_left; lra.
Qed.

Lemma share_notF vv : (0 <= vv)%R -> isF n1 pW vv = false -> mog_share n1 n2 a (sqrt vv) = 1%R.
Proof.
  intros HV HF. destruct (notF_ns vv HV HF) as [HM LE].
  destruct (share_M vv HV HM) as [-> _]. unfold mogw.
  assert (A1 : ~ ((n2 - nsig pW vv) / (n2 - n1) < 1)%R).
  { intros HH. apply div_lt_iff in HH; lra. }
  rewrite Rmin_left; lra.
Qed.

Context {D : Type}.
Implicit Types (cs : list (comp D)) (f : R -> D -> R).

Lemma total_filter f cs (p : R -> bool) (w : R -> R) :
  total f (reweigh w (filter (fun c => p (cvv c)) cs)) =
  total (fun v d => ((if p v then w v else 0) * f v d)%R) cs.
Proof.
  induction cs as [|c cs IH]; [reflexivity|]. cbn [filter total fold_right].
  destruct (p (cvv c)) eqn:E.
  - cbn [reweigh map total fold_right camp cvv cdat]. fold (reweigh w (filter (fun c => p (cvv c)) cs)).
    fold (total f (reweigh w (filter (fun c => p (cvv c)) cs))). rewrite IH. unfold total. ring.
  - rewrite IH. unfold total. ring.
Qed.

Lemma total_ext f g cs : (forall c, In c cs -> f (cvv c) (cdat c) = g (cvv c) (cdat c)) ->
  total f cs = total g cs.
Proof.
  induction cs as [|c cs IH]; intros HH; [reflexivity|]. cbn [total fold_right].
  rewrite HH by (left; auto). f_equal. apply IH. intros; apply HH; right; auto.
Qed.

Lemma reweigh_one cs : reweigh (fun _ => 1%R) cs = cs.
Proof.
  unfold reweigh. induction cs as [|[A B C] cs IH]; [reflexivity|]. cbn. rewrite IH, Rmult_1_r. reflexivity.
Qed.

Lemma ototal_some f l : ototal f (match l with [] => None | _ :: _ => Some (l : list (comp D)) end) = total f l.
Proof. destruct l; reflexivity. Qed.

Lemma split_spec cs : (forall c, In c cs -> 0 <= cvv c)%R ->
  exists mog fft, split n1 n2 pW cs = Ok (mog, fft) /\
    forall f,
      ototal f mog = total (fun v d => mog_share n1 n2 a (sqrt v) * f v d)%R cs /\
      ototal f fft = total (fun v d => (1 - mog_share n1 n2 a (sqrt v)) * f v d)%R cs.
Proof.
  intros HV. unfold split.
  set (im := filter (fun c => isM n2 pW (cvv c)) cs).
  set (if_ := filter (fun c => isF n1 pW (cvv c)) cs).
  destruct (existsb _ cs) eqn:RAMP.
  - (* the weights *)
    assert (CHK : forallb (fun c => rltb 0 (mogw n1 n2 pW (cvv c))) im
                   && forallb (fun c => rleb (mogw n1 n2 pW (cvv c)) 1) im
                   && forallb (fun c => rltb 0 (fftw n1 n2 pW (cvv c))) if_
                   && forallb (fun c => rleb (fftw n1 n2 pW (cvv c)) 1) if_ = true).
    { rewrite !andb_true_iff, !forallb_forall. conjs; intros c HC; unfold im, if_ in HC;
        apply filter_In in HC; destruct HC as [HC HB]; rewrite ?rltb_true, ?rleb_true;
        solve [apply (share_M _ (HV c HC) HB) | apply (share_F _ (HV c HC) HB)]. }
    assert (NE : im <> []).
    { apply existsb_exists in RAMP. destruct RAMP as (c & HC & HB). apply andb_prop in HB.
      intros E. assert (In c im) by (unfold im; apply filter_In; tauto). rewrite E in *. contradiction. }
    destruct im as [|c0 im'] eqn:EM; [congruence|]. rewrite <- EM in *. clear c0 im' EM NE.
    rewrite CHK. cbn [bind]. eexists _, _. split; [reflexivity|]. intros f. split.
    + cbn [ototal]. unfold im. rewrite (total_filter f cs (isM n2 pW) (mogw n1 n2 pW)).
      apply total_ext. intros c HC. destruct (isM n2 pW (cvv c)) eqn:B.
      * destruct (share_M _ (HV c HC) B) as [-> _]. ring.
      * rewrite share_notM; auto.
    + transitivity (total f (reweigh (fftw n1 n2 pW) if_)).
      { destruct if_; reflexivity. }
      unfold if_. rewrite (total_filter f cs (isF n1 pW) (fftw n1 n2 pW)).
      apply total_ext. intros c HC. destruct (isF n1 pW (cvv c)) eqn:B.
      * destruct (share_F _ (HV c HC) B) as [-> _]. ring.
      * rewrite share_notF; auto. ring.
  - assert (NB : forall c, In c cs -> isM n2 pW (cvv c) && isF n1 pW (cvv c) = false).
    { intros c HC. destruct (_ && _) eqn:B; auto. rewrite <- RAMP. symmetry.
      apply existsb_exists. eauto. }
    exists (match im with [] => None | _ :: _ => Some im end), (match if_ with [] => None | _ :: _ => Some if_ end).
    split; [destruct im; reflexivity|]. intros f. rewrite !ototal_some. split.
    + rewrite <- (reweigh_one im). unfold im. rewrite (total_filter f cs (isM n2 pW) (fun _ => 1%R)).
      apply total_ext. intros c HC. specialize (NB c HC). destruct (isM n2 pW (cvv c)) eqn:B.
      * cbn in NB. rewrite share_notF; auto.
      * rewrite share_notM; auto.
    + rewrite <- (reweigh_one if_). unfold if_. rewrite (total_filter f cs (isF n1 pW) (fun _ => 1%R)).
      apply total_ext. intros c HC. specialize (NB c HC). destruct (isF n1 pW (cvv c)) eqn:B.
      * rewrite andb_true_r in NB. rewrite share_notM; auto. ring.
      * rewrite share_notF; auto. ring.
Qed.
End Split.

(** ** Placement *)
Lemma norm_to n i : 0 <= i -> norm_idx n i = Z.min i n.
Proof. intros. unfold norm_idx. destruct (i <? 0) eqn:E; auto. lia. Qed.

Lemma gor_axis s m g i o : 0 <= m -> 0 <= g ->
  get_overlapping_region (- s) (- s + m - 1) 0 (g - 1) = Some (i, o) ->
  exists lo len, sl_start g i = lo /\ sl_len g i = len /\ sl_start m o = lo + s /\ sl_len m o = len /\
    0 <= len /\ forall x, 0 <= x < m -> (lo + s <= x < lo + s + len <-> 0 <= x - s < g).
Proof.
  intros HM HG E. apply gor_some in E. destruct E as (E1 & E2 & E3 & E4 & E5 & E6 & E7 & E8).
  unfold sl_start, sl_len. rewrite E5, E6, E7, E8, !norm_to by lia.
  eexists _, _. split; [reflexivity|]. split; [reflexivity|]. conjs; try lia.
Qed.

Lemma place_mask_spec (G : arr R) sx sy (m : mmask) :
  wf_arr G -> 0 <= m_w m -> 0 <= m_h m ->
  (sx <> 0 \/ sy <> 0 \/ (m_w m <= aw G /\ m_h m <= ah G)) ->
  exists G', place_mask G sx sy m = Ok G' /\ ah G' = m_h m /\ aw G' = m_w m /\
    forall y x, 0 <= y < m_h m -> 0 <= x < m_w m ->
      PatchModel.px G' y x = placed G sx sy x y.
Proof.
  intros [GH GW] MW MH HS. unfold place_mask.
  destruct (negb (sx =? 0) || negb (sy =? 0)) eqn:SH.
  - assert (SHG : exists G1, (match get_overlapping_region (- sy) (- sy + m_h m - 1) 0 (ah G - 1),
                 get_overlapping_region (- sx) (- sx + m_w m - 1) 0 (aw G - 1) with
           | Some (yi, yo), Some (xi, xo) =>
               aupd (fun _ b => b) (mkArr (m_h m) (m_w m) (fun _ _ => 0%R)) yo xo (asub G yi xi)
           | _, _ => Ok (mkArr (m_h m) (m_w m) (fun _ _ => 0%R))
           end) = Ok G1 /\ ah G1 = m_h m /\ aw G1 = m_w m /\
           forall y x, 0 <= y < m_h m -> 0 <= x < m_w m -> PatchModel.px G1 y x = placed G sx sy x y).
    { destruct (get_overlapping_region (- sy) _ _ _) as [[yi yo]|] eqn:EY.
      2:{ eexists. conjs; try reflexivity. intros y x HY HX. unfold placed. cbn [PatchModel.px].
          pose proof (gor_none _ _ _ _ EY (y - sy)).
          destruct ((0 <=? x - sx) && _ && _ && _) eqn:B; auto. lia. }
      destruct (get_overlapping_region (- sx) _ _ _) as [[xi xo]|] eqn:EX.
      2:{ eexists. conjs; try reflexivity. intros y x HY HX. unfold placed. cbn [PatchModel.px].
          pose proof (gor_none _ _ _ _ EX (x - sx)).
          destruct ((0 <=? x - sx) && _ && _ && _) eqn:B; auto. lia. }
      apply gor_axis in EY; auto. apply gor_axis in EX; auto.
      destruct EY as (ly & ny & Y1 & Y2 & Y3 & Y4 & Y5 & Y6).
      destruct EX as (lx & nx & X1 & X2 & X3 & X4 & X5 & X6).
      unfold aupd, asub. cbn [ah aw PatchModel.px].
      rewrite Y1, Y2, Y3, Y4, X1, X2, X3, X4, !Z.eqb_refl. cbn [andb].
      eexists. conjs; try reflexivity. intros y x HY HX. cbn [ah aw PatchModel.px]. unfold placed.
      specialize (Y6 y HY). specialize (X6 x HX).
      destruct ((0 <=? x - sx) && (x - sx <? aw G) && (0 <=? y - sy) && (y - sy <? ah G)) eqn:B.
      - match goal with |- (if ?c then _ else _) = _ => assert (C : c = true) by lia; rewrite C end. f_equal; lia.
      - match goal with |- (if ?c then _ else _) = _ => destruct c eqn:C; [lia|reflexivity] end. }
    destruct SHG as (G1 & E1 & HH & HW & V1). cbv zeta. rewrite E1. cbn [bind].
    destruct ((ah G >? m_h m) || (aw G >? m_w m)) eqn:B.
    + exists (asub G1 (sl_to (m_h m)) (sl_to (m_w m))). cbn [asub ah aw]. unfold sl_to, sl_len, sl_start. cbn [sstart sstop].
      rewrite !norm_to by lia.
      match goal with |- context [if ?c then Ok _ else Err _] => assert (C : c = true) by lia; rewrite C end.
      conjs; try reflexivity; try lia. intros y x HY HX. cbn [asub PatchModel.px]. unfold sl_to, sl_start. cbn [sstart].
      rewrite !norm_to by lia. rewrite <- V1 by lia. f_equal; lia.
    + exists G1. rewrite HH, HW, !Z.eqb_refl. cbn [andb]. conjs; auto.
  - cbn [bind]. assert (sx = 0) by lia. assert (sy = 0) by lia. subst.
    destruct HS as [|[|[W1 H1]]]; try lia.
    destruct ((ah G >? m_h m) || (aw G >? m_w m)) eqn:B.
    + exists (asub G (sl_to (m_h m)) (sl_to (m_w m))). cbn [asub ah aw]. unfold sl_to, sl_len, sl_start. cbn [sstart sstop].
      rewrite !norm_to by lia.
      match goal with |- context [if ?c then Ok _ else Err _] => assert (C : c = true) by lia; rewrite C end.
      conjs; try reflexivity; try lia. intros y x HY HX. cbn [asub PatchModel.px]. unfold sl_to, sl_start. cbn [sstart].
      rewrite !norm_to by lia. unfold placed.
      match goal with |- _ = (if ?d then _ else _) => assert (CD : d = true) by lia; rewrite CD end. f_equal; lia.
    + exists G. assert (C : (ah G =? m_h m) && (aw G =? m_w m) = true) by lia. rewrite C.
      conjs; auto; try lia. intros y x HY HX. unfold placed.
      match goal with |- _ = (if ?d then _ else _) => assert (CD : d = true) by lia; rewrite CD end. f_equal; lia.
Qed.

Lemma axis_all n : 0 <= n -> sl_start n (sl_all n) = 0 /\ sl_len n (sl_all n) = n.
Proof. intros. unfold sl_start, sl_len, sl_all. cbn [sstart sstop]. rewrite !norm_to by lia. lia. Qed.
Lemma axis_from n k : 0 <= n -> 0 <= k ->
  sl_len n (sl_from k n) = Z.max 0 (n - k) /\ (k <= n -> sl_start n (sl_from k n) = k).
Proof. intros. unfold sl_start, sl_len, sl_from. cbn [sstart sstop]. rewrite !norm_to by lia. lia. Qed.
Lemma axis_to n k : 0 <= n -> sl_start n (sl_to k) = 0 /\ 0 <= sl_len n (sl_to k) <= n /\
  (0 <= k -> sl_len n (sl_to k) = Z.min k n).
Proof.
  intros. unfold sl_start, sl_len, sl_to. cbn [sstart sstop]. rewrite (norm_to n 0) by lia.
  conjs; try lia; unfold norm_idx; destruct (k <? 0) eqn:E; lia.
Qed.

(** Clipping leaves just the part in the box, in each direction in which the
    image does not start beyond the end of the box. *)
Lemma place_box_spec (G : arr R) ix iy X0 X1 Y0 Y1 :
  wf_arr G -> X0 < X1 -> Y0 < Y1 ->
  let '(G', ix', iy') := place_box G ix iy X0 X1 Y0 Y1 in
  wf_arr G' /\ ix' = Z.max ix X0 /\ iy' = Z.max iy Y0 /\
  (forall x y, 0 <= x < aw G' -> 0 <= y < ah G' ->
     0 <= x + ix' - ix < aw G /\ 0 <= y + iy' - iy < ah G /\
     PatchModel.px G' y x = PatchModel.px G (y + iy' - iy) (x + ix' - ix)) /\
  (ix' <= X1 -> forall X, ix' <= X < ix' + aw G' <-> (X0 <= X < X1 /\ ix <= X < ix + aw G)) /\
  (iy' <= Y1 -> forall Y, iy' <= Y < iy' + ah G' <-> (Y0 <= Y < Y1 /\ iy <= Y < iy + ah G)).
Proof.
  intros [GH GW] HX HY. unfold place_box.
  assert (A : exists G1 ix1, (if X0 >? ix then (asub G (sl_all (ah G)) (sl_from (X0 - ix) (aw G)), X0) else (G, ix)) = (G1, ix1)
    /\ ix1 = Z.max ix X0 /\ ah G1 = ah G /\ aw G1 = Z.max 0 (aw G + ix - ix1) /\
    forall y x, 0 <= y < ah G1 -> 0 <= x < aw G1 -> PatchModel.px G1 y x = PatchModel.px G y (x + ix1 - ix)).
  { destruct (X0 >? ix) eqn:E; eexists _, _; (split; [reflexivity|]).
    - destruct (axis_all (ah G) GH) as [A1 A2]. destruct (axis_from (aw G) (X0 - ix) GW ltac:(lia)) as [A3 A4].
      cbn [asub ah aw PatchModel.px]. rewrite A1, A2, A3. conjs; try lia.
      intros y x B1 B2. rewrite A4 by lia. f_equal; lia.
    - conjs; try lia. intros y x B1 B2. f_equal; lia. }
  destruct A as (G1 & ix1 & -> & EX & H1 & W1 & V1).
  assert (A : exists G2 iy1, (if Y0 >? iy then (asub G1 (sl_from (Y0 - iy) (ah G1)) (sl_all (aw G1)), Y0) else (G1, iy)) = (G2, iy1)
    /\ iy1 = Z.max iy Y0 /\ aw G2 = aw G1 /\ ah G2 = Z.max 0 (ah G1 + iy - iy1) /\
    forall y x, 0 <= y < ah G2 -> 0 <= x < aw G2 -> PatchModel.px G2 y x = PatchModel.px G1 (y + iy1 - iy) x).
  { assert (P1 : 0 <= aw G1) by lia. assert (P2 : 0 <= ah G1) by lia. clear - P1 P2 HY.
    destruct (Y0 >? iy) eqn:E; eexists _, _; (split; [reflexivity|]).
    - destruct (axis_all (aw G1) P1) as [A1 A2]. destruct (axis_from (ah G1) (Y0 - iy) P2 ltac:(lia)) as [A3 A4].
      cbn [asub ah aw PatchModel.px]. rewrite A1, A2, A3. conjs; try lia.
      intros y x B1 B2. rewrite A4 by lia. f_equal; lia.
    - conjs; try lia. intros y x B1 B2. f_equal; lia. }
  destruct A as (G2 & iy1 & -> & EY & W2 & H2 & V2). cbv zeta.
  assert (P1 : 0 <= aw G2) by (rewrite W2, W1; apply Z.le_max_l).
  assert (P2 : 0 <= ah G2) by (rewrite H2; apply Z.le_max_l).
  set (G3 := if aw G2 + ix1 >? X1 then _ else G2).
  assert (A : ah G3 = ah G2 /\ (ix1 <= X1 -> aw G3 = Z.min (aw G2) (X1 - ix1)) /\ 0 <= aw G3 <= aw G2 /\
    forall y x, PatchModel.px G3 y x = PatchModel.px G2 y x).
  { clear - P1 P2. unfold G3. destruct (aw G2 + ix1 >? X1) eqn:E.
    - destruct (axis_all (ah G2) P2) as [A1 A2]. destruct (axis_to (aw G2) (X1 - ix1) P1) as (A3 & A4 & A5).
      cbn [asub ah aw PatchModel.px]. rewrite A1, A2, A3. conjs; try lia.
      intros y x. f_equal; lia.
    - conjs; try lia. intros y x. reflexivity. }
  destruct A as (H3 & W3 & W3b & V3). clearbody G3.
  set (G4 := if ah G2 + iy1 >? Y1 then _ else G3).
  assert (A : aw G4 = aw G3 /\ (iy1 <= Y1 -> ah G4 = Z.min (ah G3) (Y1 - iy1)) /\ 0 <= ah G4 <= ah G3 /\
    forall y x, PatchModel.px G4 y x = PatchModel.px G3 y x).
  { assert (P3 : 0 <= aw G3) by apply W3b. rewrite <- H3 in P2. clear - P3 P2 H3. unfold G4. rewrite <- H3.
    destruct (ah G3 + iy1 >? Y1) eqn:E.
    - destruct (axis_all (aw G3) P3) as [A1 A2]. destruct (axis_to (ah G3) (Y1 - iy1) P2) as (A3 & A4 & A5).
      cbn [asub ah aw PatchModel.px]. rewrite A1, A2, A3. conjs; try lia.
      intros y x. f_equal; lia.
    - conjs; try lia. intros y x. reflexivity. }
  destruct A as (W4 & H4 & H4b & V4). clearbody G4.
  rewrite H3 in H4, H4b. rewrite H1 in H2. clear H3.
  conjs; auto.
  - clear - W3b H4b W4. split; lia.
  - intros x y BX BY.
    assert (Q1 : 0 <= x < aw G1 /\ 0 <= x + ix1 - ix < aw G) by (clear - BX W4 W3b W2 W1 EX; lia).
    assert (Q2 : 0 <= y < ah G2 /\ 0 <= y + iy1 - iy < ah G) by (clear - BY H4b H2 EY; lia).
    destruct Q1, Q2. conjs; try lia.
    rewrite V4, V3, V2, V1; rewrite ?W2, ?H1; auto.
  - intros LE X. specialize (W3 LE). clear - W3 W4 W2 W1 EX LE GW HX. lia.
  - intros LE Y. specialize (H4 LE). clear - H4 H2 EY LE GH HY. lia.
Qed.

Lemma add_mog_spec {D : Type} (mogv : list (comp D) -> Z -> Z -> R) mog (m : mmask) (G : arr R) :
  ah G = m_h m -> aw G = m_w m ->
  exists G', add_mog mogv mog m G = Ok G' /\ ah G' = ah G /\ aw G' = aw G /\
    forall y x, PatchModel.px G' y x =
      match mog with
      | None => PatchModel.px G y x
      | Some cs => (PatchModel.px G y x +
          match m_mask m with
          | Some f => if f y x then mogv cs (m_x0 m + x)%Z (m_y0 m + y)%Z else 0
          | None => mogv cs (m_x0 m + x)%Z (m_y0 m + y)%Z
          end)%R
      end.
Proof.
  intros HH HW. unfold add_mog, run_mog. cbn [pimg]. destruct mog as [cs|].
  - unfold same_shape. cbn [ah aw]. rewrite HH, HW, !Z.eqb_refl. cbn [andb].
    eexists. conjs; try reflexivity.
  - exists G. conjs; auto.
Qed.

(** ** Real numbers to pixels *)
Lemma rfloor_spec x : (IZR (rfloor x) <= x < IZR (rfloor x) + 1)%R.
Proof. unfold rfloor. destruct (base_Int_part x). lra. Qed.
Lemma rceil_spec x : (x <= IZR (rceil x) < x + 1)%R.
Proof. unfold rceil. rewrite opp_IZR. destruct (base_Int_part (- x)). lra. Qed.

Lemma mask_half_ge (m : mmask) px py ph pw :
  (IZR (m_w m) <= 2 * mask_halfsize m px py ph pw None)%R /\
  (IZR (m_h m) <= 2 * mask_halfsize m px py ph pw None)%R.
Proof.
  unfold mask_halfsize. cbv zeta.
  set (h1 := Rmax (IZR (m_h m) / 2) (IZR (m_w m) / 2)).
  set (h2 := Rmax h1 _). set (h3 := Rmax h2 _).
  assert (A1 : (IZR (m_h m) / 2 <= h1)%R) by apply Rmax_l.
  assert (A2 : (IZR (m_w m) / 2 <= h1)%R) by apply Rmax_r.
  assert (A3 : (h1 <= h2)%R) by apply Rmax_l.
  assert (A4 : (h2 <= h3)%R) by apply Rmax_l.
  destruct (rceil_spec h3). lra.
Qed.

Section Main.
Context {D : Type}.
Variable rnd : R -> Z.
Variable ft : R -> R -> R -> R * R * (Z * Z).
Variable rend : list (comp D) -> R -> R -> R -> arr R.
Variable mogv : list (comp D) -> Z -> Z -> R.
Variable m2p : Z -> Z -> Z -> Z -> patch R.
Notation model_patch := (model_patch rnd ft rend mogv m2p).
Hypothesis RND : forall x, (Rabs (x - IZR (rnd x)) <= 1 / 2)%R.

Lemma mask_core g cs px py m cx cy pH pW mog G :
  g_kind g <> PMog ->
  let hs := mask_halfsize m px py (g_psfh g) (g_psfw g) (g_force_half g) in
  let sx := rnd (px - cx - IZR (m_x0 m)) in
  let sy := rnd (py - cy - IZR (m_y0 m)) in
  source_out m px py = false ->
  ft px py hs = (cx, cy, (pH, pW)) ->
  render rend g cs hs (px - cx - IZR (m_x0 m) - IZR sx) (py - cy - IZR (m_y0 m) - IZR sy) pH pW = Ok (mog, G) ->
  ah G = pH -> aw G = pW -> 0 <= pH -> 0 <= pW -> 0 <= m_w m -> 0 <= m_h m ->
  (sx <> 0 \/ sy <> 0 \/ (m_w m <= pW /\ m_h m <= pH)) ->
  exists p, model_patch g cs px py (Some m) = Ok (Some p) /\
    x0 p = m_x0 m /\ y0 p = m_y0 m /\ pshape p = (m_h m, m_w m) /\
    forall X Y, m_x0 m <= X < m_x0 m + m_w m -> m_y0 m <= Y < m_y0 m + m_h m ->
      val_at p X Y = Some (placed G (m_x0 m + sx) (m_y0 m + sy) X Y +
        match mog with
        | None => 0
        | Some ms => match m_mask m with
                     | Some f => if f (Y - m_y0 m)%Z (X - m_x0 m)%Z then mogv ms X Y else 0
                     | None => mogv ms X Y
                     end
        end)%R.
Proof.
  intros NK hs sx sy OUT FT RE GH GW PH PW MW MH BIG. unfold GalPatchModel.model_patch.
  destruct (place_mask_spec G sx sy m) as (G1 & E1 & H1 & W1 & V1); [split; lia|auto|auto|rewrite GH, GW; auto|].
  destruct (add_mog_spec mogv mog m G1 H1 W1) as (G2 & E2 & H2 & W2 & V2).
  exists (mkPatch (m_x0 m) (m_y0 m) (Some G2)). split.
  - fold hs. rewrite OUT, FT. cbv beta iota zeta. fold sx sy.
    assert (A1 : rleb (Rabs (px - cx - IZR (m_x0 m) - IZR sx)) (1 / 2) = true) by (apply rleb_true, RND).
    assert (A2 : rleb (Rabs (py - cy - IZR (m_y0 m) - IZR sy)) (1 / 2) = true) by (apply rleb_true, RND).
    rewrite A1, A2, RE. cbn [bind andb]. rewrite E1. cbn [bind]. rewrite E2. cbn [bind].
    destruct (g_kind g); [congruence|reflexivity|reflexivity].
  - cbn [x0 y0 pshape pimg]. conjs; auto; [rewrite H2, W2, H1, W1; reflexivity|].
    intros X Y BX BY. unfold val_at. cbn [x0 y0 pimg]. rewrite H2, W2, H1, W1.
    match goal with |- (if ?c then _ else _) = _ => assert (C : c = true) by lia; rewrite C end.
    rewrite V2, V1 by lia.
    assert (P : placed G sx sy (X - m_x0 m) (Y - m_y0 m) = placed G (m_x0 m + sx) (m_y0 m + sy) X Y).
    { unfold placed. replace (X - m_x0 m - sx) with (X - (m_x0 m + sx)) by lia.
      replace (Y - m_y0 m - sy) with (Y - (m_y0 m + sy)) by lia. reflexivity. }
    rewrite P. destruct mog as [ms|]; f_equal; [|ring].
    replace (m_x0 m + (X - m_x0 m)) with X by lia. replace (m_y0 m + (Y - m_y0 m)) with Y by lia. reflexivity.
Qed.

Lemma full_core g cs px py cx cy pH pW mog G :
  g_kind g <> PMog ->
  let ix := rnd (px - cx) in let iy := rnd (py - cy) in
  ft px py (g_half g) = (cx, cy, (pH, pW)) ->
  render rend g cs (g_half g) (px - cx - IZR ix) (py - cy - IZR iy) pH pW = Ok (mog, G) ->
  ah G = pH -> aw G = pW -> 0 <= pH -> 0 <= pW -> (0 <= g_half g)%R -> (0 <= cx)%R -> (0 <= cy)%R ->
  (exists X Y, 0 <= X < g_W g /\ 0 <= Y < g_H g /\
     rfloor (px - g_half g) <= X <= rceil (px + g_half g + 1) /\
     rfloor (py - g_half g) <= Y <= rceil (py + g_half g + 1)) ->
  exists p, model_patch g cs px py None = Ok (Some p) /\
    forall X Y, 0 <= X < g_W g -> 0 <= Y < g_H g ->
      val_at p X Y =
        (if (rfloor (px - g_half g) <=? X) && (X <=? rceil (px + g_half g + 1)) &&
            (rfloor (py - g_half g) <=? Y) && (Y <=? rceil (py + g_half g + 1)) &&
            (ix <=? X) && (X <? ix + pW) && (iy <=? Y) && (Y <? iy + pH)
         then Some (placed G ix iy X Y + match mog with None => 0 | Some ms => mogv ms X Y end)%R
         else None).
Proof.
  intros NK ix iy FT RE GH GW PH PW HS CX CY (X & Y & IX & IY & BX & BY). unfold GalPatchModel.model_patch.
  assert (LX : ix <= rceil (px + g_half g + 1)).
  { apply le_IZR. pose proof (RND (px - cx)) as Q. fold ix in Q. unfold Rabs in Q; destruct (Rcase_abs _) in Q;
    destruct (rceil_spec (px + g_half g + 1)); lra. }
  assert (LY : iy <= rceil (py + g_half g + 1)).
  { apply le_IZR. pose proof (RND (py - cy)) as Q. fold iy in Q. unfold Rabs in Q; destruct (Rcase_abs _) in Q;
    destruct (rceil_spec (py + g_half g + 1)); lra. }
  assert (A1 : rleb (Rabs (px - cx - IZR ix)) (1 / 2) = true) by (apply rleb_true, RND).
  assert (A2 : rleb (Rabs (py - cy - IZR iy)) (1 / 2) = true) by (apply rleb_true, RND).
  set (fx := rfloor (px - g_half g)) in *. set (gx := rceil (px + g_half g + 1)) in *.
  set (fy := rfloor (py - g_half g)) in *. set (gy := rceil (py + g_half g + 1)) in *.
  destruct (get_overlapping_region fx gx 0 (g_W g - 1)) as [[ox ?]|] eqn:EX.
  2:{ exfalso. apply (gor_none _ _ _ _ EX X). lia. }
  destruct (get_overlapping_region fy gy 0 (g_H g - 1)) as [[oy ?]|] eqn:EY.
  2:{ exfalso. apply (gor_none _ _ _ _ EY Y). lia. }
  apply gor_some in EX. apply gor_some in EY.
  destruct EX as (X1 & X2 & X3 & X4 & X5 & X6 & _). destruct EY as (Y1 & Y2 & Y3 & Y4 & Y5 & Y6 & _).
  rewrite X5, X6, Y5, Y6, FT. cbv beta iota zeta. fold ix iy. rewrite A1, A2, RE. cbn [andb bind].
  pose proof (place_box_spec G ix iy (Z.max fx 0) (Z.min gx (g_W g - 1) + 1) (Z.max fy 0) (Z.min gy (g_H g - 1) + 1)) as PB.
  destruct (place_box G ix iy (Z.max fx 0) (Z.min gx (g_W g - 1) + 1) (Z.max fy 0) (Z.min gy (g_H g - 1) + 1)) as [[G1 ix1] iy1].
  destruct PB as ([H1 W1] & EIX & EIY & VB & WX & WY).
  { split; lia. }
  { clear - X1 X2 X3 X4. lia. }
  { clear - Y1 Y2 Y3 Y4. lia. }
  destruct (add_mog_spec mogv mog (mkMask ix1 iy1 (aw G1) (ah G1) None) G1 eq_refl eq_refl) as (G2 & E2 & H2 & W2 & V2).
  rewrite E2. cbn [bind m_mask m_x0 m_y0] in *.
  exists (mkPatch ix1 iy1 (Some G2)). split; [destruct (g_kind g); [congruence|reflexivity|reflexivity]|].
  clear X Y IX IY BX BY. intros X Y IX IY. unfold val_at. cbn [x0 y0 pimg]. rewrite H2, W2.
  assert (CX1 : ix1 <= X < ix1 + aw G1 <-> (fx <= X <= gx /\ ix <= X < ix + pW)).
  { destruct (Z_le_gt_dec ix1 (Z.min gx (g_W g - 1) + 1)) as [LE|GT].
    - rewrite (WX LE X), GW. clear - IX. lia.
    - clear - GT EIX LX X1 X2 X3 X4 IX. lia. }
  assert (CY1 : iy1 <= Y < iy1 + ah G1 <-> (fy <= Y <= gy /\ iy <= Y < iy + pH)).
  { destruct (Z_le_gt_dec iy1 (Z.min gy (g_H g - 1) + 1)) as [LE|GT].
    - rewrite (WY LE Y), GH. clear - IY. lia.
    - clear - GT EIY LY Y1 Y2 Y3 Y4 IY. lia. }
  clear WX WY.
  destruct ((ix1 <=? X) && (X <? ix1 + aw G1) && (iy1 <=? Y) && (Y <? iy1 + ah G1)) eqn:B.
  - assert (BXY : (ix1 <= X < ix1 + aw G1) /\ (iy1 <= Y < iy1 + ah G1)) by (clear - B; lia).
    destruct BXY as [BX BY].
    assert (C : (fx <=? X) && (X <=? gx) && (fy <=? Y) && (Y <=? gy) && (ix <=? X) && (X <? ix + pW) &&
                (iy <=? Y) && (Y <? iy + pH) = true).
    { apply CX1 in BX. apply CY1 in BY. clear - BX BY. lia. }
    rewrite C, V2. destruct (VB (X - ix1) (Y - iy1)) as (Q1 & Q2 & Q3); [clear - BX; lia|clear - BY; lia|].
    rewrite Q3. unfold placed. rewrite GH, GW.
    replace (Y - iy1 + iy1 - iy) with (Y - iy) by (clear; lia). replace (X - ix1 + ix1 - ix) with (X - ix) by (clear; lia).
    replace (iy1 + (Y - iy1)) with Y by (clear; lia). replace (ix1 + (X - ix1)) with X by (clear; lia).
    assert (C2 : (0 <=? X - ix) && (X - ix <? pW) && (0 <=? Y - iy) && (Y - iy <? pH) = true) by (clear - C; lia).
    rewrite C2. destruct mog; f_equal. ring.
  - destruct ((fx <=? X) && (X <=? gx) && (fy <=? Y) && (Y <=? gy) && (ix <=? X) && (X <? ix + pW) &&
                (iy <=? Y) && (Y <? iy + pH)) eqn:C; auto. exfalso.
    assert (BX : fx <= X <= gx /\ ix <= X < ix + pW) by (clear - C; lia).
    assert (BY : fy <= Y <= gy /\ iy <= Y < iy + pH) by (clear - C; lia).
    apply CX1 in BX. apply CY1 in BY. clear - B BX BY. lia.
Qed.

Lemma render_pixel g cs hs mux muy pH pW : g_kind g = PPixel ->
  render rend g cs hs mux muy pH pW = Ok (None, rend cs hs mux muy).
Proof. intros E. unfold render, is_hybrid. rewrite E. reflexivity. Qed.

Lemma source_out_false m px py :
  (IZR (m_x0 m) <= px <= IZR (m_x0 m + m_w m) - 1)%R ->
  (IZR (m_y0 m) <= py <= IZR (m_y0 m + m_h m) - 1)%R -> source_out m px py = false.
Proof.
  intros. unfold source_out. rewrite !(proj2 (rltb_false _ _)) by lra. reflexivity.
Qed.
End Main.

(** ** The padded stamp *)
Lemma fft_size_spec r : (1 <= r)%R ->
  (2 * r <= IZR (fft_size r))%R /\ exists k, fft_size r = 2 * k /\ 1 <= k.
Proof.
  intros HR. unfold fft_size. destruct (rceil_spec (2 * r)) as [C1 C2].
  assert (C3 : 2 <= rceil (2 * r)) by (apply le_IZR; lra).
  assert (LU := Z.log2_up_spec (rceil (2 * r)) ltac:(lia)).
  split; [apply Rle_trans with (IZR (rceil (2 * r))); auto; apply IZR_le; lia|].
  assert (L1 : 1 <= Z.log2_up (rceil (2 * r))).
  { assert (0 < Z.log2_up (rceil (2 * r))) by (apply Z.log2_up_pos; lia). lia. }
  exists (2 ^ (Z.log2_up (rceil (2 * r)) - 1)). split.
  - rewrite <- Z.pow_succ_r by lia. f_equal. lia.
  - assert (0 < 2 ^ (Z.log2_up (rceil (2 * r)) - 1)) by (apply Z.pow_pos_nonneg; lia). lia.
Qed.

Lemma pad_centre_spec k n : 0 <= n -> k - 1 <= pad_centre (2 * k) n <= k.
Proof.
  intros HN. unfold pad_centre. destruct (2 * k >=? n) eqn:E; Z.div_mod_to_equations; lia.
Qed.

Lemma mask_half_dist (m : mmask) px py ph pw :
  let h := mask_halfsize m px py ph pw None in
  (1 + px - IZR (m_x0 m) <= h /\ 1 + IZR (m_x0 m + m_w m) - px <= h /\
   1 + py - IZR (m_y0 m) <= h /\ 1 + IZR (m_y0 m + m_h m) - py <= h)%R.
Proof.
  unfold mask_halfsize. cbv zeta. rewrite !plus_IZR.
  set (a1 := (1 + px - IZR (m_x0 m))%R). set (a2 := (1 + (IZR (m_x0 m) + IZR (m_w m)) - px)%R).
  set (a3 := (1 + py - IZR (m_y0 m))%R). set (a4 := (1 + (IZR (m_y0 m) + IZR (m_h m)) - py)%R).
  set (h1 := Rmax (IZR (m_h m) / 2) (IZR (m_w m) / 2)).
  set (h2 := Rmax h1 _). set (h3 := Rmax h2 _).
  assert (A1 := Rmax_l a1 a2). assert (A2 := Rmax_r a1 a2).
  assert (A3 := Rmax_l a3 a4). assert (A4 := Rmax_r a3 a4).
  assert (A5 := Rmax_l (Rmax a1 a2) (Rmax a3 a4)). assert (A6 := Rmax_r (Rmax a1 a2) (Rmax a3 a4)).
  assert (A7 : (Rmax (Rmax a1 a2) (Rmax a3 a4) <= h2)%R) by apply Rmax_r.
  assert (A8 : (h2 <= h3)%R) by apply Rmax_l.
  destruct (rceil_spec h3). lra.
Qed.

(** A mask is always inside the image that is computed for it. *)
Lemma covered_axis rnd p h k n lo hi :
  (forall x, (Rabs (x - IZR (rnd x)) <= 1 / 2)%R) ->
  0 <= n -> (2 * h <= IZR (2 * k))%R -> (1 + p - IZR lo <= h)%R -> (1 + IZR hi - p <= h)%R ->
  let c := IZR (pad_centre (2 * k) n) in
  let i := lo + rnd (p - c - IZR lo)%R in
  (Rabs (p - c - IZR i) <= 1 / 2)%R /\ i <= lo /\ hi <= i + 2 * k.
Proof.
  intros RND HN HK H1 H2 c i. pose proof (pad_centre_spec k n HN) as [C1 C2].
  apply IZR_le in C1. apply IZR_le in C2. rewrite minus_IZR in C1. fold c in C1, C2.
  pose proof (RND (p - c - IZR lo)%R) as Q.
  assert (EI : IZR i = (IZR lo + IZR (rnd (p - c - IZR lo)))%R) by (unfold i; apply plus_IZR).
  replace (p - c - IZR lo - IZR (rnd (p - c - IZR lo)))%R with (p - c - IZR i)%R in Q by (rewrite EI; ring).
  split; auto. rewrite mult_IZR in HK.
  assert (Q' : (- (1 / 2) <= p - c - IZR i <= 1 / 2)%R) by (unfold Rabs in Q; destruct (Rcase_abs _) in Q; lra).
  split.
  - assert (i < lo + 1); [|lia]. apply lt_IZR. rewrite plus_IZR. lra.
  - assert (hi < i + 2 * k + 1); [|lia]. apply lt_IZR. rewrite !plus_IZR, mult_IZR. lra.
Qed.

(** ** C59 *)
Section C59.
Context {D : Type}.
Variable rnd : R -> Z.
Variable rend : list (comp D) -> R -> R -> R -> arr R.
Variable mogv : list (comp D) -> Z -> Z -> R.
Variable m2p : Z -> Z -> Z -> Z -> patch R.
(** np.round, whatever it does with ties. *)
Hypothesis RND : forall x, (Rabs (x - IZR (rnd x)) <= 1 / 2)%R.
(** The inverse transform has the shape of the padded stamp (asserted at
    galaxy.py:460). *)
Hypothesis SHAPE : forall fs hs mux muy, ah (rend fs hs mux muy) = fft_size hs /\ aw (rend fs hs mux muy) = fft_size hs.

(** With a mask: the patch is exactly the mask's rectangle, and every pixel of
    it is the pixel of the rendered image at its distance from the source; none
    falls off the image. *)
Theorem C59_mask : forall g cs px py m,
  g_kind g = PPixel -> g_force_half g = None -> 0 <= g_psfh g -> 0 <= g_psfw g ->
  1 <= m_w m -> 1 <= m_h m ->
  (IZR (m_x0 m) <= px <= IZR (m_x0 m + m_w m) - 1)%R ->
  (IZR (m_y0 m) <= py <= IZR (m_y0 m + m_h m) - 1)%R ->
  exists p (hs : R) (ix iy : Z),
    model_patch rnd (pixel_ft (g_psfh g) (g_psfw g)) rend mogv m2p g cs px py (Some m) = Ok (Some p) /\
    x0 p = m_x0 m /\ y0 p = m_y0 m /\ pshape p = (m_h m, m_w m) /\
    let '(cx, cy, _) := pixel_ft (g_psfh g) (g_psfw g) px py hs in
    let G := rend cs hs (px - cx - IZR ix)%R (py - cy - IZR iy)%R in
    (Rabs (px - cx - IZR ix) <= 1 / 2)%R /\ (Rabs (py - cy - IZR iy) <= 1 / 2)%R /\
    forall X Y, m_x0 m <= X < m_x0 m + m_w m -> m_y0 m <= Y < m_y0 m + m_h m ->
      0 <= X - ix < aw G /\ 0 <= Y - iy < ah G /\
      val_at p X Y = Some (PatchModel.px G (Y - iy) (X - ix)).
Proof.
  intros g cs px py m HK HF PH PW MW MH BX BY.
  set (hs := mask_halfsize m px py (g_psfh g) (g_psfw g) None).
  destruct (mask_half_dist m px py (g_psfh g) (g_psfw g)) as (D1 & D2 & D3 & D4). fold hs in D1, D2, D3, D4.
  assert (H1 : (1 <= hs)%R) by lra.
  destruct (fft_size_spec hs H1) as (SZ & k & EK & K1).
  rewrite EK in SZ.
  destruct (covered_axis rnd px hs k (g_psfw g) _ _ RND PW SZ D1 D2) as (X1 & X2 & X3).
  destruct (covered_axis rnd py hs k (g_psfh g) _ _ RND PH SZ D3 D4) as (Y1 & Y2 & Y3).
  cbv zeta in X1, X2, X3, Y1, Y2, Y3. rewrite <- EK in *.
  set (cx := IZR (pad_centre (fft_size hs) (g_psfw g))) in *.
  set (cy := IZR (pad_centre (fft_size hs) (g_psfh g))) in *.
  set (sx := rnd (px - cx - IZR (m_x0 m))%R) in *. set (sy := rnd (py - cy - IZR (m_y0 m))%R) in *.
  assert (EX : (px - cx - IZR (m_x0 m) - IZR sx = px - cx - IZR (m_x0 m + sx))%R) by (rewrite plus_IZR; ring).
  assert (EY : (py - cy - IZR (m_y0 m) - IZR sy = py - cy - IZR (m_y0 m + sy))%R) by (rewrite plus_IZR; ring).
  set (G := rend cs hs (px - cx - IZR (m_x0 m + sx))%R (py - cy - IZR (m_y0 m + sy))%R).
  destruct (SHAPE cs hs (px - cx - IZR (m_x0 m + sx))%R (py - cy - IZR (m_y0 m + sy))%R) as [SH SW].
  fold G in SH, SW.
  destruct (mask_core rnd (pixel_ft (g_psfh g) (g_psfw g)) rend mogv m2p RND g cs px py m cx cy
              (fft_size hs) (fft_size hs) None G) as (p & E & EX0 & EY0 & ES & V); auto.
  - congruence.
  - apply source_out_false; auto.
  - rewrite HF. reflexivity.
  - rewrite HF. fold hs sx sy. rewrite render_pixel by auto. rewrite EX, EY. reflexivity.
  - lia.
  - lia.
  - lia.
  - lia.
  - right; right. split; lia.
  - fold sx sy in V. exists p, hs, (m_x0 m + sx), (m_y0 m + sy). conjs; auto.
    unfold pixel_ft. fold cx cy. cbv zeta. fold G. conjs; auto. intros X Y IX IY.
    rewrite SH, SW. conjs; try lia. rewrite V by auto. f_equal. unfold placed. rewrite SH, SW.
    match goal with |- ((if ?c then _ else _) + _)%R = _ => assert (C : c = true) by lia; rewrite C end. ring.
Qed.

(** Without a mask: inside the image, exactly the pixels within the half-size
    of the source (and inside the rendered image) are covered, each by the
    pixel of the rendered image at its distance from the source; there is no
    patch just when there is no such box. *)
Theorem C59_full : forall g cs px py,
  g_kind g = PPixel -> 0 <= g_psfh g -> 0 <= g_psfw g -> (1 <= g_half g)%R ->
  let box X Y := 0 <= X < g_W g /\ 0 <= Y < g_H g /\
    rfloor (px - g_half g) <= X <= rceil (px + g_half g + 1) /\
    rfloor (py - g_half g) <= Y <= rceil (py + g_half g + 1) in
  exists ix iy,
    let '(cx, cy, _) := pixel_ft (g_psfh g) (g_psfw g) px py (g_half g) in
    let G := rend cs (g_half g) (px - cx - IZR ix)%R (py - cy - IZR iy)%R in
    (Rabs (px - cx - IZR ix) <= 1 / 2)%R /\ (Rabs (py - cy - IZR iy) <= 1 / 2)%R /\
    match model_patch rnd (pixel_ft (g_psfh g) (g_psfw g)) rend mogv m2p g cs px py None with
    | Ok None => forall X Y, ~ box X Y
    | Ok (Some p) => (exists X Y, box X Y) /\
        forall X Y, 0 <= X < g_W g -> 0 <= Y < g_H g ->
          let inside := box X Y /\ 0 <= X - ix < aw G /\ 0 <= Y - iy < ah G in
          (inside -> val_at p X Y = Some (PatchModel.px G (Y - iy) (X - ix))) /\
          (~ inside -> val_at p X Y = None)
    | Err _ => False
    end.
Proof.
  intros g cs px py HK PH PW H1 box.
  destruct (fft_size_spec (g_half g) H1) as (SZ & k & EK & K1).
  set (hs := g_half g) in *.
  set (cx := IZR (pad_centre (fft_size hs) (g_psfw g))) in *.
  set (cy := IZR (pad_centre (fft_size hs) (g_psfh g))) in *.
  exists (rnd (px - cx)%R), (rnd (py - cy)%R). unfold pixel_ft at 1. fold cx cy. cbv zeta.
  conjs; try apply RND.
  set (ix := rnd (px - cx)%R) in *. set (iy := rnd (py - cy)%R) in *.
  set (G := rend cs hs (px - cx - IZR ix)%R (py - cy - IZR iy)%R).
  destruct (SHAPE cs hs (px - cx - IZR ix)%R (py - cy - IZR iy)%R) as [SH SW]. fold G in SH, SW.
  destruct (get_overlapping_region (rfloor (px - hs)) (rceil (px + hs + 1)) 0 (g_W g - 1)) as [[ox ixs]|] eqn:EX.
  2:{ unfold model_patch. fold hs. rewrite EX. intros X Y (B1 & B2 & B3 & B4).
      apply (gor_none _ _ _ _ EX X). clear - B1 B3. lia. }
  destruct (get_overlapping_region (rfloor (py - hs)) (rceil (py + hs + 1)) 0 (g_H g - 1)) as [[oy iys]|] eqn:EY.
  2:{ unfold model_patch. fold hs. rewrite EX, EY. intros X Y (B1 & B2 & B3 & B4).
      apply (gor_none _ _ _ _ EY Y). clear - B2 B4. lia. }
  assert (EB : exists X Y, box X Y).
  { apply gor_some in EX. apply gor_some in EY.
    exists (Z.max (rfloor (px - hs)) 0), (Z.max (rfloor (py - hs)) 0). unfold box.
    destruct EX as (A1 & A2 & A3 & A4 & _). destruct EY as (A5 & A6 & A7 & A8 & _).
    conjs; try (clear - A1 A2 A3 A4; lia); clear - A5 A6 A7 A8; lia. }
  assert (CP : forall n, 0 <= n -> (0 <= IZR (pad_centre (fft_size hs) n))%R).
  { intros n HN. rewrite EK. apply IZR_le. pose proof (pad_centre_spec k n HN). lia. }
  destruct (full_core rnd (pixel_ft (g_psfh g) (g_psfw g)) rend mogv m2p RND g cs px py cx cy
              (fft_size hs) (fft_size hs) None G) as (p & E & V); auto.
  - congruence.
  - apply render_pixel; auto.
  - lia.
  - lia.
  - fold hs. lra.
  - apply CP; auto.
  - apply CP; auto.
  - rewrite E. split; auto. intros X Y IX IY. rewrite (V X Y IX IY). fold hs ix iy.
    unfold box. rewrite SH, SW.
    destruct ((rfloor (px - hs) <=? X) && (X <=? rceil (px + hs + 1)) && (rfloor (py - hs) <=? Y) &&
      (Y <=? rceil (py + hs + 1)) && (ix <=? X) && (X <? ix + fft_size hs) && (iy <=? Y) && (Y <? iy + fft_size hs)) eqn:C.
    + split.
      * intros _. f_equal. unfold placed. rewrite SH, SW.
        match goal with |- ((if ?c then _ else _) + _)%R = _ => assert (C2 : c = true) by (clear - C; lia); rewrite C2 end. ring.
      * intros NI. exfalso. apply NI. clear - C IX IY. lia.
    + split; auto. intros ((B1 & B2 & B3 & B4) & B5 & B6). exfalso. clear - C B3 B4 B5 B6. lia.
Qed.
End C59.

(** When the source's centre is outside the mask nothing is rendered by FFT:
    further than the galaxy's radius there is no patch; nearer, a hybrid PSF
    renders the whole profile as Gaussians; a pixelized PSF cannot render the
    galaxy at all. *)
Theorem C59_outside : forall (D : Type) rnd ft rend mogv m2p g (cs : list (comp D)) px py m,
  g_kind g <> PMog ->
  (px < IZR (m_x0 m) \/ IZR (m_x0 m + m_w m) - 1 < px \/ py < IZR (m_y0 m) \/ IZR (m_y0 m + m_h m) - 1 < py)%R ->
  let far := (g_rad g < nearest m px py)%R /\ g_force_out g = false in
  (far -> model_patch rnd ft rend mogv m2p g cs px py (Some m) = Ok None) /\
  (~ far -> g_kind g = PPixel -> model_patch rnd ft rend mogv m2p g cs px py (Some m) = Err RuntimeError) /\
  (~ far -> g_kind g = PHybrid ->
     exists p, model_patch rnd ft rend mogv m2p g cs px py (Some m) = Ok (Some p) /\
       x0 p = m_x0 m /\ y0 p = m_y0 m /\ pshape p = (m_h m, m_w m) /\
       forall X Y, m_x0 m <= X < m_x0 m + m_w m -> m_y0 m <= Y < m_y0 m + m_h m ->
         (m_mask m = None \/ (exists f, m_mask m = Some f /\ f (Y - m_y0 m) (X - m_x0 m) = true)) ->
         val_at p X Y = Some (mogv cs X Y)).
Proof.
  intros D rnd ft rend mogv m2p g cs px py m NK OUT far.
  assert (SO : source_out m px py = true).
  { unfold source_out. rewrite !orb_true_iff, !rltb_true. tauto. }
  assert (FAR : far <-> rltb (g_rad g) (nearest m px py) && negb (g_force_out g) = true).
  { unfold far. rewrite andb_true_iff, rltb_true, negb_true_iff. tauto. }
  unfold model_patch. rewrite SO.
  destruct (rltb (g_rad g) (nearest m px py) && negb (g_force_out g)) eqn:B.
  - conjs; intros HF; [destruct (g_kind g); congruence| |]; exfalso; apply HF, FAR; auto.
  - conjs; intros HF; [apply FAR in HF; congruence| |]; intros HK; rewrite HK; unfold is_hybrid; rewrite HK; [reflexivity|].
    eexists. split; [reflexivity|]. cbn [run_mog x0 y0 pshape pimg ah aw]. conjs; auto.
    intros X Y IX IY MK. unfold val_at, run_mog. cbn [x0 y0 pimg ah aw PatchModel.px].
    match goal with |- (if ?c then _ else _) = _ => assert (C : c = true) by lia; rewrite C end.
    replace (m_x0 m + (X - m_x0 m)) with X by lia. replace (m_y0 m + (Y - m_y0 m)) with Y by lia.
    destruct MK as [->|(f & -> & ->)]; reflexivity.
Qed.

(** The same image is seen through a mask and without one, when both use the
    same half-size and the rounding is not affected by whole pixels (ties may
    be). *)
Theorem C59_agree : forall (D : Type) rnd rend mogv m2p g (cs : list (comp D)) px py m pm pf n,
  (forall x, (Rabs (x - IZR (rnd x)) <= 1 / 2)%R) ->
  (forall fs hs mux muy, ah (rend fs hs mux muy) = fft_size hs /\ aw (rend fs hs mux muy) = fft_size hs) ->
  g_kind g = PPixel -> 0 <= g_psfh g -> 0 <= g_psfw g -> 1 <= n ->
  g_half g = IZR n -> g_force_half g = Some (IZR n) ->
  let '(cx, cy, _) := pixel_ft (g_psfh g) (g_psfw g) px py (IZR n) in
  rnd (px - cx - IZR (m_x0 m))%R = rnd (px - cx)%R - m_x0 m ->
  rnd (py - cy - IZR (m_y0 m))%R = rnd (py - cy)%R - m_y0 m ->
  model_patch rnd (pixel_ft (g_psfh g) (g_psfw g)) rend mogv m2p g cs px py (Some m) = Ok (Some pm) ->
  model_patch rnd (pixel_ft (g_psfh g) (g_psfw g)) rend mogv m2p g cs px py None = Ok (Some pf) ->
  forall X Y v, 0 <= X < g_W g -> 0 <= Y < g_H g ->
    m_x0 m <= X < m_x0 m + m_w m -> m_y0 m <= Y < m_y0 m + m_h m ->
    val_at pf X Y = Some v -> val_at pm X Y = Some v.
Proof.
  intros D rnd rend mogv m2p g cs px py m pm pf n RND SHAPE HK PH PW HN HH HF.
  unfold pixel_ft at 1. set (cx := IZR (pad_centre (fft_size (IZR n)) (g_psfw g))).
  set (cy := IZR (pad_centre (fft_size (IZR n)) (g_psfh g))).
  intros RX RY EM EF X Y v IX IY MX MY VF.
  assert (N1 : (1 <= IZR n)%R) by (apply IZR_le in HN; auto).
  destruct (fft_size_spec (IZR n) N1) as (SZ & k & EK & K1).
  assert (HS : mask_halfsize m px py (g_psfh g) (g_psfw g) (g_force_half g) = IZR n).
  { rewrite HF. unfold mask_halfsize. cbv zeta. f_equal. destruct (rceil_spec (IZR n)) as [A B].
    apply le_IZR in A. assert (rceil (IZR n) < n + 1); [|lia]. apply lt_IZR. rewrite plus_IZR. auto. }
  set (ix := rnd (px - cx)%R) in *. set (iy := rnd (py - cy)%R) in *.
  set (G := rend cs (IZR n) (px - cx - IZR ix)%R (py - cy - IZR iy)%R).
  destruct (SHAPE cs (IZR n) (px - cx - IZR ix)%R (py - cy - IZR iy)%R) as [SH SW]. fold G in SH, SW.
  (* through the mask *)
  assert (VM : val_at pm X Y = Some (placed G ix iy X Y)).
  { unfold model_patch in EM. rewrite HK in EM.
    destruct (source_out m px py) eqn:SO.
    { destruct (_ && _) in EM; [discriminate|]. unfold is_hybrid in EM. rewrite HK in EM. discriminate. }
    rewrite HS in EM. unfold pixel_ft at 1 in EM. fold cx cy in EM. cbv beta iota zeta in EM.
    rewrite RX, RY in EM.
    replace (px - cx - IZR (m_x0 m) - IZR (ix - m_x0 m))%R with (px - cx - IZR ix)%R in EM by (rewrite minus_IZR; ring).
    replace (py - cy - IZR (m_y0 m) - IZR (iy - m_y0 m))%R with (py - cy - IZR iy)%R in EM by (rewrite minus_IZR; ring).
    rewrite render_pixel in EM by auto. cbn [bind] in EM. fold G in EM.
    destruct (_ && _) in EM; [|discriminate].
    assert (COND : ix - m_x0 m <> 0 \/ iy - m_y0 m <> 0 \/ (m_w m <= aw G /\ m_h m <= ah G)).
    { destruct (Z.eq_dec (ix - m_x0 m) 0) as [EX0|]; auto. destruct (Z.eq_dec (iy - m_y0 m) 0) as [EY0|]; auto.
      right; right. unfold place_mask in EM. rewrite EX0, EY0 in EM. cbn [negb Z.eqb orb bind] in EM.
      set (G2 := if (ah G >? m_h m) || (aw G >? m_w m) then asub G (sl_to (m_h m)) (sl_to (m_w m)) else G) in EM.
      destruct ((ah G2 =? m_h m) && (aw G2 =? m_w m)) eqn:B; [|discriminate].
      assert (Q : ah G2 <= ah G /\ aw G2 <= aw G).
      { unfold G2. destruct (_ || _); [|lia]. cbn [asub ah aw].
        destruct (axis_to (ah G) (m_h m) ltac:(lia)) as (_ & ? & _).
        destruct (axis_to (aw G) (m_w m) ltac:(lia)) as (_ & ? & _). lia. }
      clear - B Q. lia. }
    destruct (place_mask_spec G (ix - m_x0 m) (iy - m_y0 m) m) as (G1 & E1 & H1 & W1 & V1);
      [split; lia|lia|lia|auto|].
    rewrite E1 in EM. cbn [bind add_mog] in EM. injection EM as <-.
    unfold val_at. cbn [x0 y0 pimg]. rewrite H1, W1.
    match goal with |- (if ?c then _ else _) = _ => assert (C : c = true) by lia; rewrite C end.
    rewrite V1 by lia. f_equal. unfold placed.
    replace (X - m_x0 m - (ix - m_x0 m)) with (X - ix) by lia.
    replace (Y - m_y0 m - (iy - m_y0 m)) with (Y - iy) by lia. reflexivity. }
  (* without *)
  pose proof (C59_full rnd rend mogv m2p RND SHAPE g cs px py HK PH PW) as FULL.
  assert (BOX : exists X Y, 0 <= X < g_W g /\ 0 <= Y < g_H g /\
     rfloor (px - g_half g) <= X <= rceil (px + g_half g + 1) /\
     rfloor (py - g_half g) <= Y <= rceil (py + g_half g + 1)).
  { destruct (FULL ltac:(lra)) as (ix' & iy' & FF).
    destruct (pixel_ft (g_psfh g) (g_psfw g) px py (g_half g)) as [[cx' cy'] sz']. cbv zeta in FF.
    destruct FF as (_ & _ & FF). rewrite EF in FF. apply FF. }
  assert (CP : forall a, 0 <= a -> (0 <= IZR (pad_centre (fft_size (IZR n)) a))%R).
  { intros a HA. rewrite EK. apply IZR_le. pose proof (pad_centre_spec k a HA). lia. }
  destruct (full_core rnd (pixel_ft (g_psfh g) (g_psfw g)) rend mogv m2p RND g cs px py cx cy
              (fft_size (IZR n)) (fft_size (IZR n)) None G) as (p & E & V); auto.
  - congruence.
  - rewrite HH. reflexivity.
  - rewrite HH. apply render_pixel; auto.
  - lia.
  - lia.
  - lra.
  - apply CP; auto.
  - apply CP; auto.
  - rewrite EF in E. injection E as ->. rewrite V in VF by auto.
    destruct (_ && _) in VF; [|discriminate]. injection VF as <-. rewrite VM. f_equal. fold ix iy. ring.
Qed.

(** ** C60 *)

(** No assertion fires, and for every quantity that is a sum over components
    weighted by amplitude, the two mixtures carry the two shares of it. *)
Theorem C60_split : forall (D : Type) n1 n2 pW (cs : list (comp D)),
  (0 <= n1 < n2)%R -> (n2 <= 100000)%R -> 1 <= pW -> (forall c, In c cs -> 0 <= cvv c)%R ->
  exists mog fft, split n1 n2 pW cs = Ok (mog, fft) /\
    forall f : R -> D -> R,
      let share v := mog_share n1 n2 (IZR pW / 2) (sqrt v) in
      ototal f mog = total (fun v d => share v * f v d)%R cs /\
      ototal f fft = total (fun v d => (1 - share v) * f v d)%R cs /\
      (ototal f mog + ototal f fft = total f cs)%R.
Proof.
  intros D n1 n2 pW cs N1 N2 PW HV.
  destruct (split_spec n1 n2 pW N1 N2 PW cs HV) as (mog & fft & E & S).
  exists mog, fft. split; auto. intros f. cbv zeta. destruct (S f) as [S1 S2]. conjs; auto.
  rewrite S1, S2. clear. induction cs as [|c cs IH]; [cbn; ring|].
  cbn [total fold_right]. unfold total in IH. rewrite <- IH. ring.
Qed.

(** The share: all of a component whose [n1] sigmas reach the edge of the
    patch, none of one whose [n2] sigmas do not, and between. *)
Theorem C60_share : forall n1 n2 a s, (0 <= n1 < n2)%R -> (0 < a)%R -> (0 <= s)%R ->
  (0 <= mog_share n1 n2 a s <= 1)%R /\
  (a <= n1 * s -> mog_share n1 n2 a s = 1)%R /\
  (n2 * s <= a -> mog_share n1 n2 a s = 0)%R.
Proof.
  intros n1 n2 a s HN HA HS. unfold mog_share. destruct (Req_EM_T s 0) as [->|NZ].
  { conjs; intros; try lra. }
  assert (SP : (0 < s)%R) by lra.
  conjs.
  - apply Rmax_l.
  - apply Rmax_lub; [lra|apply Rmin_l].
  - intros LE. assert (A1 : ~ ((n2 - a / s) / (n2 - n1) < 1)%R).
    { intros LT. apply div_lt_iff in LT; [|lra].
      assert (LT' : (n1 < a / s)%R) by lra. apply lt_div_iff in LT'; lra. }
    rewrite Rmin_left by lra. rewrite Rmax_right; lra.
  - intros LE. assert (A1 : ~ (0 < (n2 - a / s) / (n2 - n1))%R).
    { intros LT. apply lt_div_iff in LT; [|lra].
      assert (LT' : (a / s < n2)%R) by lra. apply div_lt_iff in LT'; lra. }
    apply Rmax_left. eapply Rle_trans; [apply Rmin_r|]. lra.
Qed.

(** In the image: every pixel of a hybrid rendering is the share-weighted sum
    of the two renderings of each component. *)
Theorem C60_pixels : forall (D : Type) rnd rend mogv m2p g (cs : list (comp D)) px py m n1 n2
    (F : R -> D -> R -> R -> R -> Z -> Z -> R) (M : R -> D -> Z -> Z -> R),
  (forall x, (Rabs (x - IZR (rnd x)) <= 1 / 2)%R) ->
  (forall fs hs mux muy, ah (rend fs hs mux muy) = fft_size hs /\ aw (rend fs hs mux muy) = fft_size hs) ->
  (forall fs hs mux muy y x, PatchModel.px (rend fs hs mux muy) y x = total (fun v d => F v d hs mux muy y x) fs) ->
  (forall ms X Y, mogv ms X Y = total (fun v d => M v d X Y) ms) ->
  g_kind g = PHybrid -> g_nsig g = Some (n1, n2) -> (0 <= n1 < n2)%R -> (n2 <= 100000)%R ->
  (forall c, In c cs -> 0 <= cvv c)%R ->
  g_force_half g = None -> 0 <= g_psfh g -> 0 <= g_psfw g -> 1 <= m_w m -> 1 <= m_h m -> m_mask m = None ->
  (IZR (m_x0 m) <= px <= IZR (m_x0 m + m_w m) - 1)%R ->
  (IZR (m_y0 m) <= py <= IZR (m_y0 m + m_h m) - 1)%R ->
  exists p (hs : R) (ix iy : Z),
    model_patch rnd (pixel_ft (g_psfh g) (g_psfw g)) rend mogv m2p g cs px py (Some m) = Ok (Some p) /\
    x0 p = m_x0 m /\ y0 p = m_y0 m /\ pshape p = (m_h m, m_w m) /\
    let '(cx, cy, _) := pixel_ft (g_psfh g) (g_psfw g) px py hs in
    let mux := (px - cx - IZR ix)%R in let muy := (py - cy - IZR iy)%R in
    let share v := mog_share n1 n2 (IZR (fft_size hs) / 2) (sqrt v) in
    (Rabs mux <= 1 / 2)%R /\ (Rabs muy <= 1 / 2)%R /\
    forall X Y, m_x0 m <= X < m_x0 m + m_w m -> m_y0 m <= Y < m_y0 m + m_h m ->
      0 <= X - ix < fft_size hs /\ 0 <= Y - iy < fft_size hs /\
      val_at p X Y = Some (total (fun v d =>
        (1 - share v) * F v d hs mux muy (Y - iy)%Z (X - ix)%Z + share v * M v d X Y)%R cs).
Proof.
  intros D rnd rend mogv m2p g cs px py m n1 n2 F M RND SHAPE LIN MLIN HK HN N1 N2 HV HF PH PW MW MH MM BX BY.
  set (hs := mask_halfsize m px py (g_psfh g) (g_psfw g) None).
  destruct (mask_half_dist m px py (g_psfh g) (g_psfw g)) as (D1 & D2 & D3 & D4). fold hs in D1, D2, D3, D4.
  assert (H1 : (1 <= hs)%R) by lra.
  destruct (fft_size_spec hs H1) as (SZ & k & EK & K1).
  rewrite EK in SZ.
  destruct (covered_axis rnd px hs k (g_psfw g) _ _ RND PW SZ D1 D2) as (X1 & X2 & X3).
  destruct (covered_axis rnd py hs k (g_psfh g) _ _ RND PH SZ D3 D4) as (Y1 & Y2 & Y3).
  cbv zeta in X1, X2, X3, Y1, Y2, Y3. rewrite <- EK in *.
  set (cx := IZR (pad_centre (fft_size hs) (g_psfw g))) in *.
  set (cy := IZR (pad_centre (fft_size hs) (g_psfh g))) in *.
  set (sx := rnd (px - cx - IZR (m_x0 m))%R) in *. set (sy := rnd (py - cy - IZR (m_y0 m))%R) in *.
  assert (EX : (px - cx - IZR (m_x0 m) - IZR sx = px - cx - IZR (m_x0 m + sx))%R) by (rewrite plus_IZR; ring).
  assert (EY : (py - cy - IZR (m_y0 m) - IZR sy = py - cy - IZR (m_y0 m + sy))%R) by (rewrite plus_IZR; ring).
  set (mux := (px - cx - IZR (m_x0 m + sx))%R) in *. set (muy := (py - cy - IZR (m_y0 m + sy))%R) in *.
  destruct (C60_split D n1 n2 (fft_size hs) cs N1 N2) as (mog & fft & ES & TOT); [lia|auto|].
  set (G := match fft with Some fs => rend fs hs mux muy | None => mkArr (fft_size hs) (fft_size hs) (fun _ _ => 0%R) end).
  assert (SG : ah G = fft_size hs /\ aw G = fft_size hs).
  { unfold G. destruct fft; [apply SHAPE|split; reflexivity]. }
  destruct SG as [SH SW].
  destruct (mask_core rnd (pixel_ft (g_psfh g) (g_psfw g)) rend mogv m2p RND g cs px py m cx cy
              (fft_size hs) (fft_size hs) mog G) as (p & E & EX0 & EY0 & EP & V); auto.
  - congruence.
  - apply source_out_false; auto.
  - rewrite HF. reflexivity.
  - rewrite HF. fold hs sx sy. unfold render, is_hybrid. rewrite HK, HN, ES. cbn [bind]. rewrite EX, EY. reflexivity.
  - lia.
  - lia.
  - lia.
  - lia.
  - right; right. split; lia.
  - fold sx sy in V. exists p, hs, (m_x0 m + sx), (m_y0 m + sy). conjs; auto.
    unfold pixel_ft. fold cx cy. cbv zeta. fold mux muy. conjs; auto. intros X Y IX IY.
    conjs; try lia. rewrite V by auto. f_equal. rewrite MM. unfold placed. rewrite SH, SW.
    match goal with |- ((if ?c then _ else _) + _)%R = _ => assert (C : c = true) by lia; rewrite C end.
    transitivity (ototal (fun v d => F v d hs mux muy (Y - (m_y0 m + sy))%Z (X - (m_x0 m + sx))%Z) fft +
                  ototal (fun v d => M v d X Y) mog)%R.
    + f_equal.
      * unfold G. destruct fft as [fs|]; cbn [ototal]; [apply LIN|reflexivity].
      * destruct mog as [ms|]; cbn [ototal]; [apply MLIN|reflexivity].
    + destruct (TOT (fun v d => F v d hs mux muy (Y - (m_y0 m + sy))%Z (X - (m_x0 m + sx))%Z)) as (_ & -> & _).
      destruct (TOT (fun v d => M v d X Y)) as (-> & _).
      clear. induction cs as [|c cs IH]; [cbn; ring|].
      cbn [total fold_right]. unfold total in IH. rewrite <- IH. ring.
Qed.

(** ** Concrete cases *)
Definition rnd_up (x : R) : Z := rfloor (x + 1 / 2).
Lemma rnd_up_ok x : (Rabs (x - IZR (rnd_up x)) <= 1 / 2)%R.
Proof.
  unfold rnd_up. destruct (rfloor_spec (x + 1 / 2)). unfold Rabs. destruct (Rcase_abs _); lra.
Qed.

Definition ex_rend (cs : list (comp R)) (hs mux muy : R) : arr R :=
  mkArr (fft_size hs) (fft_size hs) (fun y x => total (fun _ d => d * (IZR y * 100 + IZR x))%R cs).
Definition ex_mogv (cs : list (comp R)) (X Y : Z) : R := total (fun _ d => d * IZR (X * Y))%R cs.
Definition ex_m2p (_ _ _ _ : Z) : patch R := mkPatch 0 0 None.
Definition ex_gal (k : psfkind) : gal := mkGal 40 50 k 5 5 8 3 (Some (3, 4)%R) None false.
Definition ex_cs : list (comp R) := [mkComp 1 1 2; mkComp 3 100 1]%R.
Definition ex_m : mmask := mkMask 6 9 8 8 None.

(** An 8 x 8 mask around a source at (10.3, 12.6). *)
Example C59_mask_case : exists p,
  model_patch rnd_up (pixel_ft 5 5) ex_rend ex_mogv ex_m2p (ex_gal PPixel) ex_cs (103 / 10) (126 / 10) (Some ex_m)
    = Ok (Some p) /\ pshape p = (8, 8) /\ x0 p = 6 /\ y0 p = 9.
Proof.
  destruct (C59_mask rnd_up ex_rend ex_mogv ex_m2p rnd_up_ok (fun _ _ _ _ => conj eq_refl eq_refl)
              (ex_gal PPixel) ex_cs (103 / 10) (126 / 10) ex_m) as (p & hs & ix & iy & E & A & B & C & _);
    cbn; auto; try lia; try lra.
  exists p. conjs; auto.
Qed.

(** Without a mask the same source covers its own pixel. *)
Example C59_full_case : exists p v,
  model_patch rnd_up (pixel_ft 5 5) ex_rend ex_mogv ex_m2p (ex_gal PPixel) ex_cs 10 12 None = Ok (Some p) /\
  val_at p 10 12 = Some v.
Proof.
  assert (F : forall k : Z, rfloor (IZR k) = k).
  { intros k. destruct (rfloor_spec (IZR k)) as [A B]. apply le_IZR in A.
    assert (k < rfloor (IZR k) + 1) by (apply lt_IZR; rewrite plus_IZR; auto). lia. }
  assert (C : forall k : Z, rceil (IZR k) = k).
  { intros k. destruct (rceil_spec (IZR k)) as [A B]. apply le_IZR in A.
    assert (rceil (IZR k) < k + 1) by (apply lt_IZR; rewrite plus_IZR; auto). lia. }
  assert (SZ : fft_size 8 = 16).
  { unfold fft_size. replace (2 * 8)%R with (IZR 16) by (cbn; lra). rewrite C. reflexivity. }
  assert (R1 : rnd_up (10 - 7) = 3).
  { unfold rnd_up. destruct (rfloor_spec (10 - 7 + 1 / 2)) as [A B].
    assert (rfloor (10 - 7 + 1 / 2) < 4) by (apply lt_IZR; lra).
    assert (2 < rfloor (10 - 7 + 1 / 2)) by (apply lt_IZR; lra). lia. }
  assert (R2 : rnd_up (12 - 7) = 5).
  { unfold rnd_up. destruct (rfloor_spec (12 - 7 + 1 / 2)) as [A B].
    assert (rfloor (12 - 7 + 1 / 2) < 6) by (apply lt_IZR; lra).
    assert (4 < rfloor (12 - 7 + 1 / 2)) by (apply lt_IZR; lra). lia. }
  assert (A1 : rfloor (10 - 8) = 2) by (replace (10 - 8)%R with (IZR 2) by lra; apply F).
  assert (A2 : rfloor (12 - 8) = 4) by (replace (12 - 8)%R with (IZR 4) by lra; apply F).
  assert (A3 : rceil (10 + 8 + 1) = 19) by (replace (10 + 8 + 1)%R with (IZR 19) by lra; apply C).
  assert (A4 : rceil (12 + 8 + 1) = 21) by (replace (12 + 8 + 1)%R with (IZR 21) by lra; apply C).
  destruct (full_core rnd_up (pixel_ft 5 5) ex_rend ex_mogv ex_m2p rnd_up_ok (ex_gal PPixel) ex_cs 10 12 7 7 16 16 None
              (ex_rend ex_cs 8 (10 - 7 - IZR 3) (12 - 7 - IZR 5))) as (p & E & V);
    cbn [ex_gal g_kind g_half g_W g_H]; try lia; try lra.
  - discriminate.
  - unfold pixel_ft. rewrite SZ. reflexivity.
  - rewrite render_pixel by reflexivity. rewrite R1, R2. reflexivity.
  - cbn [ex_rend ah]. exact SZ.
  - cbn [ex_rend aw]. exact SZ.
  - exists 10, 12. rewrite A1, A2, A3, A4. lia.
  - exists p. eexists. split; [exact E|]. rewrite V by (cbn; lia). cbn [ex_gal g_half].
    rewrite A1, A2, A3, A4, R1, R2. reflexivity.
Qed.

(** Half a pixel outside its mask and well within its radius, a galaxy cannot
    be rendered with a pixelized PSF. *)
Theorem C59_outside_refuted :
  model_patch rnd_up (pixel_ft 5 5) ex_rend ex_mogv ex_m2p (ex_gal PPixel) ex_cs (11 / 2) 12 (Some ex_m) = Err RuntimeError /\
  (nearest ex_m (11 / 2) 12 = 1 / 2)%R.
Proof.
  assert (N : (nearest ex_m (11 / 2) 12 = 1 / 2)%R).
  { unfold nearest. cbn [ex_m m_x0 m_y0 m_w m_h Z.add].
    change (Zpos (6 + 8)) with 14. change (Zpos (9 + 8)) with 17. unfold rltb.
    repeat match goal with |- context [Rlt_dec ?u ?v] => destruct (Rlt_dec u v); try lra end.
    replace ((6 - 11 / 2) * (6 - 11 / 2) + 0 * 0)%R with (1 / 2 * (1 / 2))%R by lra.
    apply sqrt_square. lra. }
  split; auto.
  destruct (C59_outside R rnd_up (pixel_ft 5 5) ex_rend ex_mogv ex_m2p (ex_gal PPixel) ex_cs (11 / 2) 12 ex_m)
    as (_ & O & _).
  - discriminate.
  - left. cbn [ex_m m_x0]. lra.
  - apply O; auto. rewrite N. cbn [ex_gal g_rad]. intros [Q _]. lra.
Qed.

(** A patch 8 pixels wide: sigma 2 goes to the Gaussians, sigma 1 to the FFT,
    sigma 8/7 to both. *)
Example C60_share_case :
  (mog_share 3 4 4 2 = 1 /\ mog_share 3 4 4 1 = 0 /\ mog_share 3 4 4 (8 / 7) = 1 / 2)%R.
Proof.
  conjs.
  - apply (C60_share 3 4 4 2); lra.
  - apply (C60_share 3 4 4 1); lra.
  - unfold mog_share. destruct (Req_EM_T (8 / 7) 0); [lra|].
    replace ((4 - 4 / (8 / 7)) / (4 - 3))%R with (1 / 2)%R by field.
    rewrite Rmin_right, Rmax_right; lra.
Qed.

Example C60_split_case : exists mog fft,
  split 3 4 8 [mkComp 5 4 tt; mkComp 7 1 tt]%R = Ok (mog, fft) /\
  (ototal (fun _ _ => 1) mog = 5 /\ ototal (fun _ _ => 1) fft = 7)%R.
Proof.
  destruct (C60_split unit 3 4 8 [mkComp 5 4 tt; mkComp 7 1 tt]%R) as (mog & fft & E & T); try lra; try lia.
  { cbn [In]. intros c [<-|[<-|[]]]; cbn [cvv]; lra. }
  exists mog, fft. split; auto. destruct (T (fun _ _ => 1%R)) as (-> & -> & _).
  cbn [total fold_right camp cvv cdat].
  assert (S4 : sqrt 4 = 2%R) by (replace 4%R with (2 * 2)%R by lra; apply sqrt_square; lra).
  rewrite S4, sqrt_1. replace (8 / 2)%R with 4%R by lra.
  destruct C60_share_case as (S1 & S2 & _). rewrite S1, S2. split; lra.
Qed.

Print Assumptions C59_mask.
Print Assumptions C59_full.
Print Assumptions C59_outside.
Print Assumptions C59_agree.
Print Assumptions C59_outside_refuted.
Print Assumptions C60_split.
Print Assumptions C60_share.
Print Assumptions C60_pixels.
