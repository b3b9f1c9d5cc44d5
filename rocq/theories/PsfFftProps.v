(** C64: the images and Fourier transforms of a PSF describe one PSF. *)
From Coq Require Import List ZArith Bool Reals Lia Lra.
From Verif Require Import Base ShiftModel GalPatchModel PatchModel PsfModel PsfProps PsfFftModel.
From Verif Require GalPatchProps.
Import ListNotations.
Open Scope R_scope.

(** ** Specification *)
(** The stamp [img] in an sz x sz window with its centre pixel at column cx and
    row cy, cut off or filled with zeros. *)
Definition window (img : arr R) (cx cy y x : Z) : R :=
  plane 0 img (y - cy + ah img / 2)%Z (x - cx + aw img / 2)%Z.
(** A stamp that fits is in the window as a whole. *)
Definition fits (n sz c : Z) : Prop := (n <= sz -> 0 <= c - n / 2 /\ c - n / 2 + n <= sz)%Z.
(** The result says where the centre is; the transform is [c] times the
    discrete Fourier transform of the window. *)
Definition at_centre (img : arr R) (sz cx cy : Z) (r : ftret) : Prop :=
  r_cx r = IZR cx /\ r_cy r = IZR cy /\ (0 <= cx < sz)%Z /\ (0 <= cy < sz)%Z /\ r_shape r = (sz, sz) /\
  fits (aw img) sz cx /\ fits (ah img) sz cy.
Definition dft_of (c : R) (img : arr R) (sz cx cy : Z) (f : fft) : Prop := forall k l,
  fre f k l = c * sum2 sz sz (fun y x => window img cx cy y x * cos (angle sz sz k l y x)) /\
  fim f k l = c * - sum2 sz sz (fun y x => window img cx cy y x * sin (angle sz sz k l y x)).
Definition transform (img : arr R) (sz : Z) (r : ftret) : Prop :=
  exists cx cy, at_centre img sz cx cy r /\ dft_of 1 img sz cx cy (r_fft r).
(** The transform of the window divided by the size of its sum. *)
Definition normalised_transform (img : arr R) (sz : Z) (r : ftret) : Prop :=
  exists cx cy, at_centre img sz cx cy r /\
    let m := sum2 sz sz (window img cx cy) in
    m <> 0 -> dft_of (/ Rabs m) img sz cx cy (r_fft r) /\ cabs (r_fft r) 0 0 = 1.
Definition same_image (a b : arr R) : Prop :=
  ah a = ah b /\ aw a = aw b /\ forall y x, (0 <= y < ah a -> 0 <= x < aw a -> px a y x = px b y x)%Z.

(** ** Sums *)
Lemma sumR_ext n f g : (forall i, (i < n)%nat -> f i = g i) -> sumR n f = sumR n g.
Proof.
  intros H. unfold sumR. f_equal. apply map_ext_in. intros i Hi. apply in_seq in Hi. apply H. lia.
Qed.
Lemma sumR_scal n c f : sumR n (fun i => c * f i) = c * sumR n f.
Proof. unfold sumR. induction (seq 0 n) as [|i l IH]; cbn; [ring|]. rewrite IH. ring. Qed.
Lemma sumR_plus n f g : sumR n (fun i => f i + g i) = sumR n f + sumR n g.
Proof. unfold sumR. induction (seq 0 n) as [|i l IH]; cbn; [ring|]. rewrite IH. ring. Qed.
Lemma sumR_0 n : sumR n (fun _ => 0) = 0.
Proof. unfold sumR. induction (seq 0 n) as [|i l IH]; cbn; [ring|]. rewrite IH. ring. Qed.
Lemma fold_app l l' : fold_right Rplus 0 (l ++ l') = fold_right Rplus 0 l + fold_right Rplus 0 l'.
Proof. induction l as [|a l IH]; cbn; [ring|]. rewrite IH. ring. Qed.
Lemma sumR_add n m f : sumR (n + m) f = sumR n f + sumR m (fun i => f (n + i)%nat).
Proof.
  unfold sumR. rewrite seq_app, map_app, fold_app. f_equal. f_equal.
  cbn. clear. induction m as [|m IH]; [reflexivity|].
  rewrite !seq_S, !map_app, IH. reflexivity.
Qed.

Lemma sum2_ext h w f g : (forall y x, (0 <= y < h -> 0 <= x < w -> f y x = g y x)%Z) -> sum2 h w f = sum2 h w g.
Proof.
  intros H. unfold sum2. apply sumR_ext. intros y Hy. apply sumR_ext. intros x Hx. apply H; lia.
Qed.
Lemma sum2_scal h w c f : sum2 h w (fun y x => c * f y x) = c * sum2 h w f.
Proof.
  unfold sum2. rewrite <- sumR_scal. apply sumR_ext. intros y _. apply sumR_scal.
Qed.
Lemma sum2_plus h w f g : sum2 h w (fun y x => f y x + g y x) = sum2 h w f + sum2 h w g.
Proof.
  unfold sum2. rewrite <- sumR_plus. apply sumR_ext. intros y _. apply sumR_plus.
Qed.
Lemma sum2_0 h w : sum2 h w (fun _ _ => 0) = 0.
Proof.
  unfold sum2. rewrite (sumR_ext _ _ (fun _ => 0)); [apply sumR_0|]. intros y _. apply sumR_0.
Qed.

(** A row of n numbers somewhere in a row of N, zero around it. *)
Lemma sumR_shift (N n off : Z) (f g : Z -> R) : (0 <= off)%Z -> (0 <= n)%Z -> (off + n <= N)%Z ->
  (forall i, (0 <= i < n)%Z -> f (off + i)%Z = g i) ->
  (forall i, (0 <= i < N)%Z -> ~ (off <= i < off + n)%Z -> f i = 0) ->
  sumR (Z.to_nat N) (fun i => f (Z.of_nat i)) = sumR (Z.to_nat n) (fun i => g (Z.of_nat i)).
Proof.
  intros H1 H2 H3 HI HO.
  replace (Z.to_nat N) with (Z.to_nat off + (Z.to_nat n + Z.to_nat (N - off - n)))%nat by lia.
  rewrite !sumR_add.
  rewrite (sumR_ext (Z.to_nat off) _ (fun _ => 0)) by (intros i Hi; apply HO; lia).
  rewrite (sumR_ext (Z.to_nat (N - off - n)) _ (fun _ => 0)) by (intros i Hi; apply HO; lia).
  rewrite !sumR_0. rewrite Rplus_0_l, Rplus_0_r.
  apply sumR_ext. intros i Hi. rewrite <- HI by lia. f_equal. lia.
Qed.

(** ** Padding *)
Lemma pad_centres (img : arr R) H W pad cx cy : pad_in_image 0 H W img = Ok (pad, cx, cy) ->
  cx = pad_centre W (aw img) /\ cy = pad_centre H (ah img).
Proof.
  unfold pad_in_image, pad_centre. cbv zeta.
  destruct (H >=? ah img)%Z, (W >=? aw img)%Z; cbn [fst snd];
    destruct ((H <? 0)%Z || (W <? 0)%Z); try discriminate;
    intros E; apply bind_ok in E; destruct E as (p & _ & E); injection E as _ <- <-; auto.
Qed.

Lemma fft_size_pos r : (1 <= fft_size r)%Z.
Proof. unfold fft_size. apply (Z.pow_le_mono_r 2 0); [lia|apply Z.log2_up_nonneg]. Qed.

Definition odd_stamp (img : arr R) : Prop :=
  (1 <= ah img)%Z /\ (1 <= aw img)%Z /\ Z.odd (ah img) = true /\ Z.odd (aw img) = true.

Lemma pad_fits N n : fits n N (pad_centre N n).
Proof. intros H. unfold pad_centre. rewrite Z.geb_leb, (proj2 (Z.leb_le n N)) by lia. Z.div_mod_to_equations. lia. Qed.

Lemma pad_window (img : arr R) sz : odd_stamp img -> (1 <= sz)%Z ->
  let cx := pad_centre sz (aw img) in let cy := pad_centre sz (ah img) in
  exists pad, pad_in_image 0 sz sz img = Ok (pad, cx, cy) /\ ah pad = sz /\ aw pad = sz /\
    (0 <= cx < sz)%Z /\ (0 <= cy < sz)%Z /\
    forall y x, (0 <= y < sz -> 0 <= x < sz -> px pad y x = window img cx cy y x)%Z.
Proof.
  intros (H1 & H2 & O1 & O2) HS cx cy.
  destruct (C49_padding R 0 img sz sz) as (pad & cx' & cy' & E & A1 & A2 & C1 & C2 & P); try lia.
  destruct (pad_centres _ _ _ _ _ _ E) as [-> ->]. fold cx cy in E, C1, C2, P.
  exists pad. split; auto. split; auto. split; auto.
  assert (M : forall z, Z.odd z = true -> (z mod 2 = 1)%Z) by (intros z Hz; rewrite Zmod_odd, Hz; auto).
  split; [apply C2; auto|]. split; [apply C1; auto|]. intros y x Hy Hx. apply P; auto.
Qed.

Lemma dft_pad (img pad : arr R) sz cx cy : ah pad = sz -> aw pad = sz ->
  (forall y x, (0 <= y < sz -> 0 <= x < sz -> px pad y x = window img cx cy y x)%Z) ->
  dft_of 1 img sz cx cy (rfft2 pad).
Proof.
  intros A1 A2 P k l. unfold rfft2. cbn [fre fim]. rewrite A1, A2, !Rmult_1_l. split; [|f_equal];
    apply sum2_ext; intros y x Hy Hx; rewrite P by auto; reflexivity.
Qed.

Lemma dc_of c img sz cx cy f : dft_of c img sz cx cy f ->
  fre f 0 0 = c * sum2 sz sz (window img cx cy) /\ fim f 0 0 = 0.
Proof.
  intros D. destruct (D 0%Z 0%Z) as [-> ->].
  assert (A : forall y x, angle sz sz 0 0 y x = 0).
  { intros. unfold angle, Rdiv. ring. }
  split.
  - f_equal. apply sum2_ext. intros y x _ _. rewrite A, cos_0. ring.
  - rewrite (sum2_ext _ _ _ (fun _ _ => 0)), sum2_0; [ring|]. intros y x _ _. rewrite A, sin_0. ring.
Qed.
Lemma cabs_dc c img sz cx cy f : dft_of c img sz cx cy f ->
  cabs f 0 0 = Rabs (c * sum2 sz sz (window img cx cy)).
Proof.
  intros D. destruct (dc_of _ _ _ _ _ _ D) as [E1 E2]. unfold cabs. rewrite E1, E2.
  set (m := c * _). replace (m * m + 0 * 0) with (Rsqr m) by (unfold Rsqr; ring). apply sqrt_Rsqr_abs.
Qed.

(** ** PixelizedPSF *)
Lemma find_cons {B} sz sz' (e : B) c :
  find_ft sz ((sz', e) :: c) = if Z.eqb sz' sz then Some e else find_ft sz c.
Proof. unfold find_ft. cbn [find fst]. destruct (Z.eqb sz' sz); reflexivity. Qed.

Definition inv_plain (img : arr R) (s : pix) : Prop :=
  p_img s = img /\ forall sz e, find_ft sz (p_cache s) = Some e -> transform img sz e.
Lemma plain_ft img s r : odd_stamp img -> inv_plain img s ->
  exists s' e, pix_ft s r = Ok (s', e) /\ transform img (fft_size r) e /\ inv_plain img s'.
Proof.
  intros OS [E I]. unfold pix_ft. destruct (find_ft (fft_size r) (p_cache s)) as [e|] eqn:F.
  - exists s, e. split; auto. split; [apply I; auto|split; auto].
  - destruct (pad_window img (fft_size r) OS (fft_size_pos r)) as (pad & EP & A1 & A2 & C1 & C2 & P).
    rewrite E, EP. cbn [bind].
    assert (T : transform img (fft_size r) (mkRet (rfft2 pad) (IZR (pad_centre (fft_size r) (aw img)))
               (IZR (pad_centre (fft_size r) (ah img))) (ah pad, aw pad))).
    { do 2 eexists. split; [|apply dft_pad; eauto].
      split; [reflexivity|]. split; [reflexivity|]. do 2 (split; [assumption|]). cbn. split; [congruence|]. split; apply pad_fits. }
    do 2 eexists. split; [reflexivity|]. split; auto. split; [reflexivity|]. cbn [p_cache].
    intros sz e. rewrite find_cons. destruct (Z.eqb_spec (fft_size r) sz) as [<-|]; [|apply I].
    intros Q. injection Q as <-. auto.
Qed.

(** Whatever was asked before, a PixelizedPSF gives out its stamp and the
    transform of its stamp, centred where it says. *)
Theorem C64_pixelized (img : arr R) s0 (h : list op) (radius : R) :
  (1 <= ah img)%Z -> (1 <= aw img)%Z -> pix_new img = Ok s0 ->
  let s := run false s0 h in
  snd (pix_image s) = img /\
  exists s' r, pix_ft s radius = Ok (s', r) /\ transform img (fft_size radius) r.
Proof.
  intros H1 H2 N s. unfold pix_new in N.
  destruct (Z.odd (ah img) && Z.odd (aw img))%bool eqn:O; [|discriminate]. injection N as N.
  apply andb_prop in O. destruct O as [O1 O2]. assert (OS : odd_stamp img) by (repeat split; auto).
  assert (I : inv_plain img s).
  { unfold s. clear s. assert (I0 : inv_plain img s0) by (rewrite <- N; split; [reflexivity|discriminate]).
    clear N. unfold run. revert s0 I0. induction h as [|o h IH]; intros s0 I0; cbn; auto. apply IH.
    destruct o as [r| |]; cbn.
    - destruct (plain_ft img s0 r OS I0) as (s' & e & -> & _ & I'). auto.
    - auto.
    - split; [apply I0|discriminate]. }
  split; [apply I|]. destruct (plain_ft img s radius OS I) as (s' & e & E & T & _). eauto.
Qed.

(** ** Normalised PSFs *)

Definition scaled (c : R) (a img : arr R) : Prop :=
  ah a = ah img /\ aw a = aw img /\
  forall y x, (0 <= y < ah img)%Z -> (0 <= x < aw img)%Z -> px a y x = c * px img y x.
Definition inv_norm (img : arr R) (s : pix) : Prop :=
  (exists c, 0 < c /\ scaled c (p_img s) img) /\
  (forall sz e, find_ft sz (p_cache s) = Some e -> normalised_transform img sz e).

Lemma window_scale c (a img : arr R) cx cy y x : scaled c a img -> window a cx cy y x = c * window img cx cy y x.
Proof.
  intros (A1 & A2 & P). unfold window, plane. rewrite A1, A2.
  set (Y := (y - cy + _)%Z). set (X := (x - cx + _)%Z).
  destruct (Z.leb_spec 0 Y), (Z.ltb_spec Y (ah img)), (Z.leb_spec 0 X), (Z.ltb_spec X (aw img)); cbn [andb]; try ring.
  apply P; lia.
Qed.
Lemma scaled_sum c a img : scaled c a img -> np_sum a = c * np_sum img.
Proof.
  intros (A1 & A2 & P). unfold np_sum. rewrite A1, A2, <- sum2_scal. apply sum2_ext. intros; apply P; auto.
Qed.
Lemma scaled_dft c a img sz cx cy f : scaled c a img -> dft_of 1 a sz cx cy f -> dft_of c img sz cx cy f.
Proof.
  intros S D k l. destruct (D k l) as [-> ->]. rewrite !Rmult_1_l. split.
  - rewrite <- sum2_scal. apply sum2_ext. intros y x _ _. rewrite (window_scale c a img) by auto. ring.
  - rewrite Ropp_mult_distr_r_reverse. f_equal. rewrite <- sum2_scal. apply sum2_ext.
    intros y x _ _. rewrite (window_scale c a img) by auto. ring.
Qed.
Lemma scaled_odd c a img : scaled c a img -> odd_stamp img -> odd_stamp a.
Proof. intros (A1 & A2 & _) (H1 & H2 & H3 & H4). unfold odd_stamp. rewrite A1, A2. auto. Qed.

Lemma dft_div c img sz cx cy f n : dft_of c img sz cx cy f -> dft_of (c / n) img sz cx cy (fdiv f n).
Proof. intros D k l. cbn. destruct (D k l) as [-> ->]. split; unfold Rdiv; ring. Qed.

(** Dividing a scaled transform by the size of its first coefficient. *)
Lemma normalise c img sz cx cy f : 0 < c -> dft_of c img sz cx cy f ->
  let m := sum2 sz sz (window img cx cy) in
  (cabs f 0 0 = 0 <-> m = 0) /\
  (m <> 0 -> dft_of (/ Rabs m) img sz cx cy (fdiv f (cabs f 0 0)) /\ cabs (fdiv f (cabs f 0 0)) 0 0 = 1).
Proof.
  intros Hc D m. pose proof (cabs_dc _ _ _ _ _ _ D) as E. fold m in E.
  assert (EM : cabs f 0 0 = c * Rabs m) by (rewrite E, Rabs_mult, (Rabs_pos_eq c); lra).
  split.
  - rewrite EM. split.
    + intros Z. apply Rmult_integral in Z. destruct Z as [Z|Z]; [lra|]. destruct (Req_dec m 0) as [|N]; auto.
      apply Rabs_no_R0 in N. contradiction.
    + intros ->. rewrite Rabs_R0. ring.
  - intros NM. assert (HA : Rabs m <> 0) by (apply Rabs_no_R0; auto).
    assert (D' : dft_of (/ Rabs m) img sz cx cy (fdiv f (cabs f 0 0))).
    { replace (/ Rabs m) with (c / cabs f 0 0) by (rewrite EM; field; lra). apply dft_div; auto. }
    split; auto. rewrite (cabs_dc _ _ _ _ _ _ D'). fold m. rewrite Rabs_mult, Rabs_inv, Rabs_Rabsolu. field. auto.
Qed.

Lemma norm_ft_ok img s r : odd_stamp img -> inv_norm img s ->
  exists s' e, norm_ft s r = Ok (s', e) /\ normalised_transform img (fft_size r) e /\ inv_norm img s'.
Proof.
  intros OS [(c & Hc & SC) I]. unfold norm_ft, pix_ft.
  destruct (find_ft (fft_size r) (p_cache s)) as [e|] eqn:F; cbn [bind].
  - (* from the cache *)
    pose proof (I _ _ F) as NT. destruct (Req_EM_T (cabs (r_fft e) 0 0) 0) as [Z|NZ].
    + do 2 eexists. split; [reflexivity|]. split; auto. split; eauto.
    + assert (NT' : normalised_transform img (fft_size r)
                (mkRet (fdiv (r_fft e) (cabs (r_fft e) 0 0)) (r_cx e) (r_cy e) (r_shape e))).
      { destruct NT as (cx & cy & AC & H). exists cx, cy. split; [exact AC|]. cbv zeta in *. cbn [r_fft].
        intros NM. destruct (H NM) as [D E]. rewrite E. split.
        - replace (/ Rabs _) with (/ Rabs (sum2 (fft_size r) (fft_size r) (window img cx cy)) / 1) by (field; apply Rabs_no_R0; auto).
          apply dft_div; auto.
        - transitivity (cabs (r_fft e) 0 0); [|exact E]. unfold cabs, fdiv. cbn [fre fim]. f_equal. field. }
      do 2 eexists. split; [reflexivity|]. split; [exact NT'|]. split; [exists c; auto|].
      intros sz e'. cbn [p_cache]. rewrite find_cons. destruct (Z.eqb_spec (fft_size r) sz) as [<-|]; [|apply I].
      intros Q. injection Q as <-. exact NT'.
  - destruct (pad_window (p_img s) (fft_size r) (scaled_odd _ _ _ SC OS) (fft_size_pos r)) as (pad & EP & A1 & A2 & C1 & C2 & P).
    rewrite EP. cbn [bind r_fft r_cx r_cy r_shape p_img p_cache].
    pose proof (scaled_dft _ _ _ _ _ _ _ SC (dft_pad _ _ _ _ _ A1 A2 P)) as D.
    destruct (normalise _ _ _ _ _ _ Hc D) as [Z0 NN].
    set (cx := pad_centre (fft_size r) (aw (p_img s))) in *.
    set (cy := pad_centre (fft_size r) (ah (p_img s))) in *.
    assert (AC : forall f, at_centre img (fft_size r) cx cy (mkRet f (IZR cx) (IZR cy) (ah pad, aw pad))).
    { destruct SC as (B1 & B2 & _). intros f. split; [reflexivity|]. split; [reflexivity|]. do 2 (split; [assumption|]).
      cbn. split; [congruence|]. rewrite <- B1, <- B2. split; apply pad_fits. }
    destruct (Req_EM_T (cabs (rfft2 pad) 0 0) 0) as [Z|NZ].
    + assert (NT : normalised_transform img (fft_size r) (mkRet (rfft2 pad) (IZR cx) (IZR cy) (ah pad, aw pad))).
      { exists cx, cy. split; [apply AC|]. cbv zeta. intros NM. apply Z0 in Z. contradiction. }
      do 2 eexists. split; [reflexivity|]. split; [exact NT|]. split; [exists c; auto|].
      intros sz e'. cbn [p_cache]. rewrite find_cons. destruct (Z.eqb_spec (fft_size r) sz) as [<-|]; [|apply I].
      intros Q. injection Q as <-. exact NT.
    + assert (NT : normalised_transform img (fft_size r)
                (mkRet (fdiv (rfft2 pad) (cabs (rfft2 pad) 0 0)) (IZR cx) (IZR cy) (ah pad, aw pad))).
      { exists cx, cy. split; [apply AC|]. cbv zeta. intros NM. apply NN; auto. }
      do 2 eexists. split; [reflexivity|]. split; [exact NT|]. split; [exists c; auto|].
      intros sz e'. cbn [p_cache]. rewrite !find_cons. destruct (Z.eqb_spec (fft_size r) sz) as [<-|]; [|apply I].
      intros Q. injection Q as <-. exact NT.
Qed.

Lemma norm_image_ok img s : 0 <= np_sum img -> inv_norm img s ->
  inv_norm img (fst (norm_image s)) /\
  (np_sum img <> 0 -> scaled (/ np_sum img) (snd (norm_image s)) img).
Proof.
  intros HN [(c & Hc & SC) I]. pose proof (scaled_sum _ _ _ SC) as E. unfold norm_image.
  destruct (Req_EM_T (np_sum (p_img s)) 0) as [Z|NZ]; cbn [fst snd].
  - split; [split; eauto|]. intros NZ. exfalso. rewrite E in Z. apply Rmult_integral in Z. lra.
  - assert (NP : 0 < np_sum img).
    { destruct HN as [|Q]; auto. exfalso. apply NZ. rewrite E, <- Q. ring. }
    assert (S' : scaled (/ np_sum img) (arr_div (p_img s) (np_sum (p_img s))) img).
    { destruct SC as (A1 & A2 & P). split; [auto|]. split; [auto|]. intros y x Hy Hx. cbn. rewrite P, E by auto.
      field. lra. }
    split; [|auto]. split; [|exact I]. exists (/ np_sum img). split; [|exact S']. apply Rinv_0_lt_compat; auto.
Qed.

Lemma run_norm img s0 h : odd_stamp img -> 0 <= np_sum img -> inv_norm img s0 -> inv_norm img (run true s0 h).
Proof.
  intros OS HN. unfold run. revert s0. induction h as [|o h IH]; intros s0 I0; cbn; auto. apply IH.
  destruct o as [r| |]; cbn [step].
  - destruct (norm_ft_ok img s0 r OS I0) as (s' & e & -> & _ & I'). auto.
  - apply norm_image_ok; auto.
  - destruct I0 as [S I]. split; [exact S|discriminate].
Qed.

Lemma scaled_1 img : scaled 1 img img.
Proof. repeat split. intros. ring. Qed.

(** A stamp that fits into the window: nothing is cut off. *)
Lemma window_sum img sz cx cy : (1 <= ah img <= sz)%Z -> (1 <= aw img <= sz)%Z ->
  fits (aw img) sz cx -> fits (ah img) sz cy ->
  sum2 sz sz (window img cx cy) = np_sum img.
Proof.
  intros H1 H2 F1 F2. unfold np_sum, sum2. specialize (F1 (proj2 H2)). specialize (F2 (proj2 H1)).
  set (h := ah img) in *. set (w := aw img) in *.
  set (oy := (cy - h / 2)%Z) in *. set (ox := (cx - w / 2)%Z) in *.
  replace cy with (oy + h / 2)%Z by (unfold oy; lia). replace cx with (ox + w / 2)%Z by (unfold ox; lia).
  apply (sumR_shift sz h oy
    (fun y => sumR (Z.to_nat sz) (fun x => window img (ox + w / 2) (oy + h / 2) y (Z.of_nat x)))
    (fun y => sumR (Z.to_nat w) (fun x => px img y (Z.of_nat x)))); try lia.
  - intros y Hy. apply (sumR_shift sz w ox
      (fun x => window img (ox + w / 2) (oy + h / 2) (oy + y) x) (fun x => px img y x)); try lia.
    + intros x Hx. unfold window, plane. fold h w.
      replace (oy + y - (oy + h / 2) + h / 2)%Z with y by lia. replace (ox + x - (ox + w / 2) + w / 2)%Z with x by lia.
      zb. reflexivity.
    + intros x Hx NX. unfold window. apply plane_out. fold h w. lia.
  - intros y Hy NY. rewrite (sumR_ext _ _ (fun _ => 0)); [apply sumR_0|].
    intros x Hx. unfold window. apply plane_out. fold h w. lia.
Qed.

(** A normalised PSF with a stamp of positive sum: whatever was asked before,
    the image given out is the stamp divided by its sum, and the transform is
    that of the window divided by the size of its sum, with a first coefficient
    of size 1. *)
Theorem C64_normalized (img : arr R) s0 (h : list op) (radius : R) :
  (1 <= ah img)%Z -> (1 <= aw img)%Z -> pix_new img = Ok s0 -> 0 < np_sum img ->
  let s := run true s0 h in
  same_image (snd (norm_image s)) (arr_div img (np_sum img)) /\ np_sum (snd (norm_image s)) = 1 /\
  exists s' r, norm_ft s radius = Ok (s', r) /\ normalised_transform img (fft_size radius) r.
Proof.
  intros H1 H2 N HN s. unfold pix_new in N.
  destruct (Z.odd (ah img) && Z.odd (aw img))%bool eqn:O; [|discriminate]. injection N as N.
  apply andb_prop in O. destruct O as [O1 O2]. assert (OS : odd_stamp img) by (repeat split; auto).
  assert (I : inv_norm img s).
  { apply run_norm; auto; [lra|]. rewrite <- N. split; [|discriminate]. exists 1. split; [lra|apply scaled_1]. }
  assert (SC : scaled (/ np_sum img) (snd (norm_image s)) img) by (apply norm_image_ok; auto; lra).
  split; [|split].
  - destruct SC as (A1 & A2 & P). split; [exact A1|]. split; [exact A2|]. intros y x Hy Hx. rewrite P by lia.
    cbn. unfold Rdiv. ring.
  - rewrite (scaled_sum _ _ _ SC). field. lra.
  - destruct (norm_ft_ok img s radius OS I) as (s' & e & E & T & _). eauto.
Qed.

Lemma transform_div img sz cx cy f n : n <> 0 -> dft_of (/ n) img sz cx cy f ->
  dft_of 1 (arr_div img n) sz cx cy f.
Proof.
  intros HN D k l. destruct (D k l) as [-> ->]. rewrite !Rmult_1_l.
  assert (S : scaled (/ n) (arr_div img n) img).
  { split; [auto|]. split; [auto|]. intros y x _ _. cbn. unfold Rdiv. ring. }
  split.
  - rewrite <- sum2_scal. apply sum2_ext. intros y x _ _. rewrite (window_scale (/ n) (arr_div img n) img _ _ _ _ S). ring.
  - rewrite Ropp_mult_distr_r_reverse. f_equal. rewrite <- sum2_scal. apply sum2_ext.
    intros y x _ _. rewrite (window_scale (/ n) (arr_div img n) img _ _ _ _ S). ring.
Qed.

(** If the stamp fits into the transform, it is the transform of the image
    given out for point sources. *)
Theorem C64_normalized_whole (img : arr R) s0 (h : list op) (radius : R) :
  (1 <= ah img <= fft_size radius)%Z -> (1 <= aw img <= fft_size radius)%Z ->
  pix_new img = Ok s0 -> 0 < np_sum img ->
  let s := run true s0 h in
  exists s' r, norm_ft s radius = Ok (s', r) /\ transform (arr_div img (np_sum img)) (fft_size radius) r.
Proof.
  intros H1 H2 N HN s.
  destruct (C64_normalized img s0 h radius) as (_ & _ & s' & r & E & cx & cy & AC & D); auto; try lia.
  exists s', r. split; [exact E|]. exists cx, cy. split; [exact AC|].
  destruct AC as (_ & _ & _ & _ & _ & F1 & F2). cbv zeta in D.
  rewrite (window_sum img) in D by auto. apply transform_div; [lra|].
  rewrite Rabs_pos_eq in D by lra. apply D. lra.
Qed.

(** ** PsfEx *)
Section Ex.
Definition lin (l : list (R * arr R)) (y x : Z) : R := fold_right (fun tb a => fst tb * px (snd tb) y x + a) 0 l.

Lemma fold_px : forall (l : list (R * arr R)) (p0 : arr R),
  let p := fold_left (fun p tb => mkArr (ah p) (aw p) (fun y x => px p y x + fst tb * px (snd tb) y x)) l p0 in
  ah p = ah p0 /\ aw p = aw p0 /\ forall y x, px p y x = px p0 y x + lin l y x.
Proof.
  induction l as [|[t b] l IH]; intros p0; cbn [fold_left].
  - cbn. split; auto. split; auto. intros. ring.
  - destruct (IH (mkArr (ah p0) (aw p0) (fun y x => px p0 y x + t * px b y x))) as (A1 & A2 & P).
    cbn in A1, A2. split; [exact A1|]. split; [exact A2|]. intros y x. rewrite P. unfold lin. cbn [px fold_right fst snd]. ring.
Qed.

Lemma fold_fft : forall (l : list (R * fft)) (f0 : fft) k l', 
  let f := fold_left (fun f tf => fadd f (fscale (fst tf) (snd tf))) l f0 in
  fre f k l' = fre f0 k l' + fold_right (fun tf a => fst tf * fre (snd tf) k l' + a) 0 l /\
  fim f k l' = fim f0 k l' + fold_right (fun tf a => fst tf * fim (snd tf) k l' + a) 0 l.
Proof.
  induction l as [|[t g] l IH]; intros f0 k l'; cbn [fold_left fold_right].
  - split; ring.
  - destruct (IH (fadd f0 (fscale t g)) k l') as [E1 E2]. split; [etransitivity; [exact E1|]|etransitivity; [exact E2|]]; cbn; ring.
Qed.

(** All basis images have the shape of the first. *)
Definition same_shape_bases (bs : list (arr R)) : Prop :=
  exists h w, (1 <= h)%Z /\ (1 <= w)%Z /\ Z.odd h = true /\ Z.odd w = true /\
    Forall (fun b => ah b = h /\ aw b = w) bs.

Lemma window_lin (a : arr R) h w (l : list (R * arr R)) cx cy y x :
  ah a = h -> aw a = w -> (forall y x, px a y x = lin l y x) ->
  Forall (fun tb => ah (snd tb) = h /\ aw (snd tb) = w) l ->
  window a cx cy y x = fold_right (fun tb s => fst tb * window (snd tb) cx cy y x + s) 0 l.
Proof.
  intros A1 A2 P F. unfold window, plane. rewrite A1, A2.
  set (Y := (y - cy + h / 2)%Z). set (X := (x - cx + w / 2)%Z).
  destruct ((0 <=? Y)%Z && (Y <? h)%Z && (0 <=? X)%Z && (X <? w)%Z)%bool eqn:B.
  - rewrite P. unfold lin. clear P. induction F as [|[t b] l [Q1 Q2] F IH]; cbn; auto. cbn in Q1, Q2.
    rewrite Q1, Q2. fold Y X. rewrite B. f_equal. exact IH.
  - clear P. induction F as [|[t b] l [Q1 Q2] F IH]; cbn; auto. cbn in Q1, Q2.
    rewrite Q1, Q2. fold Y X. rewrite B, <- IH. ring.
Qed.

Lemma sum2_lin {B} (h w : Z) (g : Z -> Z -> R) (l : list (R * B)) (v : B -> Z -> Z -> R) :
  sum2 h w (fun y x => fold_right (fun tb s => fst tb * v (snd tb) y x + s) 0 l * g y x)
  = fold_right (fun tb s => fst tb * sum2 h w (fun y x => v (snd tb) y x * g y x) + s) 0 l.
Proof.
  induction l as [|[t b] l IH]; cbn.
  - rewrite (sum2_ext _ _ _ (fun _ _ => 0)); [apply sum2_0|]. intros; ring.
  - rewrite <- IH, <- sum2_scal, <- sum2_plus. apply sum2_ext. intros. ring.
Qed.

Definition base_ft (sz cx cy : Z) (f : fft) (b : arr R) : Prop := dft_of 1 b sz cx cy f.

Lemma Forall2_imp {A B} (P Q : A -> B -> Prop) l l' : (forall a b, P a b -> Q a b) -> Forall2 P l l' -> Forall2 Q l l'.
Proof. induction 2; constructor; auto. Qed.
Lemma combine_fold (P : fft -> R) (Q : arr R -> R) : forall fs bs, Forall2 (fun f b => P f = Q b) fs bs -> forall ts : list R,
  fold_right (fun tf s => fst tf * P (snd tf) + s) 0 (combine ts fs)
  = fold_right (fun tb s => fst tb * Q (snd tb) + s) 0 (combine ts bs).
Proof.
  induction 1 as [|f b fs bs E F IH]; intros [|t ts]; cbn; auto. rewrite E, IH. reflexivity.
Qed.

Lemma base_fts_ok sz h w : (1 <= sz)%Z -> (1 <= h)%Z -> (1 <= w)%Z -> Z.odd h = true -> Z.odd w = true ->
  forall bs last, Forall (fun b => ah b = h /\ aw b = w) bs ->
  exists fs, base_fts sz bs last = Ok (fs, match bs with [] => last | _ => Some (pad_centre sz w, pad_centre sz h, (sz, sz)) end) /\
    Forall2 (base_ft sz (pad_centre sz w) (pad_centre sz h)) fs bs.
Proof.
  intros HS H1 H2 O1 O2. induction bs as [|b bs IH]; intros last F; cbn [base_fts].
  - eexists; split; [reflexivity|constructor].
  - inversion F as [|? ? [B1 B2] F']; subst.
    assert (OS : odd_stamp b) by (repeat split; auto).
    destruct (pad_window b sz OS HS) as (pad & -> & A1 & A2 & C1 & C2 & P). cbn [bind].
    destruct (IH (Some (pad_centre sz (aw b), pad_centre sz (ah b), (ah pad, aw pad))) F') as (fs & -> & F2). cbn [bind].
    eexists. split.
    + rewrite A1, A2. destruct bs; reflexivity.
    + constructor; auto. apply dft_pad; auto.
Qed.

Definition inv_ex (h w : Z) (s : exstate) : Prop := forall sz e, find_ft sz (e_cache s) = Some e ->
  exists fs, e = (fs, pad_centre sz w, pad_centre sz h, (sz, sz)) /\
    Forall2 (base_ft sz (pad_centre sz w) (pad_centre sz h)) fs (e_bases s).

Lemma ex_ft_ok s h w x y radius a : (1 <= h)%Z -> (1 <= w)%Z -> Z.odd h = true -> Z.odd w = true ->
  Forall (fun b => ah b = h /\ aw b = w) (e_bases s) -> inv_ex h w s -> ex_image s x y = Ok a ->
  exists s' r, ex_ft s x y radius = Ok (s', r) /\ transform a (fft_size radius) r /\ ah a = h /\ aw a = w /\
    e_bases s' = e_bases s /\ e_model s' = e_model s /\ inv_ex h w s'.
Proof.
  intros H1 H2 O1 O2 F I EA. unfold ex_ft. set (sz := fft_size radius).
  pose proof (fft_size_pos radius) as HS. fold sz in HS.
  unfold ex_image in EA. destruct (e_bases s) as [|b0 bs] eqn:EB; [discriminate|].
  rewrite <- EB in *. apply bind_ok in EA. destruct EA as (ts & ET & EA). injection EA as EA.
  assert (B0 : ah b0 = h /\ aw b0 = w) by (rewrite EB in F; inversion F; auto). destruct B0 as [B1 B2].
  destruct (fold_px (combine ts (e_bases s)) (mkArr (ah b0) (aw b0) (fun _ _ => 0))) as (A1 & A2 & P).
  rewrite EA in A1, A2, P. cbn in A1, A2, P. rewrite B1 in A1. rewrite B2 in A2.
  set (cx := pad_centre sz w) in *. set (cy := pad_centre sz h) in *.
  assert (OSA : odd_stamp a) by (unfold odd_stamp; rewrite A1, A2; auto).
  destruct (pad_window a sz OSA HS) as (_ & _ & _ & _ & C1 & C2 & _).
  rewrite A2 in C1. rewrite A1 in C2. fold cx in C1. fold cy in C2.
  assert (FC : Forall (fun tb : R * arr R => ah (snd tb) = h /\ aw (snd tb) = w) (combine ts (e_bases s))).
  { rewrite Forall_forall in *. intros [t b] Hin. apply in_combine_r in Hin. apply (F b); auto. }
  assert (G : forall fs, Forall2 (base_ft sz cx cy) fs (e_bases s) ->
     transform a sz (mkRet (fold_left (fun f tf => fadd f (fscale (fst tf) (snd tf))) (combine ts fs) fzero)
           (IZR cx) (IZR cy) (sz, sz))).
  { intros fs F2. exists cx, cy. split.
    - split; [reflexivity|]. split; [reflexivity|]. do 2 (split; [assumption|]). split; [reflexivity|].
      rewrite A1, A2. split; apply pad_fits.
    - intros k l. cbn [r_fft]. destruct (fold_fft (combine ts fs) fzero k l) as [-> ->]. cbn [fzero fre fim].
      rewrite !Rplus_0_l, !Rmult_1_l. split.
      + rewrite (combine_fold (fun f => fre f k l)
          (fun b => sum2 sz sz (fun y x => window b cx cy y x * cos (angle sz sz k l y x))) fs (e_bases s)).
        * rewrite <- (sum2_lin sz sz (fun y x => cos (angle sz sz k l y x)) _ (fun b y x => window b cx cy y x)).
          apply sum2_ext. intros y' x' _ _. f_equal. symmetry. apply (window_lin a h w); auto. intros; rewrite P; ring.
        * eapply Forall2_imp; [|exact F2]. intros f b D. destruct (D k l) as [-> _]. ring.
      + rewrite (combine_fold (fun f => fim f k l)
          (fun b => - sum2 sz sz (fun y x => window b cx cy y x * sin (angle sz sz k l y x))) fs (e_bases s)).
        * rewrite (sum2_ext sz sz (fun y x => window a cx cy y x * sin (angle sz sz k l y x))
             (fun y x => fold_right (fun tb s => fst tb * window (snd tb) cx cy y x + s) 0 (combine ts (e_bases s))
                * sin (angle sz sz k l y x))).
          -- rewrite (sum2_lin sz sz (fun y x => sin (angle sz sz k l y x)) _ (fun b y x => window b cx cy y x)).
             clear. induction (combine ts (e_bases s)) as [|[t b] L IH]; cbn; [ring|]. rewrite IH. ring.
          -- intros y' x' _ _. f_equal. apply (window_lin a h w); auto. intros; rewrite P; ring.
        * eapply Forall2_imp; [|exact F2]. intros f b D. destruct (D k l) as [_ ->]. ring. }
  destruct (find_ft sz (e_cache s)) as [e|] eqn:FT; cbn [bind].
  - destruct (I _ _ FT) as (fs & -> & F2). fold cx cy. cbn [bind]. rewrite ET. cbn [bind].
    do 2 eexists. split; [reflexivity|]. split; [apply G; exact F2|]. auto.
  - destruct (base_fts_ok sz h w HS H1 H2 O1 O2 (e_bases s) None F) as (fs & E & F2).
    assert (EM : forall q : Z * Z * (Z * Z), match e_bases s with [] => None | _ => Some q end = Some q)
      by (intros q; rewrite EB; reflexivity).
    rewrite EM in E. rewrite E. cbn [bind e_model e_bases]. rewrite ET. cbn [bind].
    do 2 eexists. split; [reflexivity|]. split; [apply G; exact F2|]. do 4 (split; [auto|]).
    intros sz' e. cbn [e_cache e_bases]. rewrite find_cons. destruct (Z.eqb_spec sz sz') as [<-|]; [|apply I].
    intros Q. injection Q as <-. exists fs. split; auto.
Qed.

Lemma exrun_inv h w s0 hist : (1 <= h)%Z -> (1 <= w)%Z -> Z.odd h = true -> Z.odd w = true ->
  Forall (fun b => ah b = h /\ aw b = w) (e_bases s0) -> e_cache s0 = [] ->
  e_bases (exrun s0 hist) = e_bases s0 /\ inv_ex h w (exrun s0 hist).
Proof.
  intros H1 H2 O1 O2 F E0.
  assert (I0 : inv_ex h w s0) by (intros sz e; rewrite E0; discriminate). clear E0.
  unfold exrun. revert s0 F I0. induction hist as [|o hist IH]; intros s0 F I0; cbn [fold_left]; auto.
  assert (G : e_bases (exstep s0 o) = e_bases s0 /\ inv_ex h w (exstep s0 o)).
  { destruct o as [x y r|x y|dx dy|]; cbn [exstep].
    - destruct (ex_image s0 x y) as [a|e] eqn:EA.
      + destruct (ex_ft_ok s0 h w x y r a) as (s' & q & -> & _ & _ & _ & EB & _ & I'); auto.
      + (* no image: no transform either *)
        destruct (ex_ft s0 x y r) as [[s' q]|] eqn:EF; auto.
        exfalso. unfold ex_image in EA. unfold ex_ft in EF.
        destruct (e_bases s0) as [|b0 bs] eqn:EB.
        * destruct (find_ft (fft_size r) (e_cache s0)) as [c|] eqn:FT; [|discriminate].
          destruct (I0 _ _ FT) as (fs & -> & F2). cbn [bind] in EF.
          (* an empty model with a cache cannot arise: its terms cannot be written *)
          unfold polynomials, poly_writes in EF. rewrite EB in EF. cbn [length repeat] in EF.
          destruct (px_degree (e_model s0)); cbn in EF; discriminate.
        * apply bind_ok in EF. destruct EF as ([s1 [[[fs cx] cy] shp]] & E1 & E2).
          apply bind_ok in E2. destruct E2 as (ts & E2 & _).
          assert (EE : e_model s1 = e_model s0 /\ e_bases s1 = e_bases s0).
          { destruct (find_ft (fft_size r) (e_cache s0)).
            - injection E1 as <- _. auto.
            - apply bind_ok in E1. destruct E1 as ([fs' l] & _ & E1). destruct l as [[[? ?] ?]|]; [|discriminate].
              injection E1 as <- _ _ _ _. cbn. auto. }
          destruct EE as [M1 M2]. rewrite M1, M2, EB in E2. rewrite E2 in EA. cbn [bind] in EA. discriminate.
    - auto.
    - split; [reflexivity|]. exact I0.
    - split; [reflexivity|]. intros sz e. discriminate. }
  destruct G as [G1 G2]. destruct (IH (exstep s0 o)) as [E I']; auto.
  { rewrite G1. auto. }
  split; auto. congruence.
Qed.
End Ex.

(** Whatever was asked before and however the model was shifted, the transform a
    PsfEx model gives for a position is the transform of the image it gives for
    that position. *)
Theorem C64_psfex (s0 : exstate) (h : list exop) (x y radius : R) (a : arr R) :
  same_shape_bases (e_bases s0) -> e_cache s0 = [] ->
  let s := exrun s0 h in
  ex_image s x y = Ok a ->
  exists s' r, ex_ft s x y radius = Ok (s', r) /\ transform a (fft_size radius) r.
Proof.
  intros (hh & w & H1 & H2 & O1 & O2 & F) E0 s EA.
  destruct (exrun_inv hh w s0 h H1 H2 O1 O2 F E0) as [EB I].
  destruct (ex_ft_ok s hh w x y radius a) as (s' & r & E & T & _); auto.
  { unfold s. rewrite EB. exact F. }
  eauto.
Qed.

(** With the mixin, if the image has a positive sum and fits: the transform of
    the image divided by its sum, which is the image given out. *)
Theorem C64_psfex_normalized (s0 : exstate) (h : list exop) (x y radius : R) (a : arr R) :
  same_shape_bases (e_bases s0) -> e_cache s0 = [] ->
  let s := exrun s0 h in
  ex_image s x y = Ok a -> 0 < np_sum a -> (ah a <= fft_size radius)%Z -> (aw a <= fft_size radius)%Z ->
  norm_ex_image s x y = Ok (arr_div a (np_sum a)) /\ np_sum (arr_div a (np_sum a)) = 1 /\
  exists s' r, norm_ex_ft s x y radius = Ok (s', r) /\ transform (arr_div a (np_sum a)) (fft_size radius) r.
Proof.
  intros (hh & w & H1 & H2 & O1 & O2 & F) E0 s EA HN B1 B2.
  destruct (exrun_inv hh w s0 h H1 H2 O1 O2 F E0) as [EB I].
  destruct (ex_ft_ok s hh w x y radius a) as (s' & r & E & T & A1 & A2 & _); auto.
  { unfold s. rewrite EB. exact F. }
  split; [|split].
  - unfold norm_ex_image. rewrite EA. cbn [bind]. destruct (Req_EM_T (np_sum a) 0); [lra|reflexivity].
  - rewrite (scaled_sum (/ np_sum a) _ a); [field; lra|].
    split; [auto|]. split; [auto|]. intros. cbn. unfold Rdiv. ring.
  - unfold norm_ex_ft. rewrite E. cbn [bind].
    destruct T as (cx & cy & AC & D). pose proof AC as AC'. destruct AC' as (_ & _ & _ & _ & _ & F1 & F2).
    destruct (normalise 1 a _ cx cy _ Rlt_0_1 D) as [Z0 NN].
    rewrite (window_sum a) in Z0, NN by (auto; lia).
    destruct (Req_EM_T (cabs (r_fft r) 0 0) 0) as [Z|NZ]; [apply Z0 in Z; lra|].
    do 2 eexists. split; [reflexivity|]. exists cx, cy. split; [exact AC|]. cbn [r_fft].
    apply transform_div; [lra|]. rewrite Rabs_pos_eq in NN by lra. apply NN. lra.
Qed.

(** ** Where it fails *)
Lemma sumR_1 f : sumR 1 f = f 0%nat.
Proof. unfold sumR. cbn. ring. Qed.
Definition one_pixel (v : R) : arr R := mkArr 1 1 (fun _ _ => v).
Lemma np_sum_one v : np_sum (one_pixel v) = v.
Proof. unfold np_sum, sum2. cbn [ah aw one_pixel]. change (Z.to_nat 1) with 1%nat. rewrite !sumR_1. reflexivity. Qed.
Lemma norm_one v radius : v <> 0 ->
  exists s r, norm_ft (mkPix (one_pixel v) []) radius = Ok (s, r) /\ fre (r_fft r) 0 0 = v / Rabs v.
Proof.
  intros HV. unfold norm_ft, pix_ft. cbn [p_cache find_ft find p_img].
  assert (OS : odd_stamp (one_pixel v)) by (repeat split; auto; cbn; lia).
  pose proof (fft_size_pos radius) as HS.
  destruct (pad_window (one_pixel v) (fft_size radius) OS HS) as (pad & -> & A1 & A2 & C1 & C2 & P).
  cbn [bind r_fft r_cx r_cy r_shape p_img p_cache].
  pose proof (dft_pad _ _ _ _ _ A1 A2 P) as D.
  pose proof (window_sum (one_pixel v) (fft_size radius) _ _ ltac:(cbn; lia) ltac:(cbn; lia)
     (pad_fits (fft_size radius) (aw (one_pixel v))) (pad_fits (fft_size radius) (ah (one_pixel v)))) as WS.
  rewrite np_sum_one in WS.
  pose proof (cabs_dc _ _ _ _ _ _ D) as CA. rewrite WS, Rmult_1_l in CA.
  destruct (dc_of _ _ _ _ _ _ D) as [DC _]. rewrite WS, Rmult_1_l in DC.
  rewrite CA. destruct (Req_EM_T (Rabs v) 0) as [Z|NZ]; [apply Rabs_no_R0 in HV; contradiction|].
  do 2 eexists. split; [reflexivity|]. cbn [r_fft fdiv fre]. rewrite DC. reflexivity.
Qed.

(** A stamp of negative sum: the sign of the transform depends on whether an
    image was asked for before, since getImage divides the stamp itself by its
    sum and getFourierTransform divides by the absolute value. *)
Theorem C64_negative_refuted :
  exists img s0, pix_new img = Ok s0 /\ np_sum img <> 0 /\ forall radius,
    exists s1 r1 s2 r2,
      norm_ft (run true s0 []) radius = Ok (s1, r1) /\ norm_ft (run true s0 [OImage]) radius = Ok (s2, r2) /\
      fre (r_fft r1) 0 0 = -1 /\ fre (r_fft r2) 0 0 = 1.
Proof.
  exists (one_pixel (-1)), (mkPix (one_pixel (-1)) []). split; [reflexivity|].
  split; [rewrite np_sum_one; lra|]. intros radius.
  destruct (norm_one (-1) radius) as (s1 & r1 & E1 & D1); [lra|].
  destruct (norm_one (-1 / -1) radius) as (s2 & r2 & E2 & D2); [lra|].
  exists s1, r1, s2, r2. split; [exact E1|]. split.
  - unfold run. cbn [fold_left step fst]. unfold norm_image. cbn [p_img].
    rewrite np_sum_one. destruct (Req_EM_T (-1) 0); [lra|]. cbn [fst p_cache]. exact E2.
  - rewrite D1, D2. replace (-1 / -1) with 1 by field. rewrite (Rabs_left (-1)), (Rabs_pos_eq 1) by lra.
    split; field.
Qed.

(** With another sampling than 1 the transform of a PsfEx model depends on the
    first basis image only, whatever the interpolation. *)
Theorem C64_oversampled_first_basis (sample : arr R -> R -> R -> arr R) (trunc : R -> Z) (s s' : exstate) :
  hd_error (e_bases s) = hd_error (e_bases s') ->
  forall x y radius, ex_over_ft sample trunc s x y radius = ex_over_ft sample trunc s' x y radius.
Proof.
  unfold ex_over_ft. destruct (e_bases s), (e_bases s'); cbn; intros E x y radius; try discriminate; auto.
  injection E as ->. reflexivity.
Qed.
(** So galaxies are rendered with another PSF than point sources: a model
    1 + x with one pixel, at x = 1, an interpolation that copies. *)
Theorem C64_oversampled_refuted :
  exists s : exstate, same_shape_bases (e_bases s) /\
  forall (trunc rnd : R -> Z), trunc 1 = 1%Z -> trunc 0 = 0%Z -> rnd 1 = 1%Z -> rnd 0 = 0%Z ->
  forall radius,
  exists a r, ex_over_stamp (fun a _ _ => a) s 1 0 rnd = Ok a /\ np_sum a = 2 /\
    ex_over_ft (fun a _ _ => a) trunc s 1 0 radius = Ok r /\ fre (r_fft r) 0 0 = 1.
Proof.
  exists (mkEx (mkPsfex 0 0 1 1 1) [one_pixel 1; one_pixel 1; one_pixel 0] []). split.
  { exists 1%Z, 1%Z. do 4 (split; [reflexivity || lia|]). repeat constructor. }
  intros trunc rnd T1 T0 R1 R0 radius.
  assert (E : exists a, ex_image (mkEx (mkPsfex 0 0 1 1 1) [one_pixel 1; one_pixel 1; one_pixel 0] []) 1 0 = Ok a /\
     ah a = 1%Z /\ aw a = 1%Z /\ px a 0 0 = 2).
  { eexists. split; [reflexivity|]. split; [reflexivity|]. split; [reflexivity|]. cbn. field. }
  destruct E as (a & E & A1 & A2 & P).
  assert (NS : np_sum a = 2).
  { unfold np_sum, sum2. rewrite A1, A2. change (Z.to_nat 1) with 1%nat. rewrite !sumR_1. exact P. }
  unfold ex_over_stamp. rewrite E. cbn [bind]. unfold over_stamp.
  unfold ex_over_ft, over_ft. cbn [e_bases]. rewrite T1, T0.
  assert (OS : odd_stamp (one_pixel 1)) by (repeat split; auto; cbn; lia).
  pose proof (fft_size_pos radius) as HS.
  destruct (pad_window (one_pixel 1) (fft_size radius) OS HS) as (pad & -> & B1 & B2 & C1 & C2 & Q).
  cbn [bind]. do 2 eexists. split; [reflexivity|]. split; [exact NS|]. split; [reflexivity|]. cbn [r_fft].
  destruct (dc_of _ _ _ _ _ _ (dft_pad _ _ _ _ _ B1 B2 Q)) as [-> _].
  rewrite window_sum; try (cbn; lia); try apply pad_fits. rewrite np_sum_one. ring.
Qed.

(** copy keeps the stamp and forgets its sampling: the copy of an oversampled
    PSF renders stamps of another size. *)
Theorem C64_copy (o : arr R * R) :
  fst (pix_copy o) = fst o /\ (snd o = 1 -> pix_copy o = o) /\
  (0 < snd o <= 1 / 2 -> (3 <= ah (fst o))%Z -> (fst (native_size o) < fst (native_size (pix_copy o)))%Z).
Proof.
  destruct o as [img q]. cbn. split; [reflexivity|]. split; [intros ->; reflexivity|].
  intros [Q1 Q2] H. destruct (Req_EM_T q 1) as [->|N]; [lra|]. destruct (Req_EM_T 1 1) as [_|]; [|lra]. cbn.
  destruct (GalPatchProps.rceil_spec (IZR (ah img) * q)) as [_ U]. apply lt_IZR.
  apply IZR_le in H. nra.
Qed.

(** ** Examples *)
(** A stamp 1 2 1, any history: the hypotheses of C64_normalized hold, and the
    image given out is 1/4, 1/2, 1/4. *)
Definition ex_img : arr R := mkArr 1 3 (fun _ x => if (x =? 1)%Z then 2 else 1).
Lemma ex_sum : np_sum ex_img = 4.
Proof.
  unfold np_sum, sum2. cbn [ah aw ex_img]. change (Z.to_nat 1) with 1%nat. rewrite sumR_1.
  change (Z.to_nat 3) with 3%nat. unfold sumR. cbn [seq map fold_right].
  change (1 + (2 + (1 + 0)) = 4). ring.
Qed.
Example ex_norm : pix_new ex_img = Ok (mkPix ex_img []) /\ 0 < np_sum ex_img /\
  px (snd (norm_image (run true (mkPix ex_img []) [OImage; OFt 3; OImage; OClear]))) 0 1 = 1 / 2.
Proof.
  split; [reflexivity|]. split; [rewrite ex_sum; lra|].
  destruct (C64_normalized ex_img (mkPix ex_img []) [OImage; OFt 3; OImage; OClear] 3) as ((A1 & A2 & P) & _).
  - cbn; lia.
  - cbn; lia.
  - reflexivity.
  - rewrite ex_sum. lra.
  - rewrite P.
    + unfold arr_div. cbn [px]. rewrite ex_sum. cbn. field.
    + rewrite A1. cbn. lia.
    + rewrite A2. cbn. lia.
Qed.
(** A PsfEx model 1 + x, shifted by 3 after a transform was cached: the image at
    x = 0 is that of x = 3 before. *)
Example ex_psfex :
  let s0 := mkEx (mkPsfex 0 0 1 1 1) [one_pixel 1; one_pixel 1; one_pixel 0] [] in
  same_shape_bases (e_bases s0) /\
  exists a, ex_image (exrun s0 [XFt 1 0 5; XShift 3 0]) 0 0 = Ok a /\ px a 0 0 = 4 /\ ah a = 1%Z.
Proof.
  intros s0. split.
  { exists 1%Z, 1%Z. do 4 (split; [reflexivity || lia|]). repeat constructor. }
  assert (F : Forall (fun b => ah b = 1%Z /\ aw b = 1%Z) (e_bases s0)) by (repeat constructor).
  assert (I0 : inv_ex 1 1 s0) by (intros sz e; discriminate).
  assert (EI : exists a, ex_image s0 1 0 = Ok a) by (eexists; reflexivity). destruct EI as [a0 EI].
  destruct (ex_ft_ok s0 1 1 1 0 5 a0) as (s1 & r & E & _ & _ & _ & EB & EM & _); auto; try lia.
  unfold exrun. cbn [fold_left exstep]. rewrite E. unfold ex_image, ex_shift. cbn [e_bases e_model].
  rewrite EB, EM. eexists. split; [reflexivity|]. split; [cbn; field|reflexivity].
Qed.
(** Three rows at sampling 1/2: two rows from the original, three from the copy. *)
Example ex_copy : let o := (mkArr 3 1 (fun _ _ => 1), (1 / 2)%R) in
  fst (native_size o) = 2%Z /\ fst (native_size (pix_copy o)) = 3%Z.
Proof.
  cbn. destruct (Req_EM_T (1 / 2) 1); [lra|]. destruct (Req_EM_T 1 1); [|lra]. cbn. split; [|reflexivity].
  destruct (GalPatchProps.rceil_spec (3 * (1 / 2))) as [L U].
  assert (1 < IZR (rceil (3 * (1 / 2)))) as L1 by lra. assert (IZR (rceil (3 * (1 / 2))) < 3) as L2 by lra.
  apply lt_IZR in L1. apply lt_IZR in L2. lia.
Qed.

Print Assumptions C64_pixelized.
Print Assumptions C64_normalized.
Print Assumptions C64_normalized_whole.
Print Assumptions C64_psfex.
Print Assumptions C64_psfex_normalized.
Print Assumptions C64_negative_refuted.
Print Assumptions C64_oversampled_first_basis.
Print Assumptions C64_oversampled_refuted.
Print Assumptions C64_copy.
