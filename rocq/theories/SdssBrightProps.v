(** C92: bright stars in SDSS images. *)
From Coq Require Import List ZArith Reals Bool Lia Lra.
From Verif Require Import Base PatchModel PatchSpec PatchProofs PatchProps SdssBrightModel.
Import ListNotations.
Local Open Scope R_scope.

(** ** Specification *)
(** The power-law part at a squared distance. *)
Definition wing (b : bpsf) (r2 : R) : R := a3 b * Rpower (1 + r2 / (beta b * (sigmap b * sigmap b))) (- beta b / 2).
(** The whole profile at a distance: two Gaussians and the power law. *)
Definition sdss_law (b : bpsf) (r : R) : R :=
  a1 b * exp (- (r / s1 b) ^ 2 / 2) + a2 b * exp (- (r / s2 b) ^ 2 / 2) +
  a3 b * / Rpower (1 + (r / sigmap b) ^ 2 / beta b) (beta b / 2).
Definition dist2 (px_ py_ : R) (X Y : Z) : R := (IZR X - px_) * (IZR X - px_) + (IZR Y - py_) * (IZR Y - py_).

(** The share of the bright profile: none below thresh2, all from thresh on, in
    between linear. *)
Definition share (ts : option R * option R) (counts w : R) : Prop :=
  match ts with
  | (Some t1, Some t2) =>
      (counts < t2 -> w = 0) /\ (t1 <= counts -> w = 1) /\ (t2 <= counts <= t1 -> w * (t1 - t2) = counts - t2)
  | _ => w = 0
  end.

(** ** Lemmas *)
Lemma floor_bounds x : IZR (floor x) <= x < IZR (floor x) + 1.
Proof. unfold floor. destruct (base_Int_part x). lra. Qed.
Lemma ceil_bounds x : IZR (ceil x) - 1 < x <= IZR (ceil x).
Proof. unfold ceil. rewrite opp_IZR. destruct (base_Int_part (- x)). lra. Qed.

Lemma clip_bounds x lo hi : lo <= hi -> lo <= clip x lo hi <= hi.
Proof. unfold clip. intros H. split; [apply Rmin_glb; [apply Rmax_r|exact H]|apply Rmin_r]. Qed.

Lemma Rabs_inv x a : Rabs x <= a -> - a <= x <= a.
Proof. unfold Rabs. destruct (Rcase_abs x); lra. Qed.

Lemma radius_bounds b dc : 25 <= radius b dc <= 200.
Proof. apply clip_bounds. lra. Qed.

Lemma sum_upto_scal f n s : sum_upto Rplus 0 (fun k => f k / s) n = sum_upto Rplus 0 f n / s.
Proof. induction n as [|n IH]; cbn [sum_upto]; [unfold Rdiv; ring|]. rewrite IH. unfold Rdiv. ring. Qed.
Lemma sum_upto_ext f g n : (forall k, f k = g k) -> sum_upto Rplus 0 f n = sum_upto Rplus 0 g n.
Proof. intros E. induction n as [|n IH]; cbn [sum_upto]; [reflexivity|]. rewrite IH, E. reflexivity. Qed.
Lemma sum_upto_pos_all f n : (0 < n)%nat -> (forall k, 0 < f k) -> 0 < sum_upto Rplus 0 f n.
Proof.
  intros Hn H. destruct n as [|n]; [lia|]. clear Hn. cbn [sum_upto].
  enough (0 <= sum_upto Rplus 0 f n) by (specialize (H n); lra).
  induction n as [|n IH]; cbn [sum_upto]; [lra|]. specialize (H n). lra.
Qed.

Lemma img_in (p : patch R) a X Y : pimg p = Some a -> (x0 p <= X < x0 p + aw a)%Z -> (y0 p <= Y < y0 p + ah a)%Z ->
  img_at 0 p X Y = px a (Y - y0 p) (X - x0 p).
Proof.
  intros E HX HY. unfold img_at, val_at. rewrite E.
  replace ((x0 p <=? X) && (X <? x0 p + aw a) && (y0 p <=? Y) && (Y <? y0 p + ah a))%Z with true; [reflexivity|].
  symmetry. rewrite !andb_true_iff, !Z.leb_le, !Z.ltb_lt. lia.
Qed.

Lemma img_scaled p f X Y : img_at 0 (scaled p f) X Y = img_at 0 p X Y * f.
Proof.
  unfold img_at, val_at, scaled. destruct (pimg p) as [a|] eqn:E; cbn [pimg x0 y0 aw ah px]; [|ring].
  destruct (_ && _)%Z; ring.
Qed.

(** *** The patch of the bright profile *)
(** A proper profile: no negative part, not all zero. *)
Definition proper (b : bpsf) : Prop := 0 <= a1 b /\ 0 <= a2 b /\ 0 <= a3 b /\ 0 < a1 b + a2 b + a3 b.

Lemma profile_pos b r2 : proper b -> 0 < profile b r2.
Proof.
  intros (H1 & H2 & H3 & H). unfold profile, Rpower.
  set (u := exp _). set (v := exp (_ / (s2 b * s2 b))). set (w := exp _).
  assert (0 < u) by apply exp_pos. assert (0 < v) by apply exp_pos. assert (0 < w) by apply exp_pos.
  assert (0 <= a1 b * u) by (apply Rmult_le_pos; lra). assert (0 <= a2 b * v) by (apply Rmult_le_pos; lra). assert (0 <= a3 b * w) by (apply Rmult_le_pos; lra).
  destruct (Req_dec (a1 b) 0) as [E1|E1]; [|assert (0 < a1 b * u) by (apply Rmult_lt_0_compat; lra); lra].
  destruct (Req_dec (a2 b) 0) as [E2|E2]; [|assert (0 < a2 b * v) by (apply Rmult_lt_0_compat; lra); lra].
  assert (0 < a3 b * w) by (apply Rmult_lt_0_compat; lra). lra.
Qed.

Lemma box_size b px_ py_ dc : let r := radius b dc in
  (0 < ceil (px_ + r) + 1 - floor (px_ - r))%Z /\ (0 < ceil (py_ + r) + 1 - floor (py_ - r))%Z.
Proof.
  intros r. pose proof (radius_bounds b dc) as B. fold r in B.
  pose proof (floor_bounds (px_ - r)). pose proof (ceil_bounds (px_ + r)). pose proof (floor_bounds (py_ - r)). pose proof (ceil_bounds (py_ + r)).
  split; apply lt_IZR; rewrite minus_IZR, plus_IZR; lra.
Qed.

(** The patch sums to one, and is the profile up to one factor. *)
Lemma profile_law b r2 : 0 <= r2 -> profile b r2 = sdss_law b (sqrt r2).
Proof.
  intro H. unfold profile, sdss_law. rewrite <- Rpower_Ropp. unfold Rdiv. rewrite !Rpow_mult_distr. cbn [pow]. rewrite !Rmult_1_r, sqrt_sqrt by exact H.
  rewrite !Rinv_mult. f_equal; [f_equal; f_equal; f_equal; lra|]. f_equal. f_equal; [f_equal; ring|ring].
Qed.
Theorem C92_patch b px_ py_ dc : proper b -> exists a s,
  let p := bright_patch b px_ py_ dc in
  pimg p = Some a /\ wf_arr a /\ 0 < s /\ arr_sum Rplus 0 a = 1 /\
  (forall X Y, Rabs (IZR X - px_) <= radius b dc -> Rabs (IZR Y - py_) <= radius b dc ->
     img_at 0 p X Y = sdss_law b (sqrt (dist2 px_ py_ X Y)) / s) /\
  (forall X Y, radius b dc + 1 <= Rabs (IZR X - px_) \/ radius b dc + 1 <= Rabs (IZR Y - py_) -> img_at 0 p X Y = 0).
Proof.
  intros PB. destruct (box_size b px_ py_ dc) as (HX & HY). unfold bright_patch. set (r := radius b dc) in *. cbv zeta.
  set (X0 := floor (px_ - r)) in *. set (X1 := ceil (px_ + r)) in *. set (Y0 := floor (py_ - r)) in *. set (Y1 := ceil (py_ + r)) in *.
  cbn [ah aw px pimg x0 y0].
  set (a := mkArr (Y1 + 1 - Y0) (X1 + 1 - X0) (fun y x : Z => profile b
    ((IZR (X0 + x) - px_) * (IZR (X0 + x) - px_) + (IZR (Y0 + y) - py_) * (IZR (Y0 + y) - py_)))). set (s := arr_sum Rplus 0 a).
  assert (SP : 0 < s).
  { unfold s, arr_sum. apply sum_upto_pos_all; [cbn [ah a]; lia|]. intros k. apply sum_upto_pos_all; [cbn [aw a]; lia|].
    intros j. cbn [px a]. apply profile_pos. exact PB. }
  exists (mkArr (Y1 + 1 - Y0) (X1 + 1 - X0) (fun y x => px a y x / s)), s.
  split; [reflexivity|]. split; [split; cbn; lia|]. split; [exact SP|]. split.
  { unfold arr_sum. cbn [ah aw px].
    transitivity (s / s); [|field; lra]. unfold s at 2, arr_sum. rewrite <- sum_upto_scal. apply sum_upto_ext. intros k.
    rewrite <- sum_upto_scal. reflexivity. }
  pose proof (floor_bounds (px_ - r)) as B1. pose proof (ceil_bounds (px_ + r)) as B2. pose proof (floor_bounds (py_ - r)) as B3. pose proof (ceil_bounds (py_ + r)) as B4.
  fold X0 in B1. fold X1 in B2. fold Y0 in B3. fold Y1 in B4. split.
  - intros X Y AX AY. apply Rabs_inv in AX. apply Rabs_inv in AY.
    assert (X0 <= X <= X1)%Z by (split; apply le_IZR; lra). assert (Y0 <= Y <= Y1)%Z by (split; apply le_IZR; lra).
    erewrite img_in; [|reflexivity|cbn [x0 aw]; lia|cbn [y0 ah]; lia]. cbn [px x0 y0]. unfold a. cbn [px].
    replace (X0 + (X - X0))%Z with X by lia. replace (Y0 + (Y - Y0))%Z with Y by lia. rewrite <- profile_law; [reflexivity|]. unfold dist2. apply Rplus_le_le_0_compat; apply Rle_0_sqr.
  - intros X Y AX. unfold img_at, val_at. cbn [pimg x0 y0 aw ah].
    destruct (_ && _)%Z eqn:E; [|reflexivity]. exfalso. rewrite !andb_true_iff, !Z.leb_le, !Z.ltb_lt in E.
    destruct E as (((E1 & E2) & E3) & E4).
    assert (X <= X1)%Z as E2' by lia. assert (Y <= Y1)%Z as E4' by lia.
    apply IZR_le in E1, E2', E3, E4'. unfold Rabs in AX. destruct AX as [AX|AX]; destruct (Rcase_abs _) in AX; lra.
Qed.

(** *** The radius *)
Lemma ln_mono x y : 0 < x -> x <= y -> ln x <= ln y.
Proof. intros H [L|E]; [left; apply ln_increasing; assumption|subst; right; reflexivity]. Qed.

Lemma wing_mono b t u : 0 <= a3 b -> 0 < beta b -> sigmap b <> 0 -> 0 <= t <= u -> wing b u <= wing b t.
Proof.
  intros HA HB HS HT. unfold wing. apply Rmult_le_compat_l; [exact HA|]. unfold Rpower.
  assert (K : 0 < beta b * (sigmap b * sigmap b)).
  { apply Rmult_lt_0_compat; [exact HB|]. destruct (Rtotal_order (sigmap b) 0) as [L|[L|L]]; [|contradiction|].
    - replace (sigmap b * sigmap b) with ((- sigmap b) * (- sigmap b)) by ring. apply Rmult_lt_0_compat; lra.
    - apply Rmult_lt_0_compat; lra. }
  set (k := beta b * (sigmap b * sigmap b)) in *.
  assert (T0 : 0 <= t / k) by (apply Rmult_le_pos; [lra|left; apply Rinv_0_lt_compat; exact K]).
  assert (TU : t / k <= u / k) by (apply Rmult_le_compat_r; [left; apply Rinv_0_lt_compat; exact K|lra]).
  assert (L : ln (1 + t / k) <= ln (1 + u / k)) by (apply ln_mono; lra).
  assert (M : - beta b / 2 * ln (1 + u / k) <= - beta b / 2 * ln (1 + t / k)) by nra.
  destruct M as [M|M]; [left; apply exp_increasing; exact M|rewrite M; right; reflexivity].
Qed.

Lemma wing_zero b : wing b 0 = a3 b.
Proof. unfold wing, Rpower. replace (1 + 0 / (beta b * (sigmap b * sigmap b))) with 1 by (unfold Rdiv; ring). rewrite ln_1, Rmult_0_r, exp_0. ring. Qed.

Lemma raw_radius b dc : 0 < dc -> dc <= a3 b -> 0 < beta b -> sigmap b <> 0 ->
  let q := beta b * (sigmap b * sigmap b) * (Rpower (dc / a3 b) (- 2 / beta b) - 1) in
  0 <= q /\ wing b q = dc.
Proof.
  intros HD HA HB HS q.
  assert (K : 0 < beta b * (sigmap b * sigmap b)).
  { apply Rmult_lt_0_compat; [exact HB|]. destruct (Rtotal_order (sigmap b) 0) as [L|[L|L]]; [|contradiction|].
    - replace (sigmap b * sigmap b) with ((- sigmap b) * (- sigmap b)) by ring. apply Rmult_lt_0_compat; lra.
    - apply Rmult_lt_0_compat; lra. }
  set (k := beta b * (sigmap b * sigmap b)) in *.
  assert (P : 0 < dc / a3 b) by (apply Rmult_lt_0_compat; [lra|apply Rinv_0_lt_compat; lra]).
  assert (P1 : dc / a3 b <= 1).
  { apply Rmult_le_reg_r with (a3 b); [lra|]. unfold Rdiv. rewrite Rmult_assoc, Rinv_l by lra. lra. }
  assert (L : ln (dc / a3 b) <= 0) by (rewrite <- ln_1; apply ln_mono; assumption).
  assert (IB : 0 < / beta b) by (apply Rinv_0_lt_compat; exact HB).
  assert (G : 1 <= Rpower (dc / a3 b) (- 2 / beta b)).
  { unfold Rpower. rewrite <- exp_0. assert (0 <= - 2 / beta b * ln (dc / a3 b)) by (unfold Rdiv; nra).
    destruct H as [H|H]; [left; apply exp_increasing; exact H|rewrite <- H; right; reflexivity]. }
  split.
  - unfold q. apply Rmult_le_pos; lra.
  - unfold wing. fold k. replace (1 + q / k) with (Rpower (dc / a3 b) (- 2 / beta b)) by (unfold q; field; lra).
    rewrite Rpower_mult. replace (- 2 / beta b * (- beta b / 2)) with 1 by (field; lra).
    rewrite Rpower_1 by exact P. field. lra.
Qed.

(** Where the wing has fallen to the tolerance at 200 pixels, nothing of it above
    the tolerance is cut off. *)
Theorem C92_radius b px_ py_ dc X Y : 0 < dc -> 0 <= a3 b -> 0 < beta b -> sigmap b <> 0 -> wing b (200 * 200) <= dc ->
  val_at (bright_patch b px_ py_ dc) X Y = None -> wing b (dist2 px_ py_ X Y) <= dc.
Proof.
  intros HD HA HB HS H200 HV. set (r := radius b dc).
  pose proof (radius_bounds b dc) as RB. fold r in RB.
  assert (D : r * r <= dist2 px_ py_ X Y).
  { unfold bright_patch in HV. fold r in HV. cbv zeta in HV. unfold val_at in HV. cbn [pimg x0 y0 aw ah] in HV.
    pose proof (floor_bounds (px_ - r)) as B1. pose proof (ceil_bounds (px_ + r)) as B2. pose proof (floor_bounds (py_ - r)) as B3. pose proof (ceil_bounds (py_ + r)) as B4.
    destruct (_ && _)%Z eqn:E in HV; [discriminate|]. clear HV.
    set (X0 := floor (px_ - r)) in *. set (X1 := ceil (px_ + r)) in *. set (Y0 := floor (py_ - r)) in *. set (Y1 := ceil (py_ + r)) in *.
    assert (C : (X <= X0 - 1 \/ X1 + 1 <= X \/ Y <= Y0 - 1 \/ Y1 + 1 <= Y)%Z).
    { rewrite !andb_false_iff, !Z.leb_gt, !Z.ltb_ge in E. lia. }
    unfold dist2. set (u := IZR X - px_). set (v := IZR Y - py_).
    assert (C' : u <= - r \/ r <= u \/ v <= - r \/ r <= v).
    { unfold u, v. destruct C as [C|[C|[C|C]]]; apply IZR_le in C; rewrite ?minus_IZR, ?plus_IZR in C; [left|right; left|right; right; left|right; right; right]; lra. }
    pose proof (Rle_0_sqr u). pose proof (Rle_0_sqr v). unfold Rsqr in *. destruct C' as [C'|[C'|[C'|C']]]; nra. }
  apply Rle_trans with (wing b (r * r)); [apply wing_mono; try assumption; split; [nra|exact D]|].
  unfold r, radius in *. destruct (Rlt_dec (a3 b) dc) as [L|L].
  - apply Rle_trans with (wing b 0); [apply wing_mono; try assumption; split; [lra|apply Rle_0_sqr]|]. rewrite wing_zero. lra.
  - destruct (raw_radius b dc HD ltac:(lra) HB HS) as (Q & W). cbv zeta in *.
    set (q := beta b * (sigmap b * sigmap b) * (Rpower (dc / a3 b) (- 2 / beta b) - 1)) in *.
    destruct (Rle_dec (sqrt q) 200) as [S|S].
    + rewrite <- W. apply wing_mono; try assumption. split; [exact Q|]. rewrite <- (sqrt_sqrt q Q) at 1.
      pose proof (sqrt_pos q). assert (sqrt q <= clip (sqrt q) 25 200).
      { unfold clip. apply Rmin_glb; [apply Rmax_l|exact S]. }
      apply Rmult_le_compat; lra.
    + replace (clip (sqrt q) 25 200) with 200; [exact H200|]. unfold clip. rewrite Rmin_right; [reflexivity|].
      apply Rle_trans with (sqrt q); [lra|apply Rmax_l].
Qed.

(** *** The source *)
Lemma fractions_share ts counts : (match ts with (Some t1, Some t2) => t2 < t1 | (None, Some _) => False | _ => True end) ->
  exists fb, fractions ts counts = Ok (fb, 1 - fb) /\ share ts counts fb.
Proof.
  destruct ts as ([t1|] & [t2|]); cbn [fractions fst snd share]; intros H; try contradiction.
  - destruct (Rle_dec t2 counts) as [L|L].
    + destruct (Req_EM_T (t1 - t2) 0); [lra|]. eexists. split; [reflexivity|]. unfold clip.
      set (w := (counts - t2) / (t1 - t2)). assert (W : w * (t1 - t2) = counts - t2) by (unfold w; field; lra).
      assert (W0 : 0 <= w).
      { unfold w. apply Rmult_le_pos; [lra|left; apply Rinv_0_lt_compat; lra]. }
      rewrite (Rmax_left w 0) by lra. split; [intros; lra|]. split.
      * intros G. apply Rmin_right. nra.
      * intros G. rewrite Rmin_left; [exact W|]. nra.
    + exists 0. split; [f_equal; f_equal; ring|]. split; [reflexivity|]. split; intros; lra.
  - exists 0. split; [f_equal; f_equal; ring|reflexivity].
  - exists 0. split; [f_equal; f_equal; ring|reflexivity].
Qed.

(** The model of a source: counts times the mixture of the two profiles, with
    the share of the bright one going from none at thresh2 to all at thresh. *)
Theorem C92_model b ord noise px_ py_ thresh thresh2 ts counts a : proper b ->
  pimg ord = Some a -> wf_arr a -> point thresh thresh2 = Ok ts -> thresh2 <> thresh \/ thresh2 = None ->
  (forall t, thresh = Some t -> 0 < t) -> counts <> 0 ->
  exists p w, model_patch b ord noise px_ py_ ts false counts = Ok (Some p) /\ share ts counts w /\
    forall X Y, img_at 0 p X Y =
      counts * (w * img_at 0 (bright_patch b px_ py_ (1 / 1000 * noise / counts)) X Y + (1 - w) * img_at 0 ord X Y).
Proof.
  intros PB EA WA EP NE PT NC.
  assert (TS : match ts with (Some t1, Some t2) => t2 < t1 | (None, Some _) => False | _ => True end).
  { unfold point in EP. destruct thresh2 as [t2|], thresh as [t|]; try discriminate.
    - destruct (Rle_dec t2 t) as [L|L]; [|discriminate]. injection EP as <-. destruct NE as [NE|NE]; [|discriminate].
      destruct L as [L|L]; [exact L|]. subst. contradiction.
    - injection EP as <-. specialize (PT t eq_refl). lra.
    - injection EP as <-. exact I. }
  destruct (fractions_share ts counts TS) as (fb & EF & SH).
  unfold model_patch. destruct (Req_EM_T counts 0); [contradiction|]. rewrite EF. cbn [bind].
  set (B := bright_patch b px_ py_ (1 / 1000 * noise / counts)).
  destruct (C92_patch b px_ py_ (1 / 1000 * noise / counts) PB) as (ab & s & EB & WB & _). cbv zeta in EB. fold B in EB.
  destruct (Req_EM_T fb 0) as [F|F].
  - destruct (Req_EM_T (1 - fb) 0); [lra|]. cbn [bind]. exists (scaled ord counts), fb.
    split; [reflexivity|]. split; [exact SH|]. intros X Y. rewrite img_scaled, F. ring.
  - destruct (Req_EM_T (1 - fb) 0) as [G|G]; cbn [bind].
    + exists (scaled (scaled B fb) counts), fb. split; [reflexivity|]. split; [exact SH|].
      intros X Y. rewrite !img_scaled, G. ring.
    + destruct (C19_arithmetic_pointwise R 0 Rplus (scaled B fb) (scaled ord (1 - fb))
        (mkArr (ah ab) (aw ab) (fun y x => px ab y x * fb)) (mkArr (ah a) (aw a) (fun y x => px a y x * (1 - fb)))) as (r & cc & E & _ & _ & _ & _ & _ & V).
      * unfold scaled. rewrite EB. reflexivity.
      * unfold scaled. rewrite EA. reflexivity.
      * exact WB.
      * exact WA.
      * intros x. apply Rplus_0_r.
      * rewrite E. cbn [bind]. exists (scaled r counts), fb. split; [reflexivity|]. split; [exact SH|].
        intros X Y. rewrite img_scaled, V, !img_scaled. ring.
Qed.

(** No counts: no patch. *)
Theorem C92_none b ord noise px_ py_ ts : model_patch b ord noise px_ py_ ts false 0 = Ok None.
Proof. unfold model_patch. destruct (Req_EM_T 0 0); [reflexivity|contradiction]. Qed.

(** Thresholds that are allowed to be equal: every bright source fails. *)
Theorem C92_equal_refuted b ord noise px_ py_ t counts : 0 < t -> t <= counts ->
  exists ts, point (Some t) (Some t) = Ok ts /\ model_patch b ord noise px_ py_ ts false counts = Err ZeroDivisionError.
Proof.
  intros HT HC. exists (Some t, Some t). unfold point. destruct (Rle_dec t t); [|lra]. split; [reflexivity|].
  unfold model_patch, fractions. cbn [fst snd]. destruct (Req_EM_T counts 0); [lra|]. destruct (Rle_dec t counts); [|lra].
  destruct (Req_EM_T (t - t) 0); [reflexivity|lra].
Qed.

(** With a model mask, no source can be drawn. *)
Theorem C92_mask_refuted b ord noise px_ py_ ts counts : model_patch b ord noise px_ py_ ts true counts = Err AssertionError.
Proof. reflexivity. Qed.

(** ** Example *)
Definition ex_b : bpsf := mkB 1 1 0 1 1 1 2.
Definition ex_ord : patch R := mkPatch 0 0 (Some (mkArr 1 1 (fun _ _ => 1))).
Example C92_ex : proper ex_b /\ (exists ts, point (Some 100) None = Ok ts /\ exists p, model_patch ex_b ex_ord 1 0 0 ts false 70 = Ok (Some p) /\
  forall X Y, img_at 0 p X Y = 70 * (1 / 2 * img_at 0 (bright_patch ex_b 0 0 (1 / 1000 * 1 / 70)) X Y + (1 - 1 / 2) * img_at 0 ex_ord X Y)).
Proof.
  assert (PB : proper ex_b) by (unfold proper, ex_b; cbn; lra). split; [exact PB|].
  eexists. split; [reflexivity|].
  destruct (C92_model ex_b ex_ord 1 0 0 (Some 100) None (Some 100, Some (100 / (5 / 2))) 70 _ PB eq_refl) as (p & w & E & S & V).
  - split; cbn; lia.
  - reflexivity.
  - right; reflexivity.
  - intros t H. injection H as <-. lra.
  - lra.
  - exists p. split; [exact E|]. cbn [share] in S. destruct S as (_ & _ & S).
    assert (W : w = 1 / 2) by (assert (T : 100 / (5 / 2) <= 70 <= 100) by lra; specialize (S T); lra).
    rewrite <- W. exact V.
Qed.

(** Its wings reach the tolerance of 1/10000 within 200 pixels. *)
Example C92_ex_wing : wing ex_b (200 * 200) <= 1 / 10000.
Proof.
  unfold wing, ex_b. cbn [a3 beta sigmap]. replace (1 + 200 * 200 / (2 * (1 * 1))) with 20001 by field.
  replace (- (2) / 2) with (- (1)) by field. rewrite Rpower_Ropp, Rpower_1 by lra.
  rewrite Rmult_1_l. unfold Rdiv. rewrite Rmult_1_l. apply Rinv_le_contravar; lra.
Qed.

Print Assumptions C92_patch.
Print Assumptions C92_radius.
Print Assumptions C92_model.
Print Assumptions C92_none.
Print Assumptions C92_equal_refuted.
Print Assumptions C92_mask_refuted.
