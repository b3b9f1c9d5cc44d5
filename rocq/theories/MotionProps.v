(** C78: where a moving point source is at a time.
    C79: its derivatives. *)
From Coq Require Import String List ZArith Bool Reals Lra Lia Psatz.
From Verif Require Import Base ParamsModel ParamsSpec ParamsProofs ParamsProofs2 ParamsProps
  ClassCopyModel ClassCopyProps DerivModel DerivSpec DerivProofs DerivProps PatchModel PatchSpec PatchProofs PatchProps
  CompositeModel CompositeProps MotionModel.
Import ListNotations.
Open Scope R_scope.

(** ** Time *)
Lemma cos_turns : forall x k, cos (x + 2 * PI * IZR k) = cos x.
Proof.
  intros x k. destruct (Z_le_gt_dec 0 k) as [H|H].
  - rewrite <- (Z2Nat.id k) by exact H. rewrite <- INR_IZR_INZ.
    replace (x + 2 * PI * INR (Z.to_nat k)) with (x + 2 * INR (Z.to_nat k) * PI) by ring. apply cos_period.
  - rewrite <- (cos_period (x + 2 * PI * IZR k) (Z.to_nat (- k))). f_equal.
    rewrite INR_IZR_INZ, Z2Nat.id by lia. rewrite opp_IZR. ring.
Qed.
Lemma sin_turns : forall x k, sin (x + 2 * PI * IZR k) = sin x.
Proof.
  intros x k. destruct (Z_le_gt_dec 0 k) as [H|H].
  - rewrite <- (Z2Nat.id k) by exact H. rewrite <- INR_IZR_INZ.
    replace (x + 2 * PI * INR (Z.to_nat k)) with (x + 2 * INR (Z.to_nat k) * PI) by ring. apply sin_period.
  - rewrite <- (sin_period (x + 2 * PI * IZR k) (Z.to_nat (- k))). f_equal.
    rewrite INR_IZR_INZ, Z2Nat.id by lia. rewrite opp_IZR. ring.
Qed.

Lemma dpy : daysperyear = 365.25. Proof. unfold daysperyear. lra. Qed.
Lemma dpy_pos : 0 < daysperyear. Proof. unfold daysperyear. lra. Qed.
Lemma eqx : equinox = 53084.28. Proof. unfold equinox. lra. Qed.
Lemma j2k : mjd2k = 51544.5. Proof. unfold mjd2k. lra. Qed.

(** The angle of the Sun at a modified Julian date: 0 at the spring equinox of
    2004, one turn in 365.25 days. *)
Definition sun_angle (mjd : R) : R := 2 * PI * ((mjd - 53084.28) / 365.25).

Theorem C78_time : forall v mjd k,
  tai_init None (Some mjd) = Some (mjd * 86400) /\ to_mjd (mjd * 86400) = mjd /\
  to_years (v + k * (365.25 * 86400)) = to_years v + k /\
  to_year ((51544.5 + k * 365.25) * 86400) = 2000 + k /\
  (cos (sun_theta v) = cos (sun_angle (to_mjd v)) /\ sin (sun_theta v) = sin (sun_angle (to_mjd v))).
Proof.
  intros v mjd k. split; [cbn; f_equal; ring|]. split; [unfold to_mjd; field|].
  pose proof dpy_pos. split; [unfold to_years; rewrite <- dpy; field; lra|].
  split; [unfold to_year, to_years; rewrite <- dpy, <- j2k; field; lra|].
  unfold sun_theta, fmod.
  replace (2 * PI * (to_mjd v - equinox) / daysperyear) with (sun_angle (to_mjd v)) by (unfold sun_angle; rewrite <- dpy, <- eqx; field; lra).
  set (a := sun_angle _). set (n := trunc _).
  replace (a - 2 * PI * IZR n) with (a + 2 * PI * IZR (- n)) by (rewrite opp_IZR; ring).
  split; [apply cos_turns|apply sin_turns].
Qed.

(** The angle itself is less than a turn. *)
Theorem C78_theta_range : forall v, - (2 * PI) < sun_theta v < 2 * PI.
Proof.
  intros v. unfold sun_theta, fmod. set (x := 2 * PI * (to_mjd v - equinox) / daysperyear).
  pose proof PI_RGT_0 as P. set (q := x / (2 * PI)).
  assert (E : x = 2 * PI * q) by (unfold q; field; lra). rewrite E. clearbody q. clear E x.
  assert (B : -1 < q - IZR (trunc q) < 1).
  { unfold trunc. destruct (Rle_dec 0 q).
    - destruct (base_Int_part q). lra.
    - destruct (base_Int_part (- q)). rewrite opp_IZR. lra. }
  nra.
Qed.

(** ** Place *)
Definition dot (a b : vec) : R := let '(ax, ay, az) := a in let '(bx, by_, bz) := b in ax * bx + ay * by_ + az * bz.
Definition cross (a b : vec) : vec :=
  let '(ax, ay, az) := a in let '(bx, by_, bz) := b in (ay * bz - az * by_, az * bx - ax * bz, ax * by_ - ay * bx).
Definition norm2 (a : vec) : R := dot a a.

Section Moving.
Context (arcsecperrad axistilt : R) (xyztoradec : vec -> R * R).
Notation position_at := (position_at arcsecperrad axistilt xyztoradec).

Definition dir (p : R * R) : vec := radectoxyz (fst p) (snd p).
(** xyztoradec gives the direction of its argument. *)
Definition gives_direction : Prop :=
  forall v, norm2 v <> 0 -> dir (xyztoradec v) = vscale (/ sqrt (norm2 v)) v.

(** The Sun's direction at time t, on the ecliptic. *)
Definition sun_dir (t : R) : vec :=
  let a := sun_angle (t / 86400) in
  (cos a, sin a * cos (rad axistilt), sin a * sin (rad axistilt)).

Definition planar2 (p : ptree R) : Prop := match p with PList l => length (l_vals l) = 2%nat | _ => False end.
Definition a_source (src : ptree R) : Prop :=
  exists nm pos br pm par liq, src = PMulti nm [pos; br; pm; PScalar par] liq /\ planar2 pos /\ planar2 pm /\ br <> PNone /\ wf src.
(** Parameter j of member k. *)
Definition par_of (src : ptree R) (k j : nat) : R := nth j (get_all_params (member src k)) 0.

(** Position at the epoch plus time in Julian years times proper motion. *)
Definition moved (epoch : R) (src : ptree R) (t : R) : R * R :=
  let yr := (t - epoch) / (365.25 * 86400) in
  (par_of src 0 0 + yr * par_of src 2 0, par_of src 0 1 + yr * par_of src 2 1).
(** ... and the parallax moves it towards the Sun. *)
Definition apparent (epoch : R) (src : ptree R) (t : R) : vec :=
  vadd (dir (moved epoch src t)) (vscale (par_of src 3 0 / arcsecperrad) (sun_dir t)).

Lemma rad_90 : rad 90 = PI / 2. Proof. unfold rad. field. Qed.
Lemma rad_0 : rad 0 = 0. Proof. unfold rad. field. Qed.
Lemma sun_step_eq : forall t, arcsecperrad <> 0 ->
  sun_step arcsecperrad axistilt (sun_theta t) = vscale (/ arcsecperrad) (sun_dir t).
Proof.
  intros t HA. destruct (C78_time t 0 0) as (_ & _ & _ & _ & EC & ES). unfold sun_step, sun_dir.
  rewrite EC, ES. replace (t / 86400) with (to_mjd t) by (unfold to_mjd; field).
  set (a := sun_angle _). unfold radectoxyz. rewrite rad_90, rad_0, cos_0, sin_0, cos_PI2, sin_PI2.
  unfold vscale, vadd. f_equal; [f_equal|]; ring.
Qed.

Lemma plist_two : forall l : plist R, length (l_vals l) = 2%nat -> exists a b, l_vals l = [a; b].
Proof. intros l H. destruct (l_vals l) as [|a [|b [|]]]; try discriminate. exists a, b. reflexivity. Qed.

Lemma position_ok : forall epoch src t, a_source src -> arcsecperrad <> 0 ->
  position_at epoch src (Some t) = Ok (xyztoradec (apparent epoch src t)).
Proof.
  intros epoch src t (nm & pos & br & pm & par & liq & -> & P1 & P2 & _ & _) HA.
  destruct pos as [| | |lp|]; try contradiction. destruct pm as [| | |lm|]; try contradiction. cbn in P1, P2.
  destruct (plist_two lp P1) as (ra & dec & Ep). destruct (plist_two lm P2) as (mr & md & Em).
  unfold MotionModel.position_at, sub. cbn [py_get nth_error bind].
  destruct (C62_reflected 1 rops Mul (PList lm) (to_years (t - epoch))) as (m & E1 & G1 & _); [auto|intros; apply Rmult_comm|exact Logic.I|].
  rewrite E1. cbn [bind].
  destruct (C62_binop 1 rops Add (PList lp) (OParams m)) as (p & E2 & G2 & _); [discriminate|exact Logic.I|exact Logic.I|].
  rewrite E2. cbn [bind].
  assert (GA : get_all_params p = [ra + to_years (t - epoch) * mr; dec + to_years (t - epoch) * md]).
  { rewrite G2. unfold combined. rewrite G1. cbn [get_all_params]. rewrite Ep, Em. reflexivity. }
  rewrite GA. cbn [py_get nth_error bind]. rewrite sun_step_eq by exact HA.
  unfold apparent, moved, par_of, member. cbn [nth get_all_params]. rewrite Ep, Em. cbn [nth]. unfold dir. cbn [fst snd].
  pose proof dpy_pos.
  replace ((t - epoch) / (365.25 * 86400)) with (to_years (t - epoch)) by (unfold to_years; rewrite <- dpy; field; lra).
  f_equal. f_equal. f_equal. unfold sun_dir, vscale. f_equal; [f_equal|]; field; exact HA.
Qed.

(** The direction in which the source is drawn. *)
Theorem C78_position : forall epoch src t, gives_direction -> a_source src -> arcsecperrad <> 0 ->
  norm2 (apparent epoch src t) <> 0 ->
  exists p, position_at epoch src (Some t) = Ok p /\
    dir p = vscale (/ sqrt (norm2 (apparent epoch src t))) (apparent epoch src t).
Proof.
  intros epoch src t HD HS HA HN. exists (xyztoradec (apparent epoch src t)). split; [apply position_ok; assumption|apply HD; exact HN].
Qed.

Lemma unit_dir : forall p, norm2 (dir p) = 1.
Proof.
  intros p. unfold dir, radectoxyz, norm2, dot. set (c := cos _). set (a := cos _). set (s := sin _). set (b := sin _).
  assert (E1 : c * c + b * b = 1) by (unfold c, b; pose proof (sin2_cos2 (rad (snd p))); unfold Rsqr in *; lra).
  assert (E2 : a * a + s * s = 1) by (unfold a, s; pose proof (sin2_cos2 (rad (fst p))); unfold Rsqr in *; lra).
  replace (c * a * (c * a) + c * s * (c * s) + b * b) with (c * c * (a * a + s * s) + b * b) by ring.
  rewrite E2. lra.
Qed.
Lemma unit_sun : forall t, norm2 (sun_dir t) = 1.
Proof.
  intros t. unfold sun_dir, norm2, dot. set (a := sun_angle _).
  pose proof (sin2_cos2 a) as E1. pose proof (sin2_cos2 (rad axistilt)) as E2. unfold Rsqr in *.
  set (ca := cos a) in *. set (sa := sin a) in *. set (c := cos (rad axistilt)) in *. set (s := sin (rad axistilt)) in *.
  replace (ca * ca + sa * c * (sa * c) + sa * s * (sa * s)) with (ca * ca + sa * sa * (s * s + c * c)) by ring. rewrite E2. lra.
Qed.

(** Without parallax: the position moves linearly in RA and Dec. *)
Theorem C78_linear : forall epoch src t, gives_direction -> a_source src -> arcsecperrad <> 0 -> par_of src 3 0 = 0 ->
  exists p, position_at epoch src (Some t) = Ok p /\ dir p = dir (moved epoch src t).
Proof.
  intros epoch src t HD HS HA H0.
  assert (E : apparent epoch src t = dir (moved epoch src t)).
  { unfold apparent. rewrite H0. destruct (dir (moved epoch src t)) as [[x y] z]. destruct (sun_dir t) as [[a b] c].
    unfold vadd, vscale. f_equal; [f_equal|]; field; exact HA. }
  destruct (C78_position epoch src t HD HS HA) as (p & E1 & E2); [rewrite E, unit_dir; lra|].
  exists p. split; [exact E1|]. rewrite E2, E, unit_dir, sqrt_1. destruct (dir (moved epoch src t)) as [[x y] z].
  unfold vscale. f_equal; [f_equal|]; field.
Qed.

(** With no motion either, it stays. *)
Theorem C78_at_rest : forall epoch src t, gives_direction -> a_source src -> arcsecperrad <> 0 ->
  par_of src 3 0 = 0 -> par_of src 2 0 = 0 -> par_of src 2 1 = 0 ->
  exists p, position_at epoch src (Some t) = Ok p /\ dir p = dir (par_of src 0 0, par_of src 0 1).
Proof.
  intros epoch src t HD HS HA H0 H1 H2. destruct (C78_linear epoch src t HD HS HA H0) as (p & E1 & E2).
  exists p. split; [exact E1|]. rewrite E2. unfold moved. rewrite H1, H2. f_equal. f_equal; ring.
Qed.

(** Without proper motion the source comes back after whole Julian years. *)
Theorem C78_year : forall epoch src t k, a_source src -> arcsecperrad <> 0 -> par_of src 2 0 = 0 -> par_of src 2 1 = 0 ->
  position_at epoch src (Some (t + IZR k * (365.25 * 86400))) = position_at epoch src (Some t).
Proof.
  intros epoch src t k HS HA H1 H2. rewrite !position_ok by assumption. f_equal. f_equal. unfold apparent, moved. rewrite H1, H2.
  f_equal.
  - f_equal. f_equal; ring.
  - f_equal. unfold sun_dir.
    replace (sun_angle ((t + IZR k * (365.25 * 86400)) / 86400)) with (sun_angle (t / 86400) + 2 * PI * IZR k)
      by (pose proof dpy_pos; unfold sun_angle; rewrite <- dpy; field; lra).
    rewrite cos_turns, sin_turns. reflexivity.
Qed.

(** The parallax turns the direction by at most its own size: the sine of the
    angle is at most parallax / arcsecperrad, and the move is in the plane of
    star and Sun. *)
Theorem C78_parallax : forall epoch src t p, gives_direction -> a_source src -> arcsecperrad <> 0 ->
  norm2 (apparent epoch src t) <> 0 -> position_at epoch src (Some t) = Ok p ->
  let n := dir (moved epoch src t) in let e := par_of src 3 0 / arcsecperrad in
  norm2 (cross n (dir p)) <= e * e /\ dot (cross n (sun_dir t)) (dir p) = 0 /\
  norm2 (vadd (apparent epoch src t) (vscale (-1) n)) = e * e.
Proof.
  intros epoch src t p HD HS HA HN HP n e.
  destruct (C78_position epoch src t HD HS HA HN) as (p' & E1 & E2). rewrite HP in E1. injection E1 as <-. rewrite E2. clear E2 HP.
  pose proof (unit_dir (moved epoch src t)) as U1. fold n in U1. pose proof (unit_sun t) as U2.
  assert (EA : apparent epoch src t = vadd n (vscale e (sun_dir t))) by reflexivity. rewrite EA in *. clear EA.
  generalize dependent (sun_dir t). intros s HN U2. clearbody n e.
  destruct n as [[x y] z]. destruct s as [[a b] c].
  set (v := vadd (x, y, z) (vscale e (a, b, c))) in *.
  assert (Pos : 0 < norm2 v).
  { assert (0 <= norm2 v) by (unfold norm2, dot; destruct v as [[? ?] ?]; nra). lra. }
  set (r := sqrt (norm2 v)). assert (R0 : 0 < r) by (apply sqrt_lt_R0; exact Pos).
  assert (RR : r * r = norm2 v) by (apply sqrt_sqrt; lra).
  unfold norm2, dot in U1, U2. split; [|split].
  - set (d := x * a + y * b + z * c).
    assert (EV : norm2 v = (x * x + y * y + z * z) + 2 * e * d + e * e * (a * a + b * b + c * c))
      by (unfold v, norm2, dot, vadd, vscale, d; ring).
    assert (EC : norm2 (cross (x, y, z) (vscale (/ r) v)) * (r * r)
                 = e * e * ((x * x + y * y + z * z) * (a * a + b * b + c * c) - d * d))
      by (unfold v, norm2, dot, cross, vadd, vscale, d; field; lra).
    rewrite U1, U2 in EV, EC.
    assert (M : norm2 (cross (x, y, z) (vscale (/ r) v)) * (r * r) <= e * e * (r * r)).
    { rewrite EC, RR, EV. apply Rmult_le_compat_l; [nra|]. pose proof (Rle_0_sqr (e + d)). unfold Rsqr in *. lra. }
    apply Rmult_le_reg_r with (r * r); [nra|exact M].
  - unfold v, dot, cross, vadd, vscale. field. lra.
  - transitivity (e * e * (a * a + b * b + c * c)); [unfold v, norm2, dot, vadd, vscale; ring|rewrite U2; ring].
Qed.

(** ** Derivatives *)
Section Derivs.
Context (psf : R * R -> option (patch R)) (pixel : R * R -> option (ptree R) -> R * R) (counts : ptree R -> R).
Context (epoch time : R).
Notation moving_derivs := (moving_derivs arcsecperrad axistilt xyztoradec psf pixel counts epoch (Some time)).
Notation moving_patch := (moving_patch arcsecperrad axistilt xyztoradec psf pixel epoch (Some time)).
Notation step_body := (step_body arcsecperrad axistilt xyztoradec psf pixel epoch (Some time)).
Notation bump := (bump 1 Rplus).

Definition has_pixels (p : option (patch R)) : Prop := exists q a, p = Some q /\ pimg q = Some a /\ wf_arr a.
(** The image of the source: counts times the PSF where the source is seen. *)
Definition drawn (src : ptree R) : option (patch R) := psf (pixel (xyztoradec (apparent epoch src time)) (Some src)).
Definition image_of (src : ptree R) (X Y : Z) : R := counts (member src 1) * value (drawn src) X Y.

Lemma same_kind : forall s i v s' old, wf s -> set_param s i v = Ok (s', old) ->
  (planar2 s -> planar2 s') /\ (s <> PNone -> s' <> PNone) /\ (forall x, s = PScalar x -> exists x', s' = PScalar x').
Proof.
  intros s i v s' old W E. destruct s as [| | x | l | nm subs liq]; cbn in E.
  - discriminate.
  - discriminate.
  - destruct (i =? 0)%Z; [|discriminate]. injection E as <- <-. split; [intros []|]. split; [discriminate|]. intros. eexists. reflexivity.
  - apply bind_ok in E. destruct E as (ii & _ & E). apply bind_ok in E. destruct E as (o & _ & E). injection E as <- <-.
    split; [cbn; rewrite upd_length; auto|]. split; discriminate.
  - apply bind_ok in E. destruct E as (r & _ & E). injection E as <- <-. split; [intros []|]. split; discriminate.
Qed.

Lemma patch_sub_ok : forall p q, has_pixels p -> has_pixels q ->
  exists r, patch_sub p q = Ok r /\ forall X Y, img_at 0 r X Y = value p X Y - value q X Y.
Proof.
  intros p q (p1 & a & -> & Ea & Wa) (q1 & b & -> & Eb & Wb).
  destruct (C19_arithmetic_pointwise R 0 Rminus p1 q1 a b Ea Eb Wa Wb) as (r & c & E & _ & _ & _ & _ & _ & H); [intros; lra|].
  exists r. split; [exact E|exact H].
Qed.

Lemma bump_wf : forall s i st s', wf s -> s <> PNone -> bump s i st s' -> wf s'.
Proof.
  intros s i st s' W NN HB. assert (HI := bump_lt 1 Rplus _ _ _ _ W HB). destruct HB as (v & E1 & E2 & E3).
  destruct (C04_set_one_param v s i (v + st) W NN HI) as (s2 & old & F1 & _ & _ & _ & _ & F2 & _).
  rewrite F1 in E3. injection E3 as <- _. exact F2.
Qed.

(** A loop over the parameters of one member. *)
Lemma step_member : forall nm subs liq k s c0 p0, wf (PMulti nm subs liq) -> nth_error subs k = Some s -> s <> PNone ->
  arcsecperrad <> 0 ->
  (forall i st s', bump s i st s' -> a_source (PMulti nm (upd k s' subs) liq) /\ has_pixels (drawn (PMulti nm (upd k s' subs) liq))) ->
  has_pixels p0 ->
  exists ds, step_loop R (step_body k c0 p0) 0 (get_step_sizes 1 s) (get_params s) (PMulti nm subs liq) = Ok (ds, PMulti nm subs liq) /\
    length ds = number_of_params s /\
    forall i st s', bump s i st s' -> exists d, nth_error ds i = Some d /\
      forall X Y, img_at 0 d X Y = c0 / st * (value (drawn (PMulti nm (upd k s' subs) liq)) X Y - value p0 X Y).
Proof.
  intros nm subs liq k s c0 p0 W E NN HA HG HP.
  set (G := fun (st : R) (t : ptree R) => match patch_sub (drawn t) p0 with Ok d => pmul d (c0 / st) | Err _ => mkPatch 0 0 None end).
  destruct (member_loop 1 Rplus nm subs liq k s (step_body k c0 p0) G W E NN) as (ds & E1 & E2 & E3).
  - intros i st v s' HB EV. destruct (HG i st s' HB) as (HS & HD). assert (HI : (i < number_of_params s)%nat) by (eapply bump_lt; [eapply wf_sub; eauto|exact HB]).
    unfold MotionModel.step_body.
    destruct (stepped_ok nm subs liq k s i (v + st)
      (fun s0 => tpos <- position_at epoch s0 (Some time) ;; Ok (psf (pixel tpos (Some s0)))) W E NN HI) as (s2 & old & F1 & F2 & F3 & ->).
    destruct HB as (v' & G1 & G2 & G3). rewrite EV in G1. injection G1 as <-. rewrite G3 in F1. injection F1 as <- <-.
    rewrite position_ok by assumption. cbn [bind fst snd]. unfold G. fold (drawn (PMulti nm (upd k s' subs) liq)).
    destruct (patch_sub_ok _ p0 HD HP) as (r & -> & _). reflexivity.
  - exists ds. split; [exact E1|]. split; [exact E2|]. intros i st s' HB. exists (G st (PMulti nm (upd k s' subs) liq)).
    split; [apply E3; exact HB|]. intros X Y. unfold G. destruct (HG i st s' HB) as (_ & HD).
    destruct (patch_sub_ok _ p0 HD HP) as (r & -> & HR). rewrite img_pmul, HR. reflexivity.
Qed.

Lemma bright_member : forall nm subs liq s c0 p0, wf (PMulti nm subs liq) -> nth_error subs 1 = Some s -> s <> PNone ->
  has_pixels p0 ->
  exists ds, step_loop R (mbright_body counts c0 p0) 0 (get_step_sizes 1 s) (get_params s) (PMulti nm subs liq) = Ok (ds, PMulti nm subs liq) /\
    length ds = number_of_params s /\
    forall i st s', bump s i st s' -> exists d, nth_error ds i = Some d /\
      forall X Y, img_at 0 d X Y = (counts s' - c0) / st * value p0 X Y.
Proof.
  intros nm subs liq s c0 p0 W E NN (q & a & -> & Ea & Wa).
  set (G := fun (st : R) (t : ptree R) => pmul q ((counts (member t 1) - c0) / st)).
  assert (HK : (1 < length subs)%nat) by (apply nth_error_Some; congruence).
  assert (HM : forall s', member (PMulti nm (upd 1 s' subs) liq) 1 = s').
  { intros s'. unfold member. rewrite (nth_error_nth _ _ _ (nth_error_upd_same 1 s' subs HK)). reflexivity. }
  destruct (member_loop 1 Rplus nm subs liq 1 s (mbright_body counts c0 (Some q)) G W E NN) as (ds & E1 & E2 & E3).
  - intros i st v s' HB EV. assert (HI : (i < number_of_params s)%nat) by (eapply bump_lt; [eapply wf_sub; eauto|exact HB]).
    unfold mbright_body.
    destruct (stepped_ok nm subs liq 1 s i (v + st) (fun t' => b <- sub R t' 1 ;; Ok (counts b)) W E NN HI) as (s2 & old & F1 & F2 & F3 & ->).
    destruct HB as (v' & G1 & G2 & G3). rewrite EV in G1. injection G1 as <-. rewrite G3 in F1. injection F1 as <- <-.
    unfold sub, py_get. rewrite nth_error_upd_same by exact HK. cbn [bind fst snd]. unfold G. rewrite HM. reflexivity.
  - exists ds. split; [exact E1|]. split; [exact E2|]. intros i st s' HB. exists (G st (PMulti nm (upd 1 s' subs) liq)).
    split; [apply E3; exact HB|]. intros X Y. unfold G. rewrite HM, img_pmul. reflexivity.
Qed.

(** One derivative per parameter, in the order of the parameters, each the
    difference of the source's images divided by the step; the source is left
    as it was. *)
Theorem C79_derivs : forall src, a_source src -> arcsecperrad <> 0 -> (forall p, has_pixels (psf p)) ->
  (forall p s, pixel p s = pixel p None) ->
  exists ds, moving_derivs src = Ok (ds, src) /\ length ds = number_of_params src /\
    forall k st src', bump src k st src' -> st <> 0 -> exists d, nth_error ds k = Some d /\
      forall X Y, img_at 0 d X Y = (image_of src' X Y - image_of src X Y) / st.
Proof.
  intros src HS HA HP HX. assert (HS' := HS).
  destruct HS' as (nm & pos & br & pm & par & liq & -> & P1 & P2 & NB & W).
  set (t := PMulti nm [pos; br; pm; PScalar par] liq) in *.
  assert (N0 : pos <> PNone) by (intros ->; exact P1). assert (N2 : pm <> PNone) by (intros ->; exact P2).
  assert (N3 : PScalar par <> PNone) by discriminate.
  assert (W' := W). destruct W' as [HL HW]. simpl in HL. destruct HW as (W0 & W1 & W2 & W3 & _).
  destruct liq as [|l0 [|l1 [|l2 [|l3 [|? ?]]]]]; simpl in HL; try lia.
  destruct (before4 nm pos br pm (PScalar par) l0 l1 l2 l3 N0 NB N2 N3) as (B1 & B2 & B3 & B4). fold t in B1, B2, B3, B4.
  unfold MotionModel.moving_derivs. rewrite position_ok by assumption. cbn [bind].
  change (sub R t 1) with (@Ok (ptree R) br). cbn [bind]. fold (drawn t). set (c0 := counts br).
  assert (HD : has_pixels (drawn t)) by apply HP.
  assert (K0 : exists d0, member_derivs 0 (step_body 0 c0 (drawn t)) t = Ok (d0, t) /\ length d0 = width l0 pos /\
    forall i st s', l0 = true -> bump pos i st s' -> exists d, nth_error d0 i = Some d /\
      forall X Y, img_at 0 d X Y = c0 / st * (value (drawn (PMulti nm [s'; br; pm; PScalar par] [l0; l1; l2; l3])) X Y - value (drawn t) X Y)).
  { unfold member_derivs. change (is_frozen R t 0) with (negb l0). destruct l0; cbn [negb]; [|exists []; split; [reflexivity|split; [reflexivity|discriminate]]].
    change (sub R t 0) with (@Ok (ptree R) pos). cbn [bind].
    destruct (step_member nm [pos; br; pm; PScalar par] [true; l1; l2; l3] 0 pos c0 (drawn t) W eq_refl N0 HA) as (ds & E1 & E2 & E3); [|exact HD|].
    - intros i st s' HB. split; [|apply HP]. assert (HB' := HB). destruct HB' as (v & _ & _ & E). destruct (same_kind _ _ _ _ _ W0 E) as (Q1 & Q2 & _).
      exists nm, s', br, pm, par, [true; l1; l2; l3]. split; [reflexivity|]. split; [auto|]. split; [exact P2|]. split; [exact NB|].
      split; [reflexivity|]. cbn. pose proof (bump_wf _ _ _ _ W0 N0 HB). tauto.
    - exists ds. split; [exact E1|]. split; [exact E2|]. intros i st s' _ HB. exact (E3 i st s' HB). }
  assert (K1 : exists d1, member_derivs 1 (mbright_body counts c0 (drawn t)) t = Ok (d1, t) /\ length d1 = width l1 br /\
    forall i st s', l1 = true -> bump br i st s' -> exists d, nth_error d1 i = Some d /\
      forall X Y, img_at 0 d X Y = (counts s' - c0) / st * value (drawn t) X Y).
  { unfold member_derivs. change (is_frozen R t 1) with (negb l1). destruct l1; cbn [negb]; [|exists []; split; [reflexivity|split; [reflexivity|discriminate]]].
    change (sub R t 1) with (@Ok (ptree R) br). cbn [bind].
    destruct (bright_member nm [pos; br; pm; PScalar par] [l0; true; l2; l3] br c0 (drawn t) W eq_refl NB HD) as (ds & E1 & E2 & E3).
    exists ds. split; [exact E1|]. split; [exact E2|]. intros i st s' _ HB. exact (E3 i st s' HB). }
  assert (K2 : exists d2, member_derivs 2 (step_body 2 c0 (drawn t)) t = Ok (d2, t) /\ length d2 = width l2 pm /\
    forall i st s', l2 = true -> bump pm i st s' -> exists d, nth_error d2 i = Some d /\
      forall X Y, img_at 0 d X Y = c0 / st * (value (drawn (PMulti nm [pos; br; s'; PScalar par] [l0; l1; l2; l3])) X Y - value (drawn t) X Y)).
  { unfold member_derivs. change (is_frozen R t 2) with (negb l2). destruct l2; cbn [negb]; [|exists []; split; [reflexivity|split; [reflexivity|discriminate]]].
    change (sub R t 2) with (@Ok (ptree R) pm). cbn [bind].
    destruct (step_member nm [pos; br; pm; PScalar par] [l0; l1; true; l3] 2 pm c0 (drawn t) W eq_refl N2 HA) as (ds & E1 & E2 & E3); [|exact HD|].
    - intros i st s' HB. split; [|apply HP]. assert (HB' := HB). destruct HB' as (v & _ & _ & E). destruct (same_kind _ _ _ _ _ W2 E) as (Q1 & Q2 & _).
      exists nm, pos, br, s', par, [l0; l1; true; l3]. split; [reflexivity|]. split; [exact P1|]. split; [auto|]. split; [exact NB|].
      split; [reflexivity|]. cbn. pose proof (bump_wf _ _ _ _ W2 N2 HB). tauto.
    - exists ds. split; [exact E1|]. split; [exact E2|]. intros i st s' _ HB. exact (E3 i st s' HB). }
  assert (K3 : exists d3, member_derivs 3 (step_body 3 c0 (drawn t)) t = Ok (d3, t) /\ length d3 = width l3 (PScalar par) /\
    forall i st s', l3 = true -> bump (PScalar par) i st s' -> exists d, nth_error d3 i = Some d /\
      forall X Y, img_at 0 d X Y = c0 / st * (value (drawn (PMulti nm [pos; br; pm; s'] [l0; l1; l2; l3])) X Y - value (drawn t) X Y)).
  { unfold member_derivs. change (is_frozen R t 3) with (negb l3). destruct l3; cbn [negb]; [|exists []; split; [reflexivity|split; [reflexivity|discriminate]]].
    change (sub R t 3) with (@Ok (ptree R) (PScalar par)). cbn [bind].
    destruct (step_member nm [pos; br; pm; PScalar par] [l0; l1; l2; true] 3 (PScalar par) c0 (drawn t) W eq_refl N3 HA) as (ds & E1 & E2 & E3); [|exact HD|].
    - intros i st s' HB. split; [|apply HP]. assert (HB' := HB). destruct HB' as (v & _ & _ & E). destruct (same_kind _ _ _ _ _ W3 E) as (_ & _ & Q3).
      destruct (Q3 par eq_refl) as (x' & ->).
      exists nm, pos, br, pm, x', [l0; l1; l2; true]. split; [reflexivity|]. split; [exact P1|]. split; [exact P2|]. split; [exact NB|].
      split; [reflexivity|]. cbn. tauto.
    - exists ds. split; [exact E1|]. split; [exact E2|]. intros i st s' _ HB. exact (E3 i st s' HB). }
  destruct K0 as (d0 & -> & L0 & H0). cbn [bind fst snd]. destruct K1 as (d1 & -> & L1 & H1). cbn [bind fst snd].
  destruct K2 as (d2 & -> & L2 & H2). cbn [bind fst snd]. destruct K3 as (d3 & -> & L3 & H3). cbn [bind fst snd].
  exists (d0 ++ d1 ++ d2 ++ d3). split; [reflexivity|]. split; [rewrite !app_length; lia|].
  intros k st src' HB Hst. pose proof (bump_lt 1 Rplus _ _ _ _ W HB) as HK. unfold image_of.
  change (member t 1) with br. fold c0.
  destruct (Nat.lt_ge_cases k (before t 1)) as [C|C].
  { destruct l0; [|unfold width in B1; lia].
    destruct (bump_sub 1 Rplus t nm [pos; br; pm; PScalar par] [true; l1; l2; l3] 0 pos k st src' k eq_refl W eq_refl eq_refl N0) as (s' & HS1 & ->);
      [unfold width in B1; lia|reflexivity|exact HB|].
    destruct (H0 k st s' eq_refl HS1) as (d & Ed & Q). exists d. split; [rewrite nth_error_app1 by lia; exact Ed|].
    intros X Y. rewrite Q. cbn [upd]. change (member (PMulti nm [s'; br; pm; PScalar par] [true; l1; l2; l3]) 1) with br. fold c0. field. exact Hst. }
  rewrite nth_error_app2 by lia.
  destruct (Nat.lt_ge_cases k (before t 2)) as [C2|C2].
  { destruct l1; [|unfold width in *; lia].
    destruct (bump_sub 1 Rplus t nm [pos; br; pm; PScalar par] [l0; true; l2; l3] 1 br k st src' (k - before t 1)%nat eq_refl W eq_refl eq_refl NB) as (s' & HS1 & ->);
      [unfold width in *; lia|lia|exact HB|].
    destruct (H1 _ st s' eq_refl HS1) as (d & Ed & Q). exists d. split; [rewrite L0, <- B1, nth_error_app1 by (unfold width in *; lia); exact Ed|].
    intros X Y. rewrite Q. cbn [upd].
    change (member (PMulti nm [pos; s'; pm; PScalar par] [l0; true; l2; l3]) 1) with s'.
    assert (ED : value (drawn (PMulti nm [pos; s'; pm; PScalar par] [l0; true; l2; l3])) X Y = value (drawn t) X Y)
      by (unfold drawn; rewrite (HX _ (Some t)), (HX _ (Some _)); reflexivity).
    rewrite ED. field. exact Hst. }
  rewrite nth_error_app2 by (unfold width in *; lia).
  destruct (Nat.lt_ge_cases k (before t 3)) as [C3|C3].
  { destruct l2; [|unfold width in *; lia].
    destruct (bump_sub 1 Rplus t nm [pos; br; pm; PScalar par] [l0; l1; true; l3] 2 pm k st src' (k - before t 2)%nat eq_refl W eq_refl eq_refl N2) as (s' & HS1 & ->);
      [unfold width in *; lia|lia|exact HB|].
    destruct (H2 _ st s' eq_refl HS1) as (d & Ed & Q). exists d.
    split; [replace (k - length d0 - length d1)%nat with (k - before t 2)%nat by lia; rewrite nth_error_app1 by (unfold width in *; lia); exact Ed|].
    intros X Y. rewrite Q. cbn [upd]. change (member (PMulti nm [pos; br; s'; PScalar par] [l0; l1; true; l3]) 1) with br. fold c0. field. exact Hst. }
  rewrite nth_error_app2 by (unfold width in *; lia).
  destruct l3; [|unfold width in *; lia].
  destruct (bump_sub 1 Rplus t nm [pos; br; pm; PScalar par] [l0; l1; l2; true] 3 (PScalar par) k st src' (k - before t 3)%nat eq_refl W eq_refl eq_refl N3) as (s' & HS1 & ->);
    [unfold width in *; lia|lia|exact HB|].
  destruct (H3 _ st s' eq_refl HS1) as (d & Ed & Q). exists d.
  split; [replace (k - length d0 - length d1 - length d2)%nat with (k - before t 3)%nat by lia; exact Ed|].
  intros X Y. rewrite Q. cbn [upd]. change (member (PMulti nm [pos; br; pm; s'] [l0; l1; l2; true]) 1) with br. fold c0. field. exact Hst.
Qed.

(** The image drawn is the one whose derivatives these are, for a WCS that does
    not look at the source. *)
Theorem C79_patch : forall src, a_source src -> arcsecperrad <> 0 -> (forall p s, pixel p s = pixel p None) ->
  moving_patch src = Ok (drawn src).
Proof.
  intros src HS HA HX. unfold MotionModel.moving_patch. rewrite position_ok by assumption. cbn [bind].
  unfold drawn. rewrite (HX _ (Some src)). reflexivity.
Qed.

(** A PSF that draws nothing at the source's place makes the derivatives fail. *)
Theorem C79_off_image_refuted : forall nm pos br pm par liq, let src := PMulti nm [pos; br; pm; PScalar par] liq in
  a_source src -> arcsecperrad <> 0 -> (forall p, psf p = None) -> is_frozen R src 3 = false ->
  is_frozen R src 0 = true -> is_frozen R src 1 = true -> is_frozen R src 2 = true ->
  moving_derivs src = Err TypeError.
Proof.
  intros nm pos br pm par liq src HS HA HP F3 F0 F1 F2. unfold MotionModel.moving_derivs.
  rewrite position_ok by assumption. cbn [bind].
  change (sub R src 1) with (@Ok (ptree R) br). cbn [bind]. unfold member_derivs.
  rewrite F0. cbn [bind fst snd]. rewrite F1. cbn [bind fst snd]. rewrite F2. cbn [bind fst snd]. rewrite F3.
  change (sub R src 3) with (@Ok (ptree R) (PScalar par)). cbn [bind get_step_sizes get_params step_loop py_get nth_error].
  unfold MotionModel.step_body, stepped, sub_set. change (sub R src 3) with (@Ok (ptree R) (PScalar par)).
  cbn [bind set_param Z.of_nat Z.eqb fst snd].
  rewrite position_ok; [|destruct HS as (nm' & pos' & br' & pm' & par' & liq' & E & P1 & P2 & NB & W);
     injection E as <- <- <- <- <- <-; eexists nm, pos, br, pm, _, liq; split; [reflexivity|]; split; [exact P1|]; split; [exact P2|]; split; [exact NB|];
     destruct W as (L & W); split; [exact L|]; cbn in *; tauto | exact HA].
  cbn [bind]. rewrite !HP. reflexivity.
Qed.
End Derivs.

(** An image without a time cannot show a moving source. *)
Theorem C78_no_time_refuted : forall epoch src, position_at epoch src None = Err TypeError.
Proof. reflexivity. Qed.
End Moving.

(** ** Copies *)
Theorem C78_copy_refuted : forall pos br pm parallax epoch,
  wf (mk_multi moving_names [pos; br; pm; parallax_obj parallax]) ->
  no_none (mk_multi moving_names [pos; br; pm; parallax_obj parallax]) ->
  moving_copy (moving_init pos br pm parallax epoch) = Err AttributeError.
Proof.
  intros pos br pm parallax epoch W NN. unfold moving_copy, moving_init. cbn [m_tree m_radii].
  destruct (C10_copy_preserves 1 _ W NN) as (t' & E & _). rewrite E. reflexivity.
Qed.
(** With the missing attributes set by hand, the copy loses the epoch. *)
Theorem C78_copy_epoch_refuted : forall t epoch r t' e b,
  moving_copy (mkMoving t epoch (Some r)) = Ok (t', e, b) -> e = 0 /\ b = true.
Proof.
  intros t epoch r t' e b H. unfold moving_copy in H. cbn [m_tree m_radii] in H. apply bind_ok in H. destruct H as (x & _ & H).
  injection H as _ <- <-. auto.
Qed.

(** The Lutz-Kelker prior has no maximum: it grows without bound towards
    parallax 0, which is legal. *)
Theorem C78_prior_unbounded_refuted : forall B, exists p q, 0 < p /\ lk_legal p = true /\ lk_prior p = Some q /\ B < q.
Proof.
  intros B. exists (exp (- (B + 1) / 4)), (B + 1). pose proof (exp_pos (- (B + 1) / 4)) as P. split; [exact P|].
  unfold lk_legal, lk_prior. destruct (Rle_dec 0 _); [|lra]. destruct (Rlt_dec _ 0); [lra|]. split; [reflexivity|].
  rewrite ln_exp. split; [f_equal; field|lra].
Qed.

(** ** Cases *)
(** An inverse of radectoxyz. *)
Definition to_ra (x y : R) : R := (if Rle_dec 0 y then acos x else - acos x) * 180 / PI.
Definition to_radec (v : vec) : R * R :=
  let '(x, y, z) := vscale (/ sqrt (norm2 v)) v in
  let c := sqrt (1 - Rsqr z) in
  (if Req_EM_T c 0 then 0 else to_ra (x / c) y, asin z * 180 / PI).
Lemma rad_deg : forall x, rad (x * 180 / PI) = x.
Proof. intros. unfold rad. field. apply PI_neq0. Qed.
Lemma norm2_scale : forall k v, norm2 (vscale k v) = k * k * norm2 v.
Proof. intros k [[x y] z]. unfold norm2, dot, vscale. ring. Qed.
Example C78_ex_direction : gives_direction to_radec.
Proof.
  intros v HN. assert (P : 0 < norm2 v).
  { assert (0 <= norm2 v) by (unfold norm2, dot; destruct v as [[? ?] ?]; nra). lra. }
  assert (U : norm2 (vscale (/ sqrt (norm2 v)) v) = 1).
  { rewrite norm2_scale. pose proof (sqrt_sqrt (norm2 v)) as S2. pose proof (sqrt_lt_R0 _ P).
    set (r := sqrt (norm2 v)) in *. rewrite <- S2 by lra. field. lra. }
  unfold to_radec. destruct (vscale (/ sqrt (norm2 v)) v) as [[x y] z]. clear v HN P. unfold norm2, dot in U.
  unfold dir, radectoxyz. cbn [fst snd]. rewrite rad_deg.
  assert (Z1 : -1 <= z <= 1) by (split; nra).
  rewrite sin_asin, cos_asin by exact Z1. set (c := sqrt (1 - Rsqr z)).
  assert (CC : c * c = x * x + y * y) by (unfold c; rewrite sqrt_sqrt; unfold Rsqr; nra).
  assert (C0 : 0 <= c) by apply sqrt_pos.
  destruct (Req_EM_T c 0) as [E|E].
  - rewrite E, Rmult_0_l in CC. destruct (Rplus_sqr_eq_0 x y) as (-> & ->); [unfold Rsqr; lra|]. rewrite E. f_equal. f_equal; ring.
  - assert (C1 : 0 < c) by lra.
    assert (X1 : -1 <= x / c <= 1).
    { split; apply Rmult_le_reg_r with c; try exact C1; unfold Rdiv; rewrite Rmult_assoc, Rinv_l by lra; nra. }
    assert (S2 : sqrt (1 - Rsqr (x / c)) = Rabs y / c).
    { replace (1 - Rsqr (x / c)) with (Rsqr (y / c)).
      - rewrite sqrt_Rsqr_abs. unfold Rdiv. rewrite Rabs_mult, (Rabs_pos_eq (/ c)); [reflexivity|]. left. apply Rinv_0_lt_compat. exact C1.
      - unfold Rsqr. apply Rmult_eq_reg_r with (c * c); [|nra]. field_simplify; [|lra|lra]. nra. }
    unfold to_ra. rewrite rad_deg. destruct (Rle_dec 0 y).
    + rewrite cos_acos, sin_acos, S2 by exact X1. rewrite Rabs_pos_eq by assumption. f_equal. f_equal; field; lra.
    + rewrite cos_neg, sin_neg, cos_acos, sin_acos, S2 by exact X1. rewrite Rabs_left by lra. f_equal. f_equal; field; lra.
Qed.

(** A source at (10, 20) degrees with its declination frozen. *)
Definition ex_pos : ptree R :=
  PList (mkPlist (mkNames [] []) [10; 20] [true; false] [None; None] [None; None] [None; None] (Some [1 / 10000; 1 / 10000]) []).
Definition ex_pm : ptree R := PList (mkPlist (mkNames [] []) [1; 2] [true; true] [None; None] [None; None] [None; None] (Some [1 / 1000000; 1 / 1000000]) []).
Definition ex_bright : ptree R := PScalar (mkScalar "Flux"%string 5 None None None 1).
Definition ex_moving : ptree R := mk_multi moving_names [ex_pos; ex_bright; ex_pm; parallax_obj 3].
Example C78_ex : a_source ex_moving /\ number_of_params ex_moving = 5%nat /\ par_of ex_moving 3 0 = 3
  /\ (forall t, norm2 (apparent 200000 (23.44) 0 ex_moving t) <> 0).
Proof.
  split.
  { exists moving_names, ex_pos, ex_bright, ex_pm, (mkScalar "Parallax"%string 3 None None None (1 / 1000)), [true; true; true; true].
    split; [reflexivity|]. split; [reflexivity|]. split; [reflexivity|]. split; [discriminate|].
    cbn. unfold wf_plist. cbn. repeat split; try (intros ss E; injection E as <-; reflexivity). }
  split; [reflexivity|]. split; [reflexivity|]. intros t. unfold apparent.
  change (par_of ex_moving 3 0) with 3. pose proof (unit_dir (moved 0 ex_moving t)) as U1. pose proof (unit_sun 23.44 t) as U2.
  destruct (dir (moved 0 ex_moving t)) as [[x y] z]. destruct (sun_dir 23.44 t) as [[a b] c].
  unfold norm2, dot, vadd, vscale in *. set (e := 3 / 200000). assert (E : e = 3 / 200000) by reflexivity. clearbody e.
  intros H.
  assert (Q : forall u w, u + w = 0 -> u * u = w * w) by (intros u w Q; replace u with (- w) by lra; ring).
  assert (N1 := Rle_0_sqr (x + e * a)). assert (N2 := Rle_0_sqr (y + e * b)). assert (N3 := Rle_0_sqr (z + e * c)).
  unfold Rsqr in *.
  assert (Z1 : x + e * a = 0) by (apply Rsqr_0_uniq; unfold Rsqr; lra).
  assert (Z2 : y + e * b = 0) by (apply Rsqr_0_uniq; unfold Rsqr; lra).
  assert (Z3 : z + e * c = 0) by (apply Rsqr_0_uniq; unfold Rsqr; lra).
  apply Q in Z1. apply Q in Z2. apply Q in Z3.
  assert (M : e * e * (a * a + b * b + c * c) = 1) by lra. rewrite U2, E in M. lra.
Qed.
Example C79_ex : exists ds, moving_derivs 200000 23.44 to_radec (fun p => Some (mkPatch 0 0 (Some (mkArr 1 1 (fun _ _ => fst p)))))
    (fun p _ => p) (fun b => nth 0 (get_all_params b) 0) 0 (Some 86400) ex_moving = Ok (ds, ex_moving) /\ length ds = 5%nat.
Proof.
  destruct (C79_derivs 200000 23.44 to_radec (fun p => Some (mkPatch 0 0 (Some (mkArr 1 1 (fun _ _ => fst p)))))
    (fun p _ => p) (fun b => nth 0 (get_all_params b) 0) 0 86400 ex_moving) as (ds & E & L & _).
  - apply C78_ex.
  - lra.
  - intros p. eexists. eexists. split; [reflexivity|]. split; [reflexivity|]. split; cbn; lia.
  - reflexivity.
  - exists ds. split; [exact E|exact L].
Qed.

Print Assumptions C78_time.
Print Assumptions C78_theta_range.
Print Assumptions C78_position.
Print Assumptions C78_linear.
Print Assumptions C78_at_rest.
Print Assumptions C78_year.
Print Assumptions C78_parallax.
Print Assumptions C78_no_time_refuted.
Print Assumptions C78_copy_refuted.
Print Assumptions C78_copy_epoch_refuted.
Print Assumptions C78_prior_unbounded_refuted.
Print Assumptions C79_derivs.
Print Assumptions C79_patch.
Print Assumptions C79_off_image_refuted.
