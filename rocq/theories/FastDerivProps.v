(** C82: fast derivatives with respect to position. *)
From Coq Require Import List ZArith Bool Reals Lia Lra.
From Verif Require Import FastDerivModel.
Import ListNotations.
Open Scope R_scope.

(** ** Specification *)

(** The model of a source of the given counts, as a function of its position. *)
Definition model (w : wcs) (cs : list comp) (counts : R) (a b : R) : image :=
  fun X Y => let '(px, py) := to_pixel w a b in patch0 cs px py X Y * counts.

(** D is the derivative of the model image with respect to parameter i. *)
Definition derivative_of_model (w : wcs) cs counts (a b : R) (i : nat) (D : image) : Prop :=
  forall X Y, match i with
              | O => derivable_pt_lim (fun t => model w cs counts t b X Y) a (D X Y)
              | _ => derivable_pt_lim (fun t => model w cs counts a t X Y) b (D X Y)
              end.

(** The pixel position depends on parameter i with these derivatives. *)
Definition pixel_derivative (w : wcs) (a b : R) (i : nat) (u v : R) : Prop :=
  match i with
  | O => derivable_pt_lim (fun t => fst (to_pixel w t b)) a u /\
         derivable_pt_lim (fun t => snd (to_pixel w t b)) a v
  | _ => derivable_pt_lim (fun t => fst (to_pixel w a t)) b u /\
         derivable_pt_lim (fun t => snd (to_pixel w a t)) b v
  end.

(** No component is exactly at its cut-off at a pixel. *)
Definition off_cutoff (cs : list comp) (px py : R) : Prop :=
  forall X Y c, In c cs -> dsq c (IZR X - px) (IZR Y - py) <> c_maxD c.

(** What the documentation of cdAtPixel says (ducks.py:379-401): with cdec the
    cosine of Dec, the CD matrix is the inverse of the derivatives of the pixel
    position with respect to RA cos(Dec) and Dec. *)
Definition documented_cd (w : wcs) (ra dec cdec : R) : Prop :=
  exists u0 v0 u1 v1, pixel_derivative w ra dec 0 u0 v0 /\ pixel_derivative w ra dec 1 u1 v1 /\
    u0 * v1 - u1 * v0 <> 0 /\ cdec <> 0 /\
    let '(x, y) := to_pixel w ra dec in
    let m := cd_at w x y in
    m00 m * (u0 / cdec) + m01 m * (v0 / cdec) = 1 /\ m00 m * u1 + m01 m * v1 = 0 /\
    m10 m * (u0 / cdec) + m11 m * (v0 / cdec) = 0 /\ m10 m * u1 + m11 m * v1 = 1.

(** ** Lemmas *)
Lemma deriv_ext_local f g t l d : 0 < d -> (forall s, Rabs (s - t) < d -> f s = g s) ->
  derivable_pt_lim g t l -> derivable_pt_lim f t l.
Proof.
  intros Hd E H eps He. destruct (H eps He) as (del & Hdel).
  assert (P : 0 < Rmin del d) by (apply Rmin_pos; auto; apply cond_pos).
  exists (mkposreal _ P). simpl. intros h Hh Hl.
  rewrite (E (t + h)), (E t).
  - apply Hdel; auto. apply Rlt_le_trans with (Rmin del d); auto. apply Rmin_l.
  - replace (t - t) with 0 by ring. rewrite Rabs_R0. auto.
  - replace (t + h - t) with h by ring. apply Rlt_le_trans with (Rmin del d); auto. apply Rmin_r.
Qed.

Lemma deriv_ext f g t l : (forall s, f s = g s) -> derivable_pt_lim g t l -> derivable_pt_lim f t l.
Proof. intros E. apply deriv_ext_local with 1; [lra|]. intros; apply E. Qed.

Lemma deriv_near f t l c : derivable_pt_lim f t l -> f t <> c ->
  exists d, 0 < d /\ forall s, Rabs (s - t) < d -> (c < f s <-> c < f t) /\ (f s < c <-> f t < c).
Proof.
  intros H N.
  assert (C : continuity_pt f t) by (apply derivable_continuous_pt; exists l; exact H).
  destruct (C (Rabs (f t - c))) as (d & Hd & Hc); [apply Rabs_pos_lt; lra|].
  exists d. split; auto. intros s Hs.
  destruct (Req_dec s t) as [->|Hst]; [tauto|].
  assert (K : Rabs (f s - f t) < Rabs (f t - c)).
  { apply (Hc s). split; [split; [exact Logic.I|auto]|]. exact Hs. }
  unfold Rabs in K. destruct (Rcase_abs (f s - f t)); destruct (Rcase_abs (f t - c)); lra.
Qed.

(** One component, after the cut. *)
Definition cval (c : comp) (x y : R) : R := if Rle_dec (c_maxD c) (dsq c x y) then c_scale c * exp (dsq c x y) else 0.
Definition cxd (c : comp) (x y : R) : R :=
  if Rle_dec (c_maxD c) (dsq c x y)
  then - (c_scale c * exp (dsq c x y)) * (2 * c_i0 c * (x - c_mx c) + c_i1 c * (y - c_my c)) else 0.
Definition cyd (c : comp) (x y : R) : R :=
  if Rle_dec (c_maxD c) (dsq c x y)
  then - (c_scale c * exp (dsq c x y)) * (2 * c_i2 c * (y - c_my c) + c_i1 c * (x - c_mx c)) else 0.

Fixpoint sumc (f : comp -> R) (cs : list comp) : R :=
  match cs with [] => 0 | c :: r => f c + sumc f r end.

Lemma eval_sum cs x y : forall r0 x0 y0, fold_left (eval_step x y) cs (r0, x0, y0)
  = (r0 + sumc (fun c => cval c x y) cs, x0 + sumc (fun c => cxd c x y) cs, y0 + sumc (fun c => cyd c x y) cs).
Proof.
  induction cs as [|c cs IH]; intros r0 x0 y0; cbn [fold_left sumc].
  - f_equal; [f_equal|]; ring.
  - unfold eval_step at 2. unfold cval, cxd, cyd. destruct (Rle_dec (c_maxD c) (dsq c x y)).
    + rewrite IH. unfold cval, cxd, cyd. f_equal; [f_equal|]; ring.
    + rewrite IH. unfold cval, cxd, cyd. f_equal; [f_equal|]; ring.
Qed.

Lemma g_val_sum cs x y : g_val cs x y = sumc (fun c => cval c x y) cs.
Proof. unfold g_val, eval_dxy. rewrite eval_sum. simpl. ring. Qed.
Lemma g_xd_sum cs x y : g_xd cs x y = sumc (fun c => cxd c x y) cs.
Proof. unfold g_xd, eval_dxy. rewrite eval_sum. simpl. ring. Qed.
Lemma g_yd_sum cs x y : g_yd cs x y = sumc (fun c => cyd c x y) cs.
Proof. unfold g_yd, eval_dxy. rewrite eval_sum. simpl. ring. Qed.

Lemma dsq_deriv c X Y px py t a b : derivable_pt_lim px t a -> derivable_pt_lim py t b ->
  derivable_pt_lim (fun s => dsq c (X - px s) (Y - py s)) t
    (- (2 * c_i0 c * (X - px t - c_mx c) + c_i1 c * (Y - py t - c_my c)) * a
     - (2 * c_i2 c * (Y - py t - c_my c) + c_i1 c * (X - px t - c_mx c)) * b).
Proof.
  intros Hx Hy.
  assert (DX : derivable_pt_lim (fun s => X - px s - c_mx c) t (- a)).
  { apply deriv_ext with (fct_cte (X - c_mx c) - px)%F; [intros; unfold minus_fct, fct_cte; ring|].
    replace (- a) with (0 - a) by ring. apply derivable_pt_lim_minus; auto. apply derivable_pt_lim_const. }
  assert (DY : derivable_pt_lim (fun s => Y - py s - c_my c) t (- b)).
  { apply deriv_ext with (fct_cte (Y - c_my c) - py)%F; [intros; unfold minus_fct, fct_cte; ring|].
    replace (- b) with (0 - b) by ring. apply derivable_pt_lim_minus; auto. apply derivable_pt_lim_const. }
  set (dx := fun s => X - px s - c_mx c) in *. set (dy := fun s => Y - py s - c_my c) in *.
  pose proof (derivable_pt_lim_scal _ (c_i0 c) _ _ (derivable_pt_lim_mult _ _ _ _ _ DX DX)) as A.
  pose proof (derivable_pt_lim_scal _ (c_i1 c) _ _ (derivable_pt_lim_mult _ _ _ _ _ DX DY)) as B.
  pose proof (derivable_pt_lim_scal _ (c_i2 c) _ _ (derivable_pt_lim_mult _ _ _ _ _ DY DY)) as C.
  pose proof (derivable_pt_lim_plus _ _ _ _ _ (derivable_pt_lim_plus _ _ _ _ _ A B) C) as D.
  match type of D with derivable_pt_lim _ _ ?l =>
    replace l with (- (2 * c_i0 c * (X - px t - c_mx c) + c_i1 c * (Y - py t - c_my c)) * a
     - (2 * c_i2 c * (Y - py t - c_my c) + c_i1 c * (X - px t - c_mx c)) * b) in D
      by (unfold dx, dy; ring) end.
  eapply deriv_ext; [|exact D].
  intros s. unfold plus_fct, mult_real_fct, mult_fct, dsq, dx, dy. ring.
Qed.

Lemma cval_deriv c X Y px py t a b : derivable_pt_lim px t a -> derivable_pt_lim py t b ->
  dsq c (X - px t) (Y - py t) <> c_maxD c ->
  derivable_pt_lim (fun s => cval c (X - px s) (Y - py s)) t
    (cxd c (X - px t) (Y - py t) * a + cyd c (X - px t) (Y - py t) * b).
Proof.
  intros Hx Hy N. pose proof (dsq_deriv c X Y px py t a b Hx Hy) as D.
  destruct (deriv_near _ _ _ (c_maxD c) D N) as (d & Hd & L).
  unfold cxd, cyd. destruct (Rle_dec (c_maxD c) (dsq c (X - px t) (Y - py t))) as [Q|Q].
  - apply deriv_ext_local with (fun s => c_scale c * exp (dsq c (X - px s) (Y - py s))) d; auto.
    + intros s Hs. unfold cval. destruct (Rle_dec (c_maxD c) (dsq c (X - px s) (Y - py s))); auto.
      exfalso. destruct (L s Hs) as [[_ L1] _]. assert (c_maxD c < dsq c (X - px s) (Y - py s)); [|lra].
      apply L1. lra.
    + pose proof (derivable_pt_lim_comp _ exp _ _ _ D (derivable_pt_lim_exp _)) as E.
      pose proof (derivable_pt_lim_scal _ (c_scale c) _ _ E) as F.
      match type of F with derivable_pt_lim _ _ ?l => match goal with |- derivable_pt_lim _ _ ?m =>
        replace m with l by ring end end.
      eapply deriv_ext; [|exact F]. intros s. reflexivity.
  - apply deriv_ext_local with (fct_cte 0) d; auto.
    + intros s Hs. unfold cval. destruct (Rle_dec (c_maxD c) (dsq c (X - px s) (Y - py s))) as [Q2|]; auto.
      exfalso. destruct (L s Hs) as [_ [_ L2]]. specialize (L2 ltac:(lra)). lra.
    + replace (0 * a + 0 * b) with 0 by ring. apply derivable_pt_lim_const.
Qed.

Lemma sum_deriv cs X Y px py t a b : derivable_pt_lim px t a -> derivable_pt_lim py t b ->
  (forall c, In c cs -> dsq c (X - px t) (Y - py t) <> c_maxD c) ->
  derivable_pt_lim (fun s => sumc (fun c => cval c (X - px s) (Y - py s)) cs) t
    (sumc (fun c => cxd c (X - px t) (Y - py t)) cs * a + sumc (fun c => cyd c (X - px t) (Y - py t)) cs * b).
Proof.
  intros Hx Hy N. induction cs as [|c cs IH]; cbn [sumc].
  - replace (0 * a + 0 * b) with 0 by ring. apply derivable_pt_lim_const.
  - pose proof (cval_deriv c X Y px py t a b Hx Hy (N c (or_introl eq_refl))) as D1.
    specialize (IH (fun c' H => N c' (or_intror H))).
    pose proof (derivable_pt_lim_plus _ _ _ _ _ D1 IH) as D.
    match type of D with derivable_pt_lim _ _ ?l => match goal with |- derivable_pt_lim _ _ ?m =>
        replace m with l by ring end end.
    eapply deriv_ext; [|exact D]. intros s. reflexivity.
Qed.

(** ** C82 *)

(** What the rendering code reports as the x and y derivatives are the
    derivatives of the rendered pixels as the source moves. *)
Theorem C82_gauss : forall cs X Y (px py : R -> R) t a b,
  derivable_pt_lim px t a -> derivable_pt_lim py t b -> off_cutoff cs (px t) (py t) ->
  derivable_pt_lim (fun s => patch0 cs (px s) (py s) X Y) t
    (patchdx cs (px t) (py t) X Y * a + patchdy cs (px t) (py t) X Y * b).
Proof.
  intros cs X Y px py t a b Hx Hy N. unfold patch0, patchdx, patchdy.
  rewrite g_xd_sum, g_yd_sum.
  apply deriv_ext with (fun s => sumc (fun c => cval c (IZR X - px s) (IZR Y - py s)) cs).
  { intros s. apply g_val_sum. }
  apply sum_deriv; auto.
Qed.

Lemma model_deriv w cs counts a b i u v : pixel_derivative w a b i u v ->
  off_cutoff cs (fst (to_pixel w a b)) (snd (to_pixel w a b)) ->
  derivative_of_model w cs counts a b i
    (fun X Y => (patchdx cs (fst (to_pixel w a b)) (snd (to_pixel w a b)) X Y * u
                 + patchdy cs (fst (to_pixel w a b)) (snd (to_pixel w a b)) X Y * v) * counts).
Proof.
  intros HP HO X Y.
  assert (E : forall p q, model w cs counts p q X Y
     = (patch0 cs (fst (to_pixel w p q)) (snd (to_pixel w p q)) X Y * counts)).
  { intros p q. unfold model. destruct (to_pixel w p q). reflexivity. }
  destruct i as [|i]; simpl in HP; destruct HP as [HX HY].
  - pose proof (C82_gauss cs X Y (fun t => fst (to_pixel w t b)) (fun t => snd (to_pixel w t b)) a u v HX HY HO) as D.
    pose proof (derivable_pt_lim_scal _ counts _ _ D) as F. rewrite Rmult_comm.
    eapply deriv_ext; [|exact F]. intros s. rewrite E. unfold mult_real_fct. ring.
  - pose proof (C82_gauss cs X Y (fun t => fst (to_pixel w a t)) (fun t => snd (to_pixel w a t)) b u v HX HY HO) as D.
    pose proof (derivable_pt_lim_scal _ counts _ _ D) as F. rewrite Rmult_comm.
    eapply deriv_ext; [|exact F]. intros s. rewrite E. unfold mult_real_fct. ring.
Qed.

(** Where the inverse CD matrix holds the derivatives of the pixel position with
    respect to the parameters, every entry of the list is the derivative of the
    model with respect to its parameter. *)
Theorem C82_position : forall w cs counts a b thawed k i,
  (forall j, In j thawed -> pixel_derivative w a b j (fst (mcol (cdi_at_pos w a b) j)) (snd (mcol (cdi_at_pos w a b) j))) ->
  off_cutoff cs (fst (to_pixel w a b)) (snd (to_pixel w a b)) ->
  nth_error thawed k = Some i ->
  let '(px, py) := to_pixel w a b in
  exists D, nth_error (pos_derivs w a b thawed counts (patchdx cs px py) (patchdy cs px py)) k = Some D /\
    derivative_of_model w cs counts a b i D.
Proof.
  intros w cs counts a b thawed k i H HO Hk.
  pose proof (H i (nth_error_In _ _ Hk)) as HP.
  pose proof (model_deriv w cs counts a b i _ _ HP HO) as M.
  destruct (to_pixel w a b) as [px py] eqn:ET. simpl in M.
  unfold pos_derivs. rewrite nth_error_map, Hk. cbn [option_map].
  destruct (mcol (cdi_at_pos w a b) i) as [u v]. eexists. split; [reflexivity|]. exact M.
Qed.

(** In pixel coordinates (NullWCS) they are 3600 / pixscale times the
    derivatives: the CD matrix is in degrees, the position in pixels. *)
Theorem C82_null_refuted : forall pixscale dx dy cs counts a b i, pixscale <> 0 -> (i < 2)%nat ->
  off_cutoff cs (a + dx) (b + dy) ->
  exists D T, pos_derivs (null_wcs pixscale dx dy) a b [i] counts
                (patchdx cs (a + dx) (b + dy)) (patchdy cs (a + dx) (b + dy)) = [D] /\
    derivative_of_model (null_wcs pixscale dx dy) cs counts a b i T /\
    forall X Y, D X Y = 3600 / pixscale * T X Y.
Proof.
  intros ps dx dy cs counts a b i Hp Hi HO.
  assert (DI : forall t d, derivable_pt_lim (fun s => s + d) t 1).
  { intros t d. pose proof (derivable_pt_lim_plus _ _ _ _ _ (derivable_pt_lim_id t) (derivable_pt_lim_const d t)) as P.
    replace (1 + 0) with 1 in P by ring. eapply deriv_ext; [|exact P]. intros; reflexivity. }
  assert (DC : forall t c, derivable_pt_lim (fun _ => c) t 0) by (intros; apply derivable_pt_lim_const).
  assert (HP : pixel_derivative (null_wcs ps dx dy) a b i (if (i =? 0)%nat then 1 else 0) (if (i =? 0)%nat then 0 else 1)).
  { destruct i as [|[|i]]; simpl; auto; lia. }
  pose proof (model_deriv (null_wcs ps dx dy) cs counts a b i _ _ HP HO) as M.
  do 2 eexists. split; [reflexivity|]. split; [exact M|].
  intros X Y. destruct i as [|[|i]]; simpl; try lia; field; auto.
Qed.

Lemma inv2_unique m a b c d : m00 m * a + m01 m * c = 1 -> m00 m * b + m01 m * d = 0 ->
  m10 m * a + m11 m * c = 0 -> m10 m * b + m11 m * d = 1 -> inv2 m = mkMat a b c d.
Proof.
  intros A B C D. unfold inv2. set (det := m00 m * m11 m - m01 m * m10 m).
  assert (K : det * (a * d - b * c) = 1).
  { replace (det * (a * d - b * c)) with ((m00 m * a + m01 m * c) * (m10 m * b + m11 m * d) - (m00 m * b + m01 m * d) * (m10 m * a + m11 m * c)) by (unfold det; ring).
    rewrite A, B, C, D. ring. }
  assert (Z : det <> 0) by (intros Z; rewrite Z in K; lra).
  assert (Ka : det * a = m11 m).
  { replace (det * a) with (m11 m * (m00 m * a + m01 m * c) - m01 m * (m10 m * a + m11 m * c)) by (unfold det; ring). rewrite A, C. ring. }
  assert (Kb : det * b = - m01 m).
  { replace (det * b) with (m11 m * (m00 m * b + m01 m * d) - m01 m * (m10 m * b + m11 m * d)) by (unfold det; ring). rewrite B, D. ring. }
  assert (Kc : det * c = - m10 m).
  { replace (det * c) with (m00 m * (m10 m * a + m11 m * c) - m10 m * (m00 m * a + m01 m * c)) by (unfold det; ring). rewrite A, C. ring. }
  assert (Kd : det * d = m00 m).
  { replace (det * d) with (m00 m * (m10 m * b + m11 m * d) - m10 m * (m00 m * b + m01 m * d)) by (unfold det; ring). rewrite B, D. ring. }
  rewrite <- Ka, <- Kb, <- Kc, <- Kd. f_equal; field; exact Z.
Qed.

(** With a CD matrix as documented, the derivative with respect to Dec is right,
    and that with respect to RA is too large by 1 / cos(Dec). *)
Theorem C82_radec : forall topix cd cs counts ra dec cdec, let w := duck_wcs topix cd in
  documented_cd w ra dec cdec ->
  off_cutoff cs (fst (to_pixel w ra dec)) (snd (to_pixel w ra dec)) ->
  let '(px, py) := to_pixel w ra dec in
  exists DR DD T, pos_derivs w ra dec [0%nat; 1%nat] counts (patchdx cs px py) (patchdy cs px py) = [DR; DD] /\
    derivative_of_model w cs counts ra dec 1 DD /\
    derivative_of_model w cs counts ra dec 0 T /\
    forall X Y, DR X Y = T X Y / cdec.
Proof.
  intros topix cd cs counts ra dec cdec w (u0 & v0 & u1 & v1 & P0 & P1 & _ & HC & E) HO.
  assert (E2 : cdi_at_pos w ra dec = mkMat (u0 / cdec) u1 (v0 / cdec) v1).
  { unfold w in *. cbn [cdi_at_pos duck_wcs to_pixel cd_at] in *. destruct (topix ra dec) as [x y].
    cbv zeta in E. destruct E as (A & B & C & D). apply inv2_unique; assumption. }
  pose proof (model_deriv w cs counts ra dec 0 _ _ P0 HO) as M0.
  pose proof (model_deriv w cs counts ra dec 1 _ _ P1 HO) as M1.
  destruct (to_pixel w ra dec) as [px py]. cbn [fst snd] in M0, M1.
  unfold pos_derivs. rewrite E2. cbn [map mcol m00 m01 m10 m11].
  do 3 eexists. split; [reflexivity|]. split; [exact M1|]. split; [exact M0|].
  intros X Y. cbn beta. field. auto.
Qed.

(** So at Dec = 60 degrees it is wrong for any source whose image changes with RA. *)
Definition tan60 : wcs := duck_wcs (fun ra dec => (1800 * (ra - 10), 3600 * (dec - 60))) (fun _ _ => mkMat (1 / 3600) 0 0 (1 / 3600)).

Lemma tan60_documented : documented_cd tan60 10 60 (cos (PI / 3)).
Proof.
  assert (L : forall k t c, derivable_pt_lim (fun s => k * (s - c)) t k).
  { intros k t c. pose proof (derivable_pt_lim_scal _ k _ _ (derivable_pt_lim_minus _ _ _ _ _ (derivable_pt_lim_id t) (derivable_pt_lim_const c t))) as P.
    replace (k * (1 - 0)) with k in P by ring. eapply deriv_ext; [|exact P]. intros; reflexivity. }
  assert (C : forall t c, derivable_pt_lim (fun _ => c) t 0) by (intros; apply derivable_pt_lim_const).
  exists 1800, 0, 0, 3600. unfold tan60, pixel_derivative. cbn [to_pixel duck_wcs fst snd cd_at cdi_at_pos].
  rewrite cos_PI3. repeat split; auto; try lra.
  all: cbn [m00 m01 m10 m11]; field.
Qed.

Theorem C82_ra_refuted : forall cs counts,
  off_cutoff cs 0 0 ->
  exists DR DD T, pos_derivs tan60 10 60 [0%nat; 1%nat] counts (patchdx cs 0 0) (patchdy cs 0 0) = [DR; DD] /\
    derivative_of_model tan60 cs counts 10 60 0 T /\
    forall X Y, DR X Y = 2 * T X Y.
Proof.
  intros cs counts HO. pose proof (C82_radec _ _ cs counts 10 60 _ tan60_documented) as H.
  unfold tan60 in H. cbn [to_pixel duck_wcs] in H. fold tan60 in H.
  replace (1800 * (10 - 10)) with 0 in H by ring. replace (3600 * (60 - 60)) with 0 in H by ring.
  cbn [fst snd] in H. destruct (H HO) as (DR & DD & T & E1 & _ & E2 & E3).
  exists DR, DD, T. split; [exact E1|]. split; [exact E2|]. intros X Y. rewrite E3, cos_PI3. field.
Qed.

(** Galaxies: inside the patch, the difference is the derivative of the pixel
    for a source less than one pixel away. *)
Theorem C82_galaxy : forall H W p0 (f f' : R -> R) x0 px iy ix,
  (forall t, derivable_pt_lim f t (f' t)) ->
  (1 <= iy < H - 1)%nat -> (1 <= ix < W - 1)%nat ->
  (forall k, (k < W)%nat -> p0 iy k = f (x0 + INR k - px)) ->
  exists qx, Rabs (qx - px) < 1 /\
    derivable_pt_lim (fun t => f (x0 + INR ix - t)) qx (central_dx H W p0 iy ix).
Proof.
  intros H W p0 f f' x0 px iy ix D Hy Hx E. unfold central_dx.
  replace (((1 <=? iy) && (iy <? H - 1) && (1 <=? ix) && (ix <? W - 1))%nat) with true.
  2:{ symmetry. rewrite !andb_true_iff, !Nat.leb_le, !Nat.ltb_lt. lia. }
  rewrite !E by lia. rewrite minus_INR, plus_INR by lia. cbn [INR].
  set (c := x0 + INR ix - px).
  replace (x0 + (INR ix - 1) - px) with (c - 1) by (unfold c; ring).
  replace (x0 + (INR ix + 1) - px) with (c + 1) by (unfold c; ring).
  destruct (MVT_cor2 f f' (c - 1) (c + 1)) as (z & Ez & Hz); [lra|auto|].
  exists (x0 + INR ix - z). split.
  - replace (x0 + INR ix - z - px) with (c - z) by (unfold c; ring). apply Rabs_def1; lra.
  - replace ((f (c - 1) - f (c + 1)) / 2) with (f' z * - 1) by lra.
    pose proof (derivable_pt_lim_minus _ _ _ _ _ (derivable_pt_lim_const (x0 + INR ix) (x0 + INR ix - z))
                  (derivable_pt_lim_id (x0 + INR ix - z))) as L.
    replace (0 - 1) with (- 1) in L by ring.
    assert (D2 : derivable_pt_lim f ((fct_cte (x0 + INR ix) - id)%F (x0 + INR ix - z)) (f' z)).
    { unfold minus_fct, fct_cte, id. replace (x0 + INR ix - (x0 + INR ix - z)) with z by ring. apply D. }
    pose proof (derivable_pt_lim_comp _ _ _ _ _ L D2) as F.
    eapply deriv_ext; [|exact F]. intros s. reflexivity.
Qed.

Theorem C82_galaxy_y : forall H W p0 (f f' : R -> R) y0 py iy ix,
  (forall t, derivable_pt_lim f t (f' t)) ->
  (1 <= iy < H - 1)%nat -> (1 <= ix < W - 1)%nat ->
  (forall k, (k < H)%nat -> p0 k ix = f (y0 + INR k - py)) ->
  exists qy, Rabs (qy - py) < 1 /\
    derivable_pt_lim (fun t => f (y0 + INR iy - t)) qy (central_dy H W p0 iy ix).
Proof.
  intros H W p0 f f' y0 py iy ix D Hy Hx E.
  destruct (C82_galaxy W H (fun i j => p0 j i) f f' y0 py ix iy D Hx Hy E) as (q & Hq & L).
  exists q. split; auto.
  replace (central_dy H W p0 iy ix) with (central_dx W H (fun i j => p0 j i) ix iy); auto.
  unfold central_dx, central_dy.
  replace ((1 <=? ix) && (ix <? W - 1) && (1 <=? iy) && (iy <? H - 1))%nat with true.
  2:{ symmetry. rewrite !andb_true_iff, !Nat.leb_le, !Nat.ltb_lt. lia. }
  replace ((1 <=? iy) && (iy <? H - 1) && (1 <=? ix) && (ix <? W - 1))%nat with true.
  2:{ symmetry. rewrite !andb_true_iff, !Nat.leb_le, !Nat.ltb_lt. lia. }
  reflexivity.
Qed.

(** At the edge of the patch it is zero whatever the galaxy. *)
Theorem C82_galaxy_edge_refuted : forall H W p0 iy ix,
  (ix = 0 \/ ix = W - 1 \/ iy = 0 \/ iy = H - 1)%nat ->
  central_dx H W p0 iy ix = 0 /\ central_dy H W p0 iy ix = 0.
Proof.
  intros H W p0 iy ix E. unfold central_dx, central_dy.
  replace (((1 <=? iy) && (iy <? H - 1) && (1 <=? ix) && (ix <? W - 1))%nat) with false; auto.
  symmetry. destruct E as [->|[->|[->|E]]].
  - destruct (1 <=? iy)%nat, (iy <? H - 1)%nat; reflexivity.
  - rewrite Nat.ltb_irrefl. apply andb_false_r.
  - reflexivity.
  - subst iy. rewrite Nat.ltb_irrefl. rewrite andb_false_r. reflexivity.
Qed.

(** The component that the code makes of a Gaussian is that Gaussian: the
    exponent is -1/2 of the Mahalanobis distance, for any variance matrix with
    an inverse. *)
Theorem C82_component : forall a mx my v0 v1 v2 maxD x y p q, v0 * v2 - v1 * v1 <> 0 ->
  (* (p, q) is the inverse of the variance matrix applied to the offset *)
  v0 * p + v1 * q = x - mx -> v1 * p + v2 * q = y - my ->
  dsq (comp_of a mx my v0 v1 v2 maxD) x y = - (1 / 2) * ((x - mx) * p + (y - my) * q).
Proof.
  intros a mx my v0 v1 v2 maxD x y p q Hd E1 E2. unfold dsq, comp_of. cbn [c_i0 c_i1 c_i2 c_mx c_my].
  rewrite <- E1, <- E2. field. auto.
Qed.

(** ** Cases that meet the hypotheses *)

(** A Gaussian of unit variance, amplitude 2, drawn at (0, 0) and cut beyond a
    distance that no pixel is at. *)
Definition ex_g : list comp := [mkComp 2 (-1/2) 0 (-1/2) 0 0 (-9/4)].

Lemma ex_off : off_cutoff ex_g 0 0.
Proof.
  intros X Y c [<-|[]]. unfold dsq. cbn [c_i0 c_i1 c_i2 c_mx c_my c_maxD]. intros E.
  assert (F : IZR (2 * (X * X + Y * Y)) = IZR 9) by (rewrite mult_IZR, plus_IZR, !mult_IZR; lra).
  apply eq_IZR in F. lia.
Qed.

Example ex_gauss_value : patchdx ex_g 0 0 1%Z 0%Z = 2 * exp (-1/2).
Proof.
  unfold patchdx. rewrite g_xd_sum. cbn [sumc ex_g]. unfold cxd, dsq.
  cbn [c_i0 c_i1 c_i2 c_mx c_my c_maxD c_scale].
  match goal with |- context [Rle_dec ?a ?b] => destruct (Rle_dec a b) as [Q|Q]; [|exfalso; apply Q; lra] end.
  match goal with |- context [exp ?e] => replace e with (-1/2) by field end. field.
Qed.

(** So at Dec = 60 the RA derivative of that pixel is not zero, and is wrong. *)
Example ex_ra_wrong : exists DR DD, pos_derivs tan60 10 60 [0%nat; 1%nat] 5 (patchdx ex_g 0 0) (patchdy ex_g 0 0) = [DR; DD] /\
  ~ derivative_of_model tan60 ex_g 5 10 60 0 DR.
Proof.
  destruct (C82_ra_refuted ex_g 5 ex_off) as (DR & DD & T & E & HT & H2).
  exists DR, DD. split; [exact E|]. intros HD.
  pose proof (uniqueness_limite _ _ _ _ (HT 1%Z 0%Z) (HD 1%Z 0%Z)) as U.
  rewrite H2 in U. assert (Z : DR 1%Z 0%Z = 0) by (rewrite H2; lra).
  unfold pos_derivs in E. injection E as E1 E2. rewrite <- E1 in Z.
  unfold tan60 in Z. cbn [cdi_at_pos duck_wcs mcol inv2 m00 m01 m10 m11] in Z.
  rewrite ex_gauss_value in Z.
  assert (P : 0 < exp (-1/2)) by apply exp_pos.
  field_simplify in Z. lra.
Qed.

(** Any pixel scale but 3600 arcsec gives wrong derivatives in pixel coordinates. *)
Example ex_null_wrong : exists D, pos_derivs (null_wcs 1 0 0) 0 0 [0%nat] 5 (patchdx ex_g (0 + 0) (0 + 0)) (patchdy ex_g (0 + 0) (0 + 0)) = [D] /\
  ~ derivative_of_model (null_wcs 1 0 0) ex_g 5 0 0 0 D.
Proof.
  assert (HO : off_cutoff ex_g (0 + 0) (0 + 0)) by (replace (0 + 0) with 0 by ring; apply ex_off).
  destruct (C82_null_refuted 1 0 0 ex_g 5 0 0 0 ltac:(lra) ltac:(lia) HO) as (D & T & E & HT & H2).
  exists D. split; [exact E|]. intros HD.
  pose proof (uniqueness_limite _ _ _ _ (HT 1%Z 0%Z) (HD 1%Z 0%Z)) as U.
  rewrite H2 in U. assert (Z : D 1%Z 0%Z = 0) by (rewrite H2; lra).
  unfold pos_derivs in E. injection E as E1. rewrite <- E1 in Z.
  cbn [cdi_at_pos null_wcs mcol m00 m10] in Z.
  replace (0 + 0) with 0 in Z by ring. rewrite ex_gauss_value in Z.
  assert (P : 0 < exp (-1/2)) by apply exp_pos.
  field_simplify in Z. lra.
Qed.

(** A WCS whose inverse CD matrix is the matrix of derivatives. *)
Example ex_position : exists D,
  nth_error (pos_derivs (null_wcs 3600 0 0) 0 0 [0%nat; 1%nat] 5 (patchdx ex_g (0 + 0) (0 + 0)) (patchdy ex_g (0 + 0) (0 + 0))) 1 = Some D /\
  derivative_of_model (null_wcs 3600 0 0) ex_g 5 0 0 1 D.
Proof.
  assert (HO : off_cutoff ex_g (0 + 0) (0 + 0)) by (replace (0 + 0) with 0 by ring; apply ex_off).
  apply (C82_position (null_wcs 3600 0 0) ex_g 5 0 0 [0%nat; 1%nat] 1 1); auto.
  assert (DI : forall t d, derivable_pt_lim (fun s => s + d) t 1).
  { intros t d. pose proof (derivable_pt_lim_plus _ _ _ _ _ (derivable_pt_lim_id t) (derivable_pt_lim_const d t)) as P.
    replace (1 + 0) with 1 in P by ring. eapply deriv_ext; [|exact P]. intros; reflexivity. }
  intros j [<-|[<-|[]]]; cbn [pixel_derivative null_wcs to_pixel cdi_at_pos mcol fst snd m00 m01 m10 m11];
    replace (1 / (3600 / 3600)) with 1 by field; replace (0 / (3600 / 3600)) with 0 by field;
    split; auto; apply derivable_pt_lim_const.
Qed.

(** exp, in a patch of 5 x 5. *)
Example ex_galaxy : exists qx, Rabs (qx - 2) < 1 /\
  derivable_pt_lim (fun t => exp (0 + INR 2 - t)) qx (central_dx 5 5 (fun _ k => exp (0 + INR k - 2)) 2 2).
Proof. apply (C82_galaxy 5 5 _ exp exp); try lia; auto. apply derivable_pt_lim_exp. Qed.

Example ex_component : dsq (comp_of 1 0 0 2 1 2 (-9)) 3 3 = - (1/2) * (3 * 1 + 3 * 1).
Proof.
  pose proof (C82_component 1 0 0 2 1 2 (-9) 3 3 1 1 ltac:(lra) ltac:(lra) ltac:(lra)) as H.
  rewrite H. ring.
Qed.

Print Assumptions C82_gauss.
Print Assumptions C82_position.
Print Assumptions C82_null_refuted.
Print Assumptions C82_radec.
Print Assumptions C82_ra_refuted.
Print Assumptions C82_galaxy.
Print Assumptions C82_galaxy_y.
Print Assumptions C82_galaxy_edge_refuted.
Print Assumptions C82_component.
