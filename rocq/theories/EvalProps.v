(** C95: the ways of evaluating a mixture of Gaussians agree. *)
From Coq Require Import List ZArith Bool Reals Lra Lia.
From Verif Require Import Base PatchModel Approx3Model Approx3Props GaussPsfModel GaussPsfProps EvalModel.
Import ListNotations.
Open Scope R_scope.

(** ** Spec: [density] and [lost] of GaussPsfProps, at a point *)
Definition mixture (m : list gcomp) (x y : R) : R := sum_over (fun c => density c x y) m.

(** ** At points *)
Lemma norm2_peak c : good c -> norm2 c = peak c.
Proof. intro G. unfold norm2, det2. rewrite (root c G). reflexivity. Qed.
Lemma dsq_3 c dx dy : good c ->
  dx * (dx * (g_yy c / det2 c) + dy * (- g_yx c / det2 c)) + dy * (dx * (- g_xy c / det2 c) + dy * (g_xx c / det2 c)) = mahal c dx dy.
Proof. intros (S & _ & D). unfold mahal, det2. unfold det in D |- *. rewrite <- S in *. field. lra. Qed.
Lemma mahal_pos c dx dy : good c -> 0 <= mahal c dx dy.
Proof.
  intros (S & A & D). unfold mahal. apply Rmult_le_pos; [|left; now apply Rinv_0_lt_compat].
  assert (E : g_xx c * (g_yy c * dx ^ 2 - 2 * g_xy c * dx * dy + g_xx c * dy ^ 2) = det c * dx ^ 2 + (g_xx c * dy - g_xy c * dx) ^ 2)
    by (unfold det; rewrite <- S; ring).
  assert (H : 0 <= det c * dx ^ 2 + (g_xx c * dy - g_xy c * dx) ^ 2).
  { apply Rplus_le_le_0_compat; [apply Rmult_le_pos; [lra|apply pow2_ge_0]|apply pow2_ge_0]. }
  rewrite <- E in H. apply Rmult_le_reg_l with (g_xx c); lra.
Qed.

Lemma cut_ok (c : gcomp) (d e : R) (keep : bool) : (keep = false -> 2 * e <= d) ->
  Rabs ((if keep then peak c * exp (- 0.5 * d) else 0) - peak c * exp (- d / 2)) <= Rabs (peak c) * exp (- e).
Proof.
  intro H. destruct keep.
  - replace (- 0.5 * d) with (- d / 2) by lra. rewrite Rminus_diag_eq, Rabs_R0 by reflexivity. apply lost_pos.
  - replace (- d / 2) with (- (d / 2)) by field. apply (cut_small _ _ e). specialize (H eq_refl). lra.
Qed.
Lemma comp_3_ok c x y : good c -> Rabs (comp_3 c x y - density c x y) <= Rabs (peak c) * exp (- 350).
Proof.
  intro G. unfold comp_3, inv2. cbv zeta. rewrite (dsq_3 c _ _ G), (norm2_peak c G). unfold density.
  pose proof (cut_ok c (mahal c (x - g_mx c) (y - g_my c)) 350) as Q.
  destruct (Rlt_dec _ 700); [apply (Q true); discriminate|apply (Q false); intros; lra].
Qed.
Lemma comp_13 c x y : good c -> comp_1 c x y = comp_3 c x y.
Proof.
  intro G. unfold comp_1, comp_3, inv2. cbv zeta. rewrite (dsq_3 c _ _ G).
  set (dx := x - g_mx c). set (dy := y - g_my c).
  assert (E : dx * (g_yy c / det2 c * dx + - g_xy c / det2 c * dy) + dy * (- g_yx c / det2 c * dx + g_xx c / det2 c * dy) = mahal c dx dy).
  { rewrite <- (dsq_3 c dx dy G). destruct G as [S _]. rewrite <- S. ring. }
  rewrite E, pow2_sqrt by now apply mahal_pos. reflexivity.
Qed.
Lemma comp_2_grid c x y : comp_2 c x y = grid_comp c x y.
Proof.
  unfold comp_2, grid_comp, inv2, norm2, det2. cbv zeta.
  set (dt := g_xx c * g_yy c - g_xy c * g_yx c).
  assert (E : forall dx dy, g_yy c / dt * dx * dx + - g_xy c / dt * dx * dy + - g_yx c / dt * dx * dy + g_xx c / dt * dy * dy =
    g_yy c / dt * dx * dx + - (g_xy c + g_yx c) / dt * dx * dy + g_xx c / dt * dy * dy) by (intros; unfold Rdiv; ring).
  rewrite E. reflexivity.
Qed.
Lemma summed_ok comp e m p : Forall good m ->
  (forall c, good c -> Rabs (comp c (fst p) (snd p) - density c (fst p) (snd p)) <= Rabs (peak c) * exp (- e)) ->
  Rabs (summed comp m p - mixture m (fst p) (snd p)) <= lost m e.
Proof.
  intros F H. unfold summed. rewrite (fold_sum (fun c => comp c (fst p) (snd p))), Rplus_0_l. apply sum_close.
  eapply Forall_impl; [|exact F]. intros c G. now apply H.
Qed.

(** The array is a list of N points, or two numbers. *)
Definition is_points (shape : list nat) (ps : list (R * R)) : Prop :=
  shape = [length ps; 2%nat] \/ length ps = 1%nat.
Definition numbers (ps : list (R * R)) : list R := flat_map (fun p => [fst p; snd p]) ps.
Lemma pairs_numbers ps : pairs (numbers ps) = ps.
Proof. unfold numbers. induction ps as [|[x y] r IH]; [reflexivity|]. cbn. now rewrite IH. Qed.
Lemma points_ok shape ps : is_points shape ps -> points shape (numbers ps) = Ok ps.
Proof.
  intros H. unfold points. rewrite pairs_numbers. destruct (_ =? 2)%nat eqn:E; [reflexivity|].
  destruct H as [-> |H]; [reflexivity|]. destruct ps as [|p [|]]; try discriminate.
Qed.

(** evaluate, and the two slow ones: the mixture's value at every point. *)
Theorem C95_points m shape ps : Forall good m -> is_points shape ps ->
  (exists v, evaluate m shape (numbers ps) = Ok v /\ Forall2 (fun p a => Rabs (a - mixture m (fst p) (snd p)) <= lost m 50) ps v)
  /\ (exists v, evaluate_3 m shape (numbers ps) = Ok v /\ evaluate_1 m shape (numbers ps) = Ok v
        /\ Forall2 (fun p a => Rabs (a - mixture m (fst p) (snd p)) <= lost m 350) ps v).
Proof.
  intros F H. unfold evaluate, evaluate_1, evaluate_2, evaluate_3, evaluate_with. rewrite (points_ok _ _ H). cbn [bind].
  split; (eexists; split; [reflexivity|]); [|split].
  - clear H. induction ps as [|p ps IH]; constructor; [|apply IH].
    apply summed_ok; [assumption|]. intros c G. rewrite comp_2_grid. now apply grid_comp_ok.
  - f_equal. apply map_ext. intro p. unfold summed.
    rewrite (fold_sum (fun c => comp_1 c (fst p) (snd p))), (fold_sum (fun c => comp_3 c (fst p) (snd p))).
    f_equal. apply sum_ext.
    intros c I. apply comp_13. rewrite Forall_forall in F. auto.
  - clear H. induction ps as [|p ps IH]; constructor; [|apply IH].
    apply summed_ok; [assumption|]. intros c G. now apply comp_3_ok.
Qed.

(** evaluate_grid has in each pixel what evaluate gives for its position. *)
Theorem C95_grid m (x0 x1 y0 y1 : Z) cx cy : (x0 <= x1)%Z -> (y0 <= y1)%Z ->
  exists g, evaluate_grid m (NI x0, NI x1, NI y0, NI y1) cx cy = Ok g /\
    (forall X Y, holds g X Y <-> (x0 <= X < x1 /\ y0 <= Y < y1)%Z) /\
    forall X Y, holds g X Y -> evaluate m [2%nat] [IZR X - cx; IZR Y - cy] = Ok [pixel g X Y].
Proof.
  intros HX HY. unfold evaluate_grid, alloc. cbn [nsub].
  replace (_ || _)%bool with false by (symmetry; apply orb_false_iff; split; apply Z.ltb_ge; lia).
  cbn [bind]. eexists. split; [reflexivity|]. split.
  - intros X Y. unfold holds. cbn. lia.
  - intros X Y _. unfold evaluate, evaluate_2, evaluate_with, points. cbn [length Nat.eqb pairs bind map].
    do 2 f_equal. unfold pixel. cbn [q_arr px q_x0 q_y0]. unfold summed, grid_val. cbn [fst snd].
    replace (x0 + (X - x0))%Z with X by lia. replace (y0 + (Y - y0))%Z with Y by lia.
    assert (E : forall l r, fold_left (fun r c => r + comp_2 c (IZR X - cx) (IZR Y - cy)) l r =
                            fold_left (fun r c => r + grid_comp c (IZR X - cx) (IZR Y - cy)) l r).
    { induction l as [|c l IH]; intro r; [reflexivity|]. cbn [fold_left]. rewrite comp_2_grid. apply IH. }
    apply E.
Qed.

(** ** On a grid with a least value *)
Section Grid.
Variable lround : R -> Z.
Hypothesis nearest : forall r, Rabs (IZR (lround r) - r) <= / 2.

Lemma sym_det c : good c -> sym c = g_xy c /\ sdet c = det c.
Proof. intros (S & _ & _). unfold sdet, sym, det. rewrite <- S. split; lra. Qed.
Lemma sscale_peak c : good c -> sscale c = peak c.
Proof.
  intro G. unfold sscale. destruct (sym_det c G) as [_ E]. rewrite E. pose proof G as (_ & _ & D).
  destruct (Rle_dec (det c) 0); [lra|]. unfold peak. f_equal. rewrite <- (root c G). reflexivity.
Qed.
Lemma quad_mahal c dx dy : good c -> let '(i0, i1, i2) := icov c in i0 * dx * dx + i1 * dx * dy + i2 * dy * dy = - mahal c dx dy / 2.
Proof.
  intro G. unfold icov. destruct (sym_det c G) as [-> ->]. cbv zeta. unfold mahal.
  pose proof G as (S & _ & D). replace (-0.5) with (- / 2) by lra. field. lra.
Qed.
Lemma eval_g_mahal c dx dy : good c -> eval_g (icov c) dx dy = if Rlt_dec 200 (mahal c dx dy) then 0 else exp (- mahal c dx dy / 2).
Proof.
  intro G. unfold eval_g. pose proof (quad_mahal c dx dy G) as Q. destruct (icov c) as [[i0 i1] i2]. rewrite Q.
  destruct (Rlt_dec (- mahal c dx dy / 2) (- 100)), (Rlt_dec 200 (mahal c dx dy)); try lra; reflexivity.
Qed.
Lemma value_ok m fx fy X Y : Forall good m -> Rabs (value m fx fy X Y - model m fx fy X Y) <= lost m 100.
Proof.
  intro F. unfold value, eval_all. rewrite (fold_sum (fun c => sscale c * eval_g (icov c) (IZR X - fx - g_mx c) (IZR Y - fy - g_my c))), Rplus_0_l.
  apply sum_close. eapply Forall_impl; [|exact F]. intros c G. cbv beta.
  rewrite (sscale_peak c G), (eval_g_mahal c _ _ G). unfold density.
  set (d := mahal c _ _). destruct (Rlt_dec 200 d).
  - rewrite Rmult_0_r. replace (- d / 2) with (- (d / 2)) by field. apply (cut_small _ _ 100). lra.
  - rewrite Rminus_diag_eq, Rabs_R0 by reflexivity. apply lost_pos.
Qed.

Variables (m : list gcomp) (x0 x1 y0 y1 : Z) (fx fy minval : R).
Hypothesis wide : (x0 < x1)%Z.
Hypothesis high : (y0 < y1)%Z.
Notation ibox := (inbox x0 x1 y0 y1).
Notation start := (start2 lround m x0 x1 y0 y1 fx fy).
Notation val := (value m fx fy).
Notation rch := (reached val (dim minval) x0 x1 y0 y1 0).

Lemma lround_in (lo hi : Z) r : IZR lo <= r <= IZR (hi - 1) -> (lo <= lround r < hi)%Z.
Proof.
  intros [A B]. pose proof (nearest r) as N. apply Rabs_le_between in N || idtac.
  assert (- / 2 <= IZR (lround r) - r <= / 2) by (unfold Rabs in N; destruct (Rcase_abs _); lra).
  split.
  - apply Z.nlt_ge. intro C. assert (IZR (lround r) <= IZR (lo - 1)) by (apply IZR_le; lia).
    rewrite minus_IZR in *. lra.
  - apply Z.nle_gt. intro C. assert (IZR hi <= IZR (lround r)) by (apply IZR_le; lia).
    rewrite minus_IZR in *. lra.
Qed.
Lemma clampR_in lo hi r : (lo < hi)%Z -> IZR lo <= clampR lo hi r <= IZR (hi - 1).
Proof.
  intro L. assert (IZR lo <= IZR (hi - 1)) by (apply IZR_le; lia). unfold clampR.
  destruct (Rlt_dec r (IZR lo)); [lra|]. destruct (Rlt_dec (IZR (hi - 1)) r); lra.
Qed.
Definition place_in (s : R * R * R) : Prop :=
  IZR x0 <= snd (fst s) <= IZR (x1 - 1) /\ IZR y0 <= snd s <= IZR (y1 - 1).
Lemma better_in s t : place_in s -> place_in t -> place_in (better s t).
Proof. unfold better. destruct (Rlt_dec _ _); auto. Qed.
Lemma on_x_in i mx my xx : IZR x0 <= xx <= IZR (x1 - 1) -> place_in (on_x y0 y1 i mx my xx).
Proof. intro L. destruct i as [[i0 i1] i2]. cbn. split; [exact L|]. now apply clampR_in. Qed.
Lemma on_y_in i mx my yy : IZR y0 <= yy <= IZR (y1 - 1) -> place_in (on_y x0 x1 i mx my yy).
Proof. intro L. destruct i as [[i0 i1] i2]. cbn. split; [now apply clampR_in|exact L]. Qed.
Lemma brightest_in c : let '(_, ix, iy) := brightest lround x0 x1 y0 y1 fx fy c in ibox ix iy.
Proof.
  unfold brightest. cbv zeta. destruct (_ && _ && _ && _)%Z%bool eqn:E.
  - apply andb_true_iff in E as [E E4]. apply andb_true_iff in E as [E E3]. apply andb_true_iff in E as [E1 E2].
    unfold inbox. lia.
  - assert (IX : IZR x0 <= IZR x0 <= IZR (x1 - 1)) by (split; apply IZR_le; lia).
    assert (IX' : IZR x0 <= IZR (x1 - 1) <= IZR (x1 - 1)) by (split; apply IZR_le; lia).
    assert (IY : IZR y0 <= IZR y0 <= IZR (y1 - 1)) by (split; apply IZR_le; lia).
    assert (IY' : IZR y0 <= IZR (y1 - 1) <= IZR (y1 - 1)) by (split; apply IZR_le; lia).
    destruct (better _ _) as [[d X] Y] eqn:EB.
    assert (P : place_in (d, X, Y)).
    { rewrite <- EB. apply better_in; [|now apply on_y_in]. apply better_in; [|now apply on_y_in].
      apply better_in; now apply on_x_in. }
    destruct P as [PX PY]. cbn in PX, PY. split; now apply lround_in.
Qed.
Lemma start_in : let '(xc, yc) := start in ibox xc yc.
Proof.
  unfold start2.
  assert (G : forall l s, (let '(_, xc, yc) := s in ibox xc yc) ->
    let '(_, xc, yc) := fold_left (fun s c => let '(maxpix, _, _) := s in
        let '(v, ix, iy) := brightest lround x0 x1 y0 y1 fx fy c in if Rlt_dec maxpix v then (v, ix, iy) else s) l s in ibox xc yc).
  { induction l as [|c l IH]; intros s P; [exact P|]. cbn [fold_left]. apply IH.
    destruct s as [[mp xc] yc]. pose proof (brightest_in c) as B. destruct (brightest lround x0 x1 y0 y1 fx fy c) as [[v ix] iy].
    destruct (Rlt_dec mp v); assumption. }
  specialize (G m (0, x0, y0)). destruct (fold_left _ m (0, x0, y0)) as [[mp xc] yc]. apply G. unfold inbox. lia.
Qed.

Lemma approx2_3 xc yc fuel : start = (xc, yc) ->
  approx2 lround m x0 x1 y0 y1 fx fy minval fuel =
    match approx3 0 val val (fun _ _ => false) (dim minval) x0 x1 y0 y1 0 fuel xc yc with
    | NoFuel => NoFuel | Undefined => Undefined | Done (a, _) => Done a end.
Proof.
  intro E. pose proof start_in as S. rewrite E in S. unfold approx2. rewrite E.
  replace (negb _) with false.
  - unfold approx3. rewrite C45_start_inside by exact S.
    destruct (rings _ _ _ _ _ _ _ _ _ _ _ _); [|reflexivity]. destruct (store _ _); reflexivity.
  - symmetry. apply negb_false_iff. unfold inbox in S.
    repeat (apply andb_true_iff; split); lia.
Qed.

(** The start is in the box, the loop ends, and the array holds the mixture at
    the pixels reached and zero elsewhere. *)
Theorem C95_approx fuel : (Z.max (x1 - x0) (y1 - y0) <= Z.of_nat fuel)%Z -> Forall good m ->
  exists xc yc px, start = (xc, yc) /\ ibox xc yc /\ grid_approx lround m x0 x1 y0 y1 fx fy minval fuel = Done px /\
    forall x y, ibox x y ->
      (rch xc yc x y -> px x y = val x y /\ Rabs (px x y - model m fx fy x y) <= lost m 100)
      /\ (~ rch xc yc x y -> px x y = 0).
Proof.
  intros HF F. destruct start as [xc yc] eqn:E. exists xc, yc. pose proof start_in as S. rewrite E in S.
  destruct (C45_render 0 val val (fun _ _ => false) (dim minval) x0 x1 y0 y1 0 fuel xc yc xc yc)
    as (arr & a0 & a1 & b0 & b1 & EA & _ & P & _).
  - now apply C45_start_inside.
  - exact S.
  - exact HF.
  - unfold grid_approx. rewrite (approx2_3 xc yc fuel E), EA. eexists. split; [reflexivity|].
    split; [exact S|]. split; [reflexivity|]. intros x y B. destruct (P x y B) as [P1 P2]. split.
    + intro RC. rewrite (P1 RC). split; [reflexivity|now apply value_ok].
    + exact P2.
Qed.

(** Components around one point, in the box or not, along the axes, with
    amplitudes of one sign: every pixel at least as bright as minval is there, so that the
    error is at most minval. *)
Definition upright (mx my : R) (c : gcomp) : Prop := g_mx c = mx /\ g_my c = my /\ g_xy c = 0 /\ 0 <= g_amp c.

Lemma eval_g_pos i dx dy : 0 <= eval_g i dx dy.
Proof. unfold eval_g. destruct i as [[a b] c]. destruct (Rlt_dec _ _); [lra|left; apply exp_pos]. Qed.
Lemma peak_pos c : good c -> 0 <= g_amp c -> 0 <= peak c.
Proof.
  intros (_ & _ & D) A. unfold peak. apply Rmult_le_pos; [exact A|].
  left. apply Rinv_0_lt_compat. apply Rmult_lt_0_compat; [pose proof PI_RGT_0; lra|now apply sqrt_lt_R0].
Qed.
Lemma upright_mahal c dx dy dx' dy' : good c -> g_xy c = 0 -> Rabs dx' <= Rabs dx -> Rabs dy' <= Rabs dy -> mahal c dx' dy' <= mahal c dx dy.
Proof.
  intros (S & A & D) Z HX HY. unfold mahal. unfold det in *. rewrite <- S, Z in *.
  assert (Y : 0 < g_yy c) by (apply Rmult_lt_reg_l with (g_xx c); lra).
  apply Rmult_le_compat_r; [left; apply Rinv_0_lt_compat; lra|].
  apply Rsqr_le_abs_1 in HX, HY. unfold Rsqr in *. nra.
Qed.
Lemma comp_grows c dx dy dx' dy' : good c -> g_xy c = 0 -> 0 <= g_amp c -> Rabs dx' <= Rabs dx -> Rabs dy' <= Rabs dy ->
  sscale c * eval_g (icov c) dx dy <= sscale c * eval_g (icov c) dx' dy'.
Proof.
  intros G Z A HX HY. rewrite (sscale_peak c G). apply Rmult_le_compat_l; [now apply peak_pos|].
  rewrite !(eval_g_mahal c _ _ G). pose proof (upright_mahal c dx dy dx' dy' G Z HX HY).
  destruct (Rlt_dec 200 (mahal c dx dy)), (Rlt_dec 200 (mahal c dx' dy')); try lra.
  - left; apply exp_pos.
  - destruct (Req_dec (mahal c dx' dy') (mahal c dx dy)) as [-> |N]; [lra|]. left. apply exp_increasing. lra.
Qed.
Lemma sum_le {A} (f g : A -> R) l : (forall c, In c l -> f c <= g c) -> sum_over f l <= sum_over g l.
Proof.
  unfold sum_over. induction l as [|c l IH]; cbn; intro H; [lra|].
  apply Rplus_le_compat; [apply H; now left|apply IH; intros; apply H; now right].
Qed.
Lemma sum_pos {A} (f : A -> R) l : (forall c, In c l -> 0 <= f c) -> 0 <= sum_over f l.
Proof.
  unfold sum_over. induction l as [|c l IH]; cbn; intro H; [lra|].
  apply Rplus_le_le_0_compat; [apply H; now left|apply IH; intros; apply H; now right].
Qed.
Lemma val_grows mx my x y x' y' : Forall good m -> Forall (upright mx my) m ->
  Rabs (IZR x' - fx - mx) <= Rabs (IZR x - fx - mx) -> Rabs (IZR y' - fy - my) <= Rabs (IZR y - fy - my) -> val x y <= val x' y'.
Proof.
  intros F U HX HY. unfold value, eval_all.
  rewrite !(fold_sum (fun c => sscale c * eval_g (icov c) (_ - g_mx c) (_ - g_my c))), !Rplus_0_l.
  apply sum_le. intros c I. rewrite Forall_forall in F, U. destruct (U c I) as (-> & -> & Z & A).
  apply comp_grows; auto.
Qed.
(** One step towards the rounded centre. *)
Definition toward (c x : Z) : Z := if (x <? c)%Z then (x + 1)%Z else if (c <? x)%Z then (x - 1)%Z else x.
Lemma toward_closer c x r : Rabs (IZR c - r) <= / 2 -> Rabs (IZR (toward c x) - r) <= Rabs (IZR x - r).
Proof.
  intro N. unfold toward.
  assert (- / 2 <= IZR c - r <= / 2) by (unfold Rabs in N; destruct (Rcase_abs _); lra).
  destruct (Z.ltb_spec x c) as [L|L]; [|destruct (Z.ltb_spec c x) as [L'|L']; [|lra]].
  - assert (IZR (x + 1) <= IZR c) by (apply IZR_le; lia). rewrite plus_IZR in *.
    apply Rsqr_le_abs_0. unfold Rsqr. nra.
  - assert (IZR c <= IZR (x - 1)) by (apply IZR_le; lia). rewrite minus_IZR in *.
    apply Rsqr_le_abs_0. unfold Rsqr. nra.
Qed.

(** The pixel of the box nearest to the centre of the components. *)
Lemma clampR_toward lo hi r x : (lo < hi)%Z -> (lo <= x < hi)%Z ->
  Rabs (IZR (toward (lround (clampR lo hi r)) x) - r) <= Rabs (IZR x - r).
Proof.
  intros L B. unfold clampR. destruct (Rlt_dec r (IZR lo)) as [A|A]; [|destruct (Rlt_dec (IZR (hi - 1)) r) as [A'|A']].
  - pose proof (lround_in lo (lo + 1) (IZR lo) ltac:(replace (lo + 1 - 1)%Z with lo by lia; lra)) as E.
    replace (lround (IZR lo)) with lo by lia. unfold toward. destruct (Z.ltb_spec x lo); [lia|]. destruct (Z.ltb_spec lo x) as [Q|Q]; [|lra].
    assert (IZR lo <= IZR (x - 1)) by (apply IZR_le; lia). rewrite minus_IZR in *. rewrite !Rabs_pos_eq by lra. lra.
  - pose proof (lround_in (hi - 1) hi (IZR (hi - 1)) ltac:(lra)) as E.
    replace (lround (IZR (hi - 1))) with (hi - 1)%Z by lia. unfold toward. destruct (Z.ltb_spec x (hi - 1)) as [Q|Q]; [|destruct (Z.ltb_spec (hi - 1) x); [lia|lra]].
    assert (IZR (x + 1) <= IZR (hi - 1)) by (apply IZR_le; lia). rewrite plus_IZR in *. rewrite !Rabs_left1 by lra. lra.
  - apply toward_closer, nearest.
Qed.
Lemma lround_clampR lo hi r : (lo < hi)%Z -> (lo <= lround r < hi)%Z -> lround (clampR lo hi r) = lround r.
Proof.
  intros L B. pose proof (nearest r) as N. assert (- / 2 <= IZR (lround r) - r <= / 2) by (unfold Rabs in N; destruct (Rcase_abs _); lra).
  unfold clampR. destruct (Rlt_dec r (IZR lo)) as [A|A]; [|destruct (Rlt_dec (IZR (hi - 1)) r) as [A'|A']; [|reflexivity]].
  - pose proof (lround_in lo (lo + 1) (IZR lo) ltac:(replace (lo + 1 - 1)%Z with lo by lia; lra)) as E.
    assert (lround r < lo + 1)%Z by (apply lt_IZR; rewrite plus_IZR; lra). lia.
  - pose proof (lround_in (hi - 1) hi (IZR (hi - 1)) ltac:(lra)) as E.
    assert (hi - 2 < lround r)%Z by (apply lt_IZR; rewrite minus_IZR in *; lra). lia.
Qed.
Lemma clampR_nearest lo hi r x : IZR lo <= x <= IZR (hi - 1) -> x = clampR lo hi r \/ (clampR lo hi r - r) ^ 2 < (x - r) ^ 2.
Proof.
  intro B. unfold clampR. destruct (Rlt_dec r (IZR lo)) as [A|A]; [|destruct (Rlt_dec (IZR (hi - 1)) r) as [A'|A']].
  - destruct (Req_dec x (IZR lo)) as [-> |N]; [now left|right]. assert (0 < x - IZR lo) by lra. nra.
  - destruct (Req_dec x (IZR (hi - 1))) as [-> |N]; [now left|right]. assert (0 < IZR (hi - 1) - x) by lra. nra.
  - destruct (Req_dec x r) as [-> |N]; [now left|right]. assert (0 < (x - r) * (x - r)) by (apply Rlt_0_sqr; lra). nra.
Qed.
Definition bound (i : R * R * R) (px py : R) (s : R * R * R) : Prop :=
  place_in s /\ fst (fst s) = quad i (snd (fst s) - px) (snd s - py).
Definition at_best (px py : R) (s : R * R * R) : Prop := snd (fst s) = clampR x0 x1 px /\ snd s = clampR y0 y1 py.
Lemma better_best i0 i2 px py s t : i0 < 0 -> i2 < 0 -> bound (i0, 0, i2) px py s -> bound (i0, 0, i2) px py t ->
  bound (i0, 0, i2) px py (better s t) /\ (at_best px py s \/ at_best px py t -> at_best px py (better s t)).
Proof.
  intros I0 I2 Bs Bt. split; [unfold better; destruct (Rlt_dec _ _); assumption|].
  assert (M : forall u v, at_best px py u -> bound (i0, 0, i2) px py u -> bound (i0, 0, i2) px py v -> at_best px py v \/ fst (fst v) < fst (fst u)).
  { intros u v [U1 U2] [_ U3] [[V1 V2] V3]. rewrite V3, U3. unfold quad. rewrite U1, U2.
    destruct (clampR_nearest x0 x1 px (snd (fst v)) V1) as [E|L], (clampR_nearest y0 y1 py (snd v) V2) as [E'|L'].
    - left. split; assumption.
    - right. rewrite E. cbn [pow] in L'. nra.
    - right. rewrite E'. cbn [pow] in L. nra.
    - right. cbn [pow] in L, L'. nra. }
  unfold better. intros [B|B].
  - destruct (M s t B Bs Bt) as [C|C]; destruct (Rlt_dec _ _); auto; lra.
  - destruct (M t s B Bt Bs) as [C|C]; destruct (Rlt_dec _ _); auto; lra.
Qed.
Lemma brightest_upright mx my c : good c -> upright mx my c -> exists v,
  brightest lround x0 x1 y0 y1 fx fy c = (v, lround (clampR x0 x1 (mx + fx)), lround (clampR y0 y1 (my + fy))) /\ 0 <= v /\ (0 < g_amp c -> 0 < v).
Proof.
  intros G (M1 & M2 & Z & A). assert (P0 := peak_pos c G A).
  assert (P1 : 0 < g_amp c -> 0 < peak c).
  { intro H. unfold peak. apply Rmult_lt_0_compat; [exact H|]. apply Rinv_0_lt_compat. apply Rmult_lt_0_compat; [pose proof PI_RGT_0; lra|].
    apply sqrt_lt_R0. destruct G as (_ & _ & D). exact D. }
  unfold brightest. rewrite M1, M2. cbv zeta. rewrite (sscale_peak c G).
  set (px := mx + fx). set (py := my + fy).
  destruct (_ && _ && _ && _)%Z%bool eqn:E.
  - apply andb_true_iff in E as [E E4]. apply andb_true_iff in E as [E E3]. apply andb_true_iff in E as [E1 E2].
    rewrite !lround_clampR by lia. exists (peak c). auto.
  - assert (SY : g_yx c = 0) by (destruct G as (S & _); rewrite <- S; exact Z).
    assert (IC : exists i0 i2, icov c = (i0, 0, i2) /\ i0 < 0 /\ i2 < 0).
    { destruct G as (_ & X & D). unfold det in D. rewrite Z, SY in D. unfold icov, sdet, sym. rewrite Z, SY. replace ((0 + 0) * 0.5) with 0 by ring.
      assert (Y : 0 < g_yy c) by (apply Rmult_lt_reg_l with (g_xx c); lra).
      assert (D' : 0 < g_xx c * g_yy c - 0 * 0) by lra. apply Rinv_0_lt_compat in D'.
      assert (I : - 0.5 / (g_xx c * g_yy c - 0 * 0) < 0) by (unfold Rdiv; nra).
      do 2 eexists. split; [f_equal; f_equal; ring|]. split; nra. }
    destruct IC as (i0 & i2 & -> & I0 & I2).
    assert (IX : IZR x0 <= IZR x0 <= IZR (x1 - 1)) by (split; apply IZR_le; lia).
    assert (IX' : IZR x0 <= IZR (x1 - 1) <= IZR (x1 - 1)) by (split; apply IZR_le; lia).
    assert (IY : IZR y0 <= IZR y0 <= IZR (y1 - 1)) by (split; apply IZR_le; lia).
    assert (IY' : IZR y0 <= IZR (y1 - 1) <= IZR (y1 - 1)) by (split; apply IZR_le; lia).
    assert (OX : forall xx, IZR x0 <= xx <= IZR (x1 - 1) -> bound (i0, 0, i2) px py (on_x y0 y1 (i0, 0, i2) px py xx) /\
       (xx = clampR x0 x1 px -> at_best px py (on_x y0 y1 (i0, 0, i2) px py xx))).
    { intros xx H. split; [split; [now apply on_x_in|reflexivity]|]. intro Q. split; [exact Q|]. cbn. f_equal. field. lra. }
    assert (OY : forall yy, IZR y0 <= yy <= IZR (y1 - 1) -> bound (i0, 0, i2) px py (on_y x0 x1 (i0, 0, i2) px py yy) /\
       (yy = clampR y0 y1 py -> at_best px py (on_y x0 x1 (i0, 0, i2) px py yy))).
    { intros yy H. split; [split; [now apply on_y_in|reflexivity]|]. intro Q. split; [|exact Q]. cbn. f_equal. field. lra. }
    destruct (OX _ IX) as [B1 A1]. destruct (OX _ IX') as [B2 A2]. destruct (OY _ IY) as [B3 A3]. destruct (OY _ IY') as [B4 A4].
    destruct (better_best _ _ _ _ _ _ I0 I2 B1 B2) as [C1 D1]. destruct (better_best _ _ _ _ _ _ I0 I2 C1 B3) as [C2 D2].
    destruct (better_best _ _ _ _ _ _ I0 I2 C2 B4) as [_ D3].
    assert (OUT : IZR x0 = clampR x0 x1 px \/ IZR (x1 - 1) = clampR x0 x1 px \/ IZR y0 = clampR y0 y1 py \/ IZR (y1 - 1) = clampR y0 y1 py).
    { assert (IN : forall lo hi r, clampR lo hi r = r \/ clampR lo hi r = IZR lo \/ clampR lo hi r = IZR (hi - 1))
        by (intros lo hi r; unfold clampR; destruct (Rlt_dec _ _); [auto|destruct (Rlt_dec _ _); auto]).
      destruct (IN x0 x1 px) as [E1|[E1|E1]]; [|auto|auto]. destruct (IN y0 y1 py) as [E2|[E2|E2]]; [|auto|auto].
      exfalso. pose proof (clampR_in x0 x1 px wide) as K1. pose proof (clampR_in y0 y1 py high) as K2. rewrite E1 in K1. rewrite E2 in K2.
      apply lround_in in K1, K2. assert (E' : (x0 <=? lround px)%Z && (lround px <? x1)%Z && (y0 <=? lround py)%Z && (lround py <? y1)%Z = true)
        by (repeat (apply andb_true_iff; split); lia). congruence. }
    destruct (better (better (better _ _) _) _) as [[d X] Y].
    assert (AB : at_best px py (d, X, Y)).
    { destruct OUT as [O|[O|[O|O]]]; apply D3; [left; apply D2; left; apply D1; left; auto|left; apply D2; left; apply D1; right; auto|left; apply D2; right; auto|right; auto]. }
    destruct AB as [AX AY]. cbn in AX, AY. subst X Y. exists (peak c * exp d). split; [reflexivity|].
    pose proof (exp_pos d). split; [nra|]. intro H'. apply P1 in H'. nra.
Qed.
Lemma start_upright mx my : Forall good m -> Forall (upright mx my) m -> Exists (fun c => 0 < g_amp c) m ->
  start = (lround (clampR x0 x1 (mx + fx)), lround (clampR y0 y1 (my + fy))).
Proof.
  intros F U X. unfold start2. set (xc := lround (clampR x0 x1 (mx + fx))). set (yc := lround (clampR y0 y1 (my + fy))).
  assert (G : forall l s, Forall good l -> Forall (upright mx my) l -> (0 <= fst (fst s) /\ (0 < fst (fst s) -> snd (fst s) = xc /\ snd s = yc)) ->
    let t := fold_left (fun s c => let '(maxpix, _, _) := s in
        let '(v, ix, iy) := brightest lround x0 x1 y0 y1 fx fy c in if Rlt_dec maxpix v then (v, ix, iy) else s) l s in
    (fst (fst s) <= fst (fst t) /\ (0 < fst (fst t) -> snd (fst t) = xc /\ snd t = yc)) /\
    (Exists (fun c => 0 < g_amp c) l -> 0 < fst (fst t))).
  { induction l as [|c l IH]; intros s HF HU [P1 P2]; cbn [fold_left].
    - split; [split; [lra|exact P2]|]. intro E. inversion E.
    - inversion HF as [|? ? Gc Gl]; subst. inversion HU as [|? ? Uc Ul]; subst.
      destruct (brightest_upright mx my c Gc Uc) as (v & EB & V0 & V1). fold xc yc in EB.
      destruct s as [[mp xx] yy]. rewrite EB. cbn [fst snd] in *.
      destruct (Rlt_dec mp v) as [L|L].
      + destruct (IH (v, xc, yc) Gl Ul) as [[Q1 Q2] Q3].
        { cbn. split; [lra|]. intros _. split; reflexivity. }
        cbn [fst snd] in *. split; [split; [lra|exact Q2]|]. intros _. lra.
      + destruct (IH (mp, xx, yy) Gl Ul) as [[Q1 Q2] Q3]; [cbn; split; assumption|].
        cbn [fst snd] in *. split; [split; [lra|exact Q2]|]. intro E. inversion E as [? ? H|? ? H]; subst; [|now apply Q3].
        apply V1 in H. lra. }
  destruct (G m (0, x0, y0) F U) as [[_ Q2] Q3]; [cbn; split; [lra|intro; lra]|].
  destruct (fold_left _ m (0, x0, y0)) as [[mp xx] yy]. cbn [fst snd] in *.
  destruct (Q2 (Q3 X)) as [-> ->]. reflexivity.
Qed.

Theorem C95_upright fuel mx my : (Z.max (x1 - x0) (y1 - y0) <= Z.of_nat fuel)%Z -> Forall good m ->
  Forall (upright mx my) m -> Exists (fun c => 0 < g_amp c) m ->
  exists px, grid_approx lround m x0 x1 y0 y1 fx fy minval fuel = Done px /\
    forall x y, ibox x y ->
      (minval + lost m 100 <= model m fx fy x y -> Rabs (px x y - model m fx fy x y) <= lost m 100)
      /\ (0 <= minval -> Rabs (px x y - model m fx fy x y) <= minval + lost m 100).
Proof.
  intros HF F U X. destruct (C95_approx fuel HF F) as (xc & yc & px & E & B & EG & P).
  exists px. split; [exact EG|]. intros x y BX. destruct (P x y BX) as [P1 P2]. clear EG.
  rewrite (start_upright mx my F U X) in E. injection E as EX EY.
  assert (A : minval <= val x y -> rch xc yc x y).
  { intro V. apply C45_star; auto.
    - intros a b Bb Vb D. exists (toward xc a), (toward yc b).
      assert (VV : val a b <= val (toward xc a) (toward yc b)).
      { apply (val_grows mx my); auto.
        - replace (IZR (toward xc a) - fx - mx) with (IZR (toward xc a) - (fx + mx)) by ring.
          replace (IZR a - fx - mx) with (IZR a - (fx + mx)) by ring. subst xc. rewrite (Rplus_comm fx). apply clampR_toward; [exact wide|unfold inbox in Bb; lia].
        - replace (IZR (toward yc b) - fy - my) with (IZR (toward yc b) - (fy + my)) by ring.
          replace (IZR b - fy - my) with (IZR b - (fy + my)) by ring. subst yc. rewrite (Rplus_comm fy). apply clampR_toward; [exact high|unfold inbox in Bb; lia]. }
      split; [|split; [|split]].
      + unfold inbox, toward in *. destruct (Z.ltb_spec a xc), (Z.ltb_spec xc a), (Z.ltb_spec b yc), (Z.ltb_spec yc b); lia.
      + unfold dim in *. destruct (Rlt_dec (val a b) minval); [discriminate|]. destruct (Rlt_dec _ minval); [lra|reflexivity].
      + unfold adjacent, toward. destruct (Z.ltb_spec a xc), (Z.ltb_spec xc a), (Z.ltb_spec b yc), (Z.ltb_spec yc b); lia.
      + unfold dist, toward in *. destruct (Z.ltb_spec a xc), (Z.ltb_spec xc a), (Z.ltb_spec b yc), (Z.ltb_spec yc b); lia.
    - unfold dim. destruct (Rlt_dec (val x y) minval); [lra|reflexivity]. }
  assert (L0 : 0 <= lost m 100).
  { apply sum_pos. intros. apply lost_pos. }
  split.
  { intro V. apply P1, A. pose proof (value_ok m fx fy x y F) as VO. unfold Rabs in VO. destruct (Rcase_abs _); lra. }
  intro M0.
  destruct (Rle_lt_dec minval (val x y)) as [V|V].
  - destruct (P1 (A V)) as [_ Q]. lra.
  - assert (V0 : 0 <= val x y).
    { unfold value, eval_all. rewrite (fold_sum (fun c => sscale c * eval_g (icov c) (_ - g_mx c) (_ - g_my c))), Rplus_0_l.
      apply sum_pos. intros c I. rewrite Forall_forall in F, U. destruct (U c I) as (_ & _ & _ & A0).
      apply Rmult_le_pos; [|apply eval_g_pos]. rewrite sscale_peak by auto. now apply peak_pos; [apply F|]. }
    pose proof (value_ok m fx fy x y F) as VO.
    assert (C : {px x y = val x y} + {~ px x y = val x y}) by apply Req_EM_T.
    destruct C as [C|C]; [rewrite C; lra|].
    rewrite P2 by (intro RC; now apply C, P1).
    replace (0 - model m fx fy x y) with ((value m fx fy x y - model m fx fy x y) - value m fx fy x y) by ring.
    eapply Rle_trans; [apply Rabs_triang|]. rewrite Rabs_Ropp, (Rabs_pos_eq (value m fx fy x y)) by assumption. lra.
Qed.
End Grid.

(** ** Matrices that are not symmetric, and flat ones *)
(** Only the mean of the two off-diagonal numbers matters; a component whose
    matrix then has no positive determinant is as if it were not there. *)
Definition off (c : gcomp) : R := (g_xy c + g_yx c) / 2.
Definition symmetric_part (c : gcomp) : gcomp := mkG (g_amp c) (g_mx c) (g_my c) (g_xx c) (off c) (off c) (g_yy c).
Lemma grid_ext lr m m' x0 x1 y0 y1 fx fy minval fuel : start2 lr m x0 x1 y0 y1 fx fy = start2 lr m' x0 x1 y0 y1 fx fy ->
  (forall x y, value m fx fy x y = value m' fx fy x y) ->
  grid_approx lr m x0 x1 y0 y1 fx fy minval fuel = grid_approx lr m' x0 x1 y0 y1 fx fy minval fuel.
Proof.
  intros S V. unfold grid_approx, approx2. rewrite S.
  replace (value m fx fy) with (value m' fx fy); [reflexivity|]. do 2 (apply FunctionalExtensionality.functional_extensionality; intro). now rewrite V.
Qed.
Theorem C95_symmetric_part lr m x0 x1 y0 y1 fx fy minval fuel :
  grid_approx lr (map symmetric_part m) x0 x1 y0 y1 fx fy minval fuel = grid_approx lr m x0 x1 y0 y1 fx fy minval fuel.
Proof.
  assert (S : forall c, sym (symmetric_part c) = sym c) by (intro c; unfold sym, symmetric_part, off; cbn [g_xy g_yx]; lra).
  assert (D : forall c, sdet (symmetric_part c) = sdet c) by (intro c; unfold sdet; rewrite S; reflexivity).
  assert (I : forall c, icov (symmetric_part c) = icov c) by (intro c; unfold icov; rewrite S, D; reflexivity).
  assert (SC : forall c, sscale (symmetric_part c) = sscale c) by (intro c; unfold sscale; rewrite D; reflexivity).
  assert (B : forall c, brightest lr x0 x1 y0 y1 fx fy (symmetric_part c) = brightest lr x0 x1 y0 y1 fx fy c)
    by (intro c; unfold brightest; rewrite I, SC; reflexivity).
  assert (FL : forall (A : Type) (f : A -> gcomp -> A) a, (forall s c, f s (symmetric_part c) = f s c) -> fold_left f (map symmetric_part m) a = fold_left f m a).
  { intros A f. induction m as [|c l IH]; intros a H; [reflexivity|]. cbn [map fold_left]. rewrite H. now apply IH. }
  apply grid_ext.
  - unfold start2. rewrite FL; [reflexivity|]. intros s c. now rewrite B.
  - intros x y. unfold value, eval_all. apply FL. intros s c. rewrite I, SC. reflexivity.
Qed.
Theorem C95_flat lr m c m' x0 x1 y0 y1 fx fy minval fuel : g_xx c * g_yy c <= off c ^ 2 ->
  grid_approx lr (m ++ c :: m') x0 x1 y0 y1 fx fy minval fuel = grid_approx lr (m ++ m') x0 x1 y0 y1 fx fy minval fuel.
Proof.
  intro H. assert (SC : sscale c = 0).
  { unfold sscale. destruct (Rle_dec (sdet c) 0) as [_|N]; [reflexivity|]. exfalso. apply N. unfold sdet, sym, off in *. cbn [pow] in H. nra. }
  apply grid_ext.
  - unfold start2. rewrite !fold_left_app. cbn [fold_left].
    set (f := fun s c => let '(maxpix, _, _) := s in let '(v, ix, iy) := brightest lr x0 x1 y0 y1 fx fy c in if Rlt_dec maxpix v then (v, ix, iy) else s).
    assert (P : forall l (s : R * Z * Z), 0 <= fst (fst s) -> 0 <= fst (fst (fold_left f l s))).
    { induction l as [|d l IH]; intros s Q; [exact Q|]. cbn [fold_left]. apply IH. unfold f. destruct s as [[mp xx] yy].
      destruct (brightest _ _ _ _ _ _ _ d) as [[v ix] iy]. destruct (Rlt_dec mp v); cbn in *; lra. }
    specialize (P m (0, x0, y0) ltac:(cbn; lra)). destruct (fold_left f m (0, x0, y0)) as [[mp xx] yy]. cbn in P.
    assert (Q : (let '(v, ix, iy) := brightest lr x0 x1 y0 y1 fx fy c in if Rlt_dec mp v then (v, ix, iy) else (mp, xx, yy)) = (mp, xx, yy)); [|rewrite Q; reflexivity]. unfold brightest. rewrite SC. cbv zeta.
    destruct (_ && _ && _ && _)%Z%bool; [destruct (Rlt_dec mp 0); [lra|reflexivity]|].
    destruct (better _ _) as [[d X] Y]. destruct (Rlt_dec mp (0 * exp d)); [lra|reflexivity].
  - intros x y. unfold value, eval_all. rewrite !fold_left_app. cbn [fold_left]. rewrite SC. f_equal. ring.
Qed.
(** A matrix that is not symmetric, and one of determinant zero. *)
Example C95_flat_ex : let c := mkG 1 0 0 2 1 0 1 in let d := mkG 5 0 0 1 1 1 1 in
  off c = 1 / 2 /\ g_xx d * g_yy d <= off d ^ 2 /\ symmetric_part c = mkG 1 0 0 2 (1 / 2) (1 / 2) 1.
Proof. cbv zeta. unfold symmetric_part, off. cbn. replace ((1 + 0) / 2) with (1 / 2) by field. repeat split; lra. Qed.

(** ** Where evaluate_grid_approx leaves pixels out *)
Section Left_out.
Variable lround : R -> Z.
Hypothesis nearest : forall r, Rabs (IZR (lround r) - r) <= / 2.

Lemma lround_int n : lround (IZR n) = n.
Proof.
  pose proof (nearest (IZR n)) as N. rewrite <- minus_IZR, <- abs_IZR in N.
  destruct (Z.eq_dec (lround (IZR n)) n) as [E|E]; [exact E|].
  assert (1 <= IZR (Z.abs (lround (IZR n) - n))) by (apply IZR_le; lia). lra.
Qed.

(** No component with a positive amplitude: only the corner of the box and its
    neighbours are there, whatever is in the box. *)
Lemma start_negative m x0 x1 y0 y1 fx fy : (x0 < x1)%Z -> (y0 < y1)%Z -> Forall good m -> Forall (fun c => g_amp c <= 0) m ->
  start2 lround m x0 x1 y0 y1 fx fy = (x0, y0).
Proof.
  intros WX WY F N. unfold start2.
  assert (G : fold_left (fun s c => let '(maxpix, _, _) := s in
        let '(v, ix, iy) := brightest lround x0 x1 y0 y1 fx fy c in if Rlt_dec maxpix v then (v, ix, iy) else s) m (0, x0, y0) = (0, x0, y0)).
  { induction m as [|c l IH]; [reflexivity|]. inversion F as [|? ? Gc Gl]; subst. inversion N as [|? ? Nc Nl]; subst.
    cbn [fold_left]. assert (V : fst (fst (brightest lround x0 x1 y0 y1 fx fy c)) <= 0).
    { assert (P : peak c <= 0).
      { unfold peak. destruct Gc as (_ & _ & D). assert (0 < / (2 * PI * sqrt (det c))).
        { apply Rinv_0_lt_compat. apply Rmult_lt_0_compat; [pose proof PI_RGT_0; lra|now apply sqrt_lt_R0]. }
        unfold Rdiv. nra. }
      unfold brightest. cbv zeta. rewrite (sscale_peak c Gc). destruct (_ && _ && _ && _)%Z%bool; [exact P|].
      destruct (better _ _) as [[d X] Y]. cbn [fst]. pose proof (exp_pos d). nra. }
    destruct (brightest lround x0 x1 y0 y1 fx fy c) as [[v ix] iy]. cbn [fst] in V.
    destruct (Rlt_dec 0 v); [lra|]. now apply IH. }
  rewrite G. reflexivity.
Qed.
Lemma value_negative m fx fy x y : Forall good m -> Forall (fun c => g_amp c <= 0) m -> value m fx fy x y <= 0.
Proof.
  intros F N. unfold value, eval_all. rewrite (fold_sum (fun c => sscale c * eval_g (icov c) (_ - g_mx c) (_ - g_my c))), Rplus_0_l.
  rewrite Forall_forall in F, N.
  assert (0 <= sum_over (fun c => - (sscale c * eval_g (icov c) (IZR x - fx - g_mx c) (IZR y - fy - g_my c))) m).
  { apply sum_pos. intros c I. rewrite sscale_peak by auto. pose proof (eval_g_pos (icov c) (IZR x - fx - g_mx c) (IZR y - fy - g_my c)).
    assert (P : peak c <= 0); [|nra]. unfold peak. destruct (F c I) as (_ & _ & D).
    assert (0 < / (2 * PI * sqrt (det c))).
    { apply Rinv_0_lt_compat. apply Rmult_lt_0_compat; [pose proof PI_RGT_0; lra|now apply sqrt_lt_R0]. }
    specialize (N c I). unfold Rdiv. nra. }
  assert (E : forall (f : gcomp -> R) l, sum_over (fun c => - f c) l = - sum_over f l).
  { unfold sum_over. induction l as [|c l IH]; cbn; [ring|]. rewrite IH. ring. }
  rewrite E in H. lra.
Qed.
Theorem C95_negative m x0 x1 y0 y1 fx fy minval fuel : (x0 < x1)%Z -> (y0 < y1)%Z -> (Z.max (x1 - x0) (y1 - y0) <= Z.of_nat fuel)%Z ->
  Forall good m -> Forall (fun c => g_amp c <= 0) m -> 0 < minval ->
  exists px, grid_approx lround m x0 x1 y0 y1 fx fy minval fuel = Done px /\
    forall x y, (x0 <= x < x1)%Z -> (y0 <= y < y1)%Z ->
      ((x <= x0 + 1)%Z /\ (y <= y0 + 1)%Z -> Rabs (px x y - model m fx fy x y) <= lost m 100)
      /\ ((x0 + 1 < x)%Z \/ (y0 + 1 < y)%Z -> px x y = 0).
Proof.
  intros WX WY HF F N M. destruct (C95_approx lround nearest m x0 x1 y0 y1 fx fy minval WX WY fuel HF F) as (xc & yc & px & E & _ & EG & P).
  rewrite start_negative in E by assumption. injection E as <- <-. exists px. split; [exact EG|]. intros x y BX BY.
  assert (B : inbox x0 x1 y0 y1 x y) by (split; assumption). destruct (P x y B) as [P1 P2]. split.
  - intros [CX CY]. apply P1. apply C45_minradius; [split; lia|exact B|]. unfold dist. lia.
  - intro C. apply P2. intro RC.
    assert (I : forall x y, reached (value m fx fy) (dim minval) x0 x1 y0 y1 0 x0 y0 x y -> (dist x0 y0 x y <= 1)%Z).
    { clear - F N M. induction 1 as [|a b a' b' RA IH GR IB AD DD]; [unfold dist; lia|].
      destruct GR as [D|[D|V]]; [lia|lia|]. exfalso. unfold dim in V. destruct (Rlt_dec _ minval) as [L|L]; [discriminate|].
      pose proof (value_negative m fx fy a b F N). lra. }
    specialize (I x y RC). unfold dist in I. lia.
Qed.

(** Two stars of unit peak ten pixels apart. *)
Definition star (x : R) : gcomp := mkG (2 * PI) x 0 1 0 0 1.
Lemma star_good x : good (star x).
Proof. unfold good, det, star. cbn. lra. Qed.
Lemma star_peak x : peak (star x) = 1.
Proof. unfold peak, det, star. cbn. replace (1 * 1 - 0 * 0) with 1 by ring. rewrite sqrt_1. pose proof PI_RGT_0. field. lra. Qed.
Lemma star_density x X Y : density (star x) X Y = exp (- ((X - x) ^ 2 + Y ^ 2) / 2).
Proof. unfold density. rewrite star_peak, Rmult_1_l. f_equal. unfold mahal, det, star. cbn. field. Qed.
Lemma star_value x X Y : (X - x) ^ 2 + Y ^ 2 <= 200 -> sscale (star x) * eval_g (icov (star x)) (X - g_mx (star x)) (Y - g_my (star x)) = exp (- ((X - x) ^ 2 + Y ^ 2) / 2).
Proof.
  intro L. rewrite (sscale_peak _ (star_good x)), (eval_g_mahal _ _ _ (star_good x)), star_peak, Rmult_1_l.
  assert (E : mahal (star x) (X - g_mx (star x)) (Y - g_my (star x)) = (X - x) ^ 2 + Y ^ 2).
  { unfold mahal, det, star. cbn. field. }
  rewrite E. destruct (Rlt_dec 200 _); [lra|reflexivity].
Qed.
Lemma exp_small t : 4 <= t -> exp (- t / 2) < / 4.
Proof.
  intro L. replace (- t / 2) with (- (t / 2)) by field. rewrite exp_Ropp. apply Rinv_lt_contravar; [apply Rmult_lt_0_compat; [lra|apply exp_pos]|].
  assert (2 < exp 1) by (pose proof (exp_ineq1 1 ltac:(lra)); lra).
  assert (exp 1 * exp 1 <= exp (t / 2)).
  { rewrite <- exp_plus. replace (1 + 1) with 2 by ring. destruct (Req_dec (t / 2) 2) as [-> |]; [lra|]. left. apply exp_increasing. lra. }
  nra.
Qed.
Definition pair_value (X : R) : R := exp (- X ^ 2 / 2) + exp (- (X - 10) ^ 2 / 2).
Lemma two_value x : (0 <= x <= 10)%Z -> value [star 0; star 10] 0 0 x 0 = pair_value (IZR x).
Proof.
  intros [A B]. apply IZR_le in A, B. unfold value, eval_all. cbn [fold_left]. rewrite !star_value by nra.
  unfold pair_value. rewrite Rplus_0_l. f_equal; f_equal; f_equal; ring.
Qed.
Theorem C95_two_stars_refuted fuel : (11 <= Z.of_nat fuel)%Z ->
  exists px, grid_approx lround [star 0; star 10] 0 11 0 1 0 0 (/ 2) fuel = Done px /\
    px 10%Z 0%Z = 0 /\ 1 < model [star 0; star 10] 0 0 10 0.
Proof.
  intro HF. assert (F : Forall good [star 0; star 10]) by (repeat constructor; apply star_good).
  destruct (C95_approx lround nearest [star 0; star 10] 0 11 0 1 0 0 (/ 2) ltac:(lia) ltac:(lia) fuel ltac:(lia) F) as (xc & yc & px & E & _ & EG & P).
  assert (ES : start2 lround [star 0; star 10] 0 11 0 1 0 0 = (0, 0)%Z).
  { assert (B : forall n, (0 <= n < 11)%Z -> brightest lround 0 11 0 1 0 0 (star (IZR n)) = (1, n, 0%Z)).
    { intros n Hn. unfold brightest. rewrite (sscale_peak _ (star_good _)), star_peak. cbn [g_mx g_my star].
      rewrite !Rplus_0_r, (lround_int n), (lround_int 0). cbv zeta.
      replace (_ && _ && _ && _)%Z%bool with true; [reflexivity|]. symmetry. repeat (apply andb_true_iff; split); lia. }
    unfold start2. cbn [fold_left]. rewrite (B 0%Z), (B 10%Z) by lia.
    destruct (Rlt_dec 0 1); [|lra]. destruct (Rlt_dec 1 1); [lra|reflexivity]. }
  rewrite ES in E. injection E as <- <-. exists px. split; [exact EG|]. split.
  - apply (proj2 (P 10%Z 0%Z ltac:(split; lia))).
    assert (I : forall x y, reached (value [star 0; star 10] 0 0) (dim (/ 2)) 0 11 0 1 0 0 0 x y -> (0 <= x <= 2 /\ y = 0)%Z).
    { induction 1 as [|a b a' b' RA IH GR IB AD DD]; [lia|]. destruct IH as [IH ->]. unfold inbox, adjacent in *.
      split; [|lia]. destruct (Z.eq_dec a 2) as [-> |NE]; [|lia]. exfalso.
      destruct GR as [D|[D|V]]; [unfold dist in D; lia|unfold dist in D; lia|].
      rewrite two_value in V by lia. unfold dim in V. destruct (Rlt_dec _ (/ 2)) as [L|L]; [discriminate|]. apply L.
      unfold pair_value. pose proof (exp_small (2 ^ 2) ltac:(lra)) as Q1. pose proof (exp_small ((2 - 10) ^ 2) ltac:(lra)) as Q2.
      lra. }
    intro RC. destruct (I _ _ RC) as [J _]. lia.
  - unfold model, sum_over. cbn [fold_right]. rewrite !star_density, Rplus_0_r.
    replace (- ((10 - 0 - 10) ^ 2 + (0 - 0) ^ 2) / 2) with 0 by field. rewrite exp_0.
    pose proof (exp_pos (- ((10 - 0 - 0) ^ 2 + (0 - 0) ^ 2) / 2)). lra.
Qed.

(** Concrete cases. *)
Example points_example : is_points [3%nat; 2%nat] [(0, 0); (10, 0); (5, 1)] /\ is_points [1%nat; 1%nat; 2%nat] [(3, 4)] /\
  Forall good [star 0; star 10] /\
  evaluate [star 0; star 10] [2%nat; 3%nat] [1; 2; 3; 4; 5; 6] = Err AssertionError /\
  evaluate [star 0; star 10] [4%nat] [1; 2; 3; 4] = Err ValueError.
Proof.
  split; [left; reflexivity|]. split; [right; reflexivity|]. split; [repeat constructor; apply star_good|]. split; reflexivity.
Qed.
Example upright_example : Forall good [star 3; star 3] /\ Forall (upright 3 0) [star 3; star 3] /\
  Exists (fun c => 0 < g_amp c) [star 3; star 3] /\ inbox 0 9 (-4) 5 (lround (3 + 0)) (lround (0 + 0)) /\
  1 / 1000 <= value [star 3; star 3] 0 0 4 1 /\ 1 / 1000 + lost [star 3; star 3] 100 <= model [star 3; star 3] 0 0 4 1.
Proof.
  pose proof PI_RGT_0 as HP.
  split; [repeat constructor; apply star_good|]. split; [repeat constructor; cbn; lra|]. split; [left; cbn; lra|]. split.
  - rewrite !Rplus_0_r, (lround_int 3), (lround_int 0). split; lia.
  - pose proof exp_le_3. pose proof (exp_pos 1). assert (/ 3 <= / exp 1) by (apply Rinv_le_contravar; lra). split.
    + unfold value, eval_all. cbn [fold_left]. rewrite !star_value by lra. rewrite Rplus_0_l.
      replace (- ((4 - 0 - 3) ^ 2 + (1 - 0) ^ 2) / 2) with (- (1)) by field. rewrite exp_Ropp. lra.
    + unfold lost, model, sum_over. cbn [fold_right]. rewrite !star_density, !star_peak, Rabs_R1.
      replace (- ((4 - 0 - 3) ^ 2 + (1 - 0) ^ 2) / 2) with (- (1)) by field. rewrite (exp_Ropp 1).
      pose proof (exp_small 200 ltac:(lra)) as Q. replace (- (200) / 2) with (- (100)) in Q by field. lra.
Qed.
Example negative_example : Forall good [mkG (-2) 5 5 1 0 0 1] /\ Forall (fun c => g_amp c <= 0) [mkG (-2) 5 5 1 0 0 1] /\
  model [mkG (-2) 5 5 1 0 0 1] 0 0 5 5 < 0.
Proof.
  split; [repeat constructor; unfold det; cbn; lra|]. split; [repeat constructor; cbn; lra|].
  unfold model, sum_over, density, peak. cbn. unfold det. cbn. replace (1 * 1 - 0 * 0) with 1 by ring. rewrite sqrt_1.
  pose proof (exp_pos (- mahal (mkG (-2) 5 5 1 0 0 1) (5 - 0 - 5) (5 - 0 - 5) / 2)) as X.
  assert (Y : 0 < / (2 * PI * 1)) by (apply Rinv_0_lt_compat; pose proof PI_RGT_0; lra). unfold Rdiv at 1.
  pose proof (Rmult_lt_0_compat _ _ X Y). lra.
Qed.
End Left_out.
(** There is such a rounding. *)
Example nearest_example : forall r, Rabs (IZR (up (r - / 2)) - r) <= / 2.
Proof. intro r. destruct (archimed (r - / 2)). unfold Rabs. destruct (Rcase_abs _); lra. Qed.

Print Assumptions C95_points.
Print Assumptions C95_grid.
Print Assumptions C95_approx.
Print Assumptions C95_upright.
Print Assumptions C95_symmetric_part.
Print Assumptions C95_flat.
Print Assumptions C95_negative.
Print Assumptions C95_two_stars_refuted.
