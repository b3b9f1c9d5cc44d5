(** C65: point-source stamps of Gaussian PSFs. *)
From Coq Require Import List ZArith Bool Reals Lra Lia.
From Verif Require Import Base PatchModel GalPatchModel GaussPsfModel.
From Verif Require Import GalPatchProps.
Import ListNotations.
Open Scope R_scope.

(** ** Specification *)
(** The density of a component with a symmetric, positive variance. *)
Definition det (c : gcomp) : R := g_xx c * g_yy c - g_xy c * g_yx c.
Definition good (c : gcomp) : Prop := g_xy c = g_yx c /\ 0 < g_xx c /\ 0 < det c.
(** d^T V^-1 d, see [mahal_inverse]. *)
Definition mahal (c : gcomp) (dx dy : R) : R := (g_yy c * dx ^ 2 - 2 * g_xy c * dx * dy + g_xx c * dy ^ 2) / det c.
Definition peak (c : gcomp) : R := g_amp c / (2 * PI * sqrt (det c)).
Definition density (c : gcomp) (x y : R) : R := peak c * exp (- mahal c (x - g_mx c) (y - g_my c) / 2).
Definition sum_over {A} (f : A -> R) (l : list A) : R := fold_right (fun c a => f c + a) 0 l.
(** The mixture with its origin moved to (cx, cy), at pixel (X, Y). *)
Definition model (m : list gcomp) (cx cy : R) (X Y : Z) : R := sum_over (fun c => density c (IZR X - cx) (IZR Y - cy)) m.
(** What is lost by leaving out components where the exponent is below -e. *)
Definition lost (m : list gcomp) (e : R) : R := sum_over (fun c => Rabs (peak c) * exp (- e)) m.

Definition holds (g : gpatch) (X Y : Z) : Prop :=
  (q_x0 g <= X < q_x0 g + aw (q_arr g) /\ q_y0 g <= Y < q_y0 g + ah (q_arr g))%Z.
Definition pixel (g : gpatch) (X Y : Z) : R := px (q_arr g) (Y - q_y0 g)%Z (X - q_x0 g)%Z.
(** Pixel (X, Y) is within r of (x, y) along both axes. *)
Definition within (r x y : R) (X Y : Z) : Prop := Rabs (IZR X - x) <= r /\ Rabs (IZR Y - y) <= r.
Definition in_clip (clip : option (Z * Z * Z * Z)) (X Y : Z) : Prop :=
  match clip with None => True | Some (xl, xh, yl, yh) => (xl <= X < xh /\ yl <= Y < yh)%Z end.
(** Circular Gaussians with weights w and widths s. *)
Definition circular (w s : list R) (x y : R) (X Y : Z) : R :=
  sum_over (fun ws => fst ws / (2 * PI * snd ws ^ 2) * exp (- ((IZR X - x) ^ 2 + (IZR Y - y) ^ 2) / (2 * snd ws ^ 2))) (combine w s).
Definition circular_lost (w s : list R) (e : R) : R :=
  sum_over (fun ws => Rabs (fst ws) / (2 * PI * snd ws ^ 2) * exp (- e)) (combine w s).

(** [mahal] is the quadratic form of the inverse matrix. *)
Lemma mahal_inverse c dx dy u v : good c ->
  g_xx c * u + g_xy c * v = dx -> g_yx c * u + g_yy c * v = dy -> mahal c dx dy = dx * u + dy * v.
Proof.
  intros (S & _ & D) <- <-. unfold mahal, det in *. rewrite <- S in *. field. lra.
Qed.

(** ** Evaluation *)
Lemma root c : good c -> sqrt ((2 * PI) ^ 2 * (g_xx c * g_yy c - g_xy c * g_yx c)) = 2 * PI * sqrt (det c).
Proof.
  intros (_ & _ & D). fold (det c). pose proof PI_RGT_0 as HP.
  rewrite sqrt_mult; [|apply pow2_ge_0|lra]. f_equal. apply sqrt_pow2. lra.
Qed.
Lemma cut_small a s e : e <= s -> Rabs (0 - a * exp (- s)) <= Rabs a * exp (- e).
Proof.
  intros H. replace (0 - a * exp (- s)) with (- (a * exp (- s))) by ring.
  rewrite Rabs_Ropp, Rabs_mult, (Rabs_pos_eq (exp (- s))) by (left; apply exp_pos).
  apply Rmult_le_compat_l; [apply Rabs_pos|]. destruct H as [H| ->]; [left; apply exp_increasing; lra|right; reflexivity].
Qed.
Lemma lost_pos c e : 0 <= Rabs (peak c) * exp (- e).
Proof. apply Rmult_le_pos; [apply Rabs_pos|left; apply exp_pos]. Qed.

Lemma grid_comp_ok c x y : good c -> Rabs (grid_comp c x y - density c x y) <= Rabs (peak c) * exp (- 50).
Proof.
  intros G. unfold grid_comp. rewrite (root c G). pose proof G as (S & _ & D). unfold density.
  set (dx := x - g_mx c). set (dy := y - g_my c).
  assert (E : g_yy c / (g_xx c * g_yy c - g_xy c * g_yx c) * dx * dx
     + - (g_xy c + g_yx c) / (g_xx c * g_yy c - g_xy c * g_yx c) * dx * dy
     + g_xx c / (g_xx c * g_yy c - g_xy c * g_yx c) * dy * dy = mahal c dx dy).
  { unfold mahal. unfold det in D |- *. rewrite <- S in *. field. lra. }
  cbv zeta. rewrite E. fold (peak c). destruct (Rle_dec 100 (mahal c dx dy)).
  - replace (- mahal c dx dy / 2) with (- (mahal c dx dy / 2)) by field. apply (cut_small _ _ 50). lra.
  - replace (- 0.5 * mahal c dx dy) with (- mahal c dx dy / 2) by lra.
    rewrite Rminus_diag_eq, Rabs_R0 by reflexivity. apply lost_pos.
Qed.

Lemma fold_sum {A} (f : A -> R) l : forall r, fold_left (fun r c => r + f c) l r = r + sum_over f l.
Proof. unfold sum_over. induction l as [|c l IH]; intros r; cbn; [ring|]. rewrite IH. ring. Qed.
Lemma sum_close {A} (f g b : A -> R) (l : list A) : Forall (fun c => Rabs (f c - g c) <= b c) l ->
  Rabs (sum_over f l - sum_over g l) <= sum_over b l.
Proof.
  unfold sum_over. induction 1 as [|c l H F IH]; cbn.
  - rewrite Rminus_diag_eq, Rabs_R0 by reflexivity. lra.
  - replace (f c + _ - _) with ((f c - g c) + (fold_right (fun c a => f c + a) 0 l - fold_right (fun c a => g c + a) 0 l)) by ring.
    eapply Rle_trans; [apply Rabs_triang|]. lra.
Qed.
Lemma sum_ext {A} (f g : A -> R) l : (forall c, In c l -> f c = g c) -> sum_over f l = sum_over g l.
Proof.
  unfold sum_over. induction l as [|c l IH]; cbn; intros H; [reflexivity|]. rewrite H, IH; auto.
Qed.

Lemma grid_ok m cx cy X Y : Forall good m ->
  Rabs (grid_val m (IZR X - cx) (IZR Y - cy) - model m cx cy X Y) <= lost m 50.
Proof.
  intros F. unfold grid_val. rewrite fold_sum, Rplus_0_l. apply sum_close.
  eapply Forall_impl; [|exact F]. intros c G. apply grid_comp_ok; auto.
Qed.

(** evaluate_grid: the patch is the box asked for, pixel by pixel the mixture. *)
Theorem C65_grid (m : list gcomp) (x0 x1 y0 y1 : Z) (cx cy : R) :
  Forall good m -> (x0 <= x1)%Z -> (y0 <= y1)%Z ->
  exists g, evaluate_grid m (NI x0, NI x1, NI y0, NI y1) cx cy = Ok g /\
    (forall X Y, holds g X Y <-> (x0 <= X < x1 /\ y0 <= Y < y1)%Z) /\
    forall X Y, holds g X Y -> Rabs (pixel g X Y - model m cx cy X Y) <= lost m 50.
Proof.
  intros F HX HY. unfold evaluate_grid, alloc. cbn [nsub].
  replace ((y1 - y0 <? 0) || (x1 - x0 <? 0))%Z with false
    by (symmetry; apply orb_false_intro; apply Z.ltb_ge; lia).
  cbn [bind]. eexists. split; [reflexivity|]. split.
  - intros X Y. unfold holds. cbn. lia.
  - intros X Y _. unfold pixel. cbn.
    replace (x0 + (X - x0))%Z with X by lia. replace (y0 + (Y - y0))%Z with Y by lia. apply grid_ok; auto.
Qed.

(** ** The masked evaluation *)
Definition mexp (c : gcomp) (x y : R) : R := - mahal c (x - g_mx c) (y - g_my c) / 2.
Definition slope_x (c : gcomp) (dx dy : R) : R := (g_yy c * dx - g_xy c * dy) / det c.
Definition slope_y (c : gcomp) (dx dy : R) : R := (g_xx c * dy - g_xy c * dx) / det c.
Lemma masked_comp_eq c x y : good c ->
  masked_comp c x y =
  if Req_EM_T (peak c) 0 then None
  else if Rle_dec (- 30) (mexp c x y) then
    Some (density c x y, density c x y * slope_x c (x - g_mx c) (y - g_my c),
          density c x y * slope_y c (x - g_mx c) (y - g_my c))
  else None.
Proof.
  intros G. pose proof G as (S & _ & D). unfold masked_comp.
  replace (-0.5)%R with (- (1 / 2)) by lra. replace (0.5)%R with (1 / 2) by lra.
  set (dx := x - g_mx c). set (dy := y - g_my c).
  assert (V : (g_xy c + g_yx c) * (1 / 2) = g_xy c) by (rewrite <- S; field). rewrite V. cbv zeta.
  assert (DE : g_xx c * g_yy c - g_xy c * g_xy c = det c) by (unfold det; rewrite <- S; ring). rewrite DE.
  assert (RT : sqrt ((2 * PI) ^ 2 * det c) = 2 * PI * sqrt (det c)) by exact (root c G).
  rewrite RT. fold (peak c). destruct (Req_EM_T (peak c) 0); [reflexivity|].
  assert (E : g_yy c * (- (1 / 2) / det c) * dx * dx + - g_xy c * (- (1 / 2) / det c) * 2 * dx * dy
              + g_xx c * (- (1 / 2) / det c) * dy * dy = mexp c x y).
  { unfold mexp, mahal. fold dx dy. field. lra. }
  rewrite E. destruct (Rle_dec (-30) (mexp c x y)); [|reflexivity].
  unfold density. fold dx dy. change (- mahal c dx dy / 2) with (mexp c x y). f_equal. unfold slope_x, slope_y. f_equal; [f_equal|]; field; lra.
Qed.

Definition val3 (o : option (R * R * R)) : R * R * R := match o with None => (0, 0, 0) | Some t => t end.
Lemma masked_val_sum m x y :
  masked_val m x y = (sum_over (fun c => fst (fst (val3 (masked_comp c x y)))) m,
                      sum_over (fun c => snd (fst (val3 (masked_comp c x y)))) m,
                      sum_over (fun c => snd (val3 (masked_comp c x y))) m).
Proof.
  unfold masked_val.
  assert (H : forall r0 r1 r2, fold_left (fun r c => match masked_comp c x y with
      | None => r | Some (v, dx, dy) => let '(rv, rx, ry) := r in (rv + v, rx + dx, ry + dy) end) m (r0, r1, r2)
     = (r0 + sum_over (fun c => fst (fst (val3 (masked_comp c x y)))) m,
        r1 + sum_over (fun c => snd (fst (val3 (masked_comp c x y)))) m,
        r2 + sum_over (fun c => snd (val3 (masked_comp c x y))) m)).
  { unfold sum_over. induction m as [|c m IH]; intros r0 r1 r2; cbn [fold_left fold_right].
    - f_equal; [f_equal|]; ring.
    - destruct (masked_comp c x y) as [[[v dx] dy]|]; rewrite IH; cbn [val3 fst snd]; rewrite ?Rplus_0_l, ?Rplus_assoc; reflexivity. }
  rewrite H. f_equal; [f_equal|]; ring.
Qed.

Lemma masked_comp_close c x y : good c -> Rabs (fst (fst (val3 (masked_comp c x y))) - density c x y) <= Rabs (peak c) * exp (- 30).
Proof.
  intros G. rewrite masked_comp_eq by auto. destruct (Req_EM_T (peak c) 0) as [Z|NZ].
  - unfold density. rewrite Z. cbn. rewrite Rmult_0_l, Rminus_diag_eq, Rabs_R0 by reflexivity. lra.
  - destruct (Rle_dec (-30) (mexp c x y)) as [L|L]; cbn [val3 fst snd].
    + rewrite Rminus_diag_eq, Rabs_R0 by reflexivity. apply lost_pos.
    + unfold density. fold (mexp c x y). replace (mexp c x y) with (- - mexp c x y) by ring. apply (cut_small _ _ 30). lra.
Qed.

(** Derivatives, componentwise and summed. *)
Lemma lim_local (f g : R -> R) x l d : 0 < d -> (forall t, Rabs (t - x) < d -> f t = g t) ->
  derivable_pt_lim g x l -> derivable_pt_lim f x l.
Proof.
  intros Hd E D e He. destruct (D e He) as [[a Ha] H]. assert (Hm : 0 < Rmin a d) by (apply Rmin_pos; auto).
  exists (mkposreal _ Hm). cbn. intros h N L. rewrite !E.
  - apply H; auto. cbn. eapply Rlt_le_trans; [exact L|apply Rmin_l].
  - rewrite Rminus_diag_eq, Rabs_R0 by reflexivity. auto.
  - replace (x + h - x) with h by ring. eapply Rlt_le_trans; [exact L|apply Rmin_r].
Qed.
Lemma near (f : R -> R) x l v : derivable_pt_lim f x l -> f x <> v ->
  exists d, 0 < d /\ forall t, Rabs (t - x) < d -> (v < f x -> v < f t) /\ (f x < v -> f t < v).
Proof.
  intros D N. pose proof (derivable_continuous_pt f x (exist _ l D)) as C.
  assert (HE : Rabs (f x - v) > 0) by (apply Rabs_pos_lt; lra).
  destruct (C (Rabs (f x - v)) HE) as (d & Hd & H). exists d. split; auto. intros t L.
  destruct (Req_dec x t) as [<-|NT]; [auto|].
  assert (B : Rabs (f t - f x) < Rabs (f x - v)).
  { apply H. split; [split; [exact Logic.I|auto]|exact L]. }
  apply Rabs_def2 in B. unfold Rabs in B. destruct (Rcase_abs (f x - v)); lra.
Qed.

Lemma lim_ext (f g : R -> R) x l : (forall t, f t = g t) -> derivable_pt_lim g x l -> derivable_pt_lim f x l.
Proof. intros E. apply (lim_local f g x l 1); auto. lra. Qed.
Lemma sum_lim {A} (F : A -> R -> R) (l : A -> R) (x : R) (m : list A) :
  Forall (fun c => derivable_pt_lim (F c) x (l c)) m ->
  derivable_pt_lim (fun t => sum_over (fun c => F c t) m) x (sum_over l m).
Proof.
  unfold sum_over. induction 1 as [|c m H _ IH]; cbn [fold_right].
  - apply derivable_pt_lim_const.
  - apply (derivable_pt_lim_plus (F c) (fun t => fold_right (fun c a => F c t + a) 0 m)); auto.
Qed.

(** A quadratic polynomial. *)
Lemma quad_lim a b k X x : derivable_pt_lim (fun t => a * (X - t) ^ 2 + b * (X - t) + k) x (- (2 * a * (X - x) + b)).
Proof.
  intros e He. destruct (Req_dec a 0) as [->|NA].
  - exists (mkposreal 1 Rlt_0_1). intros h N _. replace (_ - _) with 0 by (field; auto). rewrite Rabs_R0. auto.
  - assert (HD : 0 < e / Rabs a) by (apply Rdiv_lt_0_compat; auto; apply Rabs_pos_lt; auto).
    exists (mkposreal _ HD). cbn. intros h N L.
    replace (_ - - (2 * a * (X - x) + b)) with (a * h) by (field; auto). rewrite Rabs_mult.
    assert (HA : 0 < Rabs a) by (apply Rabs_pos_lt; auto).
    apply (Rmult_lt_compat_l (Rabs a)) in L; auto. replace (Rabs a * (e / Rabs a)) with e in L by (field; lra). lra.
Qed.

Lemma mexp_lim_x c X y x : good c ->
  derivable_pt_lim (fun t => mexp c (X - t) y) x (slope_x c (X - x - g_mx c) (y - g_my c)).
Proof.
  intros (S & _ & D). set (dy := y - g_my c).
  eapply lim_ext with (g := fun t => - g_yy c / (2 * det c) * (X - g_mx c - t) ^ 2 + g_xy c * dy / det c * (X - g_mx c - t) + - g_xx c * dy ^ 2 / (2 * det c)).
  - intros t. unfold mexp, mahal. fold dy. field. lra.
  - replace (slope_x _ _ _) with (- (2 * (- g_yy c / (2 * det c)) * (X - g_mx c - x) + g_xy c * dy / det c)).
    + apply quad_lim.
    + unfold slope_x. fold dy. field. lra.
Qed.
Lemma mexp_lim_y c x Y y : good c ->
  derivable_pt_lim (fun t => mexp c x (Y - t)) y (slope_y c (x - g_mx c) (Y - y - g_my c)).
Proof.
  intros (S & _ & D). set (dx := x - g_mx c).
  eapply lim_ext with (g := fun t => - g_xx c / (2 * det c) * (Y - g_my c - t) ^ 2 + g_xy c * dx / det c * (Y - g_my c - t) + - g_yy c * dx ^ 2 / (2 * det c)).
  - intros t. unfold mexp, mahal. fold dx. field. lra.
  - replace (slope_y _ _ _) with (- (2 * (- g_xx c / (2 * det c)) * (Y - g_my c - y) + g_xy c * dx / det c)).
    + apply quad_lim.
    + unfold slope_y. fold dx. field. lra.
Qed.

Lemma cut_lim (p : R) (q : R -> R) (x s : R) : derivable_pt_lim q x s -> q x <> - 30 ->
  derivable_pt_lim (fun t => if Rle_dec (- 30) (q t) then p * exp (q t) else 0) x
    (if Rle_dec (- 30) (q x) then p * exp (q x) * s else 0).
Proof.
  intros D N. destruct (near q x s (- 30) D N) as (d & Hd & H). destruct (Rle_dec (-30) (q x)) as [L|L].
  - apply lim_local with (g := fun t => p * exp (q t)) (d := d); auto.
    + intros t Ht. destruct (H t Ht) as [H1 _]. destruct (Rle_dec (-30) (q t)) as [|C]; auto. exfalso. apply C. left. apply H1. lra.
    + replace (p * exp (q x) * s) with (p * (exp (q x) * s)) by ring.
      apply (derivable_pt_lim_scal (fun t => exp (q t))).
      apply (derivable_pt_lim_comp q exp); auto. apply derivable_pt_lim_exp.
  - apply lim_local with (g := fun _ => 0) (d := d); auto.
    + intros t Ht. destruct (H t Ht) as [_ H2]. destruct (Rle_dec (-30) (q t)) as [C|]; auto. exfalso. lra.
    + apply derivable_pt_lim_const.
Qed.

(** gauss_masked.c through getPointSourcePatch with a mask: outside the mask
    zero, inside the mixture centred on the position. *)
Theorem C65_masked approx (p : gmpsf) (x y : R) minval radius minradius clip (k : mask) (a : arr bool) :
  Forall good (gm_mog p) -> k_px k = Some a ->
  exists g, gm_patch approx p x y minval radius false minradius (Some k) clip = Ok (GOne g) /\
    (forall X Y, holds g X Y <-> (k_x0 k <= X < k_x0 k + aw a /\ k_y0 k <= Y < k_y0 k + ah a)%Z) /\
    forall X Y, holds g X Y ->
      if px a (Y - k_y0 k)%Z (X - k_x0 k)%Z
      then Rabs (pixel g X Y - model (gm_mog p) x y X Y) <= lost (gm_mog p) 30
      else pixel g X Y = 0.
Proof.
  intros F E. unfold gm_patch. rewrite E. eexists. split; [reflexivity|]. split.
  - intros X Y. unfold holds. cbn. lia.
  - intros X Y _. unfold pixel. cbn. unfold masked_px. destruct (px a (Y - k_y0 k)%Z (X - k_x0 k)%Z); [|reflexivity].
    replace (k_x0 k + (X - k_x0 k))%Z with X by lia. replace (k_y0 k + (Y - k_y0 k))%Z with Y by lia.
    rewrite masked_val_sum. cbn [fst]. apply sum_close.
    eapply Forall_impl; [|exact F]. intros c G. apply masked_comp_close; auto.
Qed.

(** With derivs: the second and third picture are the derivatives of the first
    in the position, where no component is just being cut off. *)
Theorem C65_masked_derivs approx (p : gmpsf) (x y : R) minval radius minradius clip (k : mask) (a : arr bool) (X Y : Z) :
  Forall good (gm_mog p) -> k_px k = Some a ->
  Forall (fun c => mahal c (IZR X - x - g_mx c) (IZR Y - y - g_my c) <> 60) (gm_mog p) ->
  exists g dx dy picture, gm_patch approx p x y minval radius true minradius (Some k) clip = Ok (GThree g dx dy) /\
    (forall x y, exists g, gm_patch approx p x y minval radius false minradius (Some k) clip = Ok (GOne g) /\
       pixel g X Y = picture x y) /\
    (q_x0 dx = k_x0 k /\ q_y0 dx = k_y0 k /\ q_x0 dy = k_x0 k /\ q_y0 dy = k_y0 k) /\
    pixel g X Y = picture x y /\
    derivable_pt_lim (fun t => picture t y) x (pixel dx X Y) /\
    derivable_pt_lim (fun t => picture x t) y (pixel dy X Y).
Proof.
  intros F E N. unfold gm_patch. rewrite E.
  eexists _, _, _, (fun x y => fst (fst (masked_px (gm_mog p) (k_x0 k) (k_y0 k) a x y (Y - k_y0 k) (X - k_x0 k)))).
  split; [reflexivity|]. split; [intros; eexists; split; reflexivity|]. split; [cbn; auto|]. split; [reflexivity|].
  unfold pixel. cbn [q_x0 q_y0 q_arr px]. unfold masked_px.
  destruct (px a (Y - k_y0 k)%Z (X - k_x0 k)%Z); [|split; apply derivable_pt_lim_const].
  replace (k_x0 k + (X - k_x0 k))%Z with X by lia. replace (k_y0 k + (Y - k_y0 k))%Z with Y by lia.
  assert (FN : Forall (fun c => good c /\ mexp c (IZR X - x) (IZR Y - y) <> - 30) (gm_mog p)).
  { rewrite Forall_forall in *. intros c Hc. split; auto. specialize (N c Hc). unfold mexp. lra. }
  split.
  - eapply lim_ext. { intros t. rewrite masked_val_sum. cbn [fst]. reflexivity. }
    rewrite masked_val_sum. cbn [fst snd]. apply sum_lim. eapply Forall_impl; [|exact FN]. cbv beta.
    intros c (G & NE).
    eapply lim_ext. { intros t. rewrite masked_comp_eq by auto. reflexivity. }
    rewrite masked_comp_eq by auto. destruct (Req_EM_T (peak c) 0); [apply derivable_pt_lim_const|].
    pose proof (cut_lim (peak c) _ x _ (mexp_lim_x c (IZR X) (IZR Y - y) x G) NE) as L.
    eapply lim_ext; [|destruct (Rle_dec (-30) (mexp c (IZR X - x) (IZR Y - y))); exact L].
    intros t. cbv beta. destruct (Rle_dec (-30) (mexp c (IZR X - t) (IZR Y - y))); reflexivity.
  - eapply lim_ext. { intros t. rewrite masked_val_sum. cbn [fst]. reflexivity. }
    rewrite masked_val_sum. cbn [fst snd]. apply sum_lim. eapply Forall_impl; [|exact FN]. cbv beta.
    intros c (G & NE).
    eapply lim_ext. { intros t. rewrite masked_comp_eq by auto. reflexivity. }
    rewrite masked_comp_eq by auto. destruct (Req_EM_T (peak c) 0); [apply derivable_pt_lim_const|].
    pose proof (cut_lim (peak c) _ y _ (mexp_lim_y c (IZR X - x) (IZR Y) y G) NE) as L.
    eapply lim_ext; [|destruct (Rle_dec (-30) (mexp c (IZR X - x) (IZR Y - y))); exact L].
    intros t. cbv beta. destruct (Rle_dec (-30) (mexp c (IZR X - x) (IZR Y - t))); reflexivity.
Qed.

(** ** GaussianMixturePSF without a mask *)
Lemma abs_inv a b : Rabs a <= b -> - b <= a <= b.
Proof. unfold Rabs. destruct (Rcase_abs a); lra. Qed.
Lemma extent_x (r x : R) (X : Z) : Rabs (IZR X - x) <= r -> (rfloor (x - r) <= X < rceil (x + r) + 1)%Z.
Proof.
  intros H. apply abs_inv in H. destruct (rfloor_spec (x - r)) as [F _]. destruct (rceil_spec (x + r)) as [C _].
  split; [apply le_IZR; lra|]. enough (X <= rceil (x + r))%Z by lia. apply le_IZR. lra.
Qed.
Lemma extent_inv (r x : R) (X : Z) : (rfloor (x - r) <= X < rceil (x + r) + 1)%Z -> Rabs (IZR X - x) < r + 1.
Proof.
  intros H. destruct (rfloor_spec (x - r)) as [_ F]. destruct (rceil_spec (x + r)) as [_ C].
  assert (L : (X <= rceil (x + r))%Z) by lia. apply IZR_le in L. destruct H as [H _]. apply IZR_le in H.
  apply Rabs_def1; lra.
Qed.
Lemma extent_clip x y r clip e : get_extent x y r clip = e -> forall X Y,
  let '(x0, x1, y0, y1) := e in
  (x0 <= X < x1 /\ y0 <= Y < y1)%Z <->
  in_clip clip X Y /\ (rfloor (x - r) <= X < rceil (x + r) + 1 /\ rfloor (y - r) <= Y < rceil (y + r) + 1)%Z.
Proof.
  intros <- X Y. unfold get_extent, in_clip. destruct clip as [[[[xl xh] yl] yh]|]; lia.
Qed.

(** Without mask and minval: nothing is returned only if no pixel of the clip
    region is within the radius; otherwise the stamp lies in the clip region,
    has every pixel of it within the radius and none farther than a pixel
    beyond, and shows the mixture. *)
Theorem C65_mixture approx (p : gmpsf) (x y : R) (minval : option R) (radius : option R) (derivs : bool)
    (clip : option (Z * Z * Z * Z)) :
  Forall good (gm_mog p) -> match minval with Some v => v <= 0 | None => True end ->
  let r := match radius with Some r => r | None => gm_radius p end in
  exists res, gm_patch approx p x y minval radius derivs None None clip = Ok res /\
    match res with
    | GNone => forall X Y, in_clip clip X Y -> ~ within r x y X Y
    | GOne g => (forall X Y, in_clip clip X Y -> within r x y X Y -> holds g X Y) /\
        (forall X Y, holds g X Y -> in_clip clip X Y /\ Rabs (IZR X - x) < r + 1 /\ Rabs (IZR Y - y) < r + 1 /\
           Rabs (pixel g X Y - model (gm_mog p) x y X Y) <= lost (gm_mog p) 50)
    | GThree _ _ _ => False
    end.
Proof.
  intros F HM r. unfold gm_patch. fold r.
  destruct (get_extent x y r clip) as [[[x0 x1] y0] y1] eqn:E. pose proof (extent_clip _ _ _ _ _ E) as EC. cbn in EC.
  destruct (Rlt_dec 0 match minval with Some v => v | None => 0 end) as [C|_].
  { exfalso. destruct minval; lra. }
  unfold empty. destruct ((x0 >=? x1) || (y0 >=? y1))%Z eqn:B.
  - exists GNone. split; [reflexivity|]. intros X Y HC [W1 W2].
    assert (Q : (x0 <= X < x1 /\ y0 <= Y < y1)%Z).
    { apply EC. split; auto. split; apply extent_x; auto. }
    rewrite !Z.geb_leb in B. apply orb_prop in B. rewrite !Z.leb_le in B. lia.
  - apply orb_false_elim in B. rewrite !Z.geb_leb, !Z.leb_gt in B.
    destruct (C65_grid (gm_mog p) x0 x1 y0 y1 x y F) as (g & EG & H1 & H2); try lia.
    unfold ibox. rewrite EG. cbn [bind]. exists (GOne g). split; [reflexivity|]. split.
    + intros X Y HC [W1 W2]. apply H1. apply EC. split; auto. split; apply extent_x; auto.
    + intros X Y HH. pose proof (H2 X Y HH) as HV. apply H1 in HH. apply EC in HH. destruct HH as (HC & HX & HY).
      split; auto. split; [apply extent_inv; auto|]. split; [apply extent_inv; auto|exact HV].
Qed.

(** With a mask that is only a box: exactly the box. *)
Theorem C65_mask_box approx (p : gmpsf) (x y : R) minval radius derivs minradius clip (k : mask) :
  Forall good (gm_mog p) -> k_px k = None -> (0 <= k_w k)%Z -> (0 <= k_h k)%Z ->
  exists g, gm_patch approx p x y minval radius derivs minradius (Some k) clip = Ok (GOne g) /\
    (forall X Y, holds g X Y <-> (k_x0 k <= X < k_x0 k + k_w k /\ k_y0 k <= Y < k_y0 k + k_h k)%Z) /\
    forall X Y, holds g X Y -> Rabs (pixel g X Y - model (gm_mog p) x y X Y) <= lost (gm_mog p) 50.
Proof.
  intros F E HW HH. unfold gm_patch. rewrite E.
  destruct (C65_grid (gm_mog p) (k_x0 k) (k_x0 k + k_w k) (k_y0 k) (k_y0 k + k_h k) x y F) as (g & EG & H1 & H2); try lia.
  unfold mask_box. rewrite EG. cbn [bind]. exists g. auto.
Qed.

(** ** NCircularGaussianPSF: the shared mixtures *)
Section Circ.
Variable approx : list gcomp -> Z * Z * Z * Z -> R * R -> R -> bool -> bool -> res gresult.
Variable rnd : R -> Z.

Definition clean (c : lru) : Prop := Forall (fun e => snd e = circ_mog (fst e)) c.
Lemma clean_drop k c : clean c -> clean (lru_drop k c).
Proof.
  intros F. apply Forall_forall. intros e He. apply filter_In in He. destruct He as [He _].
  unfold clean in F. rewrite Forall_forall in F. auto.
Qed.
Lemma clean_get k c : clean c -> exists c', lru_get k c = (c', circ_mog k) /\ clean c'.
Proof.
  intros F. unfold lru_get, lru_find. destruct (find _ c) as [[k' m]|] eqn:E.
  - apply find_some in E. destruct E as [HI HK]. cbn in HK. destruct (key_eq k' k) as [->|]; [|discriminate].
    unfold clean in F. pose proof F as F'. rewrite Forall_forall in F. specialize (F _ HI). cbn in F. subst m. cbn.
    eexists. split; [reflexivity|]. constructor; [reflexivity|]. apply clean_drop; auto.
  - eexists. split; [reflexivity|]. cbn [firstn]. constructor; [reflexivity|].
    apply Forall_forall. intros e He. unfold clean in F. rewrite Forall_forall in F. apply F.
    rewrite <- (firstn_skipn 15 c). apply in_or_app. auto.
Qed.
Lemma clean_patch c p a : clean c ->
  snd (nc_patch approx rnd c p a) = snd (nc_patch approx rnd [] p a) /\
  ((exists r, snd (nc_patch approx rnd [] p a) = Ok r) -> clean (fst (nc_patch approx rnd c p a))).
Proof.
  intros F. unfold nc_patch. destruct (nc_box rnd p (a_x a) (a_y a) (a_radius a) (a_mask a) (a_clip a)) as [b|e].
  - destruct (clean_get (nc_key p) c F) as (c1 & -> & F1).
    destruct (clean_get (nc_key p) [] ltac:(constructor)) as (c2 & -> & F2).
    destruct (mixture_to_patch _ _ _ _ _) as [r|e]; cbn [fst snd].
    + split; [reflexivity|]. intros _. constructor; [reflexivity|].
      unfold lru_put. cbn [lru_drop filter fst]. destruct (key_eq (nc_key p) (nc_key p)); [|contradiction].
      apply clean_drop. apply clean_drop. auto.
    + split; [reflexivity|]. intros [r Q]. discriminate.
  - cbn. split; auto.
Qed.

(** Every rendering of the history gave a result. *)
Definition returned (h : list (ncpsf * ncargs)) : Prop :=
  forall h1 p a h2, h = h1 ++ (p, a) :: h2 -> exists r, snd (nc_patch approx rnd (nc_run approx rnd h1) p a) = Ok r.

Lemma returned_clean h : returned h -> clean (nc_run approx rnd h).
Proof.
  induction h as [|[p a] h IH] using rev_ind; intros RT; [constructor|].
  unfold nc_run. rewrite fold_left_app. cbn [fold_left fst snd]. fold (nc_run approx rnd h).
  assert (C : clean (nc_run approx rnd h)).
  { apply IH. intros h1 p1 a1 h2 E. apply (RT h1 p1 a1 (h2 ++ [(p, a)])). rewrite E, <- app_assoc. reflexivity. }
  destruct (clean_patch _ p a C) as [E K]. apply K. rewrite <- E. apply (RT h p a []). reflexivity.
Qed.

(** If no earlier rendering, by any PSF, raised an exception, a rendering gives
    what it would give first. *)
Theorem C65_history (h : list (ncpsf * ncargs)) (p : ncpsf) (a : ncargs) :
  returned h -> snd (nc_patch approx rnd (nc_run approx rnd h) p a) = snd (nc_patch approx rnd [] p a).
Proof. intros RT. apply clean_patch. apply returned_clean. exact RT. Qed.

(** *** The stamp of a point source *)
Lemma sq_pos v : v <> 0 -> 0 < v ^ 2.
Proof. intros H. destruct (Rdichotomy v 0 H); nra. Qed.
Lemma circ_good w s : Forall (fun v => v <> 0) s -> Forall good (circ_mog (w, s)).
Proof.
  intros F. unfold circ_mog. cbn [fst snd]. rewrite Forall_map. apply Forall_forall. intros [a v] Hin.
  apply in_combine_r in Hin. rewrite Forall_forall in F. specialize (F v Hin).
  assert (0 < v ^ 2) by (apply sq_pos; auto). repeat split; cbn; try lra. unfold det. cbn. nra.
Qed.
Lemma move_good x y m : Forall good m -> Forall good (move x y m).
Proof. intros F. unfold move. rewrite Forall_map. eapply Forall_impl; [|exact F]. intros c G. exact G. Qed.
Lemma sum_map {A B} (f : B -> R) (g : A -> B) l : sum_over f (map g l) = sum_over (fun a => f (g a)) l.
Proof. unfold sum_over. induction l; cbn; congruence. Qed.
Lemma circ_det v : 0 < v -> sqrt (v ^ 2 * v ^ 2 - 0 * 0) = v ^ 2.
Proof.
  intros H. replace (v ^ 2 * v ^ 2 - 0 * 0) with ((v ^ 2) ^ 2) by ring. apply sqrt_pow2. apply pow2_ge_0.
Qed.
Lemma circ_model w s x y X Y : Forall (fun v => 0 < v) s ->
  model (move x y (circ_mog (w, s))) 0 0 X Y = circular w s x y X Y /\
  forall e, lost (move x y (circ_mog (w, s))) e = circular_lost w s e.
Proof.
  intros F. rewrite Forall_forall in F. unfold model, lost, circular, circular_lost, move, circ_mog. cbn [fst snd].
  rewrite !sum_map. split.
  - apply sum_ext. intros [a v] Hin. apply in_combine_r in Hin. specialize (F v Hin). cbn [fst snd].
    unfold density, peak, mahal, det. cbn [g_amp g_mx g_my g_xx g_xy g_yx g_yy]. rewrite circ_det by auto.
    f_equal. f_equal. field. lra.
  - intros e. rewrite !sum_map. apply sum_ext. intros [a v] Hin. apply in_combine_r in Hin. specialize (F v Hin). cbn [fst snd].
    unfold peak, det. cbn [g_amp g_mx g_my g_xx g_xy g_yx g_yy]. rewrite circ_det by auto.
    f_equal. pose proof PI_RGT_0. unfold Rdiv. rewrite Rabs_mult. f_equal. apply Rabs_pos_eq.
    left. apply Rinv_0_lt_compat. assert (0 < v ^ 2) by (apply sq_pos; lra). nra.
Qed.

Definition nearest : Prop := forall x, Rabs (IZR (rnd x) - x) <= 1 / 2.

Lemma max_int a b : nmax (NI a) (NI b) = NI (Z.max a b).
Proof.
  unfold nmax. cbn. destruct (Rlt_dec (IZR a) (IZR b)) as [L|L].
  - apply lt_IZR in L. f_equal. lia.
  - f_equal. assert (~ (a < b)%Z) by (intros C; apply L, IZR_lt; auto). lia.
Qed.
Lemma min_int a b : nmin (NI a) (NI b) = NI (Z.min a b).
Proof.
  unfold nmin. cbn. destruct (Rlt_dec (IZR b) (IZR a)) as [L|L].
  - apply lt_IZR in L. f_equal. lia.
  - f_equal. assert (~ (b < a)%Z) by (intros C; apply L, IZR_lt; auto). lia.
Qed.

(** The rounded box has every pixel within the radius. *)
Lemma round_cover r n x X : nearest -> r <= IZR n -> Rabs (IZR X - x) <= r -> (rnd x - n <= X < rnd x + n + 1)%Z.
Proof.
  intros HN HR H. specialize (HN x). apply abs_inv in HN. apply abs_inv in H.
  assert (A : IZR (rnd x - n - 1) < IZR X) by (rewrite !minus_IZR; lra).
  assert (B : IZR X < IZR (rnd x + n + 1)) by (rewrite !plus_IZR; lra).
  apply lt_IZR in A. apply lt_IZR in B. lia.
Qed.
Lemma round_side r n x W : nearest -> r <= IZR n -> (0 <= W)%Z -> 0 <= r ->
  ~ x + r < 0 -> ~ IZR W < x - r -> (Z.max (rnd x - n) 0 <= Z.min (rnd x + n + 1) W)%Z.
Proof.
  intros HN HR HW H0 HA HB. specialize (HN x). apply abs_inv in HN.
  assert (A : IZR 0 < IZR (rnd x + n + 1)) by (rewrite !plus_IZR; lra). apply lt_IZR in A.
  assert (B : IZR (rnd x - n) < IZR (W + 1)) by (rewrite minus_IZR, plus_IZR; lra). apply lt_IZR in B.
  assert (C : IZR 0 <= IZR n) by lra. apply le_IZR in C. lia.
Qed.

(** The radius used when none is asked for: the attribute if it was set,
    otherwise five times the largest sigma, but at least one. *)
Definition default_radius (p : ncpsf) (r : R) : Prop :=
  match nc_radius p with
  | Some r' => r = r'
  | None => nc_sigmas p <> [] /\ 1 <= r /\ (forall s, In s (nc_sigmas p) -> 5 * s <= r) /\
            (r = 1 \/ exists s, In s (nc_sigmas p) /\ r = 5 * s)
  end.
Lemma fold_Rmax l : forall s, s <= fold_left Rmax l s /\ (forall x, In x l -> x <= fold_left Rmax l s) /\ In (fold_left Rmax l s) (s :: l).
Proof.
  induction l as [|a l IH]; intros s; cbn [fold_left].
  - split; [lra|]. split; [intros _ []|left; auto].
  - destruct (IH (Rmax s a)) as (A & B & C). pose proof (Rmax_l s a). pose proof (Rmax_r s a). split; [lra|]. split.
    + intros x [<-|Hx]; [lra|auto].
    + destruct C as [C|C]; [|right; right; auto]. rewrite <- C. unfold Rmax. destruct (Rle_dec s a); [right; left|left]; auto.
Qed.
Lemma default_radius_get p r : default_radius p r -> nc_get_radius p = Ok r.
Proof.
  unfold default_radius, nc_get_radius. destruct (nc_radius p); [intros ->; auto|].
  destruct (nc_sigmas p) as [|s l]; [intros ([] & _); auto|]. intros (_ & A & B & C).
  destruct (fold_Rmax l s) as (D & E & F). f_equal.
  pose proof (B _ F) as B1. assert (G : forall x, In x (s :: l) -> x <= fold_left Rmax l s) by (intros x [<-|Hx]; auto).
  destruct C as [->|(x & Hx & ->)]; [apply Rmax_left; lra|].
  specialize (G _ Hx). rewrite Rmax_right; lra.
Qed.

(** A point source on a W x H image, after any renderings that gave a result:
    nothing only if no pixel of the image is within the radius, otherwise a
    stamp inside the image that has every pixel within the radius and shows the
    circular Gaussians centred on the source. *)
Theorem C65_point_source (h : list (ncpsf * ncargs)) (p : ncpsf) (W H : Z) (x y : R) (minval : option R)
    (fixed : option Z) (r : R) :
  nearest -> returned h -> (0 <= W)%Z -> (0 <= H)%Z ->
  Forall (fun s => 0 < s) (nc_sigmas p) -> match minval with Some v => v = 0 | None => True end ->
  match fixed with Some n => r = IZR n | None => default_radius p r end -> 0 <= r ->
  exists res, snd (ps_patch approx rnd (nc_run approx rnd h) p W H x y minval (option_map NI fixed) None) = Ok res /\
    match res with
    | GNone => forall X Y, in_clip (Some (0, W, 0, H)%Z) X Y -> ~ within r x y X Y
    | GOne g => (forall X Y, in_clip (Some (0, W, 0, H)%Z) X Y -> within r x y X Y -> holds g X Y) /\
        (forall X Y, holds g X Y -> in_clip (Some (0, W, 0, H)%Z) X Y /\
           Rabs (pixel g X Y - circular (nc_weights p) (nc_sigmas p) x y X Y)
             <= circular_lost (nc_weights p) (nc_sigmas p) 50)
    | GThree _ _ _ => False
    end.
Proof.
  intros HN RT HW HH HS HM HR R0. unfold ps_patch.
  assert (HR' : match fixed with Some n => r = IZR n | None => nc_get_radius p = Ok r end)
    by (destruct fixed; [exact HR|apply default_radius_get; exact HR]).
  clear HR. rename HR' into HR.
  assert (EQ : match option_map NI fixed with Some r => Ok (nval r) | None => nc_get_radius p end = Ok r).
  { destruct fixed as [n|]; cbn; [rewrite HR|rewrite HR]; reflexivity. }
  rewrite EQ.
  destruct (Rlt_dec (x + r) 0) as [C1|C1].
  { exists GNone. split; [reflexivity|]. intros X Y [[CX _] _] [W1 _]. apply IZR_le in CX. apply abs_inv in W1. lra. }
  destruct (Rlt_dec (IZR W) (x - r)) as [C2|C2].
  { exists GNone. split; [reflexivity|]. intros X Y [[_ CX] _] [W1 _]. apply IZR_lt in CX. apply abs_inv in W1. lra. }
  destruct (Rlt_dec (y + r) 0) as [C3|C3].
  { exists GNone. split; [reflexivity|]. intros X Y [_ [CX _]] [_ W1]. apply IZR_le in CX. apply abs_inv in W1. lra. }
  destruct (Rlt_dec (IZR H) (y - r)) as [C4|C4].
  { exists GNone. split; [reflexivity|]. intros X Y [_ [_ CX]] [_ W1]. apply IZR_lt in CX. apply abs_inv in W1. lra. }
  rewrite C65_history by exact RT. unfold nc_patch. cbn [a_x a_y a_minval a_radius a_mask a_clip].
  assert (NR : exists n, (match option_map NI fixed with None => r <- nc_get_radius p ;; Ok (NI (rceil r)) | Some r => Ok r end)
                 = Ok (NI n) /\ r <= IZR n).
  { destruct fixed as [n|]; cbn; [exists n; split; [reflexivity|lra]|]. rewrite HR. cbn. exists (rceil r). split; [reflexivity|apply rceil_spec]. }
  destruct NR as (n & EN & RN). unfold nc_box. rewrite EN. cbn [bind nsub nadd]. rewrite !max_int, !min_int.
  destruct (clean_get (nc_key p) [] ltac:(constructor)) as (c2 & -> & _).
  set (m := move x y (circ_mog (nc_key p))).
  assert (GM : Forall good m).
  { apply move_good. apply circ_good. eapply Forall_impl; [|exact HS]. intros; lra. }
  pose proof (round_side r n x W HN RN HW R0 C1 C2) as SX. pose proof (round_side r n y H HN RN HH R0 C3 C4) as SY.
  destruct (C65_grid m _ _ _ _ 0 0 GM SX SY) as (g & EG & H1 & H2).
  assert (EM : mixture_to_patch approx m (NI (Z.max (rnd x - n) 0), NI (Z.min (rnd x + n + 1) W),
             NI (Z.max (rnd y - n) 0), NI (Z.min (rnd y + n + 1) H)) minval false = Ok (GOne g)).
  { unfold mixture_to_patch. rewrite EG. cbn [bind]. destruct minval as [v|]; [|reflexivity]. destruct (Req_EM_T v 0); [reflexivity|lra]. }
  rewrite EM. cbn [snd]. exists (GOne g). split; [reflexivity|]. split.
  - intros X Y [CX CY] [W1 W2]. apply H1.
    pose proof (round_cover r n x X HN RN W1). pose proof (round_cover r n y Y HN RN W2). lia.
  - intros X Y HD. pose proof (H2 X Y HD) as V. apply H1 in HD. split; [cbn; lia|].
    destruct (circ_model (nc_weights p) (nc_sigmas p) x y X Y HS) as [EM1 EM2].
    change (circ_mog (nc_weights p, nc_sigmas p)) with (circ_mog (nc_key p)) in EM1, EM2. fold m in EM1, EM2.
    rewrite EM1, EM2 in V. exact V.
Qed.

(** The weights are used as they are: c times the weights, c times the stamp. *)
Theorem C65_weights (p : ncpsf) (a : ncargs) (c : R) (g : gpatch) :
  match a_minval a with Some v => v = 0 | None => True end ->
  snd (nc_patch approx rnd [] p a) = Ok (GOne g) ->
  let p' := mkNc (nc_sigmas p) (map (Rmult c) (nc_weights p)) (nc_radius p) in
  exists g', snd (nc_patch approx rnd [] p' a) = Ok (GOne g') /\
    (forall X Y, holds g' X Y <-> holds g X Y) /\ forall X Y, pixel g' X Y = c * pixel g X Y.
Proof.
  intros HM E p'. unfold nc_patch in *.
  assert (EB : nc_box rnd p' (a_x a) (a_y a) (a_radius a) (a_mask a) (a_clip a)
             = nc_box rnd p (a_x a) (a_y a) (a_radius a) (a_mask a) (a_clip a)) by reflexivity.
  rewrite EB. destruct (nc_box rnd p (a_x a) (a_y a) (a_radius a) (a_mask a) (a_clip a)) as [b|e]; [|discriminate].
  destruct (clean_get (nc_key p) [] ltac:(constructor)) as (c1 & E1 & _).
  destruct (clean_get (nc_key p') [] ltac:(constructor)) as (c2 & E2 & _).
  rewrite E1 in E. rewrite E2. clear E1 E2.
  assert (GV : forall x y, grid_val (move (a_x a) (a_y a) (circ_mog (nc_key p'))) x y
                = c * grid_val (move (a_x a) (a_y a) (circ_mog (nc_key p))) x y).
  { intros x y. unfold grid_val. rewrite !fold_sum, !Rplus_0_l. unfold move, circ_mog, nc_key, p'. cbn [nc_weights nc_sigmas fst snd].
    rewrite !sum_map. generalize (nc_sigmas p) as ss0. generalize (nc_weights p) as ws. unfold sum_over.
    intros ws. induction ws as [|w l IH]; intros [|s ss]; cbn [combine map fold_right]; try ring.
    rewrite IH. rewrite Rmult_plus_distr_l. f_equal. unfold grid_comp. cbn [fst snd g_amp g_mx g_my g_xx g_xy g_yx g_yy].
    match goal with |- context [if ?d then _ else _] => destruct d end; [ring|]; unfold Rdiv; ring. }
  assert (K : exists g', evaluate_grid (move (a_x a) (a_y a) (circ_mog (nc_key p'))) b 0 0 = Ok g' /\
            (forall X Y, holds g' X Y <-> holds g X Y) /\ forall X Y, pixel g' X Y = c * pixel g X Y).
  { assert (EG : evaluate_grid (move (a_x a) (a_y a) (circ_mog (nc_key p))) b 0 0 = Ok g).
    { unfold mixture_to_patch in E. destruct (evaluate_grid _ b 0 0) as [g0|]; destruct (a_minval a) as [v|];
        try (destruct (Req_EM_T v 0); [|contradiction]); cbn in E; congruence. }
    unfold evaluate_grid in EG |- *. apply bind_ok in EG. destruct EG as ([[[xx yy] ww] hh] & -> & EG). injection EG as <-.
    cbn [bind]. eexists. split; [reflexivity|]. split; [intros; reflexivity|].
    intros X Y. unfold pixel. cbn. apply GV. }
  destruct K as (g' & EG & K1 & K2). exists g'. split; auto.
  unfold mixture_to_patch. rewrite EG. destruct (a_minval a) as [v|]; [destruct (Req_EM_T v 0); [|contradiction]|]; reflexivity.
Qed.
End Circ.

(** An exception in one rendering moves the mixture for good: here a radius
    that is a float (numpy refuses the size), then the same PSF at the origin. *)
Definition pc1 : ncpsf := mkNc [1] [1] None.
Definition bad_args : ncargs := mkNcArgs 5 0 None (Some (NF (5 / 2))) None None.
Definition good_args : ncargs := mkNcArgs 0 0 None (Some (NI 1)) None None.
Lemma grid_one mx : Rabs mx < 10 ->
  grid_val [mkG 1 mx (0 + 0) (1 ^ 2) 0 0 (1 ^ 2)] (IZR (-1 + 1) - 0) (IZR (-1 + 1) - 0) = 1 / (2 * PI) * exp (- mx ^ 2 / 2).
Proof.
  intros HB. unfold grid_val. cbn [fold_left]. unfold grid_comp. cbn [g_amp g_mx g_my g_xx g_xy g_yx g_yy].
  set (d := 1 ^ 2 * 1 ^ 2 - 0 * 0). assert (Ed : d = 1) by (unfold d; ring). rewrite Ed.
  assert (Q : mx ^ 2 < 100).
  { assert (S : Rabs mx * Rabs mx < 10 * 10) by (apply Rmult_le_0_lt_compat; auto; apply Rabs_pos).
    rewrite <- Rabs_mult in S. pose proof (Rle_abs (mx * mx)). replace (mx ^ 2) with (mx * mx) by ring. lra. }
  change (-1 + 1)%Z with 0%Z.
  match goal with |- context [Rle_dec 100 ?v] => replace v with (mx ^ 2) by field end.
  destruct (Rle_dec 100 (mx ^ 2)); [lra|]. rewrite Rplus_0_l. f_equal.
  - f_equal. pose proof PI_RGT_0. replace ((2 * PI) ^ 2 * 1) with ((2 * PI) ^ 2) by ring. apply sqrt_pow2. lra.
  - f_equal. lra.
Qed.
Theorem C65_exception_refuted approx (rnd : R -> Z) : rnd 0 = 0%Z ->
  snd (nc_patch approx rnd [] pc1 bad_args) = Err TypeError /\
  exists g g', snd (nc_patch approx rnd [] pc1 good_args) = Ok (GOne g) /\
    snd (nc_patch approx rnd (nc_run approx rnd [(pc1, bad_args)]) pc1 good_args) = Ok (GOne g') /\
    pixel g 0 0 = 1 / (2 * PI) /\ pixel g' 0 0 = 1 / (2 * PI) * exp (- (25 / 2)).
Proof.
  intros R0. split; [reflexivity|].
  assert (KE : forall k, (if key_eq k k then true else false) = true) by (intros k; destruct (key_eq k k); congruence).
  assert (KD : forall k, (if key_eq k k then false else true) = false) by (intros k; destruct (key_eq k k); congruence).
  unfold nc_run. cbn [fold_left fst snd].
  assert (S1 : fst (nc_patch approx rnd [] pc1 bad_args) = [(nc_key pc1, move 5 0 (circ_mog (nc_key pc1)))]).
  { unfold nc_patch. cbn [nc_box a_x a_y a_radius a_mask a_clip bad_args bind nsub nadd].
    cbn [lru_get lru_find find firstn]. unfold lru_put. cbn [lru_drop filter fst]. rewrite KD. reflexivity. }
  rewrite S1. unfold nc_patch, good_args. cbn [nc_box a_x a_y a_radius a_mask a_clip bind nsub nadd a_minval]. rewrite R0.
  unfold lru_get, lru_find. cbn [find fst snd firstn]. rewrite KE. cbn [snd mixture_to_patch].
  unfold evaluate_grid, alloc. cbn [nsub bind].
  change ((0 + 1 + 1 - (0 - 1) <? 0)%Z || (0 + 1 + 1 - (0 - 1) <? 0)%Z)%bool with false. cbn [bind snd].
  do 2 eexists. split; [reflexivity|]. split; [reflexivity|].
  unfold pixel. cbn [q_x0 q_y0 q_arr px]. cbn [circ_mog nc_key pc1 nc_weights nc_sigmas fst snd combine map move g_amp g_mx g_my g_xx g_xy g_yx g_yy].
  change (0 - 1)%Z with (-1)%Z. change (0 - -1)%Z with 1%Z. split.
  - rewrite (grid_one (0 + 0)); [|rewrite Rplus_0_l, Rabs_R0; lra].
    replace (- (0 + 0) ^ 2 / 2) with 0 by field. rewrite exp_0. ring.
  - replace (0 + 0 + 0) with (0 + 0) by ring.
    rewrite (grid_one (0 + 5 + 0)); [|rewrite Rabs_pos_eq; lra]. f_equal. f_equal. field.
Qed.

(** ** Examples *)
(** Rounding as the hypothesis asks for exists. *)
Definition half_up (x : R) : Z := rfloor (x + 1 / 2).
Lemma half_up_nearest : nearest half_up.
Proof. intros x. unfold half_up. destruct (rfloor_spec (x + 1 / 2)). apply Rabs_le. lra. Qed.
(** A history with one rendering that gave a result, then a point source at
    (3, 4) in a 10 x 10 image: a stamp that has the pixel (3, 4), and there the
    peak of the Gaussian. *)
Example ex_point approx : returned approx half_up [(pc1, good_args)] /\
  exists g, snd (ps_patch approx half_up (nc_run approx half_up [(pc1, good_args)]) pc1 10 10 3 4 None None None) = Ok (GOne g) /\
    holds g 3 4 /\ Rabs (pixel g 3 4 - 1 / (2 * PI)) <= 1 / (2 * PI) * exp (- 50).
Proof.
  assert (H0 : half_up 0 = 0%Z).
  { unfold half_up. destruct (rfloor_spec (0 + 1 / 2)) as [A B].
    assert (IZR (-1) < IZR (rfloor (0 + 1 / 2))) as L by lra. assert (IZR (rfloor (0 + 1 / 2)) < IZR 1) as U by lra.
    apply lt_IZR in L. apply lt_IZR in U. lia. }
  assert (RT : returned approx half_up [(pc1, good_args)]).
  { intros h1 p a h2 E. destruct h1 as [|q h1]; [|exfalso; injection E as _ E; destruct h1; discriminate].
    injection E as <- <- _. cbn [nc_run fold_left]. destruct (C65_exception_refuted approx half_up H0) as (_ & g & _ & EG & _). eauto. }
  split; [exact RT|].
  destruct (C65_point_source approx half_up [(pc1, good_args)] pc1 10 10 3 4 None None 5) as (res & E & P);
    auto using half_up_nearest; try lia; try lra.
  - repeat constructor. lra.
  - cbn. split; [discriminate|]. split; [lra|]. split; [intros s [<-|[]]; lra|right; exists 1; split; [left; reflexivity|lra]].
  - assert (WI : within 5 3 4 3 4) by (split; rewrite Rminus_diag_eq, Rabs_R0 by reflexivity; lra).
    assert (IC : in_clip (Some (0, 10, 0, 10)%Z) 3 4) by (cbn; lia).
    destruct res as [|g|]; [exfalso; apply (P 3%Z 4%Z IC WI)| |contradiction].
    exists g. split; [exact E|]. destruct P as [P1 P2]. specialize (P1 _ _ IC WI). split; [exact P1|].
    destruct (P2 _ _ P1) as [_ V]. cbn [pc1 nc_weights nc_sigmas] in V. unfold circular, circular_lost, sum_over in V.
    cbn [combine fold_right fst snd] in V. rewrite Rabs_R1 in V. pose proof PI_RGT_0.
    replace (- ((3 - 3) ^ 2 + (4 - 4) ^ 2) / (2 * 1 ^ 2)) with 0 in V by field. rewrite exp_0 in V.
    replace (1 / (2 * PI * 1 ^ 2)) with (1 / (2 * PI)) in V by (field; lra). rewrite Rplus_0_r, Rplus_0_r, Rmult_1_r in V. exact V.
Qed.
(** A tilted component, a mask of two pixels with one set. *)
Definition tilted : gcomp := mkG 2 0 0 2 1 1 3.
Example ex_tilted : good tilted /\ det tilted = 5 /\ mahal tilted 1 0 = 3 / 5 /\
  mahal tilted (IZR 1 - 0 - 0) (IZR 0 - 0 - 0) <> 60.
Proof.
  unfold good, mahal, det. cbn. repeat split; try lra.
Qed.
Definition two_mask : mask := mkMask 0 0 2 1 (Some (mkArr 1 2 (fun _ i => (i =? 1)%Z))).
Example ex_masked approx : exists g, gm_patch approx (mkGm [tilted] 25) 0 0 None None false None (Some two_mask) None = Ok (GOne g) /\
  pixel g 0 0 = 0 /\ Rabs (pixel g 1 0 - 1 / (PI * sqrt 5) * exp (- (3 / 10))) <= 1 / (PI * sqrt 5) * exp (- 30).
Proof.
  destruct (C65_masked approx (mkGm [tilted] 25) 0 0 None None None None two_mask (mkArr 1 2 (fun _ i => (i =? 1)%Z)))
    as (g & E & H & V); [repeat constructor; apply ex_tilted|reflexivity|].
  exists g. split; [exact E|]. split.
  - assert (HH : holds g 0 0) by (apply H; cbn; lia). exact (V 0%Z 0%Z HH).
  - assert (HH : holds g 1 0) by (apply H; cbn; lia). pose proof (V 1%Z 0%Z HH) as B. cbn in B.
    unfold model, sum_over, density, peak in B. cbn [fold_right tilted g_amp g_mx g_my] in B.
    destruct ex_tilted as (_ & ED & EM & _). fold tilted in B. rewrite ED in B.
    replace (1 - 0 - 0) with 1 in B by ring. replace (0 - 0 - 0) with 0 in B by ring. rewrite EM, Rplus_0_r in B.
    replace (- (3 / 5) / 2) with (- (3 / 10)) in B by field.
    replace (2 / (2 * PI * sqrt 5)) with (1 / (PI * sqrt 5)) in B.
    + pose proof PI_RGT_0. assert (0 < sqrt 5) by (apply sqrt_lt_R0; lra).
      rewrite Rplus_0_r, (Rabs_pos_eq (1 / (PI * sqrt 5))) in B; [exact B|]. left. apply Rdiv_lt_0_compat; nra.
    + pose proof PI_RGT_0. assert (0 < sqrt 5) by (apply sqrt_lt_R0; lra). field. lra.
Qed.
(** Half a pixel outside the image: the extent of a mixture PSF is clipped. *)
Example ex_extent approx : exists res, gm_patch approx (mkGm [tilted] 25) (-1 / 2) 3 None (Some 2) true None None (Some (0, 10, 0, 10)%Z) = Ok res /\
  match res with GOne g => holds g 0 3 | _ => False end.
Proof.
  destruct (C65_mixture approx (mkGm [tilted] 25) (-1 / 2) 3 None (Some 2) true (Some (0, 10, 0, 10)%Z)) as (res & E & P);
    [repeat constructor; apply ex_tilted|exact Logic.I|].
  exists res. split; [exact E|].
  assert (WI : within 2 (-1 / 2) 3 0 3) by (split; apply Rabs_le; lra).
  assert (IC : in_clip (Some (0, 10, 0, 10)%Z) 0 3) by (cbn; lia).
  destruct res as [|g|]; [exact (P _ _ IC WI)|apply P; auto|exact P].
Qed.

Print Assumptions C65_grid.
Print Assumptions C65_masked.
Print Assumptions C65_masked_derivs.
Print Assumptions C65_mixture.
Print Assumptions C65_mask_box.
Print Assumptions C65_history.
Print Assumptions C65_point_source.
Print Assumptions C65_weights.
Print Assumptions C65_exception_refuted.
