(** C87: a constant surface brightness and its derivatives. *)
From Coq Require Import List ZArith Reals Bool Lia Lra.
From Verif Require Import Base ShiftModel SurfModel.
Import ListNotations.
Local Open Scope R_scope.

(** The area of a pixel in square arcseconds. *)
Definition pixel_area (w : wcs) (a : R) : Prop :=
  match w with
  | NullWCS ps _ _ => a = ps ^ 2
  | FitsWcs f _ _ => let '(a11, a12, (a21, a22)) := get_cd f in a = 3600 * 3600 * Rabs (a11 * a22 - a12 * a21)
  | _ => False
  end.
Definition total (p : patch) : R := fold_right Rplus 0 (map (fold_right Rplus 0) (p_rows p)).
Definition same_place (p q : patch) : Prop := p_x0 p = p_x0 q /\ p_y0 p = p_y0 q /\ map (@length R) (p_rows p) = map (@length R) (p_rows q).
(** The value of a pixel of the image. *)
Definition at_pixel (p : patch) (x y : Z) (v : R) : Prop := exists row, (p_x0 p <= x)%Z /\ (p_y0 p <= y)%Z /\
  nth_error (p_rows p) (Z.to_nat (y - p_y0 p)) = Some row /\ nth_error row (Z.to_nat (x - p_x0 p)) = Some v.

Lemma nth_error_repeat' {A} (v : A) : forall n i x, nth_error (repeat v n) i = Some x <-> (i < n)%nat /\ x = v.
Proof.
  induction n as [|n IH]; intros [|i] x; cbn; try (split; [discriminate|lia]).
  - split; [intros [= <-]; split; [lia|reflexivity]|intros (_ & ->); reflexivity].
  - rewrite IH. split; intros (H1 & H2); split; auto; lia.
Qed.
Lemma at_const m v x y u : at_pixel (const_patch m v) x y u <->
  u = v /\ (m_x0 m <= x < m_x0 m + Z.of_nat (m_w m))%Z /\ (m_y0 m <= y < m_y0 m + Z.of_nat (m_h m))%Z.
Proof.
  unfold at_pixel, const_patch. cbn [p_x0 p_y0 p_rows]. split.
  - intros (row & X & Y & A & B). apply nth_error_repeat' in A. destruct A as (A & ->). apply nth_error_repeat' in B. destruct B as (B & ->). split; [reflexivity|lia].
  - intros (-> & X & Y). exists (repeat v (m_w m)). split; [lia|]. split; [lia|]. split; apply nth_error_repeat'; (split; [lia|reflexivity]).
Qed.
Lemma scale_area w x y ps : pixscale_at w x y = Ok ps -> pixel_area w (ps ^ 2).
Proof.
  destruct w as [s dx dy|f x0 y0|f x0 y0|w x0 y0|w k]; cbn [pixscale_at pixel_area]; try discriminate; [intros [= <-]; reflexivity|].
  destruct (get_cd f) as [[a b] [c d]]. intros [= <-]. replace ((3600 * sqrt (Rabs (a * d - b * c))) ^ 2) with (3600 * 3600 * (sqrt (Rabs (a * d - b * c)) * sqrt (Rabs (a * d - b * c)))) by ring.
  rewrite sqrt_sqrt by apply Rabs_pos. reflexivity.
Qed.
Lemma area_unique w a b : pixel_area w a -> pixel_area w b -> a = b.
Proof. destruct w; cbn; try tauto; [congruence|]. destruct (get_cd w) as [[? ?] [? ?]]. congruence. Qed.
Lemma sum_repeat v n : fold_right Rplus 0 (repeat v n) = INR n * v.
Proof. induction n as [|n IH]; [cbn; ring|]. rewrite S_INR. cbn [repeat fold_right]. rewrite IH. ring. Qed.

Section Props.
Context (counts : list R -> R).
Notation model_patch := (model_patch counts).
Notation param_derivs := (param_derivs counts).

(** Every pixel of the region (the mask or the whole image) gets the brightness
    times its area; the sum is the brightness times the area of the region. *)
Theorem C87_model : forall w W H m b p, model_patch w W H m b = Ok p -> exists a, pixel_area w a /\
  (let r := match m with Some r => r | None => mkMask 0 0 W H end in
   (forall x y v, at_pixel p x y v <-> v = counts (b_vals b) * a /\
     (m_x0 r <= x < m_x0 r + Z.of_nat (m_w r))%Z /\ (m_y0 r <= y < m_y0 r + Z.of_nat (m_h r))%Z) /\
   total p = counts (b_vals b) * (a * INR (m_w r * m_h r))).
Proof.
  intros w W H m b p E. unfold SurfModel.model_patch in E. destruct (center (region W H m)) as [cx cy]. destruct (pixscale_at w cx cy) as [ps|] eqn:PS; [|discriminate].
  cbn [bind] in E. assert (AR := scale_area _ _ _ _ PS). generalize dependent (ps ^ 2). intros a E AR. injection E as <-. exists a. split; [exact AR|]. cbn zeta.
  replace (match m with Some r => r | None => mkMask 0 0 W H end) with (region W H m) by (destruct m; reflexivity). split.
  - intros x y v. apply at_const.
  - unfold total, const_patch. cbn [p_rows]. set (r := region W H m). rewrite mult_INR.
    replace (map (fold_right Rplus 0) (repeat (repeat (counts (b_vals b) * a) (m_w r)) (m_h r))) with (repeat (INR (m_w r) * (counts (b_vals b) * a)) (m_h r)).
    + rewrite sum_repeat. ring.
    + induction (m_h r) as [|n IH]; [reflexivity|]. cbn [repeat map]. rewrite <- IH, sum_repeat. reflexivity.
Qed.
(** It works for these coordinate systems only. *)
Theorem C87_works : forall w W H m b, (exists p, model_patch w W H m b = Ok p) <-> exists a, pixel_area w a.
Proof.
  intros w W H m b. unfold SurfModel.model_patch. destruct (center (region W H m)) as [cx cy].
  destruct w as [s dx dy|f x0 y0|f x0 y0|w x0 y0|w k]; cbn; try (split; intros (? & E); [discriminate|contradiction]).
  - split; intros _; eexists; reflexivity.
  - destruct (get_cd f) as [[a11 a12] [a21 a22]]. split; intros _; eexists; reflexivity.
Qed.

(** The brightness with its [j]-th parameter changed by [t]. *)
Definition stepped (b : bright) (j : nat) (t : R) : bright := mkBright (upd j (nth j (b_vals b) 0 + t) (b_vals b)) (b_liquid b) (b_steps b).
(** The number of the [i]-th thawed parameter. *)
Definition thawed_number (liq : list bool) (i j : nat) : Prop := nth_error liq j = Some true /\ count_true (firstn j liq) = i.
Definition wf (b : bright) : Prop := length (b_liquid b) = length (b_vals b) /\ length (b_steps b) = length (b_vals b).

Lemma index_liquid_ok : forall liq i raw j, thawed_number liq i j -> index_liquid liq i raw = Ok (raw + j)%nat.
Proof.
  induction liq as [|b liq IH]; intros i raw j (A & B); [destruct j; discriminate|]. destruct j as [|j].
  - cbn in A. injection A as ->. cbn in B. subst i. cbn. f_equal. lia.
  - cbn in A. cbn [firstn] in B. rewrite count_true_cons in B. destruct b; cbn in B.
    + destruct i as [|i]; [discriminate|]. injection B as B. cbn. rewrite (IH i (S raw) j (conj A B)). f_equal. lia.
    + cbn. rewrite (IH i (S raw) j (conj A B)). f_equal. lia.
Qed.
Lemma keep_nth : forall liq (l : list R) i j, length liq = length l -> thawed_number liq i j -> nth_error (keep liq l) i = nth_error l j.
Proof.
  induction liq as [|b liq IH]; intros l i j L (A & B); [destruct j; discriminate|]. destruct l as [|v l]; [discriminate|]. destruct j as [|j].
  - cbn in A. injection A as ->. cbn in B. subst i. reflexivity.
  - cbn in A, L. cbn [firstn] in B. rewrite count_true_cons in B. destruct b; cbn in B; cbn [keep].
    + destruct i as [|i]; [discriminate|]. injection B as B. cbn. apply IH; [lia|split; auto].
    + cbn. apply IH; [lia|split; auto].
Qed.
Lemma keep_len : forall liq (l : list R), length liq = length l -> length (keep liq l) = count_true liq.
Proof. induction liq as [|b liq IH]; intros [|v l] L; try discriminate; [reflexivity|]. rewrite count_true_cons. destruct b; cbn; rewrite IH; auto. Qed.
Lemma thawed_exists : forall liq i, (i < count_true liq)%nat -> exists j, thawed_number liq i j.
Proof.
  induction liq as [|b liq IH]; intros i L; [cbn in L; lia|]. rewrite count_true_cons in L. destruct b; cbn in L.
  - destruct i as [|i]; [exists 0%nat; split; reflexivity|]. destruct (IH i ltac:(lia)) as (j & A & B). exists (S j). split; [exact A|]. cbn [firstn]. rewrite count_true_cons, B. reflexivity.
  - destruct (IH i ltac:(lia)) as (j & A & B). exists (S j). split; [exact A|]. cbn [firstn]. rewrite count_true_cons, B. reflexivity.
Qed.
Lemma upd_back (l : list R) : forall j x d, upd j (nth j l d) (upd j x l) = l.
Proof. induction l as [|a l IH]; intros [|j] x d; cbn; try reflexivity. f_equal. apply IH. Qed.
Lemma nth_upd (l : list R) : forall j x, (j < length l)%nat -> nth_error (upd j x l) j = Some x.
Proof. induction l as [|a l IH]; intros [|j] x L; cbn in *; try lia; [reflexivity|]. apply IH. lia. Qed.
Lemma upd_nth (l : list R) : forall j d, upd j (nth j l d) l = l.
Proof. induction l as [|a l IH]; intros [|j] d; cbn; try reflexivity. f_equal. apply IH. Qed.
Definition scale_of (b : bright) (j : nat) : R :=
  let c1 := counts (b_vals (stepped b j (nth j (b_steps b) 0))) in let c0 := counts (b_vals b) in
  if Req_EM_T c1 c0 then 0 else (c1 - c0) / nth j (b_steps b) 0.
Lemma nth_error_nth' (l : list R) j x : nth_error l j = Some x -> nth j l 0 = x.
Proof. revert j. induction l as [|a l IH]; intros [|j] E; cbn in *; try congruence. auto. Qed.
Lemma scales_ok b : wf b -> forall rest i, (exists done, keep (b_liquid b) (b_steps b) = done ++ rest /\ length done = i) ->
  exists l, scales_loop counts b (counts (b_vals b)) (keep (b_liquid b) (b_vals b)) rest i = Ok (l, b) /\ length l = length rest /\
  forall k j, thawed_number (b_liquid b) (i + k) j -> nth_error l k = Some (scale_of b j).
Proof.
  intros (L1 & L2). assert (LS : length (b_liquid b) = length (b_steps b)) by lia. induction rest as [|st rest IH]; intros i (done & KD & LD).
  - exists []. split; [reflexivity|]. split; [reflexivity|]. intros k j TN. exfalso. pose proof (keep_nth _ _ _ _ LS TN) as K. rewrite KD, app_nil_r in K.
    destruct TN as (A & B). assert (j < length (b_steps b))%nat by (rewrite <- LS; apply nth_error_Some; congruence).
    assert (nth_error done (i + k) = None) by (apply nth_error_None; lia). assert (nth_error (b_steps b) j <> None) by (apply nth_error_Some; lia). congruence.
  - assert (IC : (i < count_true (b_liquid b))%nat) by (rewrite <- (keep_len _ _ LS), KD, app_length; cbn; lia).
    destruct (thawed_exists _ _ IC) as (j & TN). assert (J : (j < length (b_vals b))%nat) by (rewrite <- L1; apply nth_error_Some; destruct TN; congruence).
    assert (ST : nth j (b_steps b) 0 = st).
    { apply nth_error_nth'. rewrite <- (keep_nth _ _ _ _ LS TN), KD, nth_error_app2 by lia. replace (i - length done)%nat with 0%nat by lia. reflexivity. }
    cbn [scales_loop]. unfold py_get at 1. rewrite (keep_nth _ _ _ _ L1 TN). destruct (nth_error (b_vals b) j) as [v|] eqn:EV; [|apply nth_error_None in EV; lia].
    cbn [bind]. unfold set_param at 1. rewrite (index_liquid_ok _ _ _ _ TN). cbn [bind Nat.add]. unfold py_get at 1. rewrite EV. cbn [bind].
    unfold set_param at 1. cbn [b_liquid b_vals b_steps]. rewrite (index_liquid_ok _ _ _ _ TN). cbn [bind Nat.add]. unfold py_get at 1. rewrite nth_upd by exact J. cbn [bind].
    assert (NV := nth_error_nth' _ _ _ EV). replace (upd j v (upd j (v + st) (b_vals b))) with (b_vals b) by (rewrite <- NV; symmetry; apply upd_back).
    replace (mkBright (b_vals b) (b_liquid b) (b_steps b)) with b by (destruct b; reflexivity).
    destruct (IH (S i)) as (l & E & LL & HS). { exists (done ++ [st]). rewrite KD, <- app_assoc. split; [reflexivity|]. rewrite app_length. cbn. lia. }
    rewrite E. cbn [bind]. eexists. split; [reflexivity|]. split; [cbn; lia|]. intros [|k] j' TN'.
    + rewrite Nat.add_0_r in TN'. assert (j' = j).
      { pose proof (index_liquid_ok _ _ 0 _ TN). pose proof (index_liquid_ok _ _ 0 _ TN'). cbn in *. congruence. } subst j'.
      cbn. f_equal. unfold scale_of, stepped. cbn [b_vals]. rewrite ST, NV. reflexivity.
    + cbn. apply HS. replace (S i + k)%nat with (i + S k)%nat by lia. exact TN'.
Qed.
Lemma is_zero_iff r : is_zero r = true <-> r = 0.
Proof. unfold is_zero. destruct (Req_EM_T r 0); split; congruence. Qed.

(** One entry per thawed parameter of the brightness: none if the image does not
    change with it, else the change of the model per change of the parameter;
    the brightness is as it was. *)
Theorem C87_derivatives : forall w W H m b ds b', wf b -> param_derivs w W H m false b = Ok (ds, b') ->
  b' = b /\ length ds = count_true (b_liquid b) /\
  forall i j, thawed_number (b_liquid b) i j -> exists d, nth_error ds i = Some d /\
    let st := nth j (b_steps b) 0 in
    forall p0 p1, model_patch w W H m b = Ok p0 -> model_patch w W H m (stepped b j st) = Ok p1 ->
    match d with
    | None => p1 = p0
    | Some d => same_place d p0 /\ forall x y v v0 v1, at_pixel d x y v -> at_pixel p0 x y v0 -> at_pixel p1 x y v1 -> v = (v1 - v0) / st
    end.
Proof.
  intros w W H m b ds b' WF E. unfold SurfModel.param_derivs in E.
  destruct (scales_ok b WF (keep (b_liquid b) (b_steps b)) 0) as (l & EL & LL & HS); [exists []; auto|]. rewrite EL in E. cbn [bind] in E.
  assert (LS : length (b_liquid b) = length (b_steps b)) by (destruct WF; lia). rewrite keep_len in LL by exact LS.
  assert (EN : forall w W H m j p0 p1, model_patch w W H m b = Ok p0 -> model_patch w W H m (stepped b j (nth j (b_steps b) 0)) = Ok p1 -> scale_of b j = 0 -> nth j (b_steps b) 0 <> 0 -> p1 = p0).
  { intros w0 W0 H0 m0 j p0 p1 E0 E1 SZ NZ. unfold SurfModel.model_patch in E0, E1. destruct (center (region W0 H0 m0)) as [cx cy]. destruct (pixscale_at w0 cx cy) as [ps|]; [|discriminate].
    cbn [bind] in E0, E1. injection E0 as <-. injection E1 as <-. unfold scale_of in SZ. destruct (Req_EM_T _ _) as [EQ|NE]; [unfold stepped in *; cbn [b_vals] in *; rewrite EQ; reflexivity|].
    exfalso. apply Rmult_integral in SZ. destruct SZ as [SZ|SZ]; [apply NE; lra|]. apply Rinv_neq_0_compat in NZ. contradiction. }
  assert (ST0 : forall j p0 p1, nth j (b_steps b) 0 = 0 -> model_patch w W H m b = Ok p0 -> model_patch w W H m (stepped b j (nth j (b_steps b) 0)) = Ok p1 -> p1 = p0 /\ scale_of b j = 0).
  { intros j p0 p1 Z E0 E1. assert (SB : stepped b j (nth j (b_steps b) 0) = b). { rewrite Z. unfold stepped. rewrite Rplus_0_r, upd_nth. destruct b; reflexivity. }
    rewrite SB in E1. split; [congruence|]. unfold scale_of. rewrite SB. destruct (Req_EM_T _ _); [reflexivity|congruence]. }
  destruct (forallb is_zero l) eqn:AZ.
  - injection E as <- <-. split; [reflexivity|]. split; [rewrite map_length; exact LL|]. intros i j TN. assert (SC := HS i j TN).
    exists None. split; [apply map_nth_error with (f := fun _ : R => @None patch) in SC; exact SC|]. cbn zeta. intros p0 p1 E0 E1.
    rewrite forallb_forall in AZ. assert (Z : scale_of b j = 0) by (apply is_zero_iff, AZ; eapply nth_error_In; exact SC).
    destruct (Req_EM_T (nth j (b_steps b) 0) 0) as [Z0|NZ]; [eapply ST0; eauto|eapply EN; eauto].
  - destruct (center (region W H m)) as [cx cy] eqn:EC. destruct (pixscale_at w cx cy) as [ps|] eqn:PS; [|discriminate]. cbn [bind] in E. injection E as <- <-.
    split; [reflexivity|]. split; [rewrite map_length; exact LL|]. intros i j TN. assert (SC := HS i j TN).
    eexists. split; [apply map_nth_error; exact SC|]. cbn zeta. intros p0 p1 E0 E1. destruct (is_zero (scale_of b j)) eqn:Z.
    + apply is_zero_iff in Z. destruct (Req_EM_T (nth j (b_steps b) 0) 0) as [Z0|NZ]; [eapply ST0; eauto|eapply EN; eauto].
    + assert (NZ : nth j (b_steps b) 0 <> 0).
      { intros Z0. destruct (ST0 _ _ _ Z0 E0 E1) as (_ & SZ). apply is_zero_iff in SZ. congruence. }
      unfold SurfModel.model_patch in E0, E1. rewrite EC, PS in E0, E1. cbn [bind] in E0, E1. injection E0 as <-. injection E1 as <-.
      split; [unfold same_place, const_patch; cbn [p_x0 p_y0 p_rows]; split; [reflexivity|split; [reflexivity|]]; induction (m_h _) as [|n IH]; [reflexivity|]; cbn [repeat map]; rewrite IH, !repeat_length; reflexivity|].
      intros x y v v0 v1 A A0 A1. apply at_const in A, A0, A1. destruct A as (-> & _). destruct A0 as (-> & _). destruct A1 as (-> & _).
      assert (SD : scale_of b j = (counts (b_vals (stepped b j (nth j (b_steps b) 0))) - counts (b_vals b)) / nth j (b_steps b) 0).
      { unfold scale_of in *. destruct (Req_EM_T _ _) as [EQ|]; [|reflexivity]. rewrite EQ. unfold Rdiv. ring. }
      rewrite SD. unfold stepped, Rdiv. cbn [b_vals]. ring.
Qed.
Theorem C87_frozen : forall w W H m b, param_derivs w W H m true b = Ok ([], b).
Proof. reflexivity. Qed.
(** For counts that are linear in the parameter the derivative is exact: each
    change of the parameter changes the model by the derivative times it. *)
Theorem C87_linear : forall w W H m b ds b' i j k, wf b -> param_derivs w W H m false b = Ok (ds, b') -> thawed_number (b_liquid b) i j ->
  (forall t, counts (b_vals (stepped b j t)) = counts (b_vals b) + k * t) -> nth j (b_steps b) 0 <> 0 ->
  forall t p0 p1 x y v0 v1, model_patch w W H m b = Ok p0 -> model_patch w W H m (stepped b j t) = Ok p1 -> at_pixel p0 x y v0 -> at_pixel p1 x y v1 ->
  match nth_error ds i with Some (Some d) => exists v, at_pixel d x y v /\ v1 = v0 + v * t | _ => v1 = v0 end.
Proof.
  intros w W H m b ds b' i j k WF E TN LIN NZ t p0 p1 x y v0 v1 E0 E1 A0 A1.
  destruct (C87_derivatives w W H m b ds b' WF E) as (_ & _ & D). destruct (D i j TN) as (d & ND & DD). rewrite ND. cbn zeta in DD. set (st := nth j (b_steps b) 0) in *.
  unfold SurfModel.model_patch in E0, E1, DD. destruct (center (region W H m)) as [cx cy]. destruct (pixscale_at w cx cy) as [ps|]; [|discriminate].
  cbn [bind] in E0, E1, DD. specialize (DD _ _ eq_refl eq_refl). rewrite LIN in E1. rewrite LIN in DD. generalize dependent (ps ^ 2). intros q E0 E1 DD.
  set (c0 := counts (b_vals b)) in *. injection E0 as <-. injection E1 as <-. destruct (proj1 (at_const _ _ _ _ _) A0) as (V0 & X & Y). destruct (proj1 (at_const _ _ _ _ _) A1) as (V1 & _). destruct d as [d|].
  - destruct DD as ((D1 & D2 & D3) & DV). assert (EX : exists v, at_pixel d x y v).
    { unfold at_pixel. rewrite D1, D2. cbn [const_patch p_x0 p_y0]. set (r := region W H m) in *.
      assert (LR : length (p_rows d) = m_h r). { assert (LD := f_equal (@length nat) D3). rewrite !map_length in LD. cbn in LD. rewrite repeat_length in LD. exact LD. }
      destruct (nth_error (p_rows d) (Z.to_nat (y - m_y0 r))) as [row|] eqn:ER; [|apply nth_error_None in ER; lia].
      assert (LW : length row = m_w r).
      { assert (NM := map_nth_error (@length R) _ _ ER). rewrite D3 in NM. cbn [const_patch p_rows] in NM. clear - NM. revert NM. generalize (Z.to_nat (y - m_y0 r)). induction (m_h r) as [|n IH]; intros [|a] NM; cbn in NM; try discriminate; [injection NM; rewrite repeat_length; auto|eauto]. }
      destruct (nth_error row (Z.to_nat (x - m_x0 r))) as [v|] eqn:EV; [|apply nth_error_None in EV; lia]. exists v, row. split; [lia|]. split; [lia|]. split; [reflexivity|exact EV]. }
    destruct EX as (v & AV). exists v. split; [exact AV|].
    rewrite (DV x y v _ _ AV A0 (proj2 (at_const (region W H m) ((c0 + k * st) * q) x y _) (conj eq_refl (conj X Y)))). rewrite V0, V1. field. exact NZ.
  - assert (K : c0 * q = (c0 + k * st) * q).
    { assert (AP := proj2 (at_const (region W H m) (c0 * q) x y _) (conj eq_refl (conj X Y))). unfold const_patch in DD. injection DD as DD.
      assert (Q : const_patch (region W H m) ((c0 + k * st) * q) = const_patch (region W H m) (c0 * q)) by (unfold const_patch; rewrite DD; reflexivity).
      rewrite <- Q in AP. apply at_const in AP. apply AP. }
    rewrite V1, V0. assert (K2 : k * st * q = 0) by lra. assert (K3 : k * q = 0). { apply Rmult_eq_reg_r with st; [|exact NZ]. lra. }
    replace ((c0 + k * t) * q) with (c0 * q + k * q * t) by ring. rewrite K3. ring.
Qed.
(** Masks and subimages: a pixel of a FITS image gets the same value from the
    whole image, from any mask and on a subimage. *)
Theorem C87_masks : forall w W H W' H' m m' b p p' x y v v', model_patch w W H m b = Ok p -> model_patch w W' H' m' b = Ok p' ->
  at_pixel p x y v -> at_pixel p' x y v' -> v = v'.
Proof.
  intros w W H W' H' m m' b p p' x y v v' E E' A A'. destruct (C87_model _ _ _ _ _ _ E) as (a & PA & M & _). destruct (C87_model _ _ _ _ _ _ E') as (a' & PA' & M' & _).
  apply M in A. apply M' in A'. rewrite (area_unique _ _ _ PA PA') in A. destruct A, A'. congruence.
Qed.
Theorem C87_subimage : forall f x0 y0 dx dy w' W H W' H' m m' b p p' x y x' y' v v', wcs_shifted (FitsWcs f x0 y0) dx dy = Ok w' ->
  model_patch (FitsWcs f x0 y0) W H m b = Ok p -> model_patch w' W' H' m' b = Ok p' ->
  at_pixel p x y v -> at_pixel p' x' y' v' -> v = v'.
Proof.
  intros f x0 y0 dx dy w' W H W' H' m m' b p p' x y x' y' v v' ES E E' A A'. injection ES as <-.
  destruct (C87_model _ _ _ _ _ _ E) as (a & PA & M & _). destruct (C87_model _ _ _ _ _ _ E') as (a' & PA' & M' & _). cbn in PA, PA'.
  apply M in A. apply M' in A'. destruct (get_cd f) as [[? ?] [? ?]]. destruct A, A'. congruence.
Qed.
(** Refutation: subimages of an image with a NullWCS lose its pixel scale and
    with it the brightness per pixel. *)
Theorem C87_subimage_refuted : forall ps dx dy x0 y0 w' b p' W H m x y v, wcs_shifted (NullWCS ps dx dy) x0 y0 = Ok w' -> model_patch w' W H m b = Ok p' ->
  at_pixel p' x y v -> v = counts (b_vals b).
Proof.
  intros ps dx dy x0 y0 w' b p' W H m x y v ES E A. injection ES as <-. destruct (C87_model _ _ _ _ _ _ E) as (a & PA & M & _). cbn in PA. apply M in A. destruct A as (-> & _). rewrite PA. ring.
Qed.
(** Wrapped coordinate systems and WcslibWcs have no pixel scale: no model. *)
Theorem C87_wrapped_refuted : forall w W H m b, match w with NullWCS _ _ _ | FitsWcs _ _ _ => False | _ => True end -> model_patch w W H m b = Err AttributeError.
Proof. intros w W H m b. unfold SurfModel.model_patch. destruct (center (region W H m)) as [cx cy]. destruct w; cbn; tauto || reflexivity. Qed.
End Props.

(** A flux of 5 per square arcsecond with pixels of 2 arcseconds. *)
Example C87_ex : exists p ds b', model_patch (fun l => nth 0 l 0) (NullWCS 2 0 0) 3 2 None (mkBright [5] [true] [1]) = Ok p /\
  p_rows p = repeat (repeat (5 * 2 ^ 2) 3) 2 /\
  param_derivs (fun l => nth 0 l 0) (NullWCS 2 0 0) 3 2 (Some (mkMask 1 1 1 1)) false (mkBright [5] [true] [1]) = Ok (ds, b') /\
  exists d, ds = [Some d] /\ at_pixel d 1 1 4.
Proof.
  do 3 eexists. split; [reflexivity|]. split; [reflexivity|]. unfold param_derivs. cbn. destruct (Req_EM_T (5 + 1) 5); [lra|]. cbn. unfold is_zero.
  destruct (Req_EM_T ((5 + 1 - 5) / 1) 0); [lra|]. split; [reflexivity|]. eexists. split; [reflexivity|]. exists [(5 + 1 - 5) / 1 * (2 * (2 * 1))]. cbn. repeat split; try lia. f_equal. field.
Qed.

Print Assumptions C87_model.
Print Assumptions C87_works.
Print Assumptions C87_derivatives.
Print Assumptions C87_frozen.
Print Assumptions C87_linear.
Print Assumptions C87_masks.
Print Assumptions C87_subimage.
Print Assumptions C87_subimage_refuted.
Print Assumptions C87_wrapped_refuted.
