(** C117: the sparse, the dense and the compact optimizer compute the same
    update. *)
From Coq Require Import List ZArith QArith Qreals Bool Lia Reals Lra Psatz.
From Verif Require Import Base PatchModel PatchSpec ParamsModel ParamsSpec PriorModel PriorProps LsqModel LsqSpec LsqProofs LsqProps.
From Verif Require DenseModel DenseProps.
Import ListNotations.
Open Scope R_scope.

(** ** What is claimed *)
(** The same images, derivatives and priors with real numbers, as the dense
    optimizers take them. *)
Definition up_arr (a : arr Q) : arr R := mkArr (ah a) (aw a) (fun y x => Q2R (px a y x)).
Definition up_patch (p : patch Q) : patch R := mkPatch (x0 p) (y0 p) (option_map up_arr (pimg p)).
Definition up_image (i : image) : DenseModel.image (V := R) :=
  DenseModel.mkImage (im_id i) (im_h i) (im_w i) (px (up_arr (im_ie i))) (px (up_arr (im_chi i))).
Definition up_derivs (ds : derivs) : list (list (patch R * DenseModel.image (V := R))) :=
  map (map (fun e => (up_patch (fst e), up_image (snd e)))) ds.
Definition up_prior (ox : option psys) : option (list (DenseModel.term (V := R))) :=
  option_map (fun x => map (fun e => let '(r, c, v, b) := e in DenseModel.mkTerm r c (map Q2R v) (map Q2R b))
    (combine (combine (combine (ps_rows x) (ps_cols x)) (ps_vals x)) (ps_b x))) ox.
Notation rpredict := (DenseProps.predict 0 Rplus Rmult).
Notation rderiv := (DenseProps.deriv_at 0 Rplus Rmult).
Notation rprior := (DenseProps.prior_at 0 Rplus).
Notation rprior_b := (DenseProps.prior_b 0 Rplus).
Notation rsum := (DenseModel.lsum 0 Rplus).
(** No parameter has two derivatives in one image. *)
Definition one_each (ds : derivs) : Prop := forall l, In l ds -> NoDup (map (fun e => im_id (snd e)) l).
(** A solution of the sparse system. *)
Definition solves (s : lsys) (d : list Q) : Prop :=
  length d = ls_ncols s /\ forall d', length d' = length d -> (objective s d <= objective s d')%Q.
(** No step but zero leaves all pixels and all prior terms unchanged. *)
Definition independent (imgs : list image) (ds : derivs) (ox : option psys) : Prop :=
  forall z, length z = length ds ->
    (forall i X Y, In i imgs -> (0 <= X < im_w i)%Z -> (0 <= Y < im_h i)%Z ->
       rpredict (length ds) (fun q => rderiv (up_derivs ds) q (up_image i) Y X) z = 0) ->
    (forall k, rpredict (length ds) (rprior (DenseProps.terms_of (up_prior ox)) k) z = 0) ->
    forall c, In c z -> c = 0.
(** The two updates change every pixel by the same, and are the same if the
    parameters are independent. *)
Definition agree (imgs : list image) (ds : derivs) (ox : option psys) (d : list Q) (x : list R) : Prop :=
  (forall i X Y, In i imgs -> (0 <= X < im_w i)%Z -> (0 <= Y < im_h i)%Z ->
     rpredict (length ds) (fun q => rderiv (up_derivs ds) q (up_image i) Y X) x = Q2R (model_change ds i d X Y)) /\
  (independent imgs ds ox -> x = map Q2R d).

(** ** Systems of rows *)
Notation row := ((nat -> R) * R)%type.
Lemma lsum_cons {A} (f : A -> R) a l : rsum f (a :: l) = f a + rsum f l.
Proof. reflexivity. Qed.
Lemma lsum_ext {A} (f g : A -> R) l : (forall a, In a l -> f a = g a) -> rsum f l = rsum g l.
Proof. induction l as [|a l IH]; intros H; [reflexivity|]. rewrite !lsum_cons, IH by (intros; apply H; right; auto). rewrite (H a) by (left; auto). reflexivity. Qed.
Lemma lsum_plus {A} (f g : A -> R) l : rsum (fun a => f a + g a) l = rsum f l + rsum g l.
Proof. induction l as [|a l IH]; [unfold DenseModel.lsum; simpl; lra|]. rewrite !lsum_cons, IH. lra. Qed.
Lemma lsum_scal {A} (c : R) (f : A -> R) l : rsum (fun a => c * f a) l = c * rsum f l.
Proof. induction l as [|a l IH]; [unfold DenseModel.lsum; simpl; lra|]. rewrite !lsum_cons, IH. lra. Qed.
Lemma lsum_zero {A} (f : A -> R) l : (forall a, In a l -> f a = 0) -> rsum f l = 0.
Proof. intros H. induction l as [|a l IH]; [reflexivity|]. rewrite lsum_cons, IH by (intros; apply H; right; auto). rewrite (H a) by (left; auto). lra. Qed.
Lemma lsum_swap {A B} (f : A -> B -> R) la lb : rsum (fun a => rsum (f a) lb) la = rsum (fun b => rsum (fun a => f a b) la) lb.
Proof.
  induction la as [|a la IH]; [symmetry; apply lsum_zero; reflexivity|]. rewrite lsum_cons, IH, <- lsum_plus. apply lsum_ext. reflexivity.
Qed.
Lemma lsum_nonneg {A} (f : A -> R) l : (forall a, In a l -> 0 <= f a) -> 0 <= rsum f l.
Proof. induction l as [|a l IH]; intros H; [unfold DenseModel.lsum; simpl; lra|]. rewrite lsum_cons. specialize (IH (fun b Hb => H b (or_intror Hb))). specialize (H a (or_introl eq_refl)). lra. Qed.
Lemma lsum_null {A} (f : A -> R) l : (forall a, In a l -> 0 <= f a) -> rsum f l <= 0 -> forall a, In a l -> f a = 0.
Proof.
  induction l as [|b l IH]; intros H S a Ha; [contradiction|]. rewrite lsum_cons in S.
  pose proof (lsum_nonneg f l (fun c Hc => H c (or_intror Hc))). pose proof (H b (or_introl eq_refl)).
  destruct Ha as [<-|Ha]; [lra|]. apply (IH (fun c Hc => H c (or_intror Hc))); auto. lra.
Qed.
Lemma lsum_app {A} (f : A -> R) l m : rsum f (l ++ m) = rsum f l + rsum f m.
Proof. induction l as [|a l IH]; [unfold DenseModel.lsum; simpl; lra|]. cbn [app]. rewrite !lsum_cons, IH. lra. Qed.
Lemma lsum_map {A B} (f : B -> R) (g : A -> B) l : rsum f (map g l) = rsum (fun a => f (g a)) l.
Proof. induction l as [|a l IH]; [reflexivity|]. cbn [map]. rewrite !lsum_cons, IH. reflexivity. Qed.
Lemma lsum_flat {A B} (f : B -> R) (g : A -> list B) l : rsum f (flat_map g l) = rsum (fun a => rsum f (g a)) l.
Proof. induction l as [|a l IH]; [reflexivity|]. cbn [flat_map]. rewrite lsum_app, lsum_cons, IH. reflexivity. Qed.

Definition resid (n : nat) (r : row) (x : list R) : R := rpredict n (fst r) x - snd r.
Definition ssq (n : nat) (rows : list row) (x : list R) : R := rsum (fun r => resid n r x ^ 2) rows.
Definition normal (n : nat) (rows : list row) (x : list R) : Prop := forall p, (p < n)%nat -> rsum (fun r => fst r p * resid n r x) rows = 0.

Lemma normal_orth n rows x : normal n rows x -> forall w : nat -> R,
  rsum (fun r => resid n r x * rsum (fun q => fst r q * w q) (seq 0 n)) rows = 0.
Proof.
  intros N w. rewrite (lsum_ext _ (fun r => rsum (fun q => w q * (fst r q * resid n r x)) (seq 0 n))).
  2:{ intros r _. rewrite <- lsum_scal. apply lsum_ext. intros q _. ring. }
  rewrite lsum_swap. apply lsum_zero. intros q Hq. apply in_seq in Hq. rewrite lsum_scal, N by lia. ring.
Qed.
Lemma normal_same n rows x y : normal n rows x -> normal n rows y -> forall r, In r rows -> rpredict n (fst r) x = rpredict n (fst r) y.
Proof.
  intros NX NY r Hr. set (w := fun q => nth q x 0 - nth q y 0).
  assert (PD : forall r : row, rpredict n (fst r) x - rpredict n (fst r) y = rsum (fun q => fst r q * w q) (seq 0 n)).
  { intros r'. unfold DenseProps.predict, w. rewrite (lsum_ext (fun q => fst r' q * (nth q x 0 - nth q y 0)) (fun q => fst r' q * nth q x 0 + (-1) * (fst r' q * nth q y 0))) by (intros; ring).
    rewrite lsum_plus, lsum_scal. lra. }
  assert (Z0 : rsum (fun r => (rpredict n (fst r) x - rpredict n (fst r) y) ^ 2) rows = 0).
  { rewrite (lsum_ext _ (fun r => resid n r x * rsum (fun q => fst r q * w q) (seq 0 n) + (-1) * (resid n r y * rsum (fun q => fst r q * w q) (seq 0 n)))).
    - rewrite lsum_plus, lsum_scal, !normal_orth by auto. ring.
    - intros r' _. rewrite <- PD. unfold resid. ring. }
  assert (E := lsum_null (fun r : row => (rpredict n (fst r) x - rpredict n (fst r) y) ^ 2) rows ltac:(intros; apply pow2_ge_0) ltac:(lra) r Hr). cbv beta in E.
  assert (rpredict n (fst r) x - rpredict n (fst r) y = 0) by (apply Rsqr_0_uniq; unfold Rsqr; lra). lra.
Qed.

Lemma predict_upd n a (d : list Q) p z : length d = n -> (p < n)%nat ->
  rpredict n a (map Q2R (upd p (nth p d 0 + z)%Q d)) = rpredict n a (map Q2R d) + Q2R z * a p.
Proof.
  intros L P. unfold DenseProps.predict.
  assert (NT : forall l q, nth q (map Q2R l) 0 = Q2R (nth q l 0%Q)).
  { intros l q. rewrite <- (map_nth Q2R). f_equal. unfold Q2R. simpl. lra. }
  rewrite (lsum_ext _ (fun q => a q * nth q (map Q2R d) 0 + (if Nat.eqb q p then Q2R z * a p else 0))).
  - rewrite lsum_plus. f_equal.
    assert (SG : forall m s, rsum (fun q => if Nat.eqb q p then Q2R z * a p else 0) (seq s m) = if (s <=? p)%nat && (p <? s + m)%nat then Q2R z * a p else 0).
    { induction m as [|m IH]; intros s; cbn [seq].
      - destruct (Nat.leb_spec s p), (Nat.ltb_spec p (s + 0)); cbn [andb]; try lia; reflexivity.
      - rewrite lsum_cons, IH. destruct (Nat.eqb_spec s p), (Nat.leb_spec s p), (Nat.leb_spec (S s) p), (Nat.ltb_spec p (S s + m)), (Nat.ltb_spec p (s + S m)); cbn [andb]; try lia; lra. }
    rewrite SG. destruct (Nat.leb_spec 0 p), (Nat.ltb_spec p (0 + n)); cbn [andb]; try lia. reflexivity.
  - intros q _. rewrite !NT. destruct (Nat.eqb_spec q p) as [->|NE].
    + rewrite (nth_error_nth _ p 0%Q (nth_error_upd_same p _ d ltac:(lia))), Q2R_plus. ring.
    + rewrite DenseProps.upd_nth_other by congruence. ring.
Qed.

(** A quadratic that no small rational step lowers has no slope. *)
Lemma no_slope B C : 0 <= C -> (forall z : Q, 0 <= 2 * Q2R z * B + Q2R z ^ 2 * C) -> B = 0.
Proof.
  intros HC H. destruct (Req_dec B 0) as [|N]; auto. exfalso.
  assert (HP : 0 < Rabs B) by (apply Rabs_pos_lt; auto).
  destruct (archimed (C / (2 * Rabs B))) as [A _]. set (m := Z.to_pos (up (C / (2 * Rabs B)) + 1)).
  assert (U : (0 < up (C / (2 * Rabs B)))%Z).
  { apply lt_IZR. assert (0 <= C / (2 * Rabs B)) by (apply Rmult_le_pos; [lra|apply Rlt_le, Rinv_0_lt_compat; lra]). lra. }
  assert (M : C / (2 * Rabs B) < IZR (Zpos m)).
  { unfold m. rewrite Z2Pos.id by lia. rewrite plus_IZR. lra. }
  assert (MP : 0 < IZR (Zpos m)) by (apply IZR_lt; lia).
  assert (B1 : 2 * Rabs B <= / IZR (Zpos m) * C).
  { assert (HS : forall sg : Z, (sg = 1 \/ sg = -1)%Z -> 0 <= 2 * (IZR sg * B) + / IZR (Zpos m) * C).
    { intros sg HS. specialize (H (sg # m)%Q). unfold Q2R in H. cbn [Qnum Qden] in H.
      assert (E : 2 * (IZR sg * / IZR (Zpos m)) * B + (IZR sg * / IZR (Zpos m)) ^ 2 * C = / IZR (Zpos m) * (2 * (IZR sg * B) + / IZR (Zpos m) * C)).
      { destruct HS as [-> | ->]; field; lra. }
      rewrite E in H. assert (0 < / IZR (Zpos m)) by (apply Rinv_0_lt_compat; auto).
      apply Rmult_le_reg_l with (/ IZR (Zpos m)); auto. rewrite Rmult_0_r. exact H. }
    pose proof (HS 1%Z (or_introl eq_refl)). pose proof (HS (-1)%Z (or_intror eq_refl)). unfold Rabs. destruct (Rcase_abs B); lra. }
  apply (Rmult_lt_compat_r (2 * Rabs B)) in M; [|lra]. unfold Rdiv in M. rewrite Rmult_assoc, Rinv_l, Rmult_1_r in M by lra.
  apply (Rmult_le_compat_l (IZR (Zpos m))) in B1; [|lra]. replace (IZR (Zpos m) * (/ IZR (Zpos m) * C)) with C in B1 by (field; lra). lra.
Qed.
Lemma least_normal n rows (d : list Q) : length d = n ->
  (forall d', length d' = n -> ssq n rows (map Q2R d) <= ssq n rows (map Q2R d')) -> normal n rows (map Q2R d).
Proof.
  intros L H p P. apply (no_slope _ (rsum (fun r => fst r p ^ 2) rows)); [apply lsum_nonneg; intros; apply pow2_ge_0|].
  intros z. specialize (H (upd p (nth p d 0 + z)%Q d)). rewrite upd_length in H. specialize (H L).
  unfold ssq in H. rewrite (lsum_ext (fun r => resid n r (map Q2R (upd p (nth p d 0 + z)%Q d)) ^ 2)
    (fun r => resid n r (map Q2R d) ^ 2 + ((2 * Q2R z) * (fst r p * resid n r (map Q2R d)) + Q2R z ^ 2 * fst r p ^ 2))) in H.
  - rewrite !lsum_plus, !lsum_scal in H. lra.
  - intros r _. unfold resid. rewrite predict_upd by auto. ring.
Qed.

(** ** The rows of the dense system *)
Definition pix_rows (ds : list (list (patch R * DenseModel.image (V := R)))) (i : DenseModel.image (V := R)) : list row :=
  flat_map (fun y => map (fun x => ((fun q => rderiv ds q i (Z.of_nat y) (Z.of_nat x)), DenseModel.im_chi i (Z.of_nat y) (Z.of_nat x)))
    (seq 0 (Z.to_nat (DenseModel.im_w i)))) (seq 0 (Z.to_nat (DenseModel.im_h i))).
Definition all_rows (imgs : list (DenseModel.image (V := R))) ds ts (np : nat) : list row :=
  flat_map (pix_rows ds) imgs ++ map (fun k => (rprior ts k, rprior_b ts k)) (seq 0 np).
Lemma normal_rows imgs ds ts x np : (forall t r, In t ts -> In r (DenseModel.t_rows t) -> (r < np)%nat) ->
  DenseProps.normal_equations 0 Rplus Rmult Rminus imgs ds ts x -> normal (length ds) (all_rows imgs ds ts np) x.
Proof.
  intros H N p P. specialize (N np H p P). unfold all_rows. rewrite lsum_app, lsum_map, lsum_flat. refine (eq_trans _ N). f_equal.
  apply lsum_ext. intros i _. unfold pix_rows, DenseProps.pixel_sum. rewrite lsum_flat. apply lsum_ext. intros y _. rewrite lsum_map. reflexivity.
Qed.
Lemma in_rows imgs ds ts np i X Y : In i imgs -> (0 <= X < DenseModel.im_w i)%Z -> (0 <= Y < DenseModel.im_h i)%Z ->
  In ((fun q => rderiv ds q i Y X), DenseModel.im_chi i Y X) (all_rows imgs ds ts np).
Proof.
  intros Hi HX HY. unfold all_rows. apply in_or_app. left. apply in_flat_map. exists i. split; auto. unfold pix_rows.
  apply in_flat_map. exists (Z.to_nat Y). split; [apply in_seq; lia|]. apply in_map_iff. exists (Z.to_nat X). rewrite !Z2Nat.id by lia.
  split; [reflexivity|apply in_seq; lia].
Qed.

(** ** The sparse system has the same rows *)
Lemma Q2R_0 : Q2R 0 = 0.
Proof. unfold Q2R. simpl. lra. Qed.
Lemma Q2R_sum {A} (f : A -> Q) l : Q2R (qsum (map f l)) = rsum (fun a => Q2R (f a)) l.
Proof. induction l as [|a l IH]; [apply Q2R_0|]. cbn [map]. rewrite lsum_cons, <- IH. unfold qsum. cbn [fold_right]. apply Q2R_plus. Qed.
Lemma Q2R_nth l q : nth q (map Q2R l) 0 = Q2R (nth q l 0%Q).
Proof. rewrite <- (map_nth Q2R). f_equal. symmetry. apply Q2R_0. Qed.
Lemma up_img_at p X Y : img_at 0 (up_patch p) X Y = Q2R (img_at 0%Q p X Y).
Proof.
  unfold img_at, val_at, up_patch. destruct p as [px0 py0 [a|]]; cbn [pimg option_map x0 y0 up_arr]; [|symmetry; apply Q2R_0].
  destruct (_ && _); [reflexivity|symmetry; apply Q2R_0].
Qed.
Lemma sum_indexed {A} (f : nat * A -> R) (dflt : A) : forall l s, rsum f (combine (seq s (length l)) l) = rsum (fun q => f (q, nth (q - s) l dflt)) (seq s (length l)).
Proof.
  induction l as [|a l IH]; intros s; [reflexivity|]. cbn [length seq combine]. rewrite !lsum_cons, IH, Nat.sub_diag. f_equal.
  apply lsum_ext. intros q Hq. apply in_seq in Hq. replace (q - s)%nat with (S (q - S s)) by lia. reflexivity.
Qed.
Lemma nth_up ds q : nth q (up_derivs ds) [] = map (fun e => (up_patch (fst e), up_image (snd e))) (nth q ds []).
Proof. unfold up_derivs. apply (map_nth (map (fun e => (up_patch (fst e), up_image (snd e)))) ds [] q). Qed.
Lemma up_change ds i d X Y : Q2R (model_change ds i d X Y) = rpredict (length ds) (fun q => rderiv (up_derivs ds) q (up_image i) Y X) (map Q2R d).
Proof.
  unfold model_change, DenseProps.predict. rewrite Q2R_sum, (sum_indexed _ []). apply lsum_ext. intros q _. rewrite Nat.sub_0_r.
  rewrite Q2R_mult, Q2R_nth, Q2R_sum, Rmult_comm. f_equal. unfold DenseProps.deriv_at. rewrite nth_up, lsum_map. apply lsum_ext. intros [p j] _.
  cbn [fst snd up_image DenseModel.im_id DenseModel.im_ie up_arr px]. destruct (Nat.eqb _ _); [|apply Q2R_0]. rewrite Q2R_mult, up_img_at. reflexivity.
Qed.
Lemma up_length ds : length (up_derivs ds) = length ds.
Proof. apply map_length. Qed.

(** *** Prior rows *)
Definition up_terms (r0 : nat) (tm : list (nat * Q * Q)) (p : list Q) : list (DenseModel.term (V := R)) :=
  map (fun e => DenseModel.mkTerm [fst e] (fst (fst (snd e))) [Q2R (1 / snd (snd e))%Q]
    [Q2R (- (nth (fst (fst (snd e))) p 0 - snd (fst (snd e))) / snd (snd e))%Q]) (combine (seq r0 (length tm)) tm).
Lemma up_sys p : forall tm r0, up_prior (Some (sys r0 tm p)) = Some (up_terms r0 tm p).
Proof.
  unfold up_prior, up_terms, sys. cbn [option_map ps_rows ps_cols ps_vals ps_b]. intros tm r0. f_equal. revert r0.
  induction tm as [|[[c m] s] tm IH]; intros r0; [reflexivity|]. cbn [length seq map combine fst snd]. rewrite IH. reflexivity.
Qed.
Lemma up_terms_ok p : forall tm r0, DenseProps.priors_ok (up_terms r0 tm p).
Proof.
  intros tm r0. split.
  - assert (E : flat_map (fun t => map (fun r => (r, DenseModel.t_col t)) (DenseModel.t_rows t)) (up_terms r0 tm p) = combine (seq r0 (length tm)) (map (fun t => fst (fst t)) tm)).
    { unfold up_terms. revert r0. induction tm as [|[[c m] s] tm IH]; intros r0; [reflexivity|].
      cbn [length seq map combine flat_map DenseModel.t_rows DenseModel.t_col app fst snd]. rewrite IH. reflexivity. }
    rewrite E. apply (NoDup_map_inv fst). assert (L : length (seq r0 (length tm)) = length (map (fun t : nat * Q * Q => fst (fst t)) tm)) by (rewrite map_length, seq_length; auto).
    revert L. generalize (map (fun t : nat * Q * Q => fst (fst t)) tm). generalize (seq_NoDup (length tm) r0). generalize (seq r0 (length tm)).
    intros l N m L. replace (map fst (combine l m)) with l; auto. revert m L N. induction l as [|a l IH]; intros [|b m] L N; try discriminate; auto.
    cbn [combine map fst]. f_equal. apply IH; [simpl in L; lia|]. inversion N; auto.
  - intros t Ht. unfold up_terms in Ht. apply in_map_iff in Ht. destruct Ht as (e & <- & _). split; reflexivity.
Qed.
Lemma up_terms_rows p tm t r : In t (up_terms 0 tm p) -> In r (DenseModel.t_rows t) -> (r < length tm)%nat.
Proof.
  intros Ht Hr. unfold up_terms in Ht. apply in_map_iff in Ht. destruct Ht as ([k e] & <- & Hi). cbn in Hr. destruct Hr as [<-|[]].
  apply in_combine_l in Hi. apply in_seq in Hi. lia.
Qed.
Lemma single_sum n (f : nat -> R) c : (c < n)%nat -> rsum (fun q => if Nat.eqb c q then f q else 0) (seq 0 n) = f c.
Proof.
  intros H. assert (G : forall m s, rsum (fun q => if Nat.eqb c q then f q else 0) (seq s m) = if (s <=? c)%nat && (c <? s + m)%nat then f c else 0).
  { induction m as [|m IH]; intros s; cbn [seq].
    - destruct (Nat.leb_spec s c), (Nat.ltb_spec c (s + 0)); cbn [andb]; try lia; reflexivity.
    - rewrite lsum_cons, IH. destruct (Nat.eqb_spec c s), (Nat.leb_spec s c), (Nat.leb_spec (S s) c), (Nat.ltb_spec c (S s + m)), (Nat.ltb_spec c (s + S m)); cbn [andb]; subst; try lia; lra. }
  rewrite G. destruct (Nat.leb_spec 0 c), (Nat.ltb_spec c (0 + n)); cbn [andb]; try lia. reflexivity.
Qed.
Lemma up_row n p tm d k : Forall (fun t => (fst (fst t) < n)%nat) tm ->
  rpredict n (rprior (up_terms 0 tm p) k) (map Q2R d) = Q2R (row_dot (PriorProps.entries (sys 0 tm p)) d k).
Proof.
  intros F. unfold DenseProps.predict, DenseProps.prior_at, row_dot. rewrite entries_sys, map_map, Q2R_sum. unfold up_terms.
  rewrite (lsum_ext _ (fun q => rsum (fun e : nat * (nat * Q * Q) => if Nat.eqb (fst (fst (snd e))) q then (if Nat.eqb (fst e) k then Q2R (1 / snd (snd e))%Q else 0) * nth q (map Q2R d) 0 else 0) (combine (seq 0 (length tm)) tm))).
  - rewrite lsum_swap. apply lsum_ext. intros [j [[c m] s]] Hi. cbn [fst snd]. apply in_combine_r in Hi. rewrite Forall_forall in F. specialize (F _ Hi). cbn [fst] in F.
    rewrite (single_sum n (fun q => (if Nat.eqb j k then Q2R (1 / s)%Q else 0) * nth q (map Q2R d) 0) c F). rewrite Q2R_nth.
    destruct (Nat.eqb j k); [rewrite Q2R_mult; reflexivity|rewrite Q2R_0; ring].
  - intros q _. rewrite lsum_map, Rmult_comm, <- lsum_scal. apply lsum_ext. intros [j [[c m] s]] _. cbn [DenseModel.t_col DenseModel.t_rows DenseModel.t_vals combine fst snd].
    destruct (Nat.eqb c q); [|ring]. unfold DenseModel.lsum. cbn [fold_right fst snd]. destruct (Nat.eqb j k); ring.
Qed.
Lemma up_rhs p k : forall tm, (k < length tm)%nat -> rprior_b (up_terms 0 tm p) k = Q2R (nth k (concat (ps_b (sys 0 tm p))) 0%Q).
Proof.
  intros tm K. unfold DenseProps.prior_b, up_terms, sys. cbn [ps_b]. rewrite lsum_map.
  assert (G : forall l s, (s <= k)%nat -> (k < s + length l)%nat -> rsum (fun e : nat * (nat * Q * Q) => rsum (fun e0 => if Nat.eqb (fst e0) k then snd e0 else 0)
     (combine (DenseModel.t_rows (DenseModel.mkTerm [fst e] (fst (fst (snd e))) [Q2R (1 / snd (snd e))%Q] [Q2R (- (nth (fst (fst (snd e))) p 0 - snd (fst (snd e))) / snd (snd e))%Q]))
        (DenseModel.t_b (DenseModel.mkTerm [fst e] (fst (fst (snd e))) [Q2R (1 / snd (snd e))%Q] [Q2R (- (nth (fst (fst (snd e))) p 0 - snd (fst (snd e))) / snd (snd e))%Q]))))
     (combine (seq s (length l)) l) = Q2R (nth (k - s) (concat (map (fun t => [(- (nth (fst (fst t)) p 0 - snd (fst t)) / snd t)%Q]) l)) 0%Q)).
  { assert (Z0 : forall (l : list (nat * Q * Q)) s, (k < s)%nat -> rsum (fun e : nat * (nat * Q * Q) => rsum (fun e0 => if Nat.eqb (fst e0) k then snd e0 else 0)
       (combine [fst e] [Q2R (- (nth (fst (fst (snd e))) p 0 - snd (fst (snd e))) / snd (snd e))%Q])) (combine (seq s (length l)) l) = 0).
    { intros l s H. apply lsum_zero. intros [j e] Hi. apply in_combine_l in Hi. apply in_seq in Hi. unfold DenseModel.lsum. cbn [combine fold_right fst snd].
      destruct (Nat.eqb_spec j k); [lia|lra]. }
    cbn [DenseModel.t_rows DenseModel.t_b]. induction l as [|[[c m] sg] l IH]; intros s H1 H2; [cbn in H2; lia|].
    cbn [length seq combine map concat app]. rewrite lsum_cons. unfold DenseModel.lsum at 1. cbn [combine fold_right fst snd].
    destruct (Nat.eqb_spec s k) as [->|NE].
    - rewrite Z0, Nat.sub_diag by lia. cbn [nth]. ring.
    - rewrite IH by (cbn [length] in H2; lia). replace (k - s)%nat with (S (k - S s)) by lia. cbn [nth]. ring. }
  rewrite (G tm 0%nat) by lia. rewrite Nat.sub_0_r. reflexivity.
Qed.

(** ** C117 *)
Lemma up_ok imgs ds : images_of imgs ds -> derivs_ok ds -> one_each ds ->
  DenseProps.images_ok (map up_image imgs) (up_derivs ds) /\ DenseProps.one_each (up_derivs ds).
Proof.
  intros (ND & HI) (D1 & D2) O. split.
  - split; [|split].
    + rewrite map_map. exact ND.
    + intros i Hi. apply in_map_iff in Hi. destruct Hi as (j & <- & Hj). apply HI in Hj. destruct Hj as (p & Hp). destruct (D1 p j Hp) as [_ W].
      unfold wf_image in W. cbn. lia.
    + intros l e Hl He. unfold up_derivs in Hl. apply in_map_iff in Hl. destruct Hl as (l0 & <- & Hl). apply in_map_iff in He. destruct He as ([p j] & <- & He). cbn [fst snd].
      assert (HC : In (p, j) (concat ds)) by (apply in_concat; exists l0; auto). split.
      * apply in_map. apply HI. exists p. exact HC.
      * destruct (D1 p j HC) as [W _]. unfold wf_patch in *. destruct p as [a b [c|]]; exact W.
  - intros l Hl. unfold up_derivs in Hl. apply in_map_iff in Hl. destruct Hl as (l0 & <- & Hl). rewrite map_map. apply O. exact Hl.
Qed.

Lemma sparse_normal sqrtq nm subs liq ds (t := PMulti nm subs liq) :
  wf t -> PriorProps.priors_ok t -> number_of_params t = length ds -> derivs_ok ds ->
  exists imgs, images_of imgs ds /\ ((total imgs <= 2147483648)%Z ->
    forall ox s d, prior_derivs t = Ok ox -> assemble sqrtq false None ds ox = Ok (Some s) -> solves s d ->
    length d = length ds /\ DenseProps.priors_ok (DenseProps.terms_of (up_prior ox)) /\
    (forall tt r, In tt (DenseProps.terms_of (up_prior ox)) -> In r (DenseModel.t_rows tt) -> (r < free_terms t)%nat) /\
    normal (length ds) (all_rows (map up_image imgs) (up_derivs ds) (DenseProps.terms_of (up_prior ox)) (free_terms t)) (map Q2R d)).
Proof.
  intros W O HN HD. destruct (C33_layout sqrtq nm subs liq ds W O HN HD) as (imgs & IMG & H). exists imgs. split; auto.
  intros TB ox s d EX EA [LD MIN]. destruct (H TB) as (ox' & o & EX' & EA' & HO). fold t in EX', EA', HO.
  rewrite EX in EX'. injection EX' as <-. rewrite EA in EA'. injection EA' as <-. destruct HO as (H1 & H2 & H3 & H4 & H5 & H6).
  assert (LD' : length d = length ds) by congruence. split; auto.
  pose proof (terms_count t W O) as TC. pose proof (terms_range t W O) as TR.
  assert (FT : Forall (fun tm => (fst (fst tm) < length ds)%nat) (terms t)).
  { rewrite <- HN. eapply Forall_impl; [|exact TR]. intros [[c m] sg] Q. destruct Q as [Q _]. exact Q. }
  assert (F : Forall wf_image imgs).
  { destruct HD as (D1 & _). apply Forall_forall. intros i Hi. apply IMG in Hi as (p & Hp). apply (D1 p i Hp). }
  pose proof (total_nonneg imgs F) as TN.
  assert (PR : DenseProps.terms_of (up_prior ox) = up_terms 0 (terms t) (get_params t) /\
     forall r, (r < free_terms t)%nat -> ox = Some (sys 0 (terms t) (get_params t))).
  { destruct (prior_derivs_spec t W O ltac:(discriminate)) as [E|[E N]]; rewrite EX in E; injection E as ->.
    - rewrite up_sys. split; auto.
    - rewrite N. split; [reflexivity|]. intros r Hr. rewrite <- TC, N in Hr. simpl in Hr. lia. }
  destruct PR as [P1 P2]. rewrite P1. split; [apply up_terms_ok|]. split; [intros tt r Ht Hr; rewrite <- TC; eapply up_terms_rows; eauto|].
  assert (OBJ : forall dd, Q2R (objective s dd) = ssq (length ds) (all_rows (map up_image imgs) (up_derivs ds) (up_terms 0 (terms t) (get_params t)) (free_terms t)) (map Q2R dd)).
  { intros dd. unfold ssq, all_rows. rewrite lsum_app, lsum_map.
    transitivity (Q2R (linear_chisq imgs ds dd + qsum (map (fun r => qsq (row_sum (ls_elems s) dd (total imgs + Z.of_nat r) - nth (Z.to_nat (total imgs) + r)%nat (ls_b s) 0)) (seq 0 (free_terms t))))%Q).
    { apply Qeq_eqR. unfold objective. rewrite H2.
      replace (Z.to_nat (total imgs + Z.of_nat (free_terms t))) with (Z.to_nat (total imgs) + free_terms t)%nat by lia.
      rewrite seq_app, map_app, qsum_app. apply Qplus_comp.
      - apply (pixel_rows_sum (fun k => qsq (row_sum (ls_elems s) dd (Z.of_nat k) - nth k (ls_b s) 0)%Q)
               (fun i yx => qsq (model_change ds i dd (snd yx) (fst yx) - px (im_chi i) (fst yx) (snd yx))%Q) imgs 0 F ltac:(lia)).
        intros k i y x Ek Hx Hy. cbn [fst snd]. destruct (H5 k i x y dd Ek Hx Hy) as (A & B).
        pose proof (offset_le imgs k F). rewrite Z.add_0_l. rewrite Z2Nat.id by nia. rewrite B. cbv zeta in A. rewrite A. reflexivity.
      - rewrite <- (Nat.add_0_r (0 + Z.to_nat (total imgs))), <- map_add_seq, map_map. apply qsum_ext.
        intros r Hr. replace (0 + Z.to_nat (total imgs) + r)%nat with (Z.to_nat (total imgs) + r)%nat by lia.
        replace (Z.of_nat (Z.to_nat (total imgs) + r)) with (total imgs + Z.of_nat r)%Z by lia. reflexivity. }
    rewrite Q2R_plus. f_equal.
    - unfold linear_chisq. rewrite Q2R_sum, lsum_flat, lsum_map. apply lsum_ext. intros i _. rewrite Q2R_sum. unfold pix_rows, grid.
      rewrite !lsum_flat. cbn [up_image DenseModel.im_h DenseModel.im_w]. apply lsum_ext. intros y _. rewrite !lsum_map. apply lsum_ext. intros x _. cbn [fst snd].
      unfold qsq, resid. rewrite Q2R_mult, Q2R_minus, up_change. cbn [fst snd up_image DenseModel.im_chi up_arr px]. ring.
    - rewrite Q2R_sum. apply lsum_ext. intros r Hr. apply in_seq in Hr. destruct (H6 r dd ltac:(lia)) as (x & Ex & A & B).
      assert (x = sys 0 (terms t) (get_params t)) by (pose proof (P2 r ltac:(lia)); congruence). subst x. unfold resid. cbn [fst snd].
      rewrite (up_row (length ds)), (up_rhs _ r) by (auto; lia). unfold qsq. rewrite Q2R_mult, Q2R_minus, B, (Qeq_eqR _ _ A). ring. }
  apply least_normal; auto. intros d' L'. rewrite <- !OBJ. apply Qle_Rle, MIN. congruence.
Qed.

Lemma prior_beyond ts k n z : (forall tt r, In tt ts -> In r (DenseModel.t_rows tt) -> (r < k)%nat) -> rpredict n (rprior ts k) z = 0.
Proof.
  intros H. unfold DenseProps.predict. apply lsum_zero. intros q _. replace (rprior ts k q) with 0; [ring|]. symmetry.
  unfold DenseProps.prior_at. apply lsum_zero. intros tt Ht. destruct (Nat.eqb _ _); auto. apply lsum_zero. intros [r v] Hr. cbn [fst snd].
  apply in_combine_l in Hr. specialize (H _ _ Ht Hr). destruct (Nat.eqb_spec r k); [lia|reflexivity].
Qed.
Lemma predict_minus n a x y : length x = length y -> rpredict n a (map (fun e => fst e - snd e) (combine x y)) = rpredict n a x - rpredict n a y.
Proof.
  intros L. unfold DenseProps.predict. rewrite (lsum_ext _ (fun q => a q * nth q x 0 + (-1) * (a q * nth q y 0))).
  - rewrite lsum_plus, lsum_scal. lra.
  - intros q _. replace (nth q (map (fun e => fst e - snd e) (combine x y)) 0) with (nth q x 0 - nth q y 0); [ring|].
    revert q y L. induction x as [|a0 x IH]; intros [|q] [|b y] L; try discriminate; cbn [nth combine map fst snd]; try lra; try (destruct q; lra).
    apply IH. simpl in L. lia.
Qed.
Lemma zero_diff : forall x y : list R, length x = length y -> (forall c, In c (map (fun e => fst e - snd e) (combine x y)) -> c = 0) -> x = y.
Proof.
  induction x as [|a x IH]; intros [|b y] L H; try discriminate; auto. cbn [combine map fst snd] in H. f_equal.
  - specialize (H _ (or_introl eq_refl)). lra.
  - apply IH; [simpl in L; lia|]. intros c Hc. apply H. right. exact Hc.
Qed.
Lemma agreement imgs ds ox np d x :
  (forall tt r, In tt (DenseProps.terms_of (up_prior ox)) -> In r (DenseModel.t_rows tt) -> (r < np)%nat) ->
  length d = length ds -> length x = length ds ->
  normal (length ds) (all_rows (map up_image imgs) (up_derivs ds) (DenseProps.terms_of (up_prior ox)) np) (map Q2R d) ->
  normal (length ds) (all_rows (map up_image imgs) (up_derivs ds) (DenseProps.terms_of (up_prior ox)) np) x ->
  agree imgs ds ox d x.
Proof.
  intros HR LD LX ND NX. pose proof (normal_same _ _ _ _ NX ND) as S.
  assert (PIX : forall i X Y, In i imgs -> (0 <= X < im_w i)%Z -> (0 <= Y < im_h i)%Z ->
     rpredict (length ds) (fun q => rderiv (up_derivs ds) q (up_image i) Y X) x = rpredict (length ds) (fun q => rderiv (up_derivs ds) q (up_image i) Y X) (map Q2R d)).
  { intros i X Y Hi HX HY. apply (S _ (in_rows (map up_image imgs) (up_derivs ds) (DenseProps.terms_of (up_prior ox)) np (up_image i) X Y (in_map _ _ _ Hi) HX HY)). }
  split.
  - intros i X Y Hi HX HY. rewrite up_change. apply PIX; auto.
  - intros IND. assert (L : length x = length (map Q2R d)) by (rewrite map_length; congruence). apply zero_diff; auto. apply IND.
    + rewrite map_length, combine_length, map_length. lia.
    + intros i X Y Hi HX HY. rewrite predict_minus, PIX by auto. ring.
    + intros k. destruct (Nat.lt_ge_cases k np) as [K|K].
      * rewrite predict_minus by auto. enough (rpredict (length ds) (rprior (DenseProps.terms_of (up_prior ox)) k) x = rpredict (length ds) (rprior (DenseProps.terms_of (up_prior ox)) k) (map Q2R d)) by lra.
        apply (S (rprior (DenseProps.terms_of (up_prior ox)) k, rprior_b (DenseProps.terms_of (up_prior ox)) k)). unfold all_rows. apply in_or_app. right. apply in_map_iff. exists k. split; auto. apply in_seq. lia.
      * apply prior_beyond. intros tt r Ht Hr. specialize (HR _ _ Ht Hr). lia.
Qed.

Notation rsmart := (DenseModel.smart_update 0 1 Rplus Rmult Rdiv).
Notation rdense := (DenseModel.dense_update 0 1 Rplus Rmult Rdiv).

(** The compact optimizer and the sparse one. *)
Theorem C117_compact : forall sqrtq nm subs liq ds sqrtf pos finite lstsq scale, let t := PMulti nm subs liq in
  wf t -> PriorProps.priors_ok t -> number_of_params t = length ds -> derivs_ok ds -> one_each ds ->
  DenseProps.least_squares 0 Rplus Rmult Rminus lstsq -> (forall v, pos (sqrtf v) = true -> sqrtf v <> 0) ->
  exists imgs, images_of imgs ds /\ ((total imgs <= 2147483648)%Z ->
    forall ox s d x, prior_derivs t = Ok ox -> assemble sqrtq false None ds ox = Ok (Some s) -> solves s d ->
    rsmart sqrtf pos finite lstsq false scale (up_derivs ds) (up_prior ox) = Ok (Some x) ->
    agree imgs ds ox d x).
Proof.
  intros sqrtq nm subs liq ds sqrtf pos finite lstsq scale t W O HN HD HO HL HS.
  destruct (sparse_normal sqrtq nm subs liq ds W O HN HD) as (imgs & IMG & H). exists imgs. split; auto. intros TB ox s d x EX EA SV ED.
  destruct (H TB ox s d EX EA SV) as (LD & PO & PR & ND). destruct (up_ok imgs ds IMG HD HO) as [IO OE].
  destruct (DenseProps.C36_compact 0 1 Rplus Rmult Rminus Ropp Rdiv Rinv sqrtf pos finite Rfield _ _ _ _ _ _ IO OE PO HL HS ED) as (LX & _ & NX).
  rewrite up_length in LX. apply (agreement imgs ds ox (free_terms t)); auto. rewrite <- (up_length ds) at 1. apply normal_rows; auto.
Qed.
(** The dense optimizer and the sparse one; [x] is empty if there is nothing to
    fit. *)
Theorem C117_dense : forall sqrtq nm subs liq ds sqrtf pos finite lstsq scale, let t := PMulti nm subs liq in
  wf t -> PriorProps.priors_ok t -> number_of_params t = length ds -> derivs_ok ds -> one_each ds ->
  DenseProps.least_squares 0 Rplus Rmult Rminus lstsq -> (forall v, pos v = true -> sqrtf v <> 0) -> sqrtf 1 = 1 ->
  exists imgs, images_of imgs ds /\ ((total imgs <= 2147483648)%Z ->
    forall ox s d x, prior_derivs t = Ok ox -> assemble sqrtq false None ds ox = Ok (Some s) -> solves s d ->
    rdense sqrtf pos finite lstsq false scale (up_derivs ds) (up_prior ox) = Ok (Some x) ->
    agree imgs ds ox d x).
Proof.
  intros sqrtq nm subs liq ds sqrtf pos finite lstsq scale t W O HN HD HO HL HS H1.
  destruct (sparse_normal sqrtq nm subs liq ds W O HN HD) as (imgs & IMG & H). exists imgs. split; auto. intros TB ox s d x EX EA SV ED.
  destruct (H TB ox s d EX EA SV) as (LD & PO & PR & ND). destruct (up_ok imgs ds IMG HD HO) as [IO OE].
  destruct (DenseProps.C36_dense 0 1 Rplus Rmult Rminus Ropp Rdiv Rinv sqrtf pos finite Rfield _ _ _ _ _ _ IO OE PO HL HS H1 ED) as [(LX & NX)|(-> & PN & EM)].
  - rewrite up_length in LX. apply (agreement imgs ds ox (free_terms t)); auto. rewrite <- (up_length ds) at 1. apply normal_rows; auto.
  - assert (NOPIX : forall i X Y, In i imgs -> (0 <= X < im_w i)%Z -> (0 <= Y < im_h i)%Z -> False).
    { intros i X Y Hi HX HY. destruct IMG as [_ HI]. apply HI in Hi. destruct Hi as (p & Hp). apply in_concat in Hp. destruct Hp as (l & Hl & Hp).
      specialize (EM (map (fun e => (up_patch (fst e), up_image (snd e))) l) (up_patch p, up_image i)).
      destruct EM as [EM|EM]; [apply in_map; auto|apply in_map_iff; exists (p, i); auto|cbn in EM; lia|cbn in EM; lia]. }
    split; [intros i X Y Hi HX HY; destruct (NOPIX i X Y Hi HX HY)|].
    intros IND. rewrite PN in *. destruct d as [|d0 d]; [reflexivity|]. exfalso.
    assert (1 = 0); [|lra]. apply (IND (repeat 1 (length ds)) (repeat_length _ _)).
    + intros i X Y Hi HX HY. destruct (NOPIX i X Y Hi HX HY).
    + intros k. rewrite PN. apply prior_beyond. intros tt r [].
    + rewrite <- LD. left. reflexivity.
Qed.
(** The two dense optimizers. *)
Theorem C117_dense_compact : forall imgs sqrtf pos finite lstsq lstsq' scale scale' (ds : list (list (patch R * DenseModel.image (V := R)))) pri x y,
  DenseProps.images_ok imgs ds -> DenseProps.one_each ds -> DenseProps.priors_ok (DenseProps.terms_of pri) ->
  DenseProps.least_squares 0 Rplus Rmult Rminus lstsq -> DenseProps.least_squares 0 Rplus Rmult Rminus lstsq' ->
  (forall v, pos (sqrtf v) = true -> sqrtf v <> 0) -> (forall v, pos v = true -> sqrtf v <> 0) -> sqrtf 1 = 1 ->
  rsmart sqrtf pos finite lstsq false scale ds pri = Ok (Some x) -> rdense sqrtf pos finite lstsq' false scale' ds pri = Ok (Some y) -> y <> [] ->
  forall i X Y, In i imgs -> (0 <= X < DenseModel.im_w i)%Z -> (0 <= Y < DenseModel.im_h i)%Z ->
    rpredict (length ds) (fun q => rderiv ds q i Y X) x = rpredict (length ds) (fun q => rderiv ds q i Y X) y.
Proof.
  intros imgs sqrtf pos finite lstsq lstsq' scale scale' ds pri x y IO OE PO HL HL' HS HS' H1 EX EY NE i X Y Hi HX HY.
  destruct (DenseProps.C36_compact 0 1 Rplus Rmult Rminus Ropp Rdiv Rinv sqrtf pos finite Rfield _ _ _ _ _ _ IO OE PO HL HS EX) as (_ & _ & NX).
  destruct (DenseProps.C36_dense 0 1 Rplus Rmult Rminus Ropp Rdiv Rinv sqrtf pos finite Rfield _ _ _ _ _ _ IO OE PO HL' HS' H1 EY) as [(_ & NY)|(-> & _)]; [|congruence].
  set (np := S (fold_right Nat.max 0%nat (flat_map (fun t => DenseModel.t_rows t) (DenseProps.terms_of pri)))).
  assert (HR : forall t r, In t (DenseProps.terms_of pri) -> In r (DenseModel.t_rows t) -> (r < np)%nat).
  { intros t r Ht Hr. assert (HI : In r (flat_map (fun t => DenseModel.t_rows t) (DenseProps.terms_of pri))) by (apply in_flat_map; eauto).
    unfold np. revert HI. generalize (flat_map (fun t => DenseModel.t_rows t) (DenseProps.terms_of pri)). induction l as [|a l IH]; intros []; cbn [fold_right]; [lia|].
    specialize (IH H). lia. }
  apply (normal_same _ _ _ _ (normal_rows _ _ _ _ _ HR NX) (normal_rows _ _ _ _ _ HR NY) _ (in_rows imgs ds (DenseProps.terms_of pri) np i X Y Hi HX HY)).
Qed.

(** ** A concrete case *)
(** One parameter that changes the two pixels of an image by 3 and 4 where chi
    is 6 and 8. *)
Definition ag_arr (a b : Q) : arr Q := mkArr 1 2 (fun _ x => if (x =? 0)%Z then a else b).
Definition ag_im : image := mkImage 0 1 2 (ag_arr 1 1) (ag_arr 6 8).
Definition ag_e : patch Q * image := (mkPatch 0 0 (Some (ag_arr 3 4)), ag_im).
Definition ag_group : tree := PMulti (mkNames [] []) [PList (mkPlist (mkNames [] []) [1%Q] [true] [None] [None] [None] None [])] [true].
Definition ag_solver (x : list R) (s : DenseModel.sys (V := R)) : option (list R) :=
  if (length x =? DenseModel.s_ncols s)%nat && forallb (fun c => if Req_EM_T
       (rsum (fun r => DenseModel.s_A s r c * (rsum (fun c' => DenseModel.s_A s r c' * nth c' x 0) (seq 0 (DenseModel.s_ncols s)) - DenseModel.s_B s r))
          (seq 0 (DenseModel.s_nrows s))) 0 then true else false) (seq 0 (DenseModel.s_ncols s))
  then Some x else None.
Lemma ag_least x : DenseProps.least_squares 0 Rplus Rmult Rminus (ag_solver x).
Proof.
  intros s y H. unfold ag_solver in H. destruct (_ && _) eqn:E; [|discriminate]. injection H as <-. apply andb_prop in E. destruct E as [E1 E2].
  split; [apply Nat.eqb_eq; auto|]. intros c Hc. rewrite forallb_forall in E2. specialize (E2 c ltac:(apply in_seq; lia)).
  destruct (Req_EM_T _ _) as [E|]; [exact E|discriminate].
Qed.
Lemma ag_answers x s : length x = DenseModel.s_ncols s -> (forall c, (c < DenseModel.s_ncols s)%nat ->
    rsum (fun r => DenseModel.s_A s r c * (rsum (fun c' => DenseModel.s_A s r c' * nth c' x 0) (seq 0 (DenseModel.s_ncols s)) - DenseModel.s_B s r))
      (seq 0 (DenseModel.s_nrows s)) = 0) -> ag_solver x s = Some x.
Proof.
  intros L H. unfold ag_solver. rewrite (proj2 (Nat.eqb_eq _ _) L). cbn [andb].
  match goal with |- (if ?b then _ else _) = _ => replace b with true; auto end. symmetry. apply forallb_forall. intros c Hc. apply in_seq in Hc.
  destruct (Req_EM_T _ _) as [|N]; auto. exfalso. apply N. apply H. lia.
Qed.
Definition ag_pos (v : R) : bool := if Req_EM_T v 0 then false else true.
Lemma ag_smart ds : ds = [[ag_e]] \/ ds = [[ag_e; ag_e]] -> exists s, DenseModel.smart_system 0 1 Rplus Rmult Rdiv (fun v => v) ag_pos false false (up_derivs ds) None = Ok (Some s) /\
  DenseModel.s_ncols s = 1%nat /\ DenseModel.s_nrows s = 2%nat /\ DenseModel.s_inv s = [0%nat] /\
  DenseModel.s_A s 0%nat 0%nat = 3 /\ DenseModel.s_A s 1%nat 0%nat = 4 /\ DenseModel.s_B s 0%nat = 6 /\ DenseModel.s_B s 1%nat = 8.
Proof.
  intros [->| ->]; eexists; (split; [lazy -[Rplus Rmult Rminus Rdiv Q2R IZR]; reflexivity|]); cbn [DenseModel.s_ncols DenseModel.s_nrows DenseModel.s_inv DenseModel.s_A DenseModel.s_B];
  (repeat split; try reflexivity; unfold Q2R; cbn [Qnum Qden]; lra).
Qed.
Lemma ag_dense ds : ds = [[ag_e]] \/ ds = [[ag_e; ag_e]] -> exists s, DenseModel.dense_system 0 1 Rplus Rmult Rdiv (fun v => v) ag_pos (fun _ => true) false false (up_derivs ds) None = Ok (Some s) /\
  DenseModel.s_ncols s = 1%nat /\ DenseModel.s_nrows s = 2%nat /\
  DenseModel.s_A s 0%nat 0%nat = 3 /\ DenseModel.s_A s 1%nat 0%nat = 4 /\ DenseModel.s_B s 0%nat = 6 /\ DenseModel.s_B s 1%nat = 8.
Proof.
  intros [->| ->]; eexists; (split; [lazy -[Rplus Rmult Rminus Rdiv Q2R IZR]; reflexivity|]); cbn [DenseModel.s_ncols DenseModel.s_nrows DenseModel.s_inv DenseModel.s_A DenseModel.s_B];
  (repeat split; try reflexivity; unfold Q2R; cbn [Qnum Qden]; lra).
Qed.
Lemma ag_fit s : DenseModel.s_ncols s = 1%nat -> DenseModel.s_nrows s = 2%nat ->
  DenseModel.s_A s 0%nat 0%nat = 3 -> DenseModel.s_A s 1%nat 0%nat = 4 -> DenseModel.s_B s 0%nat = 6 -> DenseModel.s_B s 1%nat = 8 -> ag_solver [2] s = Some [2].
Proof.
  intros N1 N2 A0 A1 B0 B1. apply ag_answers; rewrite ?N1; [reflexivity|]. intros c Hc. assert (c = 0)%nat as -> by lia. rewrite N2.
  cbn [seq]. rewrite !lsum_cons. cbn [nth]. rewrite A0, A1, B0, B1. unfold DenseModel.lsum. cbn [fold_right]. lra.
Qed.
Lemma ag_runs ds : ds = [[ag_e]] \/ ds = [[ag_e; ag_e]] ->
  rsmart (fun v => v) ag_pos (fun _ => true) (ag_solver [2]) false false (up_derivs ds) None = Ok (Some [2]) /\
  rdense (fun v => v) ag_pos (fun _ => true) (ag_solver [2]) false false (up_derivs ds) None = Ok (Some [2]).
Proof.
  intros H. destruct (ag_smart ds H) as (s & E & N1 & N2 & NI & A0 & A1 & B0 & B1). destruct (ag_dense ds H) as (s' & E' & N1' & N2' & A0' & A1' & B0' & B1').
  split.
  - unfold DenseModel.smart_update. rewrite E. cbn [bind]. rewrite (ag_fit s) by auto. unfold DenseModel.unscale. cbn [forallb andb]. rewrite NI.
    destruct H as [->| ->]; reflexivity.
  - unfold DenseModel.dense_update. rewrite E'. cbn [bind]. rewrite (ag_fit s') by auto. reflexivity.
Qed.
Lemma ag_least_zero s d : length d = ls_ncols s -> (objective s d == 0)%Q -> solves s d.
Proof.
  intros L H. split; auto. intros d' _. rewrite H. unfold objective. apply qsum_nonneg. apply Forall_forall. intros q Hq. apply in_map_iff in Hq. destruct Hq as (k & <- & _). apply sq_nonneg.
Qed.
Lemma ag_derivs ds : ds = [[ag_e]] \/ ds = [[ag_e; ag_e]] -> wf ag_group /\ PriorProps.priors_ok ag_group /\ number_of_params ag_group = length ds /\ derivs_ok ds /\ images_of [ag_im] ds.
Proof.
  intros H. assert (I : forall p i, In (p, i) (concat ds) -> (p, i) = ag_e) by (destruct H as [->| ->]; simpl; intros p i HI; intuition congruence).
  split; [simpl; unfold wf_plist; simpl; repeat split; auto; discriminate|].
  split; [simpl; repeat split; repeat constructor; simpl; try lia; intros H'; discriminate H'|].
  split; [destruct H as [->| ->]; reflexivity|].
  split; [split|split].
  - intros p i HI. apply I in HI. injection HI as -> ->. vm_compute. repeat split; discriminate.
  - intros p i q j H1 H2 _. apply I in H1. apply I in H2. congruence.
  - repeat constructor. simpl. tauto.
  - intros i. split.
    + intros [<-|[]]. exists (fst ag_e). destruct H as [->| ->]; simpl; auto.
    + intros (p & HI). apply I in HI. injection HI as -> ->. simpl. auto.
Qed.

(** All three find the step 2. *)
Example C117_ex : wf ag_group /\ PriorProps.priors_ok ag_group /\ number_of_params ag_group = length [[ag_e]] /\ derivs_ok [[ag_e]] /\ one_each [[ag_e]] /\
  images_of [ag_im] [[ag_e]] /\ DenseProps.least_squares 0 Rplus Rmult Rminus (ag_solver [2]) /\ (forall v, ag_pos v = true -> v <> 0) /\
  prior_derivs ag_group = Ok None /\ (exists s, assemble (fun v => v) false None [[ag_e]] None = Ok (Some s) /\ solves s [2%Q]) /\
  rsmart (fun v => v) ag_pos (fun _ => true) (ag_solver [2]) false false (up_derivs [[ag_e]]) (up_prior None) = Ok (Some [2]) /\
  rdense (fun v => v) ag_pos (fun _ => true) (ag_solver [2]) false false (up_derivs [[ag_e]]) (up_prior None) = Ok (Some [2]).
Proof.
  destruct (ag_derivs [[ag_e]] (or_introl eq_refl)) as (H1 & H2 & H3 & H4 & H5). destruct (ag_runs [[ag_e]] (or_introl eq_refl)) as [R1 R2].
  repeat (split; [assumption|]). split; [|split; [assumption|]].
  - intros l [<-|[]]. repeat constructor. simpl. tauto.
  - split; [apply ag_least|]. split; [intros v Hv E; unfold ag_pos in Hv; destruct (Req_EM_T v 0); [discriminate|auto]|].
    split; [vm_compute; reflexivity|]. split; [|split; assumption].
    eexists. split; [vm_compute; reflexivity|]. apply ag_least_zero; [reflexivity|vm_compute; reflexivity].
Qed.

(** One parameter with two derivatives for the same image, as when two sources
    share it: the sparse optimizer adds them and steps by 1, which fits both
    pixels; the other two use one of them and step by 2. *)
Theorem C117_repeated_refuted : let ds := [[ag_e; ag_e]] in
  wf ag_group /\ PriorProps.priors_ok ag_group /\ number_of_params ag_group = length ds /\ derivs_ok ds /\ images_of [ag_im] ds /\
  prior_derivs ag_group = Ok None /\ (exists s, assemble (fun v => v) false None ds None = Ok (Some s) /\ solves s [1%Q] /\ (objective s [1%Q] == 0)%Q /\ (objective s [2%Q] == 100)%Q) /\
  rsmart (fun v => v) ag_pos (fun _ => true) (ag_solver [2]) false false (up_derivs ds) (up_prior None) = Ok (Some [2]) /\
  rdense (fun v => v) ag_pos (fun _ => true) (ag_solver [2]) false false (up_derivs ds) (up_prior None) = Ok (Some [2]).
Proof.
  cbv zeta. destruct (ag_derivs [[ag_e; ag_e]] (or_intror eq_refl)) as (H1 & H2 & H3 & H4 & H5). destruct (ag_runs [[ag_e; ag_e]] (or_intror eq_refl)) as [R1 R2].
  repeat (split; [assumption|]). split; [vm_compute; reflexivity|]. split; [|split; assumption].
  eexists. split; [vm_compute; reflexivity|]. split; [apply ag_least_zero; [reflexivity|vm_compute; reflexivity]|]. split; vm_compute; reflexivity.
Qed.

Print Assumptions C117_compact.
Print Assumptions C117_dense.
Print Assumptions C117_dense_compact.
Print Assumptions C117_repeated_refuted.
