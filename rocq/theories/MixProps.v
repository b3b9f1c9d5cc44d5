(** C44: the algebra of mixtures of Gaussians. *)
From Coq Require Import List Reals Lra Lia Bool Arith Psatz.
From Verif Require Import Base MixModel.
Import ListNotations.
Open Scope R_scope.

(** *** Specification: moments of a mixture *)
Definition total (m : mog) : R := lsum (map c_amp (mg_comps m)).
Definition mean (m : mog) (i : nat) : R :=
  lsum (map (fun c => c_amp c * c_mean c i) (mg_comps m)) / total m.
Definition second (m : mog) (i j : nat) : R :=
  lsum (map (fun c => c_amp c * (c_var c i j + c_mean c i * c_mean c j)) (mg_comps m)) / total m.
Definition cov (m : mog) (i j : nat) : R := second m i j - mean m i * mean m j.
(** Symmetric and non-negative variances. *)
Definition symmetric (D : nat) (v : nat -> nat -> R) : Prop := forall i j, (i < D)%nat -> (j < D)%nat -> v i j = v j i.
Definition nonneg (D : nat) (v : nat -> nat -> R) : Prop :=
  forall x : nat -> R, 0 <= dsum D (fun i => dsum D (fun j => x i * v i j * x j)).
Definition good (m : mog) : Prop :=
  Forall (fun c => symmetric (mg_D m) (c_var c) /\ nonneg (mg_D m) (c_var c)) (mg_comps m).

(** *** Sums *)
Lemma lsum_app a b : lsum (a ++ b) = lsum a + lsum b.
Proof. unfold lsum. induction a; simpl; lra. Qed.
Lemma lsum_scale {A} k (f : A -> R) l : lsum (map (fun x => k * f x) l) = k * lsum (map f l).
Proof. unfold lsum. induction l; simpl; lra. Qed.
Lemma lsum_add {A} (f g : A -> R) l : lsum (map (fun x => f x + g x) l) = lsum (map f l) + lsum (map g l).
Proof. unfold lsum. induction l; simpl; lra. Qed.
Lemma lsum_ext {A} (f g : A -> R) l : (forall x, f x = g x) -> lsum (map f l) = lsum (map g l).
Proof. intros H. rewrite (map_ext _ _ H). reflexivity. Qed.
Lemma lsum_ext_in {A} (P : A -> Prop) (f g : A -> R) l : Forall P l -> (forall x, P x -> f x = g x) -> lsum (map f l) = lsum (map g l).
Proof. intros HF H. induction HF as [|x r Hx _ IH]; auto. unfold lsum in *. simpl. rewrite IH, H by auto. reflexivity. Qed.
Lemma lsum_flat {A B} (g : B -> R) (f : A -> list B) l :
  lsum (map g (flat_map f l)) = lsum (map (fun a => lsum (map g (f a))) l).
Proof. induction l; simpl; auto. rewrite map_app, lsum_app, IHl. reflexivity. Qed.
Lemma dsum_ext n f g : (forall k, (k < n)%nat -> f k = g k) -> dsum n f = dsum n g.
Proof. intros H. induction n; simpl; auto. rewrite IHn, H by auto. reflexivity. Qed.
Lemma dsum_scale n k f : dsum n (fun i => k * f i) = k * dsum n f.
Proof. induction n; simpl; [lra|rewrite IHn; lra]. Qed.
Lemma dsum_add n f g : dsum n (fun i => f i + g i) = dsum n f + dsum n g.
Proof. induction n; simpl; [lra|rewrite IHn; lra]. Qed.
Lemma dsum_zero n : dsum n (fun _ => 0) = 0.
Proof. induction n; simpl; lra. Qed.
Lemma dsum_swap n m f : dsum n (fun i => dsum m (fun j => f i j)) = dsum m (fun j => dsum n (fun i => f i j)).
Proof. induction n; simpl. - symmetry. apply dsum_zero. - rewrite IHn, <- dsum_add. reflexivity. Qed.

(** *** C44: convolution *)
Lemma conv_sum a b g h k :
  (forall s o, g (conv1 s o) = h s * k o) ->
  lsum (map g (flat_map (fun o => map (fun s => conv1 s o) a) b)) = lsum (map h a) * lsum (map k b).
Proof.
  intros H. rewrite lsum_flat. rewrite (lsum_ext _ (fun o => lsum (map h a) * k o)).
  - apply lsum_scale.
  - intros o. rewrite map_map. rewrite (lsum_ext _ (fun s => k o * h s)) by (intros; rewrite H; ring).
    rewrite lsum_scale. ring.
Qed.

Theorem C44_convolve : forall a b c, convolve a b = Ok c ->
  total c = total a * total b /\
  (total a <> 0 -> total b <> 0 -> forall i j,
     mean c i = mean a i + mean b i /\ cov c i j = cov a i j + cov b i j).
Proof.
  intros a b c H. unfold convolve in H. destruct (mg_D a =? mg_D b)%nat; [|discriminate]. injection H as <-.
  assert (HT : total (mkMog (mg_D a) (flat_map (fun o => map (fun s => conv1 s o) (mg_comps a)) (mg_comps b))) = total a * total b).
  { unfold total; cbn [mg_comps]. apply conv_sum. reflexivity. }
  split; [exact HT|]. intros HA HB i j. unfold cov, second, mean. rewrite HT. cbn [mg_comps].
  set (A := mg_comps a) in *. set (B := mg_comps b) in *.
  assert (M : forall i, lsum (map (fun c => c_amp c * c_mean c i) (flat_map (fun o => map (fun s => conv1 s o) A) B)) =
      lsum (map (fun c => c_amp c * c_mean c i) A) * total b + total a * lsum (map (fun c => c_amp c * c_mean c i) B)).
  { intros k. rewrite (lsum_ext _ (fun c => c_amp c * c_mean c k + 0)) by (intros; ring).
    rewrite lsum_flat.
    rewrite (lsum_ext _ (fun o => lsum (map (fun s => c_amp s * c_mean s k) A) * c_amp o + total a * (c_amp o * c_mean o k))).
    - rewrite lsum_add, !lsum_scale. reflexivity.
    - intros o. rewrite map_map. unfold conv1; cbn [c_amp c_mean].
      rewrite (lsum_ext _ (fun s => c_amp o * (c_amp s * c_mean s k) + (c_amp o * c_mean o k) * c_amp s)) by (intros; ring).
      rewrite lsum_add, !lsum_scale. unfold total. fold A. ring. }
  assert (S2 : lsum (map (fun c => c_amp c * (c_var c i j + c_mean c i * c_mean c j)) (flat_map (fun o => map (fun s => conv1 s o) A) B)) =
      lsum (map (fun c => c_amp c * (c_var c i j + c_mean c i * c_mean c j)) A) * total b
      + total a * lsum (map (fun c => c_amp c * (c_var c i j + c_mean c i * c_mean c j)) B)
      + lsum (map (fun c => c_amp c * c_mean c i) A) * lsum (map (fun c => c_amp c * c_mean c j) B)
      + lsum (map (fun c => c_amp c * c_mean c j) A) * lsum (map (fun c => c_amp c * c_mean c i) B)).
  { rewrite lsum_flat.
    rewrite (lsum_ext _ (fun o => lsum (map (fun c => c_amp c * (c_var c i j + c_mean c i * c_mean c j)) A) * c_amp o
       + total a * (c_amp o * (c_var o i j + c_mean o i * c_mean o j))
       + lsum (map (fun c => c_amp c * c_mean c i) A) * (c_amp o * c_mean o j)
       + lsum (map (fun c => c_amp c * c_mean c j) A) * (c_amp o * c_mean o i))).
    - rewrite !lsum_add, !lsum_scale. reflexivity.
    - intros o. rewrite map_map. unfold conv1; cbn [c_amp c_mean c_var].
      rewrite (lsum_ext _ (fun s => c_amp o * (c_amp s * (c_var s i j + c_mean s i * c_mean s j))
          + (c_amp o * (c_var o i j + c_mean o i * c_mean o j)) * c_amp s
          + (c_amp o * c_mean o j) * (c_amp s * c_mean s i)
          + (c_amp o * c_mean o i) * (c_amp s * c_mean s j))) by (intros; ring).
      rewrite !lsum_add, !lsum_scale. unfold total. fold A. ring. }
  rewrite !M, S2. split; field; auto.
Qed.

Lemma dsum_quad_add D u v x : dsum D (fun i => dsum D (fun j => x i * (u i j + v i j) * x j)) =
  dsum D (fun i => dsum D (fun j => x i * u i j * x j)) + dsum D (fun i => dsum D (fun j => x i * v i j * x j)).
Proof.
  rewrite <- dsum_add. apply dsum_ext. intros i _. rewrite <- dsum_add. apply dsum_ext. intros. ring.
Qed.

Theorem C44_convolve_good : forall a b c, convolve a b = Ok c -> good a -> good b -> good c.
Proof.
  intros a b c H GA GB. unfold convolve in H. destruct (Nat.eqb_spec (mg_D a) (mg_D b)) as [E|]; [|discriminate]. injection H as <-.
  unfold good in *; cbn [mg_D mg_comps]. rewrite <- E in GB. rewrite Forall_forall in *. intros x HX.
  apply in_flat_map in HX. destruct HX as (o & HO & HX). apply in_map_iff in HX. destruct HX as (s & <- & HS).
  destruct (GA s HS) as [SA NA]. destruct (GB o HO) as [SB NB]. unfold conv1; cbn [c_var]. split.
  - intros i j Hi Hj. rewrite (SA i j), (SB i j) by auto. reflexivity.
  - intros y. rewrite dsum_quad_add. specialize (NA y). specialize (NB y). lra.
Qed.

(** *** C44: linear maps *)
Lemma quad_sandwich D s v x :
  dsum D (fun i => dsum D (fun j => x i * sandwich D s v i j * x j)) =
  dsum D (fun k => dsum D (fun l => dsum D (fun i => x i * s i k) * v k l * dsum D (fun j => x j * s j l))).
Proof.
  unfold sandwich.
  transitivity (dsum D (fun i => dsum D (fun j => dsum D (fun l => dsum D (fun k => x i * s i k * v k l * (x j * s j l)))))).
  { apply dsum_ext; intros i _. apply dsum_ext; intros j _.
    replace (x i * dsum D (fun l => dsum D (fun k => s i k * v k l) * s j l) * x j)
      with ((x i * x j) * dsum D (fun l => dsum D (fun k => s i k * v k l) * s j l)) by ring.
    rewrite <- dsum_scale. apply dsum_ext; intros l _.
    replace (x i * x j * (dsum D (fun k => s i k * v k l) * s j l)) with ((x i * (x j * s j l)) * dsum D (fun k => s i k * v k l)) by ring.
    rewrite <- dsum_scale. apply dsum_ext; intros k _. ring. }
  transitivity (dsum D (fun i => dsum D (fun k => dsum D (fun l => dsum D (fun j => x i * s i k * v k l * (x j * s j l)))))).
  { apply dsum_ext; intros i _. rewrite dsum_swap.
    transitivity (dsum D (fun l => dsum D (fun k => dsum D (fun j => x i * s i k * v k l * (x j * s j l))))).
    - apply dsum_ext; intros l _. apply dsum_swap.
    - apply dsum_swap. }
  rewrite dsum_swap. apply dsum_ext; intros k _. rewrite dsum_swap. apply dsum_ext; intros l _.
  transitivity (dsum D (fun i => (x i * s i k * v k l) * dsum D (fun j => x j * s j l))).
  - apply dsum_ext; intros i _. rewrite <- dsum_scale. reflexivity.
  - set (Q := dsum D (fun j => x j * s j l)).
    transitivity (dsum D (fun i => (v k l * Q) * (x i * s i k))).
    + apply dsum_ext; intros. ring.
    + rewrite dsum_scale. ring.
Qed.

Lemma sandwich_sym D s v : symmetric D v -> symmetric D (sandwich D s v).
Proof.
  intros H i j _ _. unfold sandwich.
  transitivity (dsum D (fun l => dsum D (fun k => s i k * v k l * s j l))).
  { apply dsum_ext; intros l _. rewrite Rmult_comm, <- dsum_scale. apply dsum_ext; intros. ring. }
  rewrite dsum_swap. apply dsum_ext; intros l Hl. rewrite Rmult_comm, <- dsum_scale. apply dsum_ext; intros k Hk.
  rewrite (H l k) by auto. ring.
Qed.

Theorem C44_linear_good : forall m s, good m -> good (apply_shear m s) /\ forall t, good (apply_affine m t s).
Proof.
  assert (G : forall D s v, symmetric D v /\ nonneg D v -> symmetric D (sandwich D s v) /\ nonneg D (sandwich D s v)).
  { intros D s v [HS HN]. split; [apply sandwich_sym; auto|]. intros x. rewrite quad_sandwich. apply HN. }
  intros m s H. unfold good, apply_shear, apply_affine in *; cbn [mg_D mg_comps] in *. split; [|intros t].
  - rewrite Forall_map. eapply Forall_impl; [|exact H]. cbn [c_var]. intros c HC. apply G; auto.
  - rewrite Forall_map. eapply Forall_impl; [|exact H]. cbn [c_var]. intros c HC. apply G; auto.
Qed.

(** Component by component: amplitudes kept, means moved by the shift,
    variances mapped. *)
Theorem C44_linear : forall m t s k c, nth_error (mg_comps m) k = Some c ->
  exists c1 c2, nth_error (mg_comps (apply_affine m t s)) k = Some c1 /\
    nth_error (mg_comps (apply_shear m s)) k = Some c2 /\
    c_amp c1 = c_amp c /\ c_amp c2 = c_amp c /\
    (forall i, c_mean c1 i = c_mean c i + t i) /\ (forall i, c_mean c2 i = c_mean c i) /\
    (forall i j, c_var c1 i j = dsum (mg_D m) (fun k => dsum (mg_D m) (fun l => s i k * c_var c k l * s j l))) /\
    (forall i j, c_var c2 i j = c_var c1 i j).
Proof.
  intros m t s k c H. unfold apply_affine, apply_shear; cbn [mg_comps]. rewrite !nth_error_map, H. cbn.
  eexists; eexists. repeat split; try reflexivity. cbn. intros i j. unfold sandwich.
  rewrite (dsum_swap (mg_D m) (mg_D m) (fun k l => s i k * c_var c k l * s j l)). apply dsum_ext; intros l _.
  rewrite Rmult_comm, <- dsum_scale. apply dsum_ext; intros. ring.
Qed.

(** The affine image x -> s x + t of a mixture: its mean and covariance.
    apply_affine gives them when all component means are zero (as for the
    galaxy profiles)... *)
Theorem C44_affine_moments : forall m t s, total m <> 0 ->
  Forall (fun c => forall i, c_mean c i = 0) (mg_comps m) ->
  total (apply_affine m t s) = total m /\
  forall i j, mean (apply_affine m t s) i = dsum (mg_D m) (fun k => s i k * mean m k) + t i /\
    cov (apply_affine m t s) i j = dsum (mg_D m) (fun k => dsum (mg_D m) (fun l => s i k * cov m k l * s j l)).
Proof.
  intros m t s HT HZ.
  assert (T : total (apply_affine m t s) = total m).
  { unfold total, apply_affine; cbn [mg_comps]. rewrite map_map. reflexivity. }
  split; [exact T|]. intros i j.
  assert (Z : forall k, lsum (map (fun c => c_amp c * c_mean c k) (mg_comps m)) = 0).
  { intros k. unfold lsum. induction HZ as [|c r Hc _ IH]; simpl; auto. rewrite IH, Hc. ring. }
  assert (M0 : forall k, mean m k = 0) by (intros k; unfold mean; rewrite Z; unfold Rdiv; ring).
  assert (M : forall k, mean (apply_affine m t s) k = t k).
  { intros k. unfold mean. rewrite T. unfold apply_affine; cbn [mg_comps]. rewrite map_map. cbn [c_amp c_mean].
    rewrite (lsum_ext _ (fun c => c_amp c * c_mean c k + t k * c_amp c)) by (intros; ring).
    rewrite lsum_add, lsum_scale, Z. fold (total m). field. auto. }
  split.
  - rewrite M. rewrite (dsum_ext _ _ (fun _ => 0)) by (intros; rewrite M0; ring). rewrite dsum_zero. ring.
  - unfold cov. rewrite !M. unfold second at 1. rewrite T. unfold apply_affine; cbn [mg_comps]. rewrite map_map. cbn [c_amp c_mean c_var].
    assert (SM : forall k l, second m k l = lsum (map (fun c => c_amp c * c_var c k l) (mg_comps m)) / total m).
    { intros k l. unfold second. apply (f_equal (fun q => q / total m)). eapply lsum_ext_in; [exact HZ|]. intros c Hc. cbv beta in Hc. rewrite !Hc. ring. }
    assert (E : lsum (map (fun c => c_amp c * (sandwich (mg_D m) s (c_var c) i j + (c_mean c i + t i) * (c_mean c j + t j))) (mg_comps m))
       = lsum (map (fun c => c_amp c * sandwich (mg_D m) s (c_var c) i j) (mg_comps m)) + t i * t j * total m).
    { unfold total. rewrite <- lsum_scale, <- lsum_add. eapply lsum_ext_in; [exact HZ|]. intros c Hc. cbv beta in Hc. rewrite !Hc. ring. }
    rewrite E.
    assert (E2 : lsum (map (fun c => c_amp c * sandwich (mg_D m) s (c_var c) i j) (mg_comps m)) =
      dsum (mg_D m) (fun k => dsum (mg_D m) (fun l => s i k * lsum (map (fun c => c_amp c * c_var c k l) (mg_comps m)) * s j l))).
    { generalize (mg_comps m) as L. intros L. generalize (mg_D m) as D. intros D. induction L as [|c r IH]; simpl.
      - symmetry. rewrite (dsum_ext _ _ (fun _ => 0)); [apply dsum_zero|]. intros k _. rewrite (dsum_ext _ _ (fun _ => 0)); [apply dsum_zero|]. intros; unfold lsum; simpl; ring.
      - change (lsum (c_amp c * sandwich D s (c_var c) i j :: map (fun c => c_amp c * sandwich D s (c_var c) i j) r))
          with (c_amp c * sandwich D s (c_var c) i j + lsum (map (fun c => c_amp c * sandwich D s (c_var c) i j) r)).
        rewrite IH. unfold sandwich.
        rewrite <- dsum_scale.
        transitivity (dsum D (fun l => dsum D (fun k => s i k * (c_amp c * c_var c k l) * s j l)) + dsum D (fun l => dsum D (fun k => s i k * lsum (map (fun c => c_amp c * c_var c k l) r) * s j l))).
        + f_equal; [|apply dsum_swap]. apply dsum_ext; intros l _.
          replace (c_amp c * (dsum D (fun k => s i k * c_var c k l) * s j l)) with ((c_amp c * s j l) * dsum D (fun k => s i k * c_var c k l)) by ring.
          rewrite <- dsum_scale. apply dsum_ext; intros; ring.
        + rewrite <- dsum_add. symmetry.
          etransitivity; [apply (dsum_swap D D)|]. apply dsum_ext; intros l _. rewrite <- dsum_add. apply dsum_ext; intros k _. unfold lsum; simpl. ring. }
    rewrite E2.
    transitivity (dsum (mg_D m) (fun k => dsum (mg_D m) (fun l => s i k * lsum (map (fun c => c_amp c * c_var c k l) (mg_comps m)) * s j l)) / total m).
    { field. auto. }
    unfold Rdiv. rewrite Rmult_comm, <- dsum_scale. apply dsum_ext; intros k _. rewrite <- dsum_scale. apply dsum_ext; intros l _.
    rewrite SM, !M0. unfold Rdiv. ring.
Qed.

Lemma diag_good x : 0 <= x -> symmetric 2 (diag_var x) /\ nonneg 2 (diag_var x).
Proof.
  intros Hx. unfold symmetric, nonneg, diag_var. split.
  - intros i j _ _. rewrite Nat.eqb_sym. reflexivity.
  - intros y. simpl. pose proof (Rle_0_sqr (y 0%nat)). pose proof (Rle_0_sqr (y 1%nat)). unfold Rsqr in *. nra.
Qed.
(** ...but not in general: a single component at (1, 0), doubled in size,
    stays at (1, 0) instead of moving to (2, 0). *)
Theorem C44_affine_means_refuted : exists m s, total m = 1 /\ good m /\
  dsum (mg_D m) (fun k => s 0%nat k * mean m k) = 2 /\ mean (apply_affine m (fun _ => 0) s) 0%nat = 1 /\
  mean (apply_shear m s) 0%nat = 1.
Proof.
  exists (mkMog 2 [mkComp 1 (fun i => if (i =? 0)%nat then 1 else 0) (diag_var 1)]), (diag_var 2).
  unfold total, mean, good, apply_affine, apply_shear, lsum; simpl.
  split; [lra|]. split; [|unfold total, lsum, diag_var; simpl; repeat split; field; lra].
  constructor; [|constructor]. apply (diag_good 1). lra.
Qed.

(** *** C44: sums *)
Theorem C44_add : forall a b s, mog_add a b = Ok s -> total a + total b <> 0 ->
  total s = 1 /\
  (forall i, mean s i = (lsum (map (fun c => c_amp c * c_mean c i) (mg_comps a)) + lsum (map (fun c => c_amp c * c_mean c i) (mg_comps b))) / (total a + total b)) /\
  (good a -> good b -> good s).
Proof.
  intros a b s H HT. unfold mog_add, extend in H. destruct (Nat.eqb_spec (mg_D a) (mg_D b)) as [E|]; [|discriminate].
  cbn [bind] in H. injection H as <-. unfold normalize, amps; cbn [mg_D mg_comps].
  assert (HA : lsum (map c_amp (mg_comps a ++ mg_comps b)) = total a + total b) by (rewrite map_app, lsum_app; reflexivity).
  rewrite HA. set (T := total a + total b) in *.
  assert (HS : total (mkMog (mg_D a) (map (fun c => mkComp (c_amp c / T) (c_mean c) (c_var c)) (mg_comps a ++ mg_comps b))) = 1).
  { unfold total at 1; cbn [mg_comps]. rewrite map_map; cbn [c_amp].
    rewrite (lsum_ext _ (fun c => / T * c_amp c)) by (intros; unfold Rdiv; ring). rewrite lsum_scale, HA. field. auto. }
  split; [exact HS|]. split.
  - intros i. unfold mean. rewrite HS. cbn [mg_comps]. rewrite map_map. cbn [c_amp c_mean].
    rewrite (lsum_ext _ (fun c => / T * (c_amp c * c_mean c i))) by (intros; unfold Rdiv; ring).
    rewrite lsum_scale, map_app, lsum_app. field. auto.
  - intros GA GB. unfold good in *; cbn [mg_D mg_comps]. rewrite Forall_map. cbn [c_var]. apply Forall_app. split; auto. rewrite E. auto.
Qed.
Theorem C44_dimensions_checked : forall a b, mg_D a <> mg_D b ->
  convolve a b = Err AssertionError /\ mog_add a b = Err AssertionError /\ extend a b = Err AssertionError.
Proof.
  intros a b N. unfold mog_add, convolve, extend. destruct (Nat.eqb_spec (mg_D a) (mg_D b)); [contradiction|]. auto.
Qed.

(** *** C44: the constructor makes variances symmetric *)
Lemma sym_inner_spec i n v a b : (n <= i)%nat ->
  sym_inner i n v a b =
  if ((a =? i) && (b <? n))%nat then 0.5 * (v i b + v b i)
  else if ((b =? i) && (a <? n))%nat then 0.5 * (v i a + v a i) else v a b.
Proof.
  revert a b. induction n as [|n IH]; intros a b H.
  - simpl. rewrite !(proj2 (Nat.ltb_ge _ 0)) by lia. rewrite !andb_false_r. reflexivity.
  - cbn [sym_inner]. cbv zeta. unfold set2. rewrite !IH by lia. rewrite !Nat.eqb_refl.
    repeat match goal with |- context [(?x <? ?y)%nat] => destruct (Nat.ltb_spec x y) end;
    repeat match goal with |- context [(?x =? ?y)%nat] => destruct (Nat.eqb_spec x y) end; cbn [andb]; subst; try lia; try lra.
Qed.
Lemma sym_outer_spec n v a b :
  sym_outer n v a b = if ((a <? n) && (b <? n) && negb (a =? b))%nat then 0.5 * (v a b + v b a) else v a b.
Proof.
  revert a b. induction n as [|n IH]; intros a b.
  - reflexivity.
  - cbn [sym_outer]. rewrite sym_inner_spec by lia. rewrite !IH.
    repeat match goal with |- context [(?x <? ?y)%nat] => destruct (Nat.ltb_spec x y) end;
    repeat match goal with |- context [(?x =? ?y)%nat] => destruct (Nat.eqb_spec x y) end; cbn [andb negb]; subst; try lia; try lra.
Qed.
Theorem C44_init_symmetric : forall D cs k c, nth_error cs k = Some c ->
  exists c', nth_error (mg_comps (mog_init D cs)) k = Some c' /\ symmetric D (c_var c') /\
    c_amp c' = c_amp c /\ (forall i, c_mean c' i = c_mean c i) /\ (forall i, c_var c' i i = c_var c i i) /\
    (symmetric D (c_var c) -> forall i j, c_var c' i j = c_var c i j) /\
    (nonneg D (c_var c) -> nonneg D (c_var c')).
Proof.
  intros D cs k c H. unfold mog_init; cbn [mg_comps]. rewrite nth_error_map, H. cbn.
  eexists. split; [reflexivity|]. cbn [c_var c_amp c_mean].
  assert (SS : symmetric D (sym_outer D (c_var c))).
  { intros i j Hi Hj. rewrite !sym_outer_spec.
    repeat match goal with |- context [(?x <? ?y)%nat] => destruct (Nat.ltb_spec x y) end;
    repeat match goal with |- context [(?x =? ?y)%nat] => destruct (Nat.eqb_spec x y) end; cbn [andb negb]; subst; try lia; try lra. }
  repeat split; auto.
  - intros i. rewrite sym_outer_spec, Nat.eqb_refl, andb_false_r. reflexivity.
  - intros HS i j. rewrite sym_outer_spec. destruct (Nat.ltb_spec i D), (Nat.ltb_spec j D); cbn [andb]; auto.
    destruct (Nat.eqb_spec i j); cbn [negb]; auto. rewrite (HS j i) by auto. lra.
  - intros HN x.
    assert (E : dsum D (fun i => dsum D (fun j => x i * sym_outer D (c_var c) i j * x j)) =
                0.5 * dsum D (fun i => dsum D (fun j => x i * c_var c i j * x j)) + 0.5 * dsum D (fun i => dsum D (fun j => x i * c_var c j i * x j))).
    { rewrite <- !dsum_scale, <- dsum_add. apply dsum_ext; intros i Hi. rewrite <- !dsum_scale, <- dsum_add. apply dsum_ext; intros j Hj.
      rewrite sym_outer_spec. destruct (Nat.ltb_spec i D), (Nat.ltb_spec j D); try lia. cbn [andb].
      destruct (Nat.eqb_spec i j); cbn [negb]; subst; lra. }
    assert (E2 : dsum D (fun i => dsum D (fun j => x i * c_var c j i * x j)) = dsum D (fun i => dsum D (fun j => x i * c_var c i j * x j))).
    { rewrite dsum_swap. apply dsum_ext; intros i _. apply dsum_ext; intros j _. ring. }
    rewrite E, E2. specialize (HN x). lra.
Qed.

(** *** C44: the Fourier transform turns convolution into products *)
Lemma cplx_eq (a b : cplx) : fst a = fst b -> snd a = snd b -> a = b.
Proof. destruct a, b; simpl; congruence. Qed.
(** One component without the special case for a zero mean. *)
Definition ft_gen (v w : R) (c : comp) : cplx :=
  cscale (c_amp c) (cscale (exp (- 2 * (PI * PI) * (c_var c 0%nat 0%nat * (v * v) + c_var c 1%nat 1%nat * (w * w)
                                   + 2 * c_var c 0%nat 1%nat * v * w)))
     (phase (2 * PI * (c_mean c 0%nat * v + c_mean c 1%nat * w)))).
Lemma ft_comp_gen v w c : ft_comp v w c = ft_gen v w c.
Proof.
  unfold ft_comp, ft_gen. destruct (Req_EM_T (c_mean c 0%nat) 0) as [E0|]; [destruct (Req_EM_T (c_mean c 1%nat) 0) as [E1|]|]; auto.
  rewrite E0, E1. f_equal. unfold cscale, phase. replace (2 * PI * (0 * v + 0 * w)) with 0 by ring.
  rewrite cos_0, sin_0. apply cplx_eq; simpl; ring.
Qed.
Definition csum (l : list cplx) : cplx := fold_right cadd (0, 0) l.
Lemma csum_app a b : csum (a ++ b) = cadd (csum a) (csum b).
Proof. induction a as [|x a IH]; simpl; [|rewrite IH]; apply cplx_eq; simpl; ring. Qed.
(** The transform is the sum over components. *)
Lemma fourier_csum m v w : mg_comps m <> [] -> fourier m v w = Some (csum (map (ft_gen v w) (mg_comps m))).
Proof.
  intros H. unfold fourier. destruct (mg_comps m) as [|c r]; [congruence|]. f_equal. cbn [map csum fold_right]. rewrite ft_comp_gen.
  clear H. generalize (ft_gen v w c) as z. induction r as [|d r IH]; intros z; simpl.
  - apply cplx_eq; simpl; ring.
  - rewrite IH, ft_comp_gen. unfold csum. simpl. fold (csum (map (ft_gen v w) r)). apply cplx_eq; simpl; ring.
Qed.
Lemma ft_conv1 v w s o : ft_gen v w (conv1 s o) = cmul (ft_gen v w s) (ft_gen v w o).
Proof.
  unfold ft_gen, conv1, cscale, phase, cmul; cbn [c_amp c_mean c_var fst snd].
  set (P := PI * PI). set (T1 := 2 * PI * (c_mean s 0%nat * v + c_mean s 1%nat * w)). set (T2 := 2 * PI * (c_mean o 0%nat * v + c_mean o 1%nat * w)).
  replace (2 * PI * ((c_mean s 0%nat + c_mean o 0%nat) * v + (c_mean s 1%nat + c_mean o 1%nat) * w)) with (T1 + T2) by (unfold T1, T2; ring).
  rewrite cos_plus, sin_plus.
  match goal with |- (c_amp s * c_amp o * (exp ?x * _), _) = (c_amp s * (exp ?y * _) * (c_amp o * (exp ?z * _)) - _, _) =>
    replace x with (y + z) by ring end.
  rewrite exp_plus. f_equal; ring.
Qed.
Theorem C44_fourier_convolution : forall a b c, convolve a b = Ok c -> forall v w,
  fourier c v w = match fourier a v w, fourier b v w with Some x, Some y => Some (cmul x y) | _, _ => None end.
Proof.
  intros a b c H v w. unfold convolve in H. destruct (mg_D a =? mg_D b)%nat; [|discriminate]. injection H as <-.
  set (A := mg_comps a). set (B := mg_comps b).
  assert (HN : forall m, mg_comps m = [] -> fourier m v w = None) by (intros m E; unfold fourier; rewrite E; reflexivity).
  destruct A as [|ca ra] eqn:EA.
  { rewrite (HN a) by (unfold A in EA; auto). apply HN. cbn [mg_comps]. clear. induction B; simpl; auto. }
  destruct B as [|cb rb] eqn:EB.
  { rewrite (HN b) by (unfold B in EB; auto). rewrite HN by reflexivity. destruct (fourier a v w); auto. }
  rewrite <- EA, <- EB. rewrite !fourier_csum; [|unfold B in EB; congruence|unfold A in EA; congruence|cbn; rewrite EB, EA; discriminate].
  f_equal. cbn [mg_comps]. fold A B. clear EA EB. induction B as [|o r IH]; simpl.
  - apply cplx_eq; simpl; ring.
  - rewrite map_app, csum_app. unfold csum in IH |- *. rewrite IH. fold (csum (map (ft_gen v w) (map (fun s => conv1 s o) A))).
    assert (E : csum (map (ft_gen v w) (map (fun s => conv1 s o) A)) = cmul (csum (map (ft_gen v w) A)) (ft_gen v w o)).
    { clear. induction A as [|s r IH]; simpl; [apply cplx_eq; simpl; ring|]. rewrite ft_conv1. fold (csum (map (ft_gen v w) (map (fun s => conv1 s o) r))) .
      fold (csum (map (ft_gen v w) r)). rewrite IH. apply cplx_eq; simpl; ring. }
    rewrite E. fold (csum (map (ft_gen v w) A)). apply cplx_eq; simpl; ring.
Qed.
(** At zero frequency the transform is the total flux. *)
Theorem C44_fourier_total : forall m, mg_comps m <> [] -> fourier m 0 0 = Some (total m, 0).
Proof.
  intros m H. rewrite fourier_csum by auto. f_equal. unfold total. clear H. induction (mg_comps m) as [|c r IH]; simpl; auto.
  rewrite IH. unfold ft_gen, cscale, phase, cadd; simpl.
  match goal with |- context [exp ?x] => replace x with 0 by ring end.
  match goal with |- context [cos ?x] => replace x with 0 by ring end. rewrite exp_0, cos_0, sin_0. apply cplx_eq; simpl; unfold lsum; ring.
Qed.
(** A linear map of the mixture is the transposed map of frequencies (zero
    means, symmetric variances, two dimensions). *)
Theorem C44_fourier_shear : forall m s v w, mg_D m = 2%nat ->
  Forall (fun c => symmetric 2 (c_var c) /\ forall i, c_mean c i = 0) (mg_comps m) ->
  fourier (apply_shear m s) v w =
  fourier m (s 0%nat 0%nat * v + s 1%nat 0%nat * w) (s 0%nat 1%nat * v + s 1%nat 1%nat * w).
Proof.
  intros m s v w HD HF. destruct (mg_comps m) as [|c0 r0] eqn:EC.
  { unfold fourier, apply_shear; cbn. rewrite EC. reflexivity. }
  rewrite !fourier_csum; [|rewrite EC; discriminate|unfold apply_shear; cbn; rewrite EC; discriminate].
  f_equal. unfold apply_shear; cbn [mg_comps]. rewrite EC, HD. clear EC. induction HF as [|c r [HS HZ] _ IH]; [reflexivity|].
  change (csum (map ?f (map ?g (c :: r)))) with (cadd (f (g c)) (csum (map f (map g r)))).
  change (csum (map ?f (c :: r))) with (cadd (f c) (csum (map f r))). cbn [map csum fold_right] in *. fold csum in *.
  f_equal; [|exact IH]. unfold ft_gen; cbn [c_amp c_var c_mean]. rewrite !HZ.
  f_equal. f_equal; [|f_equal; ring]. f_equal. unfold sandwich; simpl.
  rewrite (HS 1%nat 0%nat) by lia. ring.
Qed.
(** The C routine computes the same transform for zero means. *)
Theorem C44_fourier_c : forall m v w, mg_comps m <> [] ->
  Forall (fun c => forall i, c_mean c i = 0) (mg_comps m) ->
  fourier m v w = Some (fourier_zero_mean m v w, 0).
Proof.
  intros m v w HN HZ. rewrite fourier_csum by auto. f_equal. clear HN.
  assert (G : forall l acc, Forall (fun c => forall i, c_mean c i = 0) l ->
    cadd (acc, 0) (csum (map (ft_gen v w) l)) = (fold_left (fun sum c =>
    let a := c_var c 0%nat 0%nat in let b := c_var c 0%nat 1%nat in let d := c_var c 1%nat 1%nat in
    if Req_EM_T a 0 then
      if Req_EM_T b 0 then
        if Req_EM_T d 0 then sum + c_amp c
        else sum + c_amp c * exp (- 2 * PI * PI * (a * (v * v) + 2 * b * v * w + d * (w * w)))
      else sum + c_amp c * exp (- 2 * PI * PI * (a * (v * v) + 2 * b * v * w + d * (w * w)))
    else sum + c_amp c * exp (- 2 * PI * PI * (a * (v * v) + 2 * b * v * w + d * (w * w)))) l acc, 0)).
  { intros l. induction l as [|c r IH]; intros acc HF; [apply cplx_eq; simpl; ring|].
    inversion HF as [|c' r' HC HR]; subst. cbn [fold_left]. rewrite <- IH by auto. clear IH. cbn [map csum fold_right].
    fold (csum (map (ft_gen v w) r)). unfold ft_gen at 1. rewrite !HC.
    replace (2 * PI * (0 * v + 0 * w)) with 0 by ring. unfold phase. rewrite cos_0, sin_0. cbv zeta.
    match goal with |- context [exp ?x] => set (X := x) end.
    match goal with |- _ = cadd (?e, 0) _ => assert (EE : e = acc + c_amp c * exp X) end.
    { destruct (Req_EM_T (c_var c 0%nat 0%nat) 0) as [Ea|]; [destruct (Req_EM_T (c_var c 0%nat 1%nat) 0) as [Eb|]; [destruct (Req_EM_T (c_var c 1%nat 1%nat) 0) as [Ed|]|]|];
      unfold X; try (do 3 f_equal; ring). rewrite Ea, Eb, Ed.
      match goal with |- context [exp ?x] => replace x with 0 by ring end. rewrite exp_0. ring. }
    rewrite EE. apply cplx_eq; simpl; ring. }
  specialize (G (mg_comps m) 0 HZ). etransitivity; [|exact G]. apply cplx_eq; simpl; ring.
Qed.

Definition ex_a : mog := mkMog 2 [mkComp 1 (fun _ => 0) (diag_var 1); mkComp 3 (fun i => if (i =? 0)%nat then 1 else 0) (diag_var 2)].
Definition ex_b : mog := mkMog 2 [mkComp (1 / 2) (fun _ => 1) (diag_var 4)].
Example C44_ex : good ex_a /\ good ex_b /\ exists c, convolve ex_a ex_b = Ok c /\ total c = 2 /\ mean c 0%nat = 7 / 4.
Proof.
  unfold good, ex_a, ex_b; simpl. split; [repeat (apply Forall_cons; [apply diag_good; lra|]); apply Forall_nil|]. split; [repeat (apply Forall_cons; [apply diag_good; lra|]); apply Forall_nil|].
  eexists. split; [reflexivity|]. unfold total, mean, lsum; simpl. split; [field|unfold total, lsum; simpl; field].
Qed.

Print Assumptions C44_convolve.
Print Assumptions C44_convolve_good.
Print Assumptions C44_linear_good.
Print Assumptions C44_linear.
Print Assumptions C44_affine_moments.
Print Assumptions C44_affine_means_refuted.
Print Assumptions C44_add.
Print Assumptions C44_dimensions_checked.
Print Assumptions C44_init_symmetric.
Print Assumptions C44_fourier_convolution.
Print Assumptions C44_fourier_total.
Print Assumptions C44_fourier_shear.
Print Assumptions C44_fourier_c.
