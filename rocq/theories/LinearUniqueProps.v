(** C124, one solution: the fit of a linear model ends at the solution of the
    least-squares system, and only there is the log-probability largest. *)
From Coq Require Import String List ZArith QArith Qabs Bool Lia Lqa Permutation.
From Verif Require Import Base Ext ParamsModel ParamsSpec ParamsProofs ParamsProps PatchModel PatchSpec PriorModel PriorProps LsqModel LsqSpec LsqProps.
From Verif Require Import EngineModel OptimModel OptimProps MaskedProps OrderProps UnitsProps FreezeProps LinearProps.
Import ListNotations.
Open Scope Q_scope.

Lemma step_len : forall p d : list Q, length d = length p -> length (step_by p d) = length p.
Proof. unfold step_by. induction p as [|y p IH]; intros [|x d] L; cbn in *; try discriminate; auto. Qed.
Lemma step_diff : forall p q X : list Q, length q = length p -> Forall2 Qeq (diff q p) X -> Forall2 Qeq q (step_by p X).
Proof.
  unfold diff, step_by. induction p as [|y p IH]; intros [|z q] X L F; cbn in *; try discriminate; [inversion F; subst; constructor|].
  inversion F as [|? x ? X' E F']; subst. cbn. constructor; [rewrite <- E; ring|]. apply IH; auto.
Qed.
Lemma eq_lists_sym (a b c : list Q) : Forall2 Qeq a c -> Forall2 Qeq b c -> Forall2 Qeq a b.
Proof.
  intros F. revert b. induction F as [|x z a c E F IH]; intros b F'; inversion F' as [|y ? b' ? E' F1]; subst; constructor; auto. rewrite E, E'. reflexivity.
Qed.

(** If the system has one solution X only, the parameters at the end are those at the
    start moved by X, and all parameters with as large a log-probability are the same. *)
Theorem C124_unique : forall sqrtf nm subs liq os M ns dir l r dchisq steps,
  let t := PMulti nm subs liq in let p := get_params t in let ds := on_images os (M p) ns in
  wf t -> priors_ok t -> number_of_params t = length ns -> (forall p n, In (p, n) (concat ns) -> (n < length os)%nat) -> derivs_ok ds ->
  linear_models os M ns p -> rising 0 l -> (1 <= steps)%nat -> eleb (Fin 0) dchisq = true ->
  (forall q X, length q = length p -> dir q = Some X -> X = [] \/ length X = length q) ->
  exists imgs, images_of imgs ds /\ ((total imgs <= 2147483648)%Z ->
    forall ox s X, prior_derivs t = Ok ox -> assemble sqrtf false None ds ox = Ok (Some s) ->
    solves s X -> (forall Y, solves s Y -> Forall2 Qeq Y X) -> dir p = Some X ->
    exists p' n gains, optimize_loop Qplus Qmult (lnp t os M) dir (l ++ 1 :: r) dchisq steps p = Ok (p', n, gains) /\ (n <= 1)%nat /\
      Forall2 Qeq p' (step_by p X) /\
      forall q, length q = length p -> eltb (lnp t os M q) (lnp t os M p') = false -> Forall2 Qeq q p').
Proof.
  intros sqrtf nm subs liq os M ns dir l r dchisq steps t p ds W O N HN D LM R Hs Hd HD.
  assert (Lp : length p = length ns) by (unfold p; rewrite <- number_get; auto).
  destruct (C124_fit sqrtf nm subs liq os M ns dir l r dchisq steps W O N HN D LM R Hs Hd HD) as (imgs & IM & HF). exists imgs. split; [exact IM|].
  intros TB ox s X EX ES SO UN DX. destruct (HF TB ox s X EX ES SO DX) as (p' & n & gains & EO & Ln & L' & FN & MAX). fold t p in EO, L', FN, MAX. clear HF.
  assert (PT : forall im2, images_of im2 ds -> (total im2 <= 2147483648)%Z).
  { intros im2 IM2. rewrite (total_perm im2 imgs); auto. eapply images_perm; [exact IM2|exact IM|]. apply Permutation_refl. }
  destruct (C124_objective sqrtf nm subs liq os M ns W O N HN D LM) as (im3 & IM3 & H). destruct (H (PT im3 IM3) ox s EX ES) as (v0 & E0 & HQ). fold t p in E0, HQ. clear H.
  assert (NC : ls_ncols s = length p).
  { destruct (C33_layout sqrtf nm subs liq ds W O) as (im2 & IM2 & K2); [fold t; unfold ds, on_images; rewrite map_length; auto|auto|].
    destruct K2 as (o2 & r2 & A2 & B2 & K2); [apply PT; auto|].
    fold t in A2. rewrite EX in A2. injection A2 as <-. rewrite ES in B2. injection B2 as <-. destruct K2 as (K2 & _). rewrite K2, Lp. unfold ds, on_images. apply map_length. }
  assert (TOP : forall q, length q = length p -> (forall q', length q' = length p -> eltb (lnp t os M q) (lnp t os M q') = false) -> Forall2 Qeq q (step_by p X)).
  { intros q Lq TQ. apply step_diff; auto. apply UN. assert (DL : length (diff q p) = length p) by (rewrite diff_len; auto). split; [congruence|].
    intros d' Ld. rewrite DL in Ld. assert (LS := step_len p d' Ld). specialize (TQ _ LS).
    destruct (HQ q Lq) as (v & E & V). destruct (HQ _ LS) as (v' & E' & V'). rewrite E, E' in TQ. cbn in TQ. apply qltb_ge in TQ.
    rewrite (objective_same s _ _ (diff_step p d' Ld)) in V'. lra. }
  assert (PX := TOP p' L' MAX).
  exists p', n, gains. split; [exact EO|]. split; [exact Ln|]. split; [exact PX|].
  intros q Lq TQ. apply (eq_lists_sym q p' (step_by p X)); auto. apply TOP; auto.
  intros q' Lq'. specialize (MAX q' Lq'). destruct (HQ q Lq) as (v & E & V). destruct (HQ p' L') as (w & E' & V'). destruct (HQ q' Lq') as (u & E2 & _).
  rewrite E, E', E2 in *. cbn in *. apply qltb_ge. apply qltb_ge in TQ, MAX. lra.
Qed.

(** The case of LinearProps has one solution: three weighted pixels and a prior. *)
Section Case.
Let nn := mkNames [] [].
Let t := PMulti nn [PFixed; PList (mkPlist nn [10; 20] [true; true] [None; None] [None; None] [None; None] None [mkPrior "flux" 0 11 1])] [true; true].
Let row (a b : Q) : arr Q := mkArr 1 2 (fun _ x => if (x =? 0)%Z then a else b).
Let os : list (obs Q) := [mkObs (row 11 33) (row 1 2); mkObs (row 5 5) (row 1 1)].
Let M (q : list Q) : list (arr Q) := [row (nth 0 q 0) (nth 0 q 0 + nth 1 q 0); row 4 4].
Let ns : list (list (patch Q * nat)) := [[(mkPatch 0 0 (Some (row 1 1)), 0%nat)]; [(mkPatch 0 0 (Some (row 0 1)), 0%nat)]].
Let ds := on_images os (M [10; 20]) ns.
Example case_one : exists ox s, prior_derivs t = Ok ox /\ assemble (fun q => q) false None ds ox = Ok (Some s) /\ solves s [1; 2] /\
  forall Y, solves s Y -> Forall2 Qeq Y [1; 2].
Proof.
  do 2 eexists. do 2 (split; [vm_compute; reflexivity|]). split; [apply zero_solves; vm_compute; reflexivity|].
  intros Y (L & H). destruct Y as [|a [|b [|]]]; try discriminate. specialize (H [1; 2] eq_refl).
  match type of H with _ <= ?x => assert (Z0 : x == 0) by (vm_compute; reflexivity) end. rewrite Z0 in H. clear Z0.
  unfold objective in H. cbn -[Qplus Qmult Qminus Qle] in H. unfold qsq, row_sum, qsum in H. cbn -[Qplus Qmult Qminus Qle] in H.
  assert (S2 : forall z : Q, 0 <= z * z) by (intros; apply sq_nonneg).
  change (seq 0 (Pos.to_nat 3)) with [0; 1; 2]%nat in H. cbn -[Qplus Qmult Qminus Qle] in H.
  assert (HA : (a - 1) * (a - 1) == 0) by (pose proof (S2 (a - 1)); pose proof (S2 (2 * a + 2 * b - 6)); lra).
  assert (HB : (2 * a + 2 * b - 6) * (2 * a + 2 * b - 6) == 0) by (pose proof (S2 (a - 1)); pose proof (S2 (2 * a + 2 * b - 6)); lra).
  apply Qmult_integral in HA, HB. assert (EA : a == 1) by (destruct HA; lra). assert (EB : b == 2) by (destruct HB; lra). repeat constructor; auto.
Qed.
End Case.

Print Assumptions C124_unique.
