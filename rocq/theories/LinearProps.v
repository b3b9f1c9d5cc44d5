(** C124: for models that are linear in the free parameters the least-squares system
    is the log-probability, and one step is enough. *)
From Coq Require Import String List ZArith QArith Qabs Bool Lia Lqa Permutation.
From Verif Require Import Base Ext ParamsModel ParamsSpec ParamsProofs ParamsProps PatchModel PatchSpec PriorModel PriorProps LsqModel LsqSpec LsqProps.
From Verif Require EngineProps.
From Verif Require Import EngineModel OptimModel OptimProps MaskedProps OrderProps UnitsProps FreezeProps.
Import ListNotations.
Open Scope Q_scope.

(** ** What is claimed *)
(** getLogProb after setParams(q): the log-prior of the parameters and the
    log-likelihood of the models. *)
Definition lnp (t : tree) (os : list (obs Q)) (M : list Q -> list (arr Q)) (q : list Q) : ext :=
  match bind (set_params t q) log_prior with
  | Ok L => logprob_ext (Fin L) (map lift_obs os) (map lift (M q))
  | Err _ => NaN
  end.
Definition diff (q p : list Q) : list Q := map (fun e => fst e - snd e) (combine q p).
(** The sum of the derivatives (patch, number of its image) in image n, times d. *)
Definition lin_change (ns : list (list (patch Q * nat))) (n : nat) (d : list Q) (X Y : Z) : Q :=
  qsum (map (fun c => nth c d 0 * qsum (map (fun e => if (snd e =? n)%nat then img_at 0 (fst e) X Y else 0) (nth c ns []))) (seq 0 (length ns))).
(** The models are linear in the free parameters and [ns] are their derivatives. *)
Definition linear_models (os : list (obs Q)) (M : list Q -> list (arr Q)) (ns : list (list (patch Q * nat))) (p : list Q) : Prop :=
  forall q, length q = length p -> length (M q) = length os /\
    forall n Y X, (n < length os)%nat -> let o := o_data (nth n os (mkObs no_arr no_arr)) in (0 <= Y < ah o)%Z -> (0 <= X < aw o)%Z ->
    px (nth n (M q) no_arr) Y X == px (nth n (M p) no_arr) Y X + lin_change ns n (diff q p) X Y.

(** ** The log-likelihood *)
Lemma qsum_concat {A B} (f : B -> Q) (g : A -> list B) l : qsum (map f (flat_map g l)) == qsum (map (fun x => qsum (map f (g x))) l).
Proof. induction l as [|x l IH]; cbn [flat_map map]; [reflexivity|]. rewrite map_app, qsum_app, IH. reflexivity. Qed.
Lemma esum_seq f n : EngineProps.qsum f n == qsum (map f (seq 0 n)).
Proof.
  induction n as [|n IH]; [reflexivity|]. rewrite seq_S, map_app, qsum_app. cbn [Nat.add]. rewrite <- IH. unfold EngineProps.qsum. cbn. ring.
Qed.
Lemma grid_sum (f : Z -> Z -> Q) h w :
  EngineProps.qsum (fun y => EngineProps.qsum (fun x => f (Z.of_nat y) (Z.of_nat x)) (Z.to_nat w)) (Z.to_nat h) ==
  qsum (map (fun yx => f (fst yx) (snd yx)) (grid h w)).
Proof.
  unfold grid. rewrite qsum_concat, esum_seq. apply qsum_ext. intros y _. rewrite esum_seq, map_map. reflexivity.
Qed.
Lemma grid_in h w y x : In (y, x) (grid h w) -> (0 <= y < h)%Z /\ (0 <= x < w)%Z.
Proof.
  unfold grid. rewrite in_flat_map. intros (a & A & B). apply in_map_iff in B as (b & E & B). injection E as <- <-.
  apply in_seq in A, B. lia.
Qed.
Lemma sum_nth {A} (f : A -> Q) (x : A) l : qsum (map f l) == qsum (map (fun n => f (nth n l x)) (seq 0 (length l))).
Proof.
  induction l as [|a l IH]; [reflexivity|]. cbn [length seq map]. rewrite <- seq_shift, map_map. unfold qsum in *. cbn [fold_right nth]. rewrite IH. reflexivity.
Qed.
Lemma lin_image os ms ns n d X Y :
  model_change (on_images os ms ns) (to_image os ms n) d X Y == lin_change ns n d X Y * px (o_ie (nth n os (mkObs no_arr no_arr))) Y X.
Proof.
  rewrite change_nth. unfold on_images. rewrite map_length. unfold lin_change. rewrite Qmult_comm, qsum_scal. apply qsum_ext. intros c _.
  assert (NT : forall (g : list (patch Q * nat) -> list (patch Q * image)), g [] = [] -> nth c (map g ns) [] = g (nth c ns [])).
  { intros g G. rewrite <- G at 1. apply map_nth. }
  rewrite NT by reflexivity. clear NT. rewrite Qmult_assoc, (Qmult_comm _ (nth c d 0)), <- Qmult_assoc. apply Qmult_comp; [reflexivity|].
  rewrite qsum_scal. unfold col. rewrite map_map. apply qsum_ext. intros [p j] _. cbn. destruct (j =? n)%nat; ring.
Qed.
Lemma lik_linear os ms ms' ns d : length ms' = length os ->
  (forall n Y X, (n < length os)%nat -> let o := o_data (nth n os (mkObs no_arr no_arr)) in (0 <= Y < ah o)%Z -> (0 <= X < aw o)%Z ->
    px (nth n ms' no_arr) Y X == px (nth n ms no_arr) Y X + lin_change ns n d X Y) ->
  exists q, loglik (map lift_obs os) (map lift ms') = Fin q /\
    q == - (1 # 2) * linear_chisq (map (to_image os ms) (seq 0 (length os))) (on_images os ms ns) d.
Proof.
  intros L H. destruct (lik_value (combine os ms')) as (q & E & V). exists q.
  assert (E1 : map fst (combine os ms') = os /\ map snd (combine os ms') = ms').
  { clear - L. revert ms' L. induction os as [|o os IH]; intros [|m ms] L; cbn in *; try discriminate; auto. destruct (IH ms ltac:(lia)) as (A & B). rewrite A, B. auto. }
  destruct E1 as (E1 & E2). rewrite E1, E2 in E. split; [exact E|]. rewrite V. apply Qmult_comp; [reflexivity|]. clear E V.
  change (fold_right Qplus 0 (map ?f ?l)) with (qsum (map f l)).
  rewrite (sum_nth _ (mkObs no_arr no_arr, no_arr)). unfold linear_chisq. rewrite map_map.
  rewrite combine_length, L, Nat.min_id. apply qsum_ext. intros n I. apply in_seq in I. rewrite combine_nth by auto. cbn [fst snd].
  rewrite (grid_sum (fun Y X => qsq ((px (o_data (nth n os (mkObs no_arr no_arr))) Y X - px (nth n ms' no_arr) Y X) * px (o_ie (nth n os (mkObs no_arr no_arr))) Y X))).
  apply qsum_ext. intros [Y X] J. apply grid_in in J as (J1 & J2). cbn [fst snd]. rewrite lin_image, (H n Y X) by (auto; lia). cbn [to_image im_chi px]. unfold qsq. ring.
Qed.
(** Images without derivatives do not change. *)
Lemma all_images os ms ns imgs : (forall p n, In (p, n) (concat ns) -> (n < length os)%nat) -> images_of imgs (on_images os ms ns) ->
  exists C, forall d, linear_chisq (map (to_image os ms) (seq 0 (length os))) (on_images os ms ns) d == linear_chisq imgs (on_images os ms ns) d + C.
Proof.
  intros HN (N & I). set (all := map (to_image os ms) (seq 0 (length os))). set (ds := on_images os ms ns).
  set (f := fun i : image => existsb (fun j => (im_id j =? im_id i)%nat) imgs).
  assert (SUB : forall i, In i imgs -> In i all /\ i = to_image os ms (im_id i)).
  { intros i K. apply I in K as (p & K). unfold on_images in K. rewrite <- concat_map in K. apply in_map_iff in K as ([p' n] & E & K). cbn in E. injection E as _ <-.
    split; [|reflexivity]. apply in_map, in_seq. specialize (HN _ _ K). lia. }
  assert (AID : forall i, In i all -> i = to_image os ms (im_id i)) by (intros i K; apply in_map_iff in K as (n & <- & _); reflexivity).
  assert (NA : NoDup all).
  { apply (NoDup_map_inv im_id). unfold all. rewrite map_map. cbn. rewrite map_id. apply seq_NoDup. }
  exists (linear_chisq (filter (fun i => negb (f i)) all) ds []). intros d.
  assert (PR : Permutation all (imgs ++ filter (fun i => negb (f i)) all)).
  { eapply Permutation_trans; [apply (split_filter f)|]. apply Permutation_app_tail. apply NoDup_Permutation.
    - apply NoDup_filter. exact NA.
    - eapply NoDup_map_inv; eauto.
    - intros i. rewrite filter_In. unfold f. rewrite existsb_exists. split.
      + intros (J & j & K & E). apply Nat.eqb_eq in E. rewrite (AID i J), <- E. destruct (SUB j K) as (_ & <-). exact K.
      + intros K. split; [apply SUB; auto|]. exists i. rewrite Nat.eqb_refl. auto. }
  unfold linear_chisq at 1. rewrite (qsum_perm _ _ (Permutation_map _ PR)).
  change (linear_chisq (imgs ++ filter (fun i => negb (f i)) all) ds d == linear_chisq imgs ds d + linear_chisq (filter (fun i => negb (f i)) all) ds []).
  rewrite linear_app. apply Qplus_comp; [reflexivity|]. unfold linear_chisq. apply qsum_ext. intros i J. apply qsum_ext. intros yx _.
  apply filter_In in J as (J & E). assert (Z0 : forall e X Y, model_change ds i e X Y == 0); [|rewrite !Z0; reflexivity]. intros e X Y.
  rewrite change_nth, (qsum_ext _ (fun _ : nat => 0)).
  - unfold qsum. generalize (seq 0 (length ds)). intros r. induction r as [|c r IH]; cbn [map fold_right]; [reflexivity|]. rewrite IH. reflexivity.
  - intros c C. apply in_seq in C. assert (CZ : col i X Y (nth c ds []) == 0); [|rewrite CZ; ring].
    unfold col. assert (SB : forall e, In e (nth c ds []) -> im_id (snd e) <> im_id i).
    { intros [p j] K Q. assert (K' : In j imgs). { apply I. exists p. apply in_concat. exists (nth c ds []). split; auto. apply nth_In. apply C. }
      apply negb_true_iff in E. unfold f in E. assert (T : existsb (fun j => (im_id j =? im_id i)%nat) imgs = true) by (apply existsb_exists; exists j; split; auto; apply Nat.eqb_eq; auto).
      congruence. }
    induction (nth c ds []) as [|x r IH]; [reflexivity|]. unfold qsum in *. cbn [map fold_right]. rewrite IH by (intros; apply SB; right; auto).
    destruct (Nat.eqb_spec (im_id (snd x)) (im_id i)) as [Q|Q]; [|reflexivity]. elim (SB x (or_introl eq_refl) Q).
Qed.
Lemma step_diff : forall q p : list Q, length q = length p -> Forall2 Qeq (step_by p (diff q p)) q.
Proof.
  unfold step_by, diff. induction q as [|x q IH]; intros [|y p] L; cbn in L; try discriminate; [constructor|]. cbn. constructor; [ring|]. apply IH. lia.
Qed.
Lemma diff_len q p : length q = length p -> length (diff q p) = length p.
Proof. intros L. unfold diff. rewrite map_length, combine_length. lia. Qed.
Lemma chi_same ts p q : Forall2 Qeq p q -> chi_terms ts p == chi_terms ts q.
Proof.
  intros F. unfold chi_terms. apply qsum_ext. intros [[c m] s] _. cbn. assert (N : nth c p 0 == nth c q 0); [|rewrite N; reflexivity].
  revert c. induction F; intros [|c]; cbn; auto; reflexivity.
Qed.
Lemma change_zero ns n X Y k : lin_change ns n (repeat 0 k) X Y == 0.
Proof.
  unfold lin_change. rewrite (qsum_ext _ (fun _ : nat => 0)).
  - unfold qsum. generalize (seq 0 (length ns)). intros r. induction r as [|c r IH]; cbn [map fold_right]; [reflexivity|]. rewrite IH. reflexivity.
  - intros c _. assert (E : nth c (repeat 0 k) 0 = 0) by (clear; revert c; induction k; intros [|c]; cbn; auto). rewrite E. ring.
Qed.
(** The log-probability of all parameters q is finite, and minus twice what it
    differs from that at the present ones is the change of the objective for the
    step to q. *)
Theorem C124_objective : forall sqrtf nm subs liq os M ns,
  let t := PMulti nm subs liq in let p := get_params t in let ds := on_images os (M p) ns in
  wf t -> priors_ok t -> number_of_params t = length ns -> (forall p n, In (p, n) (concat ns) -> (n < length os)%nat) -> derivs_ok ds ->
  linear_models os M ns p ->
  exists imgs, images_of imgs ds /\ ((total imgs <= 2147483648)%Z ->
    forall ox s, prior_derivs t = Ok ox -> assemble sqrtf false None ds ox = Ok (Some s) ->
    exists v0, lnp t os M p = Fin v0 /\ forall q, length q = length p ->
      exists v, lnp t os M q = Fin v /\ -(2) * (v - v0) == objective s (diff q p) - objective s (repeat 0 (length ns))).
Proof.
  intros sqrtf nm subs liq os M ns t p ds W O N HN D LM.
  assert (LD : length ds = length ns) by apply map_length. assert (Lp : length p = length ns) by (unfold p; rewrite <- number_get; auto).
  destruct (C33_objective sqrtf nm subs liq ds W O ltac:(fold t; congruence) D) as (imgs & IM & H). exists imgs. split; [exact IM|]. intros TB ox s EX ES.
  specialize (H TB ox s EX ES). cbv zeta in H. rewrite LD in H.
  destruct (all_images os (M p) ns imgs HN IM) as (C & HC). fold ds in HC.
  destruct (log_prior_set t W O ltac:(discriminate)) as (K & HK).
  destruct (HK p t ltac:(congruence) (C03_write_back_identity t W ltac:(discriminate))) as (q1 & X1 & Y1). fold p in Y1.
  destruct (LM p eq_refl) as (LMp & _).
  destruct (lik_linear os (M p) (M p) ns (repeat 0 (length ns)) LMp) as (l0 & E0 & V0).
  { intros n Y X _ o _ _. rewrite change_zero. ring. }
  exists (q1 + l0). split.
  { unfold lnp. unfold p at 1. rewrite (C03_write_back_identity t W) by discriminate. cbn [bind]. rewrite X1. unfold logprob_ext. rewrite E0. reflexivity. }
  intros q Lq. destruct (LM q Lq) as (Lm & HQ). destruct (lik_linear os (M p) (M q) ns (diff q p) Lm HQ) as (l1 & E1 & V1).
  destruct (C02_set_params_writes_exactly_thawed 0 t q W ltac:(discriminate)) as (tq & Eq & _); [congruence|].
  destruct (HK q tq ltac:(congruence) Eq) as (q2 & X2 & Y2).
  exists (q2 + l1). split.
  { unfold lnp. rewrite Eq. cbn [bind]. rewrite X2. unfold logprob_ext. rewrite E1. reflexivity. }
  pose proof (step_diff q p Lq) as SD. pose proof (F2_len _ _ _ SD) as SL.
  destruct (C02_set_params_writes_exactly_thawed 0 t (step_by p (diff q p)) W ltac:(discriminate)) as (t1 & Et & _); [congruence|].
  destruct (H (diff q p) t1 ltac:(rewrite diff_len by auto; congruence) Et) as (La & Lb & HLa & HLb & OB).
  destruct (HK (step_by p (diff q p)) t1 ltac:(congruence) Et) as (q3 & X3 & Y3). fold t in HLa.
  assert (La = q1) by congruence. assert (Lb = q3) by congruence. subst.
  rewrite (chi_same _ _ _ SD) in Y3. fold ds in V0, V1. rewrite HC in V0, V1. rewrite OB, Y1, Y2, Y3, V0, V1. ring.
Qed.

(** ** The line search *)
Definition scaled (a : Q) (X : list Q) : list Q := map (Qmult a) X.
Lemma move_step a : forall p X, length X = length p -> move Qplus Qmult a p X = step_by p (scaled a X).
Proof. unfold step_by, scaled. induction p as [|y p IH]; intros [|x X] L; cbn in L; try discriminate; auto. cbn. rewrite IH by lia. reflexivity. Qed.
Lemma row_scaled es a X r : row_sum es (scaled a X) r == a * row_sum es X r.
Proof.
  unfold row_sum. rewrite qsum_scal. apply qsum_ext. intros [[k c] v] _. cbn [fst snd].
  assert (E : nth c (scaled a X) 0 == a * nth c X 0).
  { unfold scaled. revert c. induction X as [|x X IH]; intros [|c]; cbn [map nth]; try ring. apply IH. }
  destruct (_ =? _)%Z; [|ring]. rewrite E. ring.
Qed.
Lemma objective_scaled s a X : objective s (scaled a X) ==
  qsum (map (fun k => qsq (a * row_sum (ls_elems s) X (Z.of_nat k) - nth k (ls_b s) 0)) (seq 0 (Z.to_nat (ls_nrows s)))).
Proof. unfold objective. apply qsum_ext. intros k _. rewrite row_scaled. reflexivity. Qed.
Lemma qsum_le {A} (f g : A -> Q) l : (forall x, f x <= g x) -> qsum (map f l) <= qsum (map g l).
Proof. intros H. unfold qsum. induction l as [|x l IH]; cbn [map fold_right]; [lra|]. specialize (H x). lra. Qed.
Lemma line_down s X x y : x <= y -> y <= 1 -> objective s (scaled 1 X) <= objective s (scaled x X) -> objective s (scaled y X) <= objective s (scaled x X).
Proof.
  intros XY Y1 H. destruct (Qlt_le_dec x 1) as [L|L].
  - assert (CV : (1 - x) * objective s (scaled y X) <= (1 - y) * objective s (scaled x X) + (y - x) * objective s (scaled 1 X)).
    { rewrite !objective_scaled, !qsum_scal. unfold qsum. generalize (seq 0 (Z.to_nat (ls_nrows s))). intros l. induction l as [|k l IH]; cbn [map fold_right]; [lra|].
      match goal with |- ?a + _ <= ?b + _ + (?c + _) => assert (T : a <= b + c) end; [|lra].
      generalize (row_sum (ls_elems s) X (Z.of_nat k)) (nth k (ls_b s) 0). intros r b. unfold qsq.
      assert (P : 0 <= (1 - y) * (y - x) * (1 - x) * (r * r)).
      { apply Qmult_le_0_compat; [|apply sq_nonneg]. apply Qmult_le_0_compat; [|lra]. apply Qmult_le_0_compat; lra. }
      lra. }
    assert (H2 : (y - x) * objective s (scaled 1 X) <= (y - x) * objective s (scaled x X)).
    { rewrite !(Qmult_comm (y - x)). apply Qmult_le_compat_r; lra. }
    assert (F : (1 - x) * objective s (scaled y X) <= (1 - x) * objective s (scaled x X)) by lra.
    exact (proj1 (Qmult_le_l _ _ (1 - x) ltac:(lra)) F).
  - assert (EY : y == x) by lra. rewrite !objective_scaled. apply qsum_le. intros k. rewrite EY. lra.
Qed.
Lemma objective_same s d e : Forall2 Qeq d e -> objective s d == objective s e.
Proof.
  intros F. unfold objective. apply qsum_ext. intros k _. assert (R : row_sum (ls_elems s) d (Z.of_nat k) == row_sum (ls_elems s) e (Z.of_nat k)); [|rewrite R; reflexivity].
  unfold row_sum. apply qsum_ext. intros [[r c] w] _. destruct (_ =? _)%Z; [|reflexivity]. assert (N : nth c d 0 == nth c e 0); [|rewrite N; reflexivity].
  revert c. induction F; intros [|c]; cbn; auto; reflexivity.
Qed.
Lemma diff_step : forall p d : list Q, length d = length p -> Forall2 Qeq (diff (step_by p d) p) d.
Proof.
  unfold step_by, diff. induction p as [|y p IH]; intros [|x d] L; cbn in L; try discriminate; [constructor|]. cbn. constructor; [ring|]. apply IH. lia.
Qed.
(** Step fractions going up to 1. *)
Fixpoint rising (x : Q) (l : list Q) : Prop :=
  match l with [] => x <= 1 | y :: r => x <= y /\ rising y r end.
Lemma rising_one : forall l x, rising x l -> rising x (l ++ [1]).
Proof. induction l as [|y l IH]; intros x H; cbn in *; [split; lra|]. destruct H as (A & B). split; auto. Qed.
Section Search.
Variables (lp : list Q -> ext) (p0 X : list Q) (v : Q -> Q) (v0 : Q).
Hypothesis LX : length X = length p0.
Hypothesis HV : forall a, lp (move Qplus Qmult a p0 X) = Fin (v a).
Hypothesis H0 : lp p0 = Fin v0.
Definition known (best : option Q) (b : Q) : Prop :=
  match best with None => b = v0 | Some a => b = v a end.
Lemma search_up : forall l x r cur best b, rising x l -> (forall y, x <= y -> y <= 1 -> b <= v y) ->
  (forall y z, x <= y -> y <= z -> z <= 1 -> v y <= v z) -> known best b -> length cur = length p0 ->
  exists cur' best' b', try_loop Qplus Qmult lp p0 X (l ++ r) cur best (Fin b) = try_loop Qplus Qmult lp p0 X r cur' best' (Fin b') /\
    known best' b' /\ length cur' = length p0 /\ b <= b' /\ (forall y, In y l -> v y <= b').
Proof.
  induction l as [|y l IH]; intros x r cur best b R U MN KB LC.
  - exists cur, best, b. repeat split; auto; [lra|]. intros y [].
  - destruct R as (XY & R). cbn [app try_loop]. unfold set_vec. rewrite move_length, LC, Nat.eqb_refl by auto. cbn [bind]. rewrite HV. cbn [isfinite negb].
    assert (Y1 : y <= 1). { clear - R. revert y R. induction l as [|z l IH]; intros y R; cbn in R; auto. destruct R as (A & R). apply IH in R. lra. }
    assert (BY := U y XY Y1).
    assert (NL : eltb (Fin (v y)) (esub (Fin b) (Fin 1)) = false) by (cbn; apply qltb_ge; lra). rewrite NL.
    assert (ML := move_length Qplus Qmult y p0 X LX).
    unfold egtb. cbn [eltb]. destruct (qltb b (v y)) eqn:EB.
    + destruct (IH y r (move Qplus Qmult y p0 X) (Some y) (v y) R) as (c' & b' & w & E & A & B & D & C); [intros; apply MN; lra|intros; apply MN; lra|reflexivity|exact ML|].
      apply qltb_lt in EB. exists c', b', w. split; [exact E|]. split; [exact A|]. split; [exact B|]. split; [lra|]. intros z [<-|I]; auto.
    + apply qltb_ge in EB. destruct (IH y r (move Qplus Qmult y p0 X) best b R) as (c' & b' & w & E & A & B & D & C); [intros; apply U; lra|intros; apply MN; lra|exact KB|exact ML|].
      exists c', b', w. split; [exact E|]. split; [exact A|]. split; [exact B|]. split; [exact D|]. intros z [<-|I]; auto. lra.
Qed.
(** The search ends at least as high as the full step. *)
Lemma search_full l r : rising 0 l -> v0 <= v 0 -> (forall y z, 0 <= y -> y <= z -> z <= 1 -> v y <= v z) ->
  exists p' g a w, try_updates Qplus Qmult lp p0 X (l ++ 1 :: r) = Ok (p', g, a) /\ length p' = length p0 /\ lp p' = Fin w /\ v 1 <= w.
Proof.
  intros R V0 MN.
  pose proof (rising_one l 0 R) as R1.
  destruct (search_up (l ++ [1]) 0 r p0 None v0 R1) as (c & b & w & E & A & B & D & C);
    [intros y Y0 Y1; assert (v 0 <= v y) by (apply MN; lra); lra|exact MN|reflexivity|reflexivity|].
  rewrite <- app_assoc in E. cbn [app] in E. unfold try_updates. rewrite H0, E.
  destruct (try_loop_spec Qplus Qmult lp p0 X LX r c b (Fin w) B) as (c' & b' & w' & -> & LC & HB & _). cbn [bind].
  assert (W1 : v 1 <= w) by (apply C; apply in_or_app; right; left; auto).
  destruct HB as [(-> & ->)|(a & _ & -> & -> & LT & _)].
  - destruct b as [a|]; cbn in A; subst w; unfold set_vec; rewrite ?move_length, LC, Nat.eqb_refl by auto; cbn [bind].
    + do 4 eexists. split; [reflexivity|]. split; [apply move_length; auto|]. split; [apply HV|auto].
    + do 4 eexists. split; [reflexivity|]. split; [auto|]. split; [exact H0|auto].
  - unfold set_vec; rewrite move_length, LC, Nat.eqb_refl by auto; cbn [bind]. do 4 eexists. split; [reflexivity|]. split; [apply move_length; auto|].
    split; [apply HV|]. rewrite HV in LT. cbn in LT. apply qltb_lt in LT. lra.
Qed.
End Search.
(** Tractor.optimize_loop for linear models, from any parameters: if the least-squares
    solver gives a solution for the first step and the step fractions that are tried
    go up to the full step (as the default ones do), then the parameters at the end
    have the largest log-probability of all. *)
Theorem C124_fit : forall sqrtf nm subs liq os M ns dir l r dchisq steps,
  let t := PMulti nm subs liq in let p := get_params t in let ds := on_images os (M p) ns in
  wf t -> priors_ok t -> number_of_params t = length ns -> (forall p n, In (p, n) (concat ns) -> (n < length os)%nat) -> derivs_ok ds ->
  linear_models os M ns p -> rising 0 l -> (1 <= steps)%nat -> eleb (Fin 0) dchisq = true ->
  (forall q X, length q = length p -> dir q = Some X -> X = [] \/ length X = length q) ->
  exists imgs, images_of imgs ds /\ ((total imgs <= 2147483648)%Z ->
    forall ox s X, prior_derivs t = Ok ox -> assemble sqrtf false None ds ox = Ok (Some s) -> solves s X -> dir p = Some X ->
    exists p' n gains, optimize_loop Qplus Qmult (lnp t os M) dir (l ++ 1 :: r) dchisq steps p = Ok (p', n, gains) /\ (n <= 1)%nat /\
      length p' = length p /\ isfinite (lnp t os M p') = true /\ forall q, length q = length p -> eltb (lnp t os M p') (lnp t os M q) = false).
Proof.
  intros sqrtf nm subs liq os M ns dir l r dchisq steps t p ds W O N HN D LM R Hs Hd HD.
  assert (Lp : length p = length ns) by (unfold p; rewrite <- number_get; auto).
  destruct (C124_objective sqrtf nm subs liq os M ns W O N HN D LM) as (imgs & IM & H). exists imgs. split; [exact IM|].
  intros TB ox s X EX ES SO DX. destruct (H TB ox s EX ES) as (v0 & E0 & HQ). fold t p in E0, HQ. clear H.
  assert (NC : length X = length p).
  { destruct SO as (SO & _). destruct (C33_layout sqrtf nm subs liq ds W O) as (im2 & IM2 & K2); [fold t; unfold ds, on_images; rewrite map_length; auto|auto|].
    destruct K2 as (o2 & r2 & A2 & B2 & K2).
    { rewrite (total_perm im2 imgs); auto. eapply images_perm; [exact IM2|exact IM|]. apply Permutation_refl. }
    fold t in A2. rewrite EX in A2. injection A2 as <-. rewrite ES in B2. injection B2 as <-. rewrite SO, Lp. destruct K2 as (K2 & _). rewrite K2. unfold ds, on_images. apply map_length. }
  assert (OX : forall a, objective s (diff (move Qplus Qmult a p X) p) == objective s (scaled a X)).
  { intros a. rewrite move_step by auto. apply objective_same, diff_step. unfold scaled. rewrite map_length. auto. }
  set (v := fun a => match lnp t os M (move Qplus Qmult a p X) with Fin w => w | _ => 0 end).
  assert (ML : forall a, length (move Qplus Qmult a p X) = length p) by (intros; apply move_length; auto).
  assert (HV : forall a, lnp t os M (move Qplus Qmult a p X) = Fin (v a)).
  { intros a. unfold v. destruct (HQ _ (ML a)) as (w & -> & _). reflexivity. }
  assert (VO : forall a, -(2) * (v a - v0) == objective s (scaled a X) - objective s (repeat 0 (length ns))).
  { intros a. destruct (HQ _ (ML a)) as (w & E & V). rewrite HV in E. injection E as <-. rewrite OX in V. exact V. }
  assert (Z0 : objective s (scaled 0 X) == objective s (repeat 0 (length ns))).
  { apply objective_same. rewrite <- Lp, <- NC. clear. unfold scaled. induction X; cbn; constructor; auto. ring. }
  assert (S1 : forall e, length e = length X -> objective s (scaled 1 X) <= objective s e).
  { intros e Le. destruct SO as (_ & SO). assert (E1 : objective s (scaled 1 X) == objective s X).
    { apply objective_same. clear. unfold scaled. induction X; cbn; constructor; auto. ring. }
    rewrite E1. apply SO. exact Le. }
  assert (MN : forall y z, 0 <= y -> y <= z -> z <= 1 -> v y <= v z).
  { intros y z Y0 YZ Z1. pose proof (line_down s X y z YZ Z1 (S1 (scaled y X) (map_length _ _))) as LD. pose proof (VO y). pose proof (VO z). lra. }
  assert (V00 : v0 <= v 0) by (pose proof (VO 0) as V; rewrite Z0 in V; lra).
  destruct (search_full (lnp t os M) p X v v0 NC HV E0 l r R V00 MN) as (p' & g & a & w & EU & L' & EW & VW).
  assert (MAX : forall q, length q = length p -> eltb (Fin w) (lnp t os M q) = false).
  { intros q Lq. destruct (HQ q Lq) as (u & -> & VU). cbn. apply qltb_ge. pose proof (S1 (diff q p) ltac:(rewrite diff_len by auto; auto)) as S2. pose proof (VO 1). lra. }
  assert (OP : exists p'' g', optimize Qplus Qmult (lnp t os M) dir (l ++ 1 :: r) p = Ok (p'', g') /\ length p'' = length p /\ exists w', lnp t os M p'' = Fin w' /\
    forall q, length q = length p -> eltb (Fin w') (lnp t os M q) = false).
  { unfold optimize. rewrite DX. destruct X as [|x X].
    - exists p, (Fin 0). split; auto. split; auto. exists v0. split; auto. intros q Lq.
      assert (P0 : p = []) by (apply length_zero_iff_nil; symmetry; exact NC). assert (Q0 : q = []) by (apply length_zero_iff_nil; rewrite Lq; symmetry; exact NC).
      replace q with p by congruence. rewrite E0. cbn. apply qltb_ge. lra.
    - rewrite EU. cbn [bind]. exists p', g. split; auto. split; auto. exists w. auto. }
  clear p' g a w EU L' EW VW MAX. destruct OP as (p' & g & EO & L' & w & EW & MAX).
  destruct steps as [|k]; [lia|]. unfold optimize_loop. cbn [opt_loop]. rewrite EO. cbn [bind].
  assert (FIN : isfinite (lnp t os M p') = true /\ forall q, length q = length p -> eltb (lnp t os M p') (lnp t os M q) = false) by (rewrite EW; auto).
  destruct (eleb g dchisq); [do 3 eexists; split; [reflexivity|]; auto|].
  destruct k as [|k]; [do 3 eexists; split; [reflexivity|]; auto|].
  assert (GEN : forall j, opt_loop Qplus Qmult (lnp t os M) dir (l ++ 1 :: r) dchisq (S k) j p' = Ok (p', j, [Fin 0])).
  { intros j. cbn [opt_loop]. assert (E : optimize Qplus Qmult (lnp t os M) dir (l ++ 1 :: r) p' = Ok (p', Fin 0)).
    { unfold optimize. destruct (dir p') as [[|x Y]|] eqn:EY; auto. destruct (HD p' _ L' EY) as [F|F]; [discriminate|].
      destruct (C29_try_updates Q Qplus Qmult (lnp t os M) p' (x :: Y) (l ++ 1 :: r) F) as (p2 & g2 & a2 & -> & [(_ & -> & ->)|(b & _ & _ & -> & LT & _)] & _); [reflexivity|].
      rewrite (proj2 FIN) in LT; [discriminate|]. rewrite move_length; auto. }
    rewrite E. cbn [bind]. rewrite Hd. reflexivity. }
  rewrite GEN. cbn [bind]. do 3 eexists. split; [reflexivity|]. auto.
Qed.

(** ** A case: two fluxes, the first with a prior; data that the fluxes 11 and 22
    explain. *)
Section Case.
Let nn := mkNames [] [].
Let t := PMulti nn [PFixed; PList (mkPlist nn [10; 20] [true; true] [None; None] [None; None] [None; None] None [mkPrior "flux" 0 11 1])] [true; true].
Let row (a b : Q) : arr Q := mkArr 1 2 (fun _ x => if (x =? 0)%Z then a else b).
Let os : list (obs Q) := [mkObs (row 11 33) (row 1 2); mkObs (row 5 5) (row 1 1)].
Let M (q : list Q) : list (arr Q) := [row (nth 0 q 0) (nth 0 q 0 + nth 1 q 0); row 4 4].
Let ns : list (list (patch Q * nat)) := [[(mkPatch 0 0 (Some (row 1 1)), 0%nat)]; [(mkPatch 0 0 (Some (row 0 1)), 0%nat)]].
Let ds := on_images os (M [10; 20]) ns.
Let fr : list Q := [1 # 4; 1 # 2].
Example case_meets : wf t /\ priors_ok t /\ number_of_params t = length ns /\ get_params t = [10; 20] /\
  (forall p n, In (p, n) (concat ns) -> (n < length os)%nat) /\ derivs_ok ds /\ linear_models os M ns [10; 20] /\ rising 0 fr.
Proof.
  split; [cbn; unfold wf_plist; cbn; repeat split; auto; try discriminate|].
  split; [cbn; repeat split; auto; repeat (constructor; [cbn; split; [lia|intros H; discriminate]|]); constructor|]. split; [reflexivity|]. split; [reflexivity|].
  split; [intros p n [E|[E|[]]]; injection E as _ <-; cbn; lia|]. split; [|split].
  - split.
    + intros p i H. cbn in H. decompose [or] H; try contradiction;
        match goal with E : (_, _) = (_, _) |- _ => injection E as <- <- end; vm_compute; repeat split; auto; discriminate.
    + intros p i q j H H' E. cbn in H, H'. decompose [or] H; try contradiction; decompose [or] H'; try contradiction;
        repeat match goal with E : (_, _) = (_, _) |- _ => injection E as <- <- end; auto; discriminate.
  - intros q Lq. destruct q as [|a [|b [|]]]; try discriminate. split; [reflexivity|]. intros n Y X Ln o HY HX.
    assert (EX : X = 0%Z \/ X = 1%Z) by (destruct n as [|[|]]; cbn in *; lia). assert (EY : Y = 0%Z) by (destruct n as [|[|]]; cbn in *; lia). subst Y.
    unfold lin_change, qsum. destruct n as [|[|]]; [| |cbn in Ln; lia]; destruct EX as [-> | ->]; cbn -[Qplus Qmult Qminus]; ring.
  - cbn. repeat split; lra.
Qed.
Example case_solves : exists ox s, prior_derivs t = Ok ox /\ assemble (fun q => q) false None ds ox = Ok (Some s) /\ solves s [1; 2].
Proof.
  do 2 eexists. do 2 (split; [vm_compute; reflexivity|]). apply zero_solves; vm_compute; reflexivity.
Qed.
Example case_fit : match optimize_loop Qplus Qmult (lnp t os M) (fun _ => Some [1; 2]) (fr ++ 1 :: [2]) (Fin 0) 50 [10; 20] with
  | Ok (p, n, g) => map Qred p = [11; 22] /\ n = 1%nat
  | Err _ => False
  end.
Proof. vm_compute. auto. Qed.
End Case.

Print Assumptions C124_objective.
Print Assumptions C124_fit.
