(** C121: the units of the images and a common factor of the errors do not matter
    to a fit.  C122: a fit that starts at a perfect model stays there. *)
From Coq Require Import String List ZArith QArith Qabs Bool Lia Lqa Qfield.
From Verif Require Import Base Ext ParamsModel ParamsSpec ParamsProofs ParamsProps PatchModel PatchSpec PriorModel PriorProps LsqModel LsqSpec LsqProps.
From Verif Require EngineProps.
From Verif Require Import EngineModel OptimModel OptimProps MaskedProps OrderProps.
From Coq Require Import Permutation.
Import ListNotations.
Open Scope Q_scope.

(** ** What is claimed *)
Definition sarr (k : Q) (a : arr Q) : arr Q := mkArr (ah a) (aw a) (fun y x => k * px a y x).
Definition spatch (k : Q) (p : patch Q) : patch Q := mkPatch (x0 p) (y0 p) (option_map (sarr k) (pimg p)).
(** An image in other units: data and models times a, inverse errors times b. *)
Definition sobs (a b : Q) (o : obs Q) : obs Q := mkObs (sarr a (o_data o)) (sarr b (o_ie o)).
(** Images with their factors a and b, data and model. *)
Notation unit_image := (Q * Q * obs Q * arr Q)%type.
Definition old_obs (e : unit_image) : obs Q := let '(a, b, o, m) := e in o.
Definition old_mod (e : unit_image) : arr Q := let '(a, b, o, m) := e in m.
Definition new_obs (e : unit_image) : obs Q := let '(a, b, o, m) := e in sobs a b o.
Definition new_mod (e : unit_image) : arr Q := let '(a, b, o, m) := e in sarr a m.
(** The derivatives (patch, number of its image) of each parameter: those of image n
    in its new units. *)
Definition fac (l : list unit_image) (n : nat) : Q := match nth_error l n with Some (a, _, _, _) => a | None => 1 end.
Definition new_derivs (l : list unit_image) (ns : list (list (patch Q * nat))) : list (list (patch Q * nat)) :=
  map (map (fun e => (spatch (fac l (snd e)) (fst e), snd e))) ns.
(** What the optimizer is given. *)
Definition on_images (os : list (obs Q)) (ms : list (arr Q)) (ns : list (list (patch Q * nat))) : derivs :=
  map (map (fun e => (fst e, to_image os ms (snd e)))) ns.

(** ** The log-likelihood *)
Definition esc (k : Q) (e : ext) : ext := emul (Fin k) e.
Lemma lik_value (l : list (obs Q * arr Q)) : exists q, loglik (map lift_obs (map fst l)) (map lift (map snd l)) = Fin q /\
  q == - (1 # 2) * fold_right Qplus 0 (map (fun om => EngineProps.qsum (fun y => EngineProps.qsum (fun x =>
      let Y := Z.of_nat y in let X := Z.of_nat x in
      qsq ((px (o_data (fst om)) Y X - px (snd om) Y X) * px (o_ie (fst om)) Y X)) (Z.to_nat (aw (o_data (fst om))))) (Z.to_nat (ah (o_data (fst om))))) l).
Proof.
  destruct (EngineProps.loglik_chi_value (map (fun om => (ah (o_data (fst om)), aw (o_data (fst om)),
    fun y x => (px (o_data (fst om)) y x - px (snd om) y x) * px (o_ie (fst om)) y x)) l)) as (q & E & H).
  exists q. split.
  - rewrite <- E. unfold loglik. f_equal. clear. induction l as [|[o m] l IH]; cbn [map combine]; [reflexivity|]. f_equal; auto.
  - rewrite H. apply Qmult_comp; [reflexivity|]. clear. induction l as [|[o m] l IH]; cbn [map fold_right]; [reflexivity|].
    apply Qplus_comp; [|exact IH]. reflexivity.
Qed.
Lemma esum_ext f g n : (forall k, f k == g k) -> EngineProps.qsum f n == EngineProps.qsum g n.
Proof. apply EngineProps.qsum_ext. Qed.
Lemma esum_scal k f n : EngineProps.qsum (fun j => k * f j) n == k * EngineProps.qsum f n.
Proof. unfold EngineProps.qsum. induction n as [|n IH]; cbn; [ring|]. rewrite IH. ring. Qed.
(** Adding the same image to the data and to the model changes nothing. *)
Definition aadd (a g : arr Q) : arr Q := mkArr (ah a) (aw a) (fun y x => px a y x + px g y x).
Theorem C121_offset : forall (l : list (obs Q * arr Q * arr Q)),
  eeq (loglik (map (fun e => let '(o, m, g) := e in lift_obs (mkObs (aadd (o_data o) g) (o_ie o))) l) (map (fun e => let '(o, m, g) := e in lift (aadd m g)) l))
      (loglik (map (fun e => let '(o, m, g) := e in lift_obs o) l) (map (fun e => let '(o, m, g) := e in lift m) l)).
Proof.
  intros l. destruct (lik_value (map (fun e => let '(o, m, g) := e in (mkObs (aadd (o_data o) g) (o_ie o), aadd m g)) l)) as (q & E & V).
  destruct (lik_value (map (fun e => let '(o, m, g) := e in (o, m)) l)) as (q' & E' & V').
  repeat rewrite map_map in E; repeat rewrite map_map in E'; repeat rewrite map_map in V; repeat rewrite map_map in V'.
  match goal with |- eeq ?A ?B => assert (EA : A = Fin q) end.
  { rewrite <- E. f_equal; apply map_ext; intros [[o m] g]; reflexivity. }
  match goal with |- eeq ?A ?B => assert (EB : B = Fin q') end.
  { rewrite <- E'. f_equal; apply map_ext; intros [[o m] g]; reflexivity. }
  rewrite EA, EB. cbn. rewrite V, V'. apply Qmult_comp; [reflexivity|]. clear. induction l as [|[[o m] g] l IH]; cbn [map fold_right]; [reflexivity|].
  rewrite IH. apply Qplus_comp; [|reflexivity]. cbn [fst snd]. apply esum_ext. intros y. apply esum_ext. intros x. cbn. unfold qsq. ring.
Qed.
(** All log-likelihoods are multiplied by K^2; if the images are given in other
    units (K = 1) they are the same. *)
Theorem C121_likelihood : forall K (l : list unit_image), (forall a b o m, In (a, b, o, m) l -> a * b == K) ->
  eeq (loglik (map lift_obs (map new_obs l)) (map lift (map new_mod l)))
      (esc (K * K) (loglik (map lift_obs (map old_obs l)) (map lift (map old_mod l)))).
Proof.
  intros K l H. destruct (lik_value (map (fun e => let '(a, b, o, m) := e in (sobs a b o, sarr a m)) l)) as (q & E & V).
  destruct (lik_value (map (fun e => let '(a, b, o, m) := e in (o, m)) l)) as (q' & E' & V'). repeat rewrite map_map in E; repeat rewrite map_map in E'; repeat rewrite map_map in V; repeat rewrite map_map in V'.
  match goal with |- eeq ?A (esc _ ?B) => assert (EA : A = Fin q) end.
  { rewrite <- E, !map_map. f_equal; apply map_ext; intros [[[a b] o] m]; reflexivity. }
  match goal with |- eeq ?A (esc _ ?B) => assert (EB : B = Fin q') end.
  { rewrite <- E', !map_map. f_equal; apply map_ext; intros [[[a b] o] m]; reflexivity. }
  rewrite EA, EB. cbn. rewrite V, V'. clear E E' V V' EA EB.
  transitivity (- (1 # 2) * (K * K * fold_right Qplus 0 (map (fun e => let '(a, b, o, m) := e in EngineProps.qsum (fun y => EngineProps.qsum (fun x =>
      let Y := Z.of_nat y in let X := Z.of_nat x in qsq ((px (o_data o) Y X - px m Y X) * px (o_ie o) Y X)) (Z.to_nat (aw (o_data o)))) (Z.to_nat (ah (o_data o)))) l))).
  - apply Qmult_comp; [reflexivity|]. induction l as [|[[[a b] o] m] l IH]; cbn [map fold_right]; [ring|].
    rewrite IH by (intros; eapply H; right; eauto). rewrite Qmult_plus_distr_r. apply Qplus_comp; [|reflexivity].
    cbn [fst snd]. rewrite <- esum_scal. apply esum_ext. intros y. rewrite <- esum_scal. apply esum_ext. intros x. cbn.
    unfold qsq. rewrite <- (H a b o m) by (left; auto). ring.
  - rewrite Qmult_assoc, (Qmult_comm (- (1 # 2))), <- !Qmult_assoc. do 3 (apply Qmult_comp; [reflexivity|]).
    clear H. induction l as [|[[[a b] o] m] l IH]; cbn [map fold_right]; [reflexivity|]. rewrite IH. reflexivity.
Qed.

(** ** The update *)
Lemma sp_at k p X Y : img_at 0 (spatch k p) X Y == k * img_at 0 p X Y.
Proof. unfold img_at, val_at, spatch; cbn. destruct (pimg p) as [a|]; cbn; [|ring]. destruct (_ && _); cbn; ring. Qed.
Lemma qsum_scal k {A} (f : A -> Q) r : k * qsum (map f r) == qsum (map (fun c => k * f c) r).
Proof. unfold qsum. induction r as [|c r IH]; cbn [map fold_right]; [ring|]. rewrite Qmult_plus_distr_r, IH. reflexivity. Qed.
Section Update.
Variables (K : Q) (l : list unit_image) (ns : list (list (patch Q * nat))).
Hypothesis HK : forall a b o m, In (a, b, o, m) l -> a * b == K.
Hypothesis HN : forall p n, In (p, n) (concat ns) -> (n < length l)%nat.
Let old n := to_image (map old_obs l) (map old_mod l) n.
Let new n := to_image (map new_obs l) (map new_mod l) n.
Let ds := on_images (map old_obs l) (map old_mod l) ns.
Let ds' := on_images (map new_obs l) (map new_mod l) (new_derivs l ns).
Lemma nth_units n : (n < length l)%nat -> exists a b o m, nth_error l n = Some (a, b, o, m) /\ a * b == K /\ fac l n = a /\
  nth n (map old_obs l) (mkObs no_arr no_arr) = o /\ nth n (map old_mod l) no_arr = m /\
  nth n (map new_obs l) (mkObs no_arr no_arr) = sobs a b o /\ nth n (map new_mod l) no_arr = sarr a m.
Proof.
  intros L. destruct (nth_error l n) as [[[[a b] o] m]|] eqn:E; [|apply nth_error_None in E; lia].
  exists a, b, o, m. split; [reflexivity|]. split; [eapply HK, nth_error_In; eauto|]. split; [unfold fac; rewrite E; auto|].
  repeat split; match goal with |- nth n (map ?f l) ?d = _ => rewrite (nth_error_nth (map f l) n d (x := f (a, b, o, m))); auto; rewrite nth_error_map, E; auto end.
Qed.
Lemma new_shape n : (n < length l)%nat -> im_h (new n) = im_h (old n) /\ im_w (new n) = im_w (old n) /\
  (wf_image (old n) -> wf_image (new n)) /\ forall Y X, px (im_chi (new n)) Y X == K * px (im_chi (old n)) Y X.
Proof.
  intros L. destruct (nth_units n L) as (a & b & o & m & E & AB & _ & E1 & E2 & E3 & E4).
  unfold new, old, to_image. rewrite E1, E2, E3, E4. cbn. repeat split; auto; try apply H. intros. rewrite <- AB. ring.
Qed.
Lemma change_units n d X Y : (n < length l)%nat -> model_change ds' (new n) d X Y == K * model_change ds (old n) d X Y.
Proof.
  intros L. rewrite !change_nth. unfold ds', ds, on_images, new_derivs. rewrite !map_length.
  rewrite (qsum_scal K). apply qsum_ext. intros c _. rewrite map_map.
  rewrite Qmult_assoc, (Qmult_comm K), <- Qmult_assoc. apply Qmult_comp; [reflexivity|].
  assert (NT : forall (g : list (patch Q * nat) -> list (patch Q * image)), g [] = [] -> nth c (map g ns) [] = g (nth c ns [])).
  { intros g G. rewrite <- G at 1. apply map_nth. }
  rewrite !NT by reflexivity. clear NT.
  unfold col. induction (nth c ns []) as [|[p j] r IH]; cbn [map]; [cbn; ring|]. cbn [qsum fold_right fst snd to_image im_id im_ie new old] in *.
  unfold qsum in *. rewrite IH. destruct (Nat.eqb_spec j n) as [->|N]; [|ring].
  destruct (nth_units n L) as (a & b & o & m & E & AB & F & E1 & E2 & E3 & E4). rewrite F, E1, E3, sp_at. cbn. rewrite <- AB. ring.
Qed.
Lemma in_images (f : patch Q * nat -> patch Q * image) p i : In (p, i) (concat (map (map f) ns)) <-> exists e, In e (concat ns) /\ f e = (p, i).
Proof. rewrite <- concat_map, in_map_iff. split; intros (e & A & B); exists e; auto. Qed.
Lemma in_old p i : In (p, i) (concat ds) <-> exists n, In (p, n) (concat ns) /\ i = old n.
Proof.
  unfold ds, on_images. rewrite in_images. split.
  - intros ([q n] & A & B). cbn in B. injection B as <- <-. eauto.
  - intros (n & A & ->). exists (p, n). auto.
Qed.
Lemma in_new p i : In (p, i) (concat ds') <-> exists q n, In (q, n) (concat ns) /\ i = new n /\ p = spatch (fac l n) q.
Proof.
  unfold ds', on_images, new_derivs. rewrite map_map. rewrite (map_ext _ (map (fun e => (spatch (fac l (snd e)) (fst e), new (snd e))))).
  - rewrite in_images. split.
    + intros ([q n] & A & B). cbn in B. injection B as <- <-. eauto 6.
    + intros (q & n & A & -> & ->). exists (q, n). auto.
  - intros r. rewrite map_map. reflexivity.
Qed.
Lemma units_ok : derivs_ok ds -> derivs_ok ds'.
Proof.
  intros (D1 & D2). split.
  - intros p i I. apply in_new in I as (q & n & I & -> & ->). destruct (D1 q (old n)) as (A & B); [apply in_old; eauto|]. split.
    + unfold wf_patch, spatch in *. cbn. destruct (pimg q); auto.
    + apply new_shape; eauto.
  - intros p i q j I J E. apply in_new in I as (p' & n & I & -> & ->). apply in_new in J as (q' & n' & J & -> & ->). cbn in E. congruence.
Qed.
Lemma units_images imgs imgs' : images_of imgs ds -> images_of imgs' ds' -> Permutation (map (fun i => new (im_id i)) imgs) imgs'.
Proof.
  intros (N & I) (N' & I'). apply NoDup_Permutation.
  - apply (NoDup_map_inv im_id). rewrite map_map. exact N.
  - eapply NoDup_map_inv; eauto.
  - intros i. rewrite in_map_iff, I'. split.
    + intros (j & <- & J). apply I in J as (p & J). apply in_old in J as (n & J & ->). eexists. apply in_new. eauto.
    + intros (p & J). apply in_new in J as (q & n & J & -> & ->). exists (old n). split; [reflexivity|]. apply I. exists q. apply in_old. eauto.
Qed.
Lemma units_total imgs : images_of imgs ds -> total (map (fun i => new (im_id i)) imgs) = total imgs.
Proof.
  intros (N & I). clear N. assert (H : forall i, In i imgs -> exists n, (n < length l)%nat /\ i = old n).
  { intros i J. apply I in J as (p & J). apply in_old in J as (n & J & ->). eauto. }
  clear I. unfold total. induction imgs as [|i r IH]; [reflexivity|]. cbn [map fold_right]. rewrite IH by (intros; apply H; right; auto).
  destruct (H i (or_introl eq_refl)) as (n & L & ->). destruct (new_shape n L) as (A & B & _). unfold npix. change (im_id (old n)) with n. rewrite A, B. reflexivity.
Qed.
Lemma units_linear imgs d : images_of imgs ds -> linear_chisq (map (fun i => new (im_id i)) imgs) ds' d == K * K * linear_chisq imgs ds d.
Proof.
  intros (N & I). clear N. assert (H : forall i, In i imgs -> exists n, (n < length l)%nat /\ i = old n).
  { intros i J. apply I in J as (p & J). apply in_old in J as (n & J & ->). eauto. }
  clear I. unfold linear_chisq. rewrite map_map.
  rewrite (qsum_scal (K * K)). apply qsum_ext. intros i J. destruct (H i J) as (n & L & ->). destruct (new_shape n L) as (A & B & _ & C).
  change (im_id (old n)) with n. rewrite A, B, (qsum_scal (K * K)). apply qsum_ext. intros yx _. rewrite C, change_units by auto. unfold qsq. ring.
Qed.
End Update.
(** With the images in other units (K = 1, any priors), or with all inverse errors
    multiplied by the same factor (no priors), the least-squares system has the same
    solutions. *)
Theorem C121_step : forall sqrtf nm subs liq K (l : list unit_image) ns,
  let t := PMulti nm subs liq in
  let ds := on_images (map old_obs l) (map old_mod l) ns in
  let ds' := on_images (map new_obs l) (map new_mod l) (new_derivs l ns) in
  (forall a b o m, In (a, b, o, m) l -> a * b == K) -> ~ K == 0 -> (K * K == 1 \/ free_terms t = 0%nat) ->
  (forall p n, In (p, n) (concat ns) -> (n < length l)%nat) ->
  wf t -> priors_ok t -> number_of_params t = length ns -> derivs_ok ds ->
  exists imgs, images_of imgs ds /\ ((total imgs <= 2147483648)%Z ->
    forall ox s v, prior_derivs t = Ok ox -> assemble sqrtf false None ds ox = Ok (Some s) -> assemble sqrtf false None ds' ox = Ok (Some v) ->
    forall d, solves s d <-> solves v d).
Proof.
  intros sqrtf nm subs liq K l ns t ds ds' HK K0 FT HN W O N D.
  assert (LD : length ds = length ns) by apply map_length.
  assert (LD' : length ds' = length ns) by (unfold ds', on_images, new_derivs; rewrite !map_length; reflexivity).
  pose proof (units_ok K l ns HK HN D : derivs_ok ds') as D'.
  destruct (C33_objective sqrtf nm subs liq ds W O ltac:(fold t; congruence) D) as (imgs & IM & H). exists imgs. split; [exact IM|]. intros TB ox s v EX ES EV.
  destruct (C33_objective sqrtf nm subs liq ds' W O ltac:(fold t; congruence) D') as (imgs' & IM' & H').
  pose proof (units_images l ns imgs imgs' IM IM') as PI.
  assert (TE : total imgs' = total imgs) by (rewrite <- (total_perm _ _ PI); apply (units_total K l ns HK HN); auto).
  specialize (H TB ox s EX ES). specialize (H' ltac:(lia) ox v EX EV). cbv zeta in H, H'.
  assert (NS : ls_ncols s = length ns /\ ls_ncols v = length ns).
  { destruct (C33_layout sqrtf nm subs liq ds W O ltac:(fold t; congruence) D) as (im1 & IM1 & KK). destruct KK as (o1 & r1 & A1 & B1 & KK).
    { rewrite (total_perm im1 imgs); auto. eapply images_perm; eauto. }
    fold t in A1. rewrite EX in A1. injection A1 as <-. rewrite ES in B1. injection B1 as <-. split; [rewrite <- LD; apply KK|].
    destruct (C33_layout sqrtf nm subs liq ds' W O ltac:(fold t; congruence) D') as (im2 & IM2 & K2).
    destruct K2 as (o2 & r2 & A2 & B2 & K2).
    { rewrite (total_perm im2 imgs'); [lia|]. eapply images_perm; eauto. }
    fold t in A2. rewrite EX in A2. injection A2 as <-. rewrite EV in B2. injection B2 as <-. rewrite <- LD'. apply K2. }
  destruct NS as (N1 & N2).
  assert (KEY : exists C, forall d, length d = length ns -> objective v d == K * K * objective s d + C).
  { exists (objective v (repeat 0 (length ns)) - K * K * objective s (repeat 0 (length ns))). intros d Ld.
    assert (Lt : length (get_params t) = length ns) by (rewrite <- number_get; auto).
    assert (SL : forall a b : list Q, length a = length b -> length (step_by a b) = length b).
    { intros a b E. unfold step_by. rewrite map_length, combine_length. lia. }
    destruct (C02_set_params_writes_exactly_thawed 0 t (step_by (get_params t) d) W ltac:(discriminate)) as (t1 & E1 & _); [rewrite SL; congruence|].
    destruct (H d t1 ltac:(congruence) E1) as (La & Lb & HLa & HLb & OB). destruct (H' d t1 ltac:(congruence) E1) as (La' & Lb' & HLa' & HLb' & OB').
    assert (La' = La) by congruence. assert (Lb' = Lb) by congruence. subst La' Lb'.
    rewrite LD in OB. rewrite LD' in OB'.
    assert (LP : forall e, linear_chisq imgs' ds' e == K * K * linear_chisq imgs ds e).
    { intros e. etransitivity; [|exact (units_linear K l ns HK HN imgs e IM)]. unfold linear_chisq. apply Qeq_sym, (qsum_perm _ _ (Permutation_map _ PI)). }
    rewrite !LP in OB'. destruct FT as [KK|FT]; [rewrite KK in *; lra|].
    destruct (log_prior_set t W O ltac:(discriminate)) as (C & HC).
    destruct (HC _ _ ltac:(rewrite Lt; symmetry; exact N) (C03_write_back_identity t W ltac:(discriminate))) as (q1 & X1 & Y1).
    destruct (HC (step_by (get_params t) d) t1 ltac:(rewrite SL; congruence) E1) as (q2 & X2 & Y2).
    fold t in HLa, HLb. assert (La = q1) by congruence. assert (Lb = q2) by congruence. subst.
    rewrite <- (terms_count t W O) in FT. apply length_zero_iff_nil in FT. rewrite FT in Y1, Y2. cbn in Y1, Y2.
    assert (EQ : q2 == q1) by (rewrite Y1, Y2; reflexivity). rewrite EQ in OB, OB'.
    transitivity (K * K * (objective s d - objective s (repeat 0 (length ns))) + objective v (repeat 0 (length ns))); [rewrite OB|ring].
    lra. }
  destruct KEY as (C & KEY). intros d. unfold solves. rewrite N1, N2.
  assert (KP : 0 < K * K) by (destruct (Qlt_le_dec 0 K); [nra|]; assert (K < 0) by (apply Qle_lteq in q as [q|q]; [auto|contradiction]); nra).
  split; intros (A & B); (split; [exact A|]); intros e Le; specialize (B e Le).
  - rewrite !KEY by congruence. assert (K * K * objective s d <= K * K * objective s e) by (apply Qmult_le_l; auto). lra.
  - rewrite !KEY in B by congruence. apply (Qmult_le_l _ _ (K * K)); auto. lra.
Qed.

(** ** C122 *)
Theorem C122_maximum : forall (V : Type) (add mul : V -> V -> V) (lp : list V -> ext) dir alphas dchisq steps p,
  (forall X, dir p = Some X -> X = [] \/ length X = length p) -> (1 <= steps)%nat -> eleb (Fin 0) dchisq = true -> (forall q, length q = length p -> eltb (lp p) (lp q) = false) ->
  optimize_loop add mul lp dir alphas dchisq steps p = Ok (p, 0%nat, [Fin 0]).
Proof.
  intros V add mul lp dir alphas dchisq steps p HD Hs Hd M. destruct steps as [|n]; [lia|]. unfold optimize_loop. cbn [opt_loop].
  assert (E : optimize add mul lp dir alphas p = Ok (p, Fin 0)).
  { unfold optimize. destruct (dir p) as [[|x X]|] eqn:EX; auto. destruct (HD _ eq_refl) as [C|L]; [discriminate|].
    destruct (C29_try_updates V add mul lp p (x :: X) alphas L) as (p' & g & a & -> & [(_ & -> & ->)|(b & _ & _ & -> & LT & _)] & _); [reflexivity|].
    rewrite M in LT by (apply move_length; auto). discriminate. }
  rewrite E. cbn [bind]. rewrite Hd. reflexivity.
Qed.
(** Data equal to the model wherever they are not masked. *)
Definition perfect (o : obs Q) (m : arr Q) : Prop := forall y x, (0 <= y < ah (o_data o))%Z -> (0 <= x < aw (o_data o))%Z ->
  px (o_ie o) y x == 0 \/ px (o_data o) y x == px m y x.
Lemma esum_zero f n : (forall k, (k < n)%nat -> f k == 0) -> EngineProps.qsum f n == 0.
Proof.
  unfold EngineProps.qsum. induction n as [|n IH]; cbn; intros H; [reflexivity|]. rewrite IH, H by (intros; try apply H; lia). reflexivity.
Qed.
Lemma perfect_lik os ms : Forall2 perfect os ms -> exists q, loglik (map lift_obs os) (map lift ms) = Fin q /\ q == 0.
Proof.
  intros F. destruct (lik_value (combine os ms)) as (q & E & V). exists q.
  assert (E1 : map fst (combine os ms) = os /\ map snd (combine os ms) = ms) by (clear E V; induction F as [|o m os ms H F (A & B)]; cbn; [auto|]; rewrite A, B; auto).
  destruct E1 as (E1 & E2). rewrite E1, E2 in E. split; [exact E|]. rewrite V. clear E E1 E2 V.
  assert (G : forall x, x == 0 -> - (1 # 2) * x == 0) by (intros x ->; reflexivity). apply G. clear G.
  induction F as [|o m os ms P F IH]; cbn [combine map fold_right]; [reflexivity|]. rewrite IH. cbn [fst snd].
  rewrite esum_zero; [reflexivity|]. intros y Hy. apply esum_zero. intros x Hx. cbv zeta.
  destruct (P (Z.of_nat y) (Z.of_nat x)) as [Z0|Z0]; try lia; unfold qsq; rewrite Z0; ring.
Qed.
(** A fit that starts at parameters whose model is the data (where not masked) and
    whose prior is the largest leaves them, whatever the least-squares solver, and
    reports no gain. *)
Theorem C122_perfect : forall sqrtf lsqr scale (sc : scene) (os : list (obs Q)) alphas dchisq steps p a,
  (forall X, direction sqrtf lsqr scale sc os p = Some X -> X = [] \/ length X = length p) -> (1 <= steps)%nat -> eleb (Fin 0) dchisq = true ->
  Forall2 perfect os (sc_models sc p) -> sc_prior sc p = Fin a -> (forall q, eltb (Fin a) (sc_prior sc q) = false) ->
  optimize_loop Qplus Qmult (logprob sc os) (direction sqrtf lsqr scale sc os) alphas dchisq steps p = Ok (p, 0%nat, [Fin 0]).
Proof.
  intros sqrtf lsqr scale sc os alphas dchisq steps p a HD Hs Hd P EA MA. apply C122_maximum; auto. intros q _.
  destruct (perfect_lik _ _ P) as (z & EZ & Z0). unfold logprob. rewrite EA, EZ. cbn [get_log_prob bind eadd isnan].
  pose proof (EngineProps.C25_loglik_not_positive (map (fun om => get_chi_image (o_data (fst om)) (o_ie (fst om)) (snd om)) (combine (map lift_obs os) (map lift (sc_models sc q))))) as NP.
  assert (EL : exists L, loglik (map lift_obs os) (map lift (sc_models sc q)) = L /\ EngineProps.not_positive L) by (eexists; split; [reflexivity|exact NP]).
  clear NP. destruct EL as (L & -> & NP). specialize (MA q). destruct (sc_prior sc q) as [b| | |], L as [c| | |]; cbn in *; try discriminate; try contradiction; auto.
  apply qltb_ge in MA. apply qltb_ge. lra.
Qed.

(** ** A case: one flux with a prior, one image in units twice as small and one in
    units three times as large. *)
Section Case.
Let nn := mkNames [] [].
Let src (ps : list (prior Q)) : tree :=
  PMulti nn [PFixed; PList (mkPlist nn [10] [true] [None] [None] [None] None ps)] [true; true].
Let t := src [mkPrior "flux" 0 11 1].
Let row (a b : Q) : arr Q := mkArr 1 2 (fun _ x => if (x =? 0)%Z then a else b).
Let oA : obs Q := mkObs (row 11 100) (row 1 0).
Let oB : obs Q := mkObs (row 22 22) (row 1 2).
Let l : list unit_image := [(2, 1 # 2, oA, row 10 10); (1 # 3, 3, oB, row 20 20)].
Let ns : list (list (patch Q * nat)) := [[(mkPatch 0 0 (Some (row 1 1)), 0%nat); (mkPatch 0 0 (Some (row 2 2)), 1%nat)]].
Let ds := on_images (map old_obs l) (map old_mod l) ns.
Let ds' := on_images (map new_obs l) (map new_mod l) (new_derivs l ns).
Example case_meets : (forall a b o m, In (a, b, o, m) l -> a * b == 1) /\ (forall p n, In (p, n) (concat ns) -> (n < length l)%nat) /\
  wf t /\ priors_ok t /\ number_of_params t = length ns /\ derivs_ok ds.
Proof.
  split; [|split; [|split; [|split; [|split]]]].
  - intros a b o m [E|[E|[]]]; injection E as <- <- _ _; reflexivity.
  - intros p n [E|[E|[]]]; injection E as _ <-; cbn; lia.
  - cbn; unfold wf_plist; cbn; repeat split; auto; try discriminate.
  - cbn; repeat split; auto; constructor; [cbn; split; [lia|intros H; discriminate]|constructor].
  - reflexivity.
  - split.
    + intros p i H. cbn in H. decompose [or] H; try contradiction;
        match goal with E : (_, _) = (_, _) |- _ => injection E as <- <- end; vm_compute; repeat split; auto; discriminate.
    + intros p i q j H H' E. cbn in H, H'. decompose [or] H; try contradiction; decompose [or] H'; try contradiction;
        repeat match goal with E : (_, _) = (_, _) |- _ => injection E as <- <- end; auto; discriminate.
Qed.
Lemma zero_solves s d : length d = ls_ncols s -> objective s d == 0 -> solves s d.
Proof. intros L E. split; auto. intros d' _. rewrite E. apply objective_nonneg. Qed.
Example case_solves : exists ox s v, prior_derivs t = Ok ox /\ assemble (fun q => q) false None ds ox = Ok (Some s) /\
  assemble (fun q => q) false None ds' ox = Ok (Some v) /\ solves s [1] /\ solves v [1] /\ ~ solves v [2].
Proof.
  do 3 eexists. do 3 (split; [vm_compute; reflexivity|]). split; [apply zero_solves; vm_compute; reflexivity|].
  split; [apply zero_solves; vm_compute; reflexivity|]. intros (_ & H). specialize (H [1] eq_refl). vm_compute in H. auto.
Qed.
Example case_likelihood : eeq (loglik (map lift_obs (map new_obs l)) (map lift (map new_mod l))) (Fin (-21 # 2)) /\
  eeq (loglik (map lift_obs (map old_obs l)) (map lift (map old_mod l))) (Fin (-21 # 2)).
Proof. split; vm_compute; reflexivity. Qed.
(** With a prior a common factor of the errors does matter: data 12 and prior 10 meet
    half-way at equal errors, not if those of the data are half as large. *)
Let tp := src [mkPrior "flux" 0 10 1].
Let l2 (b : Q) : list unit_image := [(1, b, mkObs (row 12 0) (row 1 0), row 10 10)].
Let n2 : list (list (patch Q * nat)) := [[(mkPatch 0 0 (Some (row 1 1)), 0%nat)]].
Example case_prior : exists ox s v, prior_derivs tp = Ok ox /\
  assemble (fun q => q) false None (on_images (map old_obs (l2 2)) (map old_mod (l2 2)) n2) ox = Ok (Some s) /\
  assemble (fun q => q) false None (on_images (map new_obs (l2 2)) (map new_mod (l2 2)) (new_derivs (l2 2) n2)) ox = Ok (Some v) /\
  ~ solves v [1] /\ objective s [1] == 2 /\ solves s [1].
Proof.
  do 3 eexists. do 3 (split; [vm_compute; reflexivity|]). split; [|split; [vm_compute; reflexivity|split; [reflexivity|]]].
  - intros (_ & H). specialize (H [3 # 2] eq_refl). vm_compute in H. auto.
  - intros [|e [|]] Le; try discriminate. match goal with |- objective ?s _ <= _ => assert (E : objective s [e] == (e - 2) * (e - 2) + e * e) end.
    { unfold objective, row_sum, qsq. change (seq 0 (Z.to_nat _)) with (seq 0 3). cbn -[Qplus Qmult Qminus]. unfold qsum. cbn -[Qplus Qmult Qminus]. ring. }
    rewrite E. match goal with |- objective ?s ?d <= _ => assert (E1 : objective s d == 2) by (vm_compute; reflexivity) end. rewrite E1. clear. assert (0 <= (e - 1) * (e - 1)) by (apply sq_nonneg). lra.
Qed.
(** A perfect model: 11 in the unmasked pixels. *)
Let sc : scene := mkScene (fun p => [row (nth 0 p 0) (nth 0 p 0); row (2 * nth 0 p 0) (2 * nth 0 p 0)]) (fun _ => ns) (fun _ => Fin 0) (fun _ => None).
Let dirs := direction (fun v => v) (fun _ => [7]) false sc [oA; oB].
Example case_perfect : dirs [11] = Some [7] /\ Forall2 perfect [oA; oB] (sc_models sc [11]) /\
  optimize_loop Qplus Qmult (logprob sc [oA; oB]) dirs [1; 2] (Fin 0) 5 [11] = Ok ([11], 0%nat, [Fin 0]).
Proof.
  split; [vm_compute; reflexivity|]. split; [|vm_compute; reflexivity].
  constructor; [|constructor; [|constructor]]; intros y x _ Hx; cbn in *; destruct (x =? 0)%Z; first [right; reflexivity | left; reflexivity].
Qed.
End Case.

Print Assumptions C121_likelihood.
Print Assumptions C121_offset.
Print Assumptions C121_step.
Print Assumptions C122_maximum.
Print Assumptions C122_perfect.
