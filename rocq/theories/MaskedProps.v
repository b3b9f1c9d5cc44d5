(** C119: masked pixels (inverse error zero) have no influence on a fit. *)
From Coq Require Import List ZArith QArith Qabs Bool Lia Lqa Morphisms.
From Verif Require Import Base Ext PatchModel PatchSpec PatchProofs EngineModel OptimModel PriorModel LsqModel LsqSpec LsqProofs.
Import ListNotations.
Open Scope Q_scope.

(** ** What is claimed *)
(** An image as the Tractor is given it: data and inverse errors. *)
Record obs (A : Type) : Type := mkObs { o_data : arr A; o_ie : arr A }.
Arguments mkObs {A}. Arguments o_data {A}. Arguments o_ie {A}.
(** The log-likelihood of images with these models. *)
Definition loglik (os : list (obs ext)) (ms : list (arr ext)) : ext :=
  get_log_likelihood (map (fun om => get_chi_image (o_data (fst om)) (o_ie (fst om)) (snd om)) (combine os ms)).
(** The same inverse errors, and the same data where these are not zero. *)
Definition same_unmasked (o o' : obs Q) : Prop :=
  o_ie o = o_ie o' /\ ah (o_data o) = ah (o_data o') /\ aw (o_data o) = aw (o_data o') /\
  forall y x, (0 <= y < ah (o_data o))%Z -> (0 <= x < aw (o_data o))%Z ->
    ~ px (o_ie o) y x == 0 -> px (o_data o) y x = px (o_data o') y x.
Definition lift (a : arr Q) : arr ext := mkArr (ah a) (aw a) (fun y x => Fin (px a y x)).
Definition lift_obs (o : obs Q) : obs ext := mkObs (lift (o_data o)) (lift (o_ie o)).

(** A Tractor: for each vector of parameters, the models of the images, the
    derivatives (patch, number of the image) per parameter, the log-prior and
    its derivatives. *)
Record scene : Type := mkScene {
  sc_models : list Q -> list (arr Q);
  sc_derivs : list Q -> list (list (patch Q * nat));
  sc_prior : list Q -> ext;
  sc_pderivs : list Q -> option psys }.
(** getLogProb *)
Definition logprob (sc : scene) (os : list (obs Q)) (p : list Q) : ext :=
  match get_log_prob (sc_prior sc p) (fun _ => Ok (loglik (map lift_obs os) (map lift (sc_models sc p)))) with
  | Ok v => v | Err _ => NaN
  end.
(** Image number n with its chi image, as the optimizer takes it. *)
Definition no_arr : arr Q := mkArr 0 0 (fun _ _ => 0).
Definition to_image (os : list (obs Q)) (ms : list (arr Q)) (n : nat) : image :=
  let o := nth n os (mkObs no_arr no_arr) in
  let m := nth n ms no_arr in
  mkImage n (ah (o_data o)) (aw (o_data o)) (o_ie o)
    (mkArr (ah (o_data o)) (aw (o_data o)) (fun y x => (px (o_data o) y x - px m y x) * px (o_ie o) y x)).
(** getUpdateDirection; failures give no direction. *)
Definition direction (sqrtf : Q -> Q) (lsqr : lsys -> list Q) (scale : bool) (sc : scene) (os : list (obs Q)) (p : list Q)
  : option (list Q) :=
  match update_direction sqrtf lsqr scale None
          (map (map (fun e => (fst e, to_image os (sc_models sc p) (snd e)))) (sc_derivs sc p)) (sc_pderivs sc p) with
  | Ok X => Some X | Err _ => None
  end.
(** The same system: equal matrix elements and scales, right-hand sides with the
    same values. *)
Definition same_system (s s' : lsys) : Prop :=
  ls_elems s = ls_elems s' /\ ls_nrows s = ls_nrows s' /\ ls_ncols s = ls_ncols s' /\ ls_scales s = ls_scales s' /\
  Forall2 Qeq (ls_b s) (ls_b s').
(** LSQR works on values, not on how a rational is written. *)
Definition on_values (lsqr : lsys -> list Q) : Prop := forall s s', same_system s s' -> lsqr s = lsqr s'.

(** ** Extended numbers up to == *)
Lemma eeq_refl a : eeq a a.
Proof. destruct a; simpl; auto. reflexivity. Qed.
Lemma eeq_trans a b c : eeq a b -> eeq b c -> eeq a c.
Proof. destruct a, b, c; simpl; try tauto. intros -> ->. reflexivity. Qed.
Lemma eeq_sym a b : eeq a b -> eeq b a.
Proof. destruct a, b; simpl; try tauto. intros ->. reflexivity. Qed.
Lemma eadd_eeq a a' b b' : eeq a a' -> eeq b b' -> eeq (eadd a b) (eadd a' b').
Proof. destruct a, a', b, b'; simpl; try tauto. intros -> ->. reflexivity. Qed.
Lemma escale_eeq p q a : p == q -> escale p a = escale q a.
Proof. unfold escale. intros H. rewrite (Qcompare_comp _ _ H 0 0) by reflexivity. reflexivity. Qed.
Lemma emul_eeq a a' b b' : eeq a a' -> eeq b b' -> eeq (emul a b) (emul a' b').
Proof.
  destruct a, a', b, b'; simpl; try tauto; intros H H'; try (rewrite (escale_eeq _ _ _ H)); try (rewrite (escale_eeq _ _ _ H')); try apply eeq_refl.
  rewrite H, H'. reflexivity.
Qed.
Lemma eopp_eeq a b : eeq a b -> eeq (eopp a) (eopp b).
Proof. destruct a, b; simpl; try tauto. intros ->. reflexivity. Qed.
Lemma esub_eeq a a' b b' : eeq a a' -> eeq b b' -> eeq (esub a b) (esub a' b').
Proof. intros H H'. apply eadd_eeq; auto. apply eopp_eeq; auto. Qed.
Lemma isfinite_eeq a b : eeq a b -> isfinite a = isfinite b.
Proof. destruct a, b; simpl; tauto. Qed.
Lemma isnan_eeq a b : eeq a b -> isnan a = isnan b.
Proof. destruct a, b; simpl; tauto. Qed.
Lemma qltb_comp a a' b b' : a == a' -> b == b' -> qltb a b = qltb a' b'.
Proof. intros H H'. unfold qltb. rewrite (Qleb_comp _ _ H' _ _ H). reflexivity. Qed.
Lemma eltb_eeq a a' b b' : eeq a a' -> eeq b b' -> eltb a b = eltb a' b'.
Proof. destruct a, a', b, b'; simpl; try tauto. apply qltb_comp. Qed.
Lemma eleb_eeq a a' b b' : eeq a a' -> eeq b b' -> eleb a b = eleb a' b'.
Proof. intros H H'. unfold eleb. rewrite (eltb_eeq b b' a a') by auto. destruct a, a', b, b'; simpl in *; tauto. Qed.

(** ** The log-likelihood *)
Lemma sum_upto_eeq f g n : (forall k, (k < n)%nat -> eeq (f k) (g k)) -> eeq (sum_upto eadd ezero f n) (sum_upto eadd ezero g n).
Proof. induction n; intros H; [apply eeq_refl|]. cbn [sum_upto]. apply eadd_eeq; [apply IHn|]; intros; apply H; lia. Qed.
Definition aeeq (a b : arr ext) : Prop := ah a = ah b /\ aw a = aw b /\
  forall y x, (0 <= y < ah a)%Z -> (0 <= x < aw a)%Z -> eeq (px a y x) (px b y x).
Lemma arr_sum_eeq a b : aeeq a b -> eeq (arr_sum eadd ezero a) (arr_sum eadd ezero b).
Proof.
  intros (H & W & P). unfold arr_sum. rewrite <- H, <- W. apply sum_upto_eeq. intros y Hy. apply sum_upto_eeq. intros x Hx. apply P; lia.
Qed.
Lemma lik_fold cs cs' : Forall2 aeeq cs cs' -> forall z z', eeq z z' ->
  eeq (fold_left (fun acc chi => eadd acc (arr_sum eadd ezero (mkArr (ah chi) (aw chi) (fun y x => esq (px chi y x))))) cs z)
      (fold_left (fun acc chi => eadd acc (arr_sum eadd ezero (mkArr (ah chi) (aw chi) (fun y x => esq (px chi y x))))) cs' z').
Proof.
  induction 1 as [|c c' cs cs' (H & W & P) F IH]; intros z z' G; cbn [fold_left]; auto.
  apply IH. apply eadd_eeq; auto. apply arr_sum_eeq. unfold aeeq; cbn [ah aw px]. repeat split; auto.
  intros. apply emul_eeq; apply P; auto.
Qed.
Lemma lik_eeq (cs cs' : list (arr ext)) : Forall2 aeeq cs cs' -> eeq (get_log_likelihood cs) (get_log_likelihood cs').
Proof. intros F. apply emul_eeq; [apply eeq_refl|]. apply lik_fold; auto. apply eeq_refl. Qed.
Lemma mul_masked a b w : eeq w (Fin 0) -> isfinite a = true -> isfinite b = true -> eeq (emul a w) (emul b w).
Proof. destruct w; simpl; try tauto. intros H. destruct a, b; simpl; try discriminate. intros. rewrite H. lra. Qed.
Lemma sub_finite a b : isfinite a = true -> isfinite b = true -> isfinite (esub a b) = true.
Proof. destruct a, b; simpl; auto. Qed.

(** Data that differ only where the inverse error is zero, and are finite
    there; the models are finite there. *)
Definition same_unmasked_ext (o o' : obs ext) (m : arr ext) : Prop :=
  o_ie o = o_ie o' /\ ah (o_data o) = ah (o_data o') /\ aw (o_data o) = aw (o_data o') /\
  forall y x, (0 <= y < ah (o_data o))%Z -> (0 <= x < aw (o_data o))%Z ->
    px (o_data o) y x = px (o_data o') y x \/
    (eeq (px (o_ie o) y x) (Fin 0) /\ isfinite (px (o_data o) y x) = true /\ isfinite (px (o_data o') y x) = true /\
     isfinite (px m y x) = true).
Lemma chi_eeq o o' m : same_unmasked_ext o o' m -> aeeq (get_chi_image (o_data o) (o_ie o) m) (get_chi_image (o_data o') (o_ie o') m).
Proof.
  intros (I & H & W & P). unfold aeeq, get_chi_image; cbn [ah aw px]. repeat split; auto. intros y x Hy Hx. rewrite <- I.
  destruct (P y x Hy Hx) as [->|(Z0 & F1 & F2 & F3)]; [apply eeq_refl|]. apply mul_masked; auto using sub_finite.
Qed.

(** The log-likelihood does not depend on masked pixels. *)
Theorem C119_likelihood : forall oms : list (obs ext * obs ext * arr ext),
  (forall o o' m, In (o, o', m) oms -> same_unmasked_ext o o' m) ->
  eeq (loglik (map (fun e => fst (fst e)) oms) (map snd oms)) (loglik (map (fun e => snd (fst e)) oms) (map snd oms)).
Proof.
  intros oms H. unfold loglik. apply lik_eeq. induction oms as [|((o, o'), m) oms IH]; cbn; constructor.
  - apply chi_eeq. apply H. left; auto.
  - apply IH. intros. apply H. right; auto.
Qed.

Lemma sum_zero f n : (forall k, (k < n)%nat -> eeq (f k) (Fin 0)) -> eeq (sum_upto eadd ezero f n) (Fin 0).
Proof.
  induction n; intros H; [apply eeq_refl|]. cbn [sum_upto]. change (Fin 0) with ezero.
  eapply eeq_trans; [apply eadd_eeq; [apply IHn; intros; apply H; lia|apply (H n); lia]|]. cbn. lra.
Qed.
Lemma eadd_zero_l a : eeq (eadd a (Fin 0)) a.
Proof. destruct a; simpl; auto. lra. Qed.
(** An image without any unmasked pixel counts for nothing, wherever it stands
    in the list. *)
Theorem C119_blank : forall os1 ms1 o m os2 ms2, length os1 = length ms1 ->
  (forall y x, (0 <= y < ah (o_data o))%Z -> (0 <= x < aw (o_data o))%Z ->
     eeq (px (o_ie o) y x) (Fin 0) /\ isfinite (px (o_data o) y x) = true /\ isfinite (px m y x) = true) ->
  eeq (loglik (os1 ++ o :: os2) (ms1 ++ m :: ms2)) (loglik (os1 ++ os2) (ms1 ++ ms2)).
Proof.
  intros os1 ms1 o m os2 ms2 L H. unfold loglik.
  assert (C : forall (a c : list (obs ext)) (b d : list (arr ext)), length a = length b -> combine (a ++ c) (b ++ d) = combine a b ++ combine c d).
  { induction a; destruct b; simpl; intros; try discriminate; auto. f_equal. auto. }
  rewrite !C by auto. cbn [combine]. rewrite !map_app. cbn [map fst snd]. unfold get_log_likelihood. apply emul_eeq; [apply eeq_refl|].
  rewrite !fold_left_app. cbn [fold_left]. apply lik_fold.
  - induction (map _ (combine os2 ms2)); constructor; auto. unfold aeeq. repeat split; auto. intros; apply eeq_refl.
  - eapply eeq_trans; [apply eadd_eeq; [apply eeq_refl|]|apply eadd_zero_l].
    unfold arr_sum. apply sum_zero. intros y Hy. apply sum_zero. intros x Hx. unfold get_chi_image in *. cbn [px ah aw] in *.
    destruct (H (Z.of_nat y) (Z.of_nat x)) as (Z0 & F1 & F2); try lia.
    assert (E : eeq (emul (esub (px (o_data o) (Z.of_nat y) (Z.of_nat x)) (px m (Z.of_nat y) (Z.of_nat x))) (px (o_ie o) (Z.of_nat y) (Z.of_nat x))) (Fin 0)).
    { pose proof (sub_finite _ _ F1 F2) as F. destruct (esub _ _); try discriminate. destruct (px (o_ie o) _ _); simpl in *; try tauto. rewrite Z0. lra. }
    unfold esq. eapply eeq_trans; [apply emul_eeq; apply E|]. cbn. lra.
Qed.

(** ** Pixels that are not finite *)
Lemma nan_add_r a : eadd a NaN = NaN.
Proof. destruct a; auto. Qed.
Lemma nan_add_l a : eadd NaN a = NaN.
Proof. reflexivity. Qed.
Lemma nan_mul_l a : emul NaN a = NaN.
Proof. reflexivity. Qed.
Lemma nan_sum f n k : (k < n)%nat -> f k = NaN -> sum_upto eadd ezero f n = NaN.
Proof.
  induction n; intros H E; [lia|]. cbn [sum_upto]. destruct (Nat.eq_dec k n) as [->|NE]; [rewrite E; apply nan_add_r|].
  rewrite IHn by (auto; lia). reflexivity.
Qed.
Lemma nan_fold cs : fold_left (fun acc chi => eadd acc (arr_sum eadd ezero (mkArr (ah chi) (aw chi) (fun y x => esq (px chi y x))))) cs NaN = NaN.
Proof. induction cs; auto. Qed.
(** A pixel whose inverse error is zero and whose datum is NaN or infinite makes
    the log-likelihood NaN, whatever else there is. *)
Lemma nan_lik os ms n o m y x : nth_error os n = Some o -> nth_error ms n = Some m ->
  (0 <= y < ah (o_data o))%Z -> (0 <= x < aw (o_data o))%Z ->
  isfinite (px (o_data o) y x) = false -> isfinite (px m y x) = true -> eeq (px (o_ie o) y x) (Fin 0) -> loglik os ms = NaN.
Proof.
  intros Ho Hm Hy Hx D M I. unfold loglik, get_log_likelihood.
  assert (E : emul (esub (px (o_data o) y x) (px m y x)) (px (o_ie o) y x) = NaN).
  { destruct (px (o_data o) y x); try discriminate; destruct (px m y x); try discriminate; destruct (px (o_ie o) y x) as [w| | |]; simpl in *; try tauto;
      unfold escale; apply Qeq_alt in I; rewrite I; reflexivity. }
  assert (G : forall cs z, In (get_chi_image (o_data o) (o_ie o) m) cs ->
     fold_left (fun acc chi => eadd acc (arr_sum eadd ezero (mkArr (ah chi) (aw chi) (fun y x => esq (px chi y x))))) cs z = NaN).
  { induction cs as [|c cs IH]; intros z []; cbn [fold_left]; [|apply IH; auto].
    subst c. replace (arr_sum _ _ _) with NaN; [rewrite nan_add_r; apply nan_fold|].
    symmetry. unfold arr_sum. cbn [ah aw px]. apply nan_sum with (k := Z.to_nat y); [unfold get_chi_image; cbn [ah]; lia|].
    apply nan_sum with (k := Z.to_nat x); [unfold get_chi_image; cbn [aw]; lia|]. rewrite !Z2Nat.id by lia. unfold get_chi_image; cbn [px].
    unfold esq. rewrite E. reflexivity. }
  rewrite G; [reflexivity|]. apply in_map_iff. exists (o, m). split; auto.
  revert os ms Ho Hm. induction n; destruct os, ms; simpl; intros; try discriminate; [left; congruence|right; eauto].
Qed.

(** ** The line search *)
Definition same_res {A} (R : A -> A -> Prop) (a b : res A) : Prop :=
  match a, b with Ok x, Ok y => R x y | Err e, Err e' => e = e' | _, _ => False end.
Lemma same_bind {A B} (R : A -> A -> Prop) (T : B -> B -> Prop) m m' k k' :
  same_res R m m' -> (forall a b, R a b -> same_res T (k a) (k' b)) -> same_res T (bind m k) (bind m' k').
Proof. destruct m, m'; simpl; try tauto. intros H K. apply K; auto. Qed.
Section Search.
Variables lp lp' : list Q -> ext.
Hypothesis LP : forall p, eeq (lp p) (lp' p).
Lemma try_loop_same p0 X : forall alphas cur best b b', eeq b b' ->
  same_res (fun r r' => fst r = fst r' /\ eeq (snd r) (snd r'))
    (try_loop Qplus Qmult lp p0 X alphas cur best b) (try_loop Qplus Qmult lp' p0 X alphas cur best b').
Proof.
  induction alphas as [|al r IH]; intros cur best b b' E; cbn [try_loop]; [split; auto|].
  eapply same_bind with (R := eq); [destruct (set_vec cur (move Qplus Qmult al p0 X)); simpl; auto|]. intros c c' <-.
  rewrite <- (isfinite_eeq _ _ (LP c)). destruct (isfinite (lp c)); cbn [negb]; [|split; auto].
  rewrite <- (eltb_eeq _ _ (esub b (Fin 1)) (esub b' (Fin 1)) (LP c)) by (apply esub_eeq; auto; apply eeq_refl).
  destruct (eltb (lp c) (esub b (Fin 1))); [split; auto|].
  unfold egtb. rewrite <- (eltb_eeq b b' _ _ E (LP c)). destruct (eltb b (lp c)); apply IH; auto.
Qed.
Lemma try_same p0 X alphas :
  same_res (fun r r' => fst (fst r) = fst (fst r') /\ snd r = snd r' /\ eeq (snd (fst r)) (snd (fst r')))
    (try_updates Qplus Qmult lp p0 X alphas) (try_updates Qplus Qmult lp' p0 X alphas).
Proof.
  unfold try_updates. eapply same_bind; [apply try_loop_same; apply LP|].
  intros ((cur, best), b) ((cur', best'), b') (E & E'); cbn [fst snd] in *. injection E as <- <-.
  destruct best as [a|].
  - eapply same_bind with (R := eq); [destruct (set_vec _ _); simpl; auto|]. intros c c' <-. simpl. repeat split; auto. apply esub_eeq; auto.
  - eapply same_bind with (R := eq); [destruct (set_vec _ _); simpl; auto|]. intros c c' <-. simpl. repeat split; auto.
Qed.
Variables dir dir' : list Q -> option (list Q).
Hypothesis DIR : forall p, dir p = dir' p.
Lemma optimize_same alphas p : same_res (fun r r' => fst r = fst r' /\ eeq (snd r) (snd r'))
  (optimize Qplus Qmult lp dir alphas p) (optimize Qplus Qmult lp' dir' alphas p).
Proof.
  unfold optimize. rewrite <- DIR. destruct (dir p) as [[|d X]|]; try (split; [auto|apply eeq_refl]).
  eapply same_bind; [apply try_same|]. intros ((q, g), a) ((q', g'), a') (E & _ & G); simpl in *. auto.
Qed.
Lemma loop_same alphas dchisq n : forall step p, same_res (fun r r' => fst r = fst r' /\ Forall2 eeq (snd r) (snd r'))
  (opt_loop Qplus Qmult lp dir alphas dchisq n step p) (opt_loop Qplus Qmult lp' dir' alphas dchisq n step p).
Proof.
  induction n as [|n IH]; intros step p; cbn [opt_loop]; [split; [reflexivity|constructor]|].
  eapply same_bind; [apply optimize_same|]. intros (q, g) (q', g') (E & G); cbn [fst snd] in *. subst q'.
  rewrite <- (eleb_eeq g g' dchisq dchisq) by (auto; apply eeq_refl). destruct (eleb g dchisq); [split; simpl; auto|].
  destruct n; [split; simpl; auto|]. eapply same_bind; [apply IH|]. intros ((a, b), l) ((a', b'), l') (E & F); cbn [fst snd] in *.
  injection E as <- <-. split; simpl; auto.
Qed.
End Search.

(** ** The sparse system *)
(** Derivatives alike: the same box, and the same values at the pixels of the
    image that are not masked. *)
Definition alike_patch (i : image) (d d' : patch Q) : Prop :=
  x0 d = x0 d' /\ y0 d = y0 d' /\ option_map (fun a => (ah a, aw a)) (pimg d) = option_map (fun a => (ah a, aw a)) (pimg d') /\
  forall X Y, (0 <= X < im_w i)%Z -> (0 <= Y < im_h i)%Z -> ~ px (im_ie i) Y X == 0 -> val_at d X Y = val_at d' X Y.
Definition alike_image (i i' : image) : Prop :=
  im_id i = im_id i' /\ im_h i = im_h i' /\ im_w i = im_w i' /\ im_ie i = im_ie i' /\
  ah (im_chi i) = ah (im_chi i') /\ aw (im_chi i) = aw (im_chi i') /\
  forall y x, (0 <= y < ah (im_chi i))%Z -> (0 <= x < aw (im_chi i))%Z -> px (im_chi i) y x == px (im_chi i') y x.
Definition alike_deriv (e e' : patch Q * image) : Prop :=
  wf_patch (fst e) /\ wf_image (snd e) /\ alike_patch (snd e) (fst e) (fst e') /\ alike_image (snd e) (snd e').

Section PairMap.
Context {A B : Type}.
Variable f : A -> B.
Definition amapp (a : arr A) : arr B := mkArr (ah a) (aw a) (fun y x => f (px a y x)).
Definition pmapp (p : patch A) : patch B := mkPatch (x0 p) (y0 p) (option_map amapp (pimg p)).
Lemma clip_map p W H : clip_to (pmapp p) W H = bind (clip_to p W H) (fun r => Ok (pmapp (fst r), snd r)).
Proof.
  destruct p as [X Y [a|]]; unfold clip_to, pmapp; cbn [pimg option_map x0 y0]; [|reflexivity].
  destruct (X >=? W)%Z; [reflexivity|]. destruct (Y >=? H)%Z; [reflexivity|].
  destruct (X <? 0)%Z, (Y <? 0)%Z; cbn [asub ah aw amapp px];
    repeat match goal with |- context [if (?a >? ?b)%Z then _ else _] => destruct (a >? b)%Z; cbn [asub ah aw amapp px] end;
    match goal with |- context [if ?c then Ok _ else _] => destruct c end; reflexivity.
Qed.
Lemma val_map p X Y : val_at (pmapp p) X Y = option_map f (val_at p X Y).
Proof. unfold val_at, pmapp. destruct p as [a b [q|]]; cbn; auto. destruct (_ && _); auto. Qed.
End PairMap.

Lemma filter_same {T} (pix : list Z) (f g : T -> Q) l : (forall t, In t l -> f t = g t \/ (f t == 0 /\ g t == 0)) ->
  filter (fun e => negb (Qeq_bool (snd e) 0)) (combine pix (map f l)) = filter (fun e => negb (Qeq_bool (snd e) 0)) (combine pix (map g l)).
Proof.
  revert pix. induction l as [|t l IH]; intros [|k pix] H; simpl; auto.
  rewrite (IH pix) by (intros; apply H; right; auto). destruct (H t (or_introl eq_refl)) as [->|(E & E')]; auto.
  apply Qeq_bool_iff in E. apply Qeq_bool_iff in E'. rewrite E, E'. reflexivity.
Qed.
Definition pair_arr (a b : arr Q) : arr (Q * Q) := mkArr (ah a) (aw a) (fun y x => (px a y x, px b y x)).
Lemma split_pair i d d' : alike_patch i d d' -> exists P : patch (Q * Q), pmapp fst P = d /\ pmapp snd P = d'.
Proof.
  destruct d as [X Y [a|]], d' as [X' Y' [a'|]]; intros (E1 & E2 & E3 & _); cbn in *; subst; try discriminate.
  - injection E3 as H W. exists (mkPatch X' Y' (Some (pair_arr a a'))). unfold pmapp, amapp, pair_arr; cbn.
    destruct a, a'; cbn in *; subst. auto.
  - exists (mkPatch X' Y' None). auto.
Qed.
Lemma deriv_block_same offs offs' col e e' : alike_deriv e e' -> off_of offs (snd e) = off_of offs' (snd e') ->
  deriv_block offs col (fst e) (snd e) = deriv_block offs' col (fst e') (snd e').
Proof.
  destruct e as (d, i), e' as (d', i'); cbn [fst snd]. intros (WD & WI & AP & AI) EO; cbn [fst snd] in *.
  destruct AI as (_ & Eh & Ew & Ei & _). unfold deriv_block. rewrite EO, <- Eh, <- Ew, <- Ei.
  replace (npix i') with (npix i) by (unfold npix; congruence).
  destruct (off_of offs' i') as [o|]; [cbn [bind]|reflexivity].
  destruct (split_pair i d d' AP) as (P & <- & <-).
  destruct AP as (_ & _ & _ & AV). pose proof WI as (I1 & I2 & I3 & I4 & _).
  assert (WP : wf_patch P) by (destruct P as [? ? [?|]]; auto).
  destruct (clip_to_spec P (im_w i) (im_h i) WP I2 I1) as (p & b & EC & Wp & HV & HF & HT).
  rewrite !clip_map, EC. cbn [bind fst snd].
  destruct p as [X Y [a|]]; [|reflexivity]. unfold pmapp; cbn [x0 y0 pimg option_map].
  assert (bt : b = true) by (destruct b; auto; discriminate (HF eq_refl)). subst b.
  destruct (HT eq_refl) as (a' & Ea' & Hx & Hy & HX & HY). injection Ea' as <-. cbn [x0 y0] in *. destruct Wp as (WA1 & WA2).
  change (get_pixel_indices (mkPatch X Y (Some (amapp snd a))) (im_w i)) with (get_pixel_indices (mkPatch X Y (Some (amapp fst a))) (im_w i)).
  destruct (get_pixel_indices (mkPatch X Y (Some (amapp fst a))) (im_w i)) as [|k pix]; [reflexivity|].
  destruct (forallb _ (k :: pix)); [|reflexivity].
  change (get_slice_in (mkPatch X Y (Some (amapp snd a))) (im_h i) (im_w i)) with (get_slice_in (mkPatch X Y (Some (amapp fst a))) (im_h i) (im_w i)).
  destruct (same_shape_clipped (mkPatch X Y (Some (amapp fst a))) (amapp fst a) i WI eq_refl) as (ys & xs & -> & SH & HW); cbn [x0 y0 ah aw amapp]; auto.
  change (same_shape (amapp snd a) (asub (im_ie i) ys xs)) with (same_shape (amapp fst a) (asub (im_ie i) ys xs)). rewrite SH.
  cbn [ah aw amapp px]. erewrite filter_same; [reflexivity|].
  intros (y, x) G. apply in_grid in G as (Gy & Gx). cbn [fst snd]. rewrite HW by (cbn [ah aw amapp]; lia). cbn [x0 y0].
  destruct (Qeq_dec (px (im_ie i) (Y + y) (X + x)) 0) as [Z0|NZ]; [right; rewrite Z0; split; ring|left].
  specialize (AV (X + x)%Z (Y + y)%Z ltac:(lia) ltac:(lia) NZ). rewrite !val_map in AV.
  specialize (HV (X + x)%Z (Y + y)%Z). unfold in_box in HV.
  replace ((0 <=? X + x) && (X + x <? im_w i) && (0 <=? Y + y) && (Y + y <? im_h i))%Z with true in HV
    by (symmetry; rewrite !andb_true_iff, !Z.leb_le, !Z.ltb_lt; lia).
  rewrite <- HV in AV. unfold val_at in AV. cbn [pimg x0 y0] in AV.
  replace ((X <=? X + x) && (X + x <? X + aw a) && (Y <=? Y + y) && (Y + y <? Y + ah a))%Z with true in AV
    by (symmetry; rewrite !andb_true_iff, !Z.leb_le, !Z.ltb_lt; lia).
  replace (Y + y - Y)%Z with y in AV by lia. replace (X + x - X)%Z with x in AV by lia. cbn in AV. injection AV as ->. reflexivity.
Qed.

Definition alike_offs (l l' : list (image * Z)) : Prop := Forall2 (fun a b => snd a = snd b /\ alike_image (fst a) (fst b)) l l'.
Lemma off_of_same l l' i i' : alike_offs l l' -> im_id i = im_id i' -> off_of l i = off_of l' i'.
Proof.
  induction 1 as [|(j, o) (j', o') l l' (E & A) F IH]; intros H; cbn [off_of fst snd] in *; auto.
  destruct A as (Ej & _). rewrite Ej, H, E, IH by auto. reflexivity.
Qed.
Lemma place_same : forall ds ds' offs offs' n, Forall2 alike_deriv ds ds' -> alike_offs offs offs' ->
  alike_offs (fst (place ds offs n)) (fst (place ds' offs' n)) /\ snd (place ds offs n) = snd (place ds' offs' n).
Proof.
  intros ds ds' offs offs' n F. revert offs offs' n. induction F as [|(d, i) (d', i') ds ds' A F IH]; intros offs offs' n O; cbn [place]; auto.
  destruct A as (_ & _ & _ & AI). cbn [snd] in AI. pose proof AI as (Eid & Eh & Ew & _). rewrite (off_of_same _ _ i i' O Eid).
  destruct (off_of offs' i'); [apply IH; auto|]. replace (npix i') with (npix i) by (unfold npix; congruence).
  apply IH. apply Forall2_app; auto.
Qed.
Lemma param_blocks_same offs offs' col : alike_offs offs offs' -> forall ds ds', Forall2 alike_deriv ds ds' ->
  param_blocks offs col ds = param_blocks offs' col ds'.
Proof.
  intros O ds ds' F. induction F as [|(d, i) (d', i') ds ds' A F IH]; cbn [param_blocks]; auto.
  rewrite IH. pose proof A as (_ & _ & _ & (Eid & _)). cbn [snd] in Eid.
  pose proof (deriv_block_same offs offs' col _ _ A (off_of_same _ _ i i' O Eid)) as E. cbn [fst snd] in E. rewrite E. reflexivity.
Qed.
Lemma all_blocks_same offs offs' : alike_offs offs offs' -> forall ds ds' col, Forall2 (Forall2 alike_deriv) ds ds' ->
  all_blocks offs col ds = all_blocks offs' col ds'.
Proof.
  intros O ds ds' col F. revert col. induction F as [|d d' ds ds' A F IH]; intros col; cbn [all_blocks]; auto.
  rewrite (param_blocks_same _ _ col O _ _ A), IH. reflexivity.
Qed.
Lemma ravel_same i i' : alike_image i i' -> Forall2 Qeq (ravel (im_chi i)) (ravel (im_chi i')).
Proof.
  intros (_ & _ & _ & _ & H & W & P). unfold ravel. rewrite <- H, <- W.
  assert (G : forall yx, In yx (grid (ah (im_chi i)) (aw (im_chi i))) -> px (im_chi i) (fst yx) (snd yx) == px (im_chi i') (fst yx) (snd yx)).
  { intros (y, x) I. apply in_grid in I. apply P; tauto. }
  revert G. induction (grid _ _) as [|t l IH]; intros G; cbn [map]; constructor; [apply G; left; auto|apply IH; intros; apply G; right; auto].
Qed.
Lemma F2_len {A} (R : A -> A -> Prop) l l' : Forall2 R l l' -> length l = length l'.
Proof. induction 1; cbn; auto. Qed.
Lemma F2_firstn {A} (R : A -> A -> Prop) l l' n : Forall2 R l l' -> Forall2 R (firstn n l) (firstn n l').
Proof. intros F. revert n. induction F; intros [|n]; cbn; constructor; auto. Qed.
Lemma F2_skipn {A} (R : A -> A -> Prop) l l' n : Forall2 R l l' -> Forall2 R (skipn n l) (skipn n l').
Proof. intros F. revert n. induction F; intros [|n]; cbn; auto. Qed.
Lemma F2_zero l l' : Forall2 Qeq l l' -> forallb (fun v => Qeq_bool v 0) l = forallb (fun v => Qeq_bool v 0) l'.
Proof. induction 1; cbn; auto. rewrite IHForall2. f_equal. apply Qeqb_comp; auto. reflexivity. Qed.
Lemma fill_same : forall offs offs' b b', alike_offs offs offs' -> Forall2 Qeq b b' -> same_res (Forall2 Qeq) (fill_chi offs b) (fill_chi offs' b').
Proof.
  intros offs offs' b b' O. revert b b'. induction O as [|(i, o) (i', o') l l' (E & A) F IH]; intros b b' B; cbn [fill_chi]; [exact B|].
  cbn [fst snd] in *. subst o'. pose proof (ravel_same _ _ A) as R. pose proof (F2_len _ _ _ R) as L. rewrite <- L.
  assert (SB : Forall2 Qeq (slice (Z.to_nat o) (Z.to_nat o + length (ravel (im_chi i))) b) (slice (Z.to_nat o) (Z.to_nat o + length (ravel (im_chi i))) b')).
  { unfold slice. first [apply F2_firstn, F2_skipn|apply F2_skipn, F2_firstn]; auto. }
  rewrite <- (F2_zero _ _ SB), <- (F2_len _ _ _ SB). destruct (forallb _ _); [|reflexivity]. destruct (_ =? _)%nat; [|reflexivity].
  apply IH. unfold set_slice. rewrite <- L. apply Forall2_app; [apply F2_firstn; auto|]. apply Forall2_app; auto. apply F2_skipn; auto.
Qed.

Lemma concat_same ds ds' : Forall2 (Forall2 alike_deriv) ds ds' -> Forall2 alike_deriv (concat ds) (concat ds').
Proof. induction 1; cbn; auto. apply Forall2_app; auto. Qed.
Definition same_opt (o o' : option lsys) : Prop :=
  match o, o' with None, None => True | Some s, Some s' => same_system s s' | _, _ => False end.

(** The least-squares system does not depend on masked pixels, neither on their
    data nor on the derivatives there; if it cannot be made, the error is the
    same. *)
Theorem C119_system : forall sqrtf scale pm ds ds' prior, Forall2 (Forall2 alike_deriv) ds ds' ->
  same_res same_opt (assemble sqrtf scale pm ds prior) (assemble sqrtf scale pm ds' prior).
Proof.
  intros sqrtf scale pm ds ds' prior F. unfold assemble.
  destruct (place_same _ _ [] [] 0 (concat_same _ _ F)) as (O & N); [constructor|].
  destruct (place (concat ds) [] 0) as (offs, n0), (place (concat ds') [] 0) as (offs', n0'); cbn [fst snd] in *. subst n0'.
  rewrite <- (all_blocks_same _ _ O _ _ 0 F), <- (F2_len _ _ _ F).
  destruct (all_blocks offs 0 ds) as [bs|e]; cbn [bind]; [|reflexivity].
  match goal with |- same_res _ (bind ?m _) _ => destruct m as [sc|e]; cbn [bind]; [|reflexivity] end.
  match goal with |- same_res _ (bind ?m _) _ => destruct m as [(nrows, b0)|e]; cbn [bind]; [|reflexivity] end.
  destruct (bs ++ _) as [|b0' all]; [exact I|].
  match goal with |- same_res _ (bind ?m _) _ => destruct m as [all'|e]; cbn [bind]; [|reflexivity] end.
  match goal with |- same_res _ (bind ?m _) _ => destruct m as [(all'', nc)|e]; cbn [bind]; [|reflexivity] end.
  eapply same_bind; [apply fill_same; [exact O|]|].
  - clear. induction b0; constructor; auto. reflexivity.
  - intros b b' B. destruct all''; [reflexivity|]. cbn. unfold same_system; cbn. auto.
Qed.
Lemma update_same sqrtf lsqr scale pm ds ds' prior : on_values lsqr -> Forall2 (Forall2 alike_deriv) ds ds' ->
  update_direction sqrtf lsqr scale pm ds prior = update_direction sqrtf lsqr scale pm ds' prior.
Proof.
  intros L F. unfold update_direction. pose proof (C119_system sqrtf scale pm ds ds' prior F) as S.
  destruct (assemble sqrtf scale pm ds prior) as [[s|]|e], (assemble sqrtf scale pm ds' prior) as [[s'|]|e']; cbn in *; try tauto; try congruence.
  rewrite (L s s' S). destruct S as (_ & _ & _ & -> & _). reflexivity.
Qed.

(** ** A whole fit *)
(** Images and models have the sizes of their inverse errors, and patches are
    arrays. *)
Definition fits (sc : scene) (os : list (obs Q)) : Prop :=
  (forall o, In o os -> 0 <= ah (o_data o) /\ 0 <= aw (o_data o) /\ ah (o_ie o) = ah (o_data o) /\ aw (o_ie o) = aw (o_data o))%Z /\
  forall p l d n, In l (sc_derivs sc p) -> In (d, n) l -> wf_patch d.
Lemma lift_same o o' m : same_unmasked o o' -> same_unmasked_ext (lift_obs o) (lift_obs o') (lift m).
Proof.
  intros (I & H & W & P). unfold same_unmasked_ext, lift_obs, lift; cbn. rewrite I. repeat split; auto.
  intros y x Hy Hx. destruct (Qeq_dec (px (o_ie o) y x) 0) as [Z0|NZ]; [right; rewrite <- I; auto|left; rewrite (P y x); auto].
Qed.
Lemma loglik_same os os' ms : Forall2 same_unmasked os os' -> eeq (loglik (map lift_obs os) (map lift ms)) (loglik (map lift_obs os') (map lift ms)).
Proof.
  intros F. unfold loglik. apply lik_eeq. revert ms. induction F as [|o o' os os' A F IH]; intros [|m ms]; cbn [map combine fst snd]; constructor.
  - apply chi_eeq, lift_same, A.
  - apply IH.
Qed.
Lemma logprob_same sc os os' p : Forall2 same_unmasked os os' -> eeq (logprob sc os p) (logprob sc os' p).
Proof.
  intros F. unfold logprob, get_log_prob. pose proof (loglik_same os os' (sc_models sc p) F) as E.
  destruct (sc_prior sc p) eqn:EP; try (cbn; exact I); cbn [bind];
    rewrite <- (isnan_eeq _ _ (eadd_eeq _ _ _ _ (eeq_refl (sc_prior sc p)) E)) || idtac;
    match goal with |- eeq (match (if isnan ?a then _ else _) with _ => _ end) (match (if isnan ?b then _ else _) with _ => _ end) =>
      assert (G : eeq a b) by (apply eadd_eeq; [apply eeq_refl|exact E]); rewrite <- (isnan_eeq _ _ G); destruct (isnan a); [exact I|exact G] end.
Qed.
Lemma nth_same os os' n : Forall2 same_unmasked os os' -> same_unmasked (nth n os (mkObs no_arr no_arr)) (nth n os' (mkObs no_arr no_arr)).
Proof.
  intros F. revert n. induction F; intros [|n]; cbn [nth]; auto; unfold same_unmasked; cbn; repeat split; auto; intros; lia.
Qed.
Lemma image_same os os' ms n : Forall2 same_unmasked os os' -> alike_image (to_image os ms n) (to_image os' ms n).
Proof.
  intros F. destruct (nth_same os os' n F) as (I & H & W & P). unfold alike_image, to_image; cbn. rewrite <- I. repeat split; auto.
  intros y x Hy Hx. destruct (Qeq_dec (px (o_ie (nth n os (mkObs no_arr no_arr))) y x) 0) as [Z0|NZ]; [rewrite Z0; ring|rewrite (P y x Hy Hx NZ); reflexivity].
Qed.
Lemma direction_same sqrtf lsqr scale sc os os' p : on_values lsqr -> fits sc os -> Forall2 same_unmasked os os' ->
  direction sqrtf lsqr scale sc os p = direction sqrtf lsqr scale sc os' p.
Proof.
  intros L (FI & FD) F. unfold direction. erewrite update_same; [reflexivity|exact L|].
  specialize (FD p). induction (sc_derivs sc p) as [|l ls IH]; cbn [map]; constructor; [|apply IH; intros; eapply FD; [right|]; eauto].
  specialize (FD l). assert (G : forall d n, In (d, n) l -> wf_patch d) by (intros; eapply FD; [left; auto|eauto]). clear - G FI F.
  induction l as [|(d, n) l IH]; cbn [map]; constructor; [|apply IH; intros; eapply G; right; eauto].
  unfold alike_deriv; cbn [fst snd]. split; [apply (G d n); left; auto|].
  split; [|split; [unfold alike_patch; auto|apply image_same; auto]].
  unfold wf_image, to_image; cbn. destruct (nth_in_or_default n os (mkObs no_arr no_arr)) as [i|E]; [apply FI in i; lia|rewrite E; cbn; lia].
Qed.

(** The chi images the optimizer takes are those of the log-likelihood. *)
Theorem C119_chi : forall os ms n y x, let o := nth n os (mkObs no_arr no_arr) in
  px (get_chi_image (lift (o_data o)) (lift (o_ie o)) (lift (nth n ms no_arr))) y x = Fin (px (im_chi (to_image os ms n)) y x).
Proof. reflexivity. Qed.

(** Tractor.optimize_loop with the default optimizer: changing the data of
    masked pixels, to any numbers, changes neither the parameters nor the number
    of steps, nor the gains. *)
Theorem C119_fit : forall sqrtf lsqr scale sc os os' alphas dchisq steps p, on_values lsqr -> fits sc os -> Forall2 same_unmasked os os' ->
  same_res (fun r r' => fst r = fst r' /\ Forall2 eeq (snd r) (snd r'))
    (optimize_loop Qplus Qmult (logprob sc os) (direction sqrtf lsqr scale sc os) alphas dchisq steps p)
    (optimize_loop Qplus Qmult (logprob sc os') (direction sqrtf lsqr scale sc os') alphas dchisq steps p).
Proof.
  intros sqrtf lsqr scale sc os os' alphas dchisq steps p L FT F. unfold optimize_loop. destruct steps; [reflexivity|].
  apply loop_same; intros q; [apply logprob_same|apply direction_same]; auto.
Qed.

(** NaN or an infinity in one masked pixel, however: the log-probability is -inf
    for all parameters, and a fit stays where it is. *)
Definition logprob_ext (prior : ext) (os : list (obs ext)) (ms : list (arr ext)) : ext :=
  match get_log_prob prior (fun _ => Ok (loglik os ms)) with Ok v => v | Err _ => NaN end.
Lemma move_len al p : forall X, length X = length p -> length (move Qplus Qmult al p X) = length p.
Proof. induction p; destruct X; cbn; intros; try discriminate; auto. Qed.
Theorem C119_nan_refuted : forall (prior : list Q -> ext) (os : list (obs ext)) (ms : list Q -> list (arr ext)) n o y x,
  nth_error os n = Some o -> (0 <= y < ah (o_data o))%Z -> (0 <= x < aw (o_data o))%Z ->
  eeq (px (o_ie o) y x) (Fin 0) -> isfinite (px (o_data o) y x) = false ->
  (forall p, exists m, nth_error (ms p) n = Some m /\ isfinite (px m y x) = true) ->
  (forall p, logprob_ext (prior p) os (ms p) = NInf) /\
  forall dir alphas dchisq steps p, (forall q X, dir q = Some X -> length X = length q) -> eleb (Fin 0) dchisq = true ->
    optimize_loop Qplus Qmult (fun q => logprob_ext (prior q) os (ms q)) dir alphas dchisq (S steps) p = Ok (p, 0%nat, [Fin 0]).
Proof.
  intros prior os ms n o y x Ho Hy Hx I D M.
  assert (N : forall p, logprob_ext (prior p) os (ms p) = NInf).
  { intros p. destruct (M p) as (m & Hm & Fm). unfold logprob_ext, get_log_prob. rewrite (nan_lik _ _ _ _ _ _ _ Ho Hm Hy Hx D Fm I).
    destruct (prior p); reflexivity. }
  split; [exact N|]. intros dir alphas dchisq steps p L C. unfold optimize_loop. cbn [opt_loop].
  assert (E : optimize Qplus Qmult (fun q => logprob_ext (prior q) os (ms q)) dir alphas p = Ok (p, Fin 0)).
  { unfold optimize. destruct (dir p) as [[|d X]|] eqn:ED; auto. apply L in ED. unfold try_updates.
    destruct alphas as [|al r]; cbn [try_loop bind].
    - unfold set_vec. rewrite Nat.eqb_refl. reflexivity.
    - assert (SV : set_vec p (move Qplus Qmult al p (d :: X)) = Ok (move Qplus Qmult al p (d :: X))) by (unfold set_vec; rewrite move_len, Nat.eqb_refl; auto).
      rewrite SV. cbn [bind]. rewrite N. cbn [isfinite negb bind]. unfold set_vec. rewrite move_len, Nat.eqb_refl by auto. reflexivity. }
  rewrite E. cbn [bind]. rewrite C. reflexivity.
Qed.

(** ** A case: one flux, two pixels, the second masked; the data there 100 or -7. *)
Section Case.
Let row (a b : Q) : arr Q := mkArr 1 2 (fun _ x => if (x =? 0)%Z then a else b).
Let sc : scene := mkScene (fun p => [row (nth 0 p 0) (nth 0 p 0)]) (fun _ => [[(mkPatch 0 0 (Some (row 1 1)), 0%nat)]]) (fun _ => Fin 0) (fun _ => None).
Let o1 : obs Q := mkObs (row 3 100) (row 1 0).
Let o2 : obs Q := mkObs (row 3 (-7)) (row 1 0).
Let solver (s : lsys) : list Q := [Qred (nth 0 (ls_b s) 0)].
Example case_meets : on_values solver /\ fits sc [o1] /\ Forall2 same_unmasked [o1] [o2].
Proof.
  split; [|split; [split|]].
  - intros s s' (_ & _ & _ & _ & F). unfold solver. f_equal. apply Qred_complete. destruct F; cbn; auto. reflexivity.
  - intros o [<-|[]]. cbn. lia.
  - intros p l d n [<-|[]] [H|[]]. injection H as <- <-. cbn. unfold wf_arr; cbn. lia.
  - constructor; [|constructor]. unfold same_unmasked. cbn. repeat split; auto. intros y x _ Hx H.
    destruct (x =? 0)%Z; auto. elim H. reflexivity.
Qed.
Let run o := optimize_loop Qplus Qmult (logprob sc [o]) (direction (fun v => v) solver false sc [o]) [1] (Fin (1 # 100)) 5 [0].
Example case_runs :
  match run o1, run o2 with
  | Ok (p, n, g), Ok (p', n', g') => map Qred p = [3] /\ map Qred p' = [3] /\ n = 1%nat /\ n' = 1%nat
  | _, _ => False
  end.
Proof. vm_compute. auto. Qed.
(** NaN there: no parameters have a finite log-probability. *)
Let bad : obs ext := mkObs (mkArr 1 2 (fun _ x => if (x =? 0)%Z then Fin 3 else NaN)) (lift (row 1 0)).
Example case_nan : logprob_ext (Fin 0) [bad] [lift (row 3 3)] = NInf /\ eeq (logprob sc [o1] [3]) (Fin 0).
Proof. split; vm_compute; reflexivity. Qed.
End Case.

Print Assumptions C119_likelihood.
Print Assumptions C119_blank.
Print Assumptions C119_system.
Print Assumptions C119_chi.
Print Assumptions C119_fit.
Print Assumptions C119_nan_refuted.
