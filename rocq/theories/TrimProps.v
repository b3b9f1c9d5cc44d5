(** C127: masked images, and masked parts of images, can be left out. *)
From Coq Require Import String List ZArith QArith Qabs Bool Lia Lqa Permutation.
From Verif Require Import Base Ext ParamsModel ParamsSpec ParamsProofs ParamsProps PatchModel PatchSpec PriorModel PriorProps LsqModel LsqSpec LsqProps.
From Verif Require EngineProps.
From Verif Require Import EngineModel OptimModel OptimProps MaskedProps OrderProps UnitsProps FreezeProps LinearProps CutProps.
Import ListNotations.
Open Scope Q_scope.

(** ** What is claimed *)
(** No pixel of the image has a weight. *)
Definition all_masked (om : obs Q * arr Q) : Prop :=
  forall Y X, (0 <= Y < height om)%Z -> (0 <= X < width om)%Z -> px (o_ie (fst om)) Y X == 0.
(** Image j is gone, and those after it have moved up. *)
Definition dropped_derivs (j : nat) (ns ns' : list (list (patch Q * nat))) : Prop :=
  length ns' = length ns /\ forall c X Y, (c < length ns)%nat ->
    (forall n, (n < j)%nat -> deriv_at ns' c n X Y == deriv_at ns c n X Y) /\
    (forall n, (j <= n)%nat -> deriv_at ns' c n X Y == deriv_at ns c (S n) X Y).
(** The part of an image that is kept, and the part that is not. *)
Definition kept (first v : bool) (k : Z) (om : obs Q * arr Q) := if first then first_part v k om else second_part v k om.
Definition trimmed (first v : bool) (k : Z) (om : obs Q * arr Q) := if first then second_part v k om else first_part v k om.
(** Of image j the kept part is left, with this part of the derivatives. *)
Definition trimmed_derivs (first v : bool) (k : Z) (j : nat) (om : obs Q * arr Q) (ns ns' : list (list (patch Q * nat))) : Prop :=
  length ns' = length ns /\ forall c X Y, (c < length ns)%nat ->
    (forall n, n <> j -> deriv_at ns' c n X Y == deriv_at ns c n X Y) /\
    ((0 <= X < width (kept first v k om))%Z -> (0 <= Y < height (kept first v k om))%Z ->
      deriv_at ns' c j X Y == deriv_at ns c j (if first then X else if v then k + X else X)%Z (if first then Y else if v then Y else k + Y)%Z).

(** ** Two sets of images with the same linearised chi-squared, up to a constant *)
Lemma same_up_to : forall K sqrtf nm subs liq (whole cut : list (obs Q * arr Q)) ns ns' imgs imgs',
  let t := PMulti nm subs liq in
  let ds := on_images (map fst whole) (map snd whole) ns in let ds' := on_images (map fst cut) (map snd cut) ns' in
  (forall d, chi_all 0 cut (fun n => lin_change ns' n d) == chi_all 0 whole (fun n => lin_change ns n d) + K) -> length ns' = length ns ->
  (forall p n, In (p, n) (concat ns) -> (n < length whole)%nat) -> (forall p n, In (p, n) (concat ns') -> (n < length cut)%nat) ->
  wf t -> priors_ok t -> number_of_params t = length ns -> derivs_ok ds -> derivs_ok ds' ->
  images_of imgs ds -> images_of imgs' ds' -> (total imgs <= 2147483648)%Z -> (total imgs' <= 2147483648)%Z ->
  forall ox s s', prior_derivs t = Ok ox -> assemble sqrtf false None ds ox = Ok (Some s) -> assemble sqrtf false None ds' ox = Ok (Some s') ->
  (forall d, length d = length ns -> objective s' d - objective s' (repeat 0 (length ns)) == objective s d - objective s (repeat 0 (length ns))) /\
  forall d, solves s' d <-> solves s d.
Proof.
  intros K sqrtf nm subs liq whole cut ns ns' imgs imgs' t ds ds' SAME LN HN HN' W O N D D' IM IM' TB TB' ox s s' EX ES ES'.
  assert (LD : length ds = length ns) by apply map_length. assert (LD' : length ds' = length ns) by (unfold ds', on_images; rewrite map_length; exact LN).
  destruct (C33_objective sqrtf nm subs liq ds W O ltac:(fold t; congruence) D) as (im1 & IM1 & H).
  destruct (C33_objective sqrtf nm subs liq ds' W O ltac:(fold t; congruence) D') as (im2 & IM2 & H').
  assert (P1 : Permutation im1 imgs) by (eapply images_perm; eauto). assert (P2 : Permutation im2 imgs') by (eapply images_perm; eauto).
  assert (T1 : (total im1 <= 2147483648)%Z) by (rewrite (total_perm _ _ P1); auto). assert (T2 : (total im2 <= 2147483648)%Z) by (rewrite (total_perm _ _ P2); auto).
  specialize (H T1 ox s EX ES). specialize (H' T2 ox s' EX ES'). cbv zeta in H, H'. rewrite LD in H. rewrite LD' in H'.
  assert (NS : ls_ncols s = length ns /\ ls_ncols s' = length ns).
  { destruct (C33_layout sqrtf nm subs liq ds W O ltac:(fold t; congruence) D) as (i1 & I1 & KK). destruct KK as (o1 & r1 & A1 & B1 & KK).
    { rewrite (total_perm i1 im1); auto. eapply images_perm; eauto. }
    fold t in A1. rewrite EX in A1. injection A1 as <-. rewrite ES in B1. injection B1 as <-. split; [rewrite <- LD; apply KK|].
    destruct (C33_layout sqrtf nm subs liq ds' W O ltac:(fold t; congruence) D') as (i2 & I2 & K2).
    destruct K2 as (o2 & r2 & A2 & B2 & K2).
    { rewrite (total_perm i2 im2); auto. eapply images_perm; eauto. }
    fold t in A2. rewrite EX in A2. injection A2 as <-. rewrite ES' in B2. injection B2 as <-. rewrite <- LD'. apply K2. }
  destruct NS as (N1 & N2).
  destruct (all_images (map fst whole) (map snd whole) ns im1) as (C & HC); [rewrite map_length; exact HN|exact IM1|].
  destruct (all_images (map fst cut) (map snd cut) ns' im2) as (C' & HC'); [rewrite map_length; exact HN'|exact IM2|].
  assert (EQ : forall d, linear_chisq im2 ds' d + C' == linear_chisq im1 ds d + C + K) by (intros d; unfold ds, ds'; rewrite <- HC, <- HC', !chisq_all; apply SAME).
  assert (KEY : forall d, length d = length ns -> objective s' d - objective s' (repeat 0 (length ns)) == objective s d - objective s (repeat 0 (length ns))).
  { intros d Ld. assert (Lt : length (get_params t) = length ns) by (rewrite <- number_get; auto).
    assert (SL : forall a b : list Q, length a = length b -> length (step_by a b) = length b).
    { intros a b E. unfold step_by. rewrite map_length, combine_length. lia. }
    destruct (C02_set_params_writes_exactly_thawed 0 t (step_by (get_params t) d) W ltac:(discriminate)) as (t1 & E1 & _); [rewrite SL; congruence|].
    destruct (H d t1 ltac:(congruence) E1) as (La & Lb & HLa & HLb & OB). destruct (H' d t1 ltac:(congruence) E1) as (La' & Lb' & HLa' & HLb' & OB').
    assert (La' = La) by congruence. assert (Lb' = Lb) by congruence. subst La' Lb'.
    pose proof (EQ d) as Q1. pose proof (EQ (repeat 0 (length ns))) as Q2. lra. }
  split; [exact KEY|]. intros d. unfold solves. rewrite N1, N2.
  split; intros (A & B); (split; [exact A|]); intros e Le; specialize (B e Le).
  - pose proof (KEY d A). pose proof (KEY e ltac:(congruence)). lra.
  - pose proof (KEY d A). pose proof (KEY e ltac:(congruence)). lra.
Qed.
Lemma same_solutions : forall sqrtf nm subs liq (whole cut : list (obs Q * arr Q)) ns ns' imgs imgs',
  let t := PMulti nm subs liq in
  let ds := on_images (map fst whole) (map snd whole) ns in let ds' := on_images (map fst cut) (map snd cut) ns' in
  (forall d, chi_all 0 cut (fun n => lin_change ns' n d) == chi_all 0 whole (fun n => lin_change ns n d)) -> length ns' = length ns ->
  (forall p n, In (p, n) (concat ns) -> (n < length whole)%nat) -> (forall p n, In (p, n) (concat ns') -> (n < length cut)%nat) ->
  wf t -> priors_ok t -> number_of_params t = length ns -> derivs_ok ds -> derivs_ok ds' ->
  images_of imgs ds -> images_of imgs' ds' -> (total imgs <= 2147483648)%Z -> (total imgs' <= 2147483648)%Z ->
  forall ox s s', prior_derivs t = Ok ox -> assemble sqrtf false None ds ox = Ok (Some s) -> assemble sqrtf false None ds' ox = Ok (Some s') ->
  (forall d, length d = length ns -> objective s' d - objective s' (repeat 0 (length ns)) == objective s d - objective s (repeat 0 (length ns))) /\
  forall d, solves s' d <-> solves s d.
Proof.
  intros sqrtf nm subs liq whole cut ns ns' imgs imgs' t ds ds' SAME. apply (same_up_to 0). intros d. rewrite SAME. ring.
Qed.

(** ** Masked images *)
Lemma dsum_zero h w f : (forall y x, (0 <= y < Z.of_nat h)%Z -> (0 <= x < Z.of_nat w)%Z -> f y x == 0) -> dsum h w f == 0.
Proof.
  intros H. rewrite (dsum_ext h w f (fun _ _ => 0) H). unfold dsum.
  assert (Z0 : forall (A : Type) (g : A -> Q) l, (forall x, g x == 0) -> qsum (map g l) == 0).
  { intros A g l G. unfold qsum. induction l as [|x l IH]; cbn [map fold_right]; [reflexivity|]. rewrite G, IH. reflexivity. }
  apply Z0. intros y. apply Z0. reflexivity.
Qed.
Lemma chi2_masked om g : all_masked om -> chi2 om g == 0.
Proof. intros H. apply dsum_zero. intros y x A B. unfold residual, qsq. rewrite (H y x) by lia. ring. Qed.
Lemma drop_all om pre post G G' : all_masked om ->
  (forall n X Y, (n < length pre)%nat -> G' n X Y == G n X Y) -> (forall n X Y, (length pre <= n)%nat -> G' n X Y == G (S n) X Y) ->
  chi_all 0 (pre ++ post) G' == chi_all 0 (pre ++ om :: post) G.
Proof.
  intros H A B. rewrite !chi_all_app. cbn [plus chi_all]. rewrite (chi2_masked om) by exact H. rewrite Qplus_0_l. apply Qplus_comp.
  - apply chi_all_ext. intros i X Y L. apply A. exact L.
  - apply chi_all_ext. intros i X Y L. cbn. apply B. lia.
Qed.
Lemma trim_all first v k om pre post G G' : (0 <= k <= size v om)%Z -> all_masked (trimmed first v k om) ->
  (forall n X Y, n <> length pre -> G' n X Y == G n X Y) ->
  (forall X Y, (0 <= X < width (kept first v k om))%Z -> (0 <= Y < height (kept first v k om))%Z ->
     G' (length pre) X Y == G (length pre) (if first then X else if v then k + X else X)%Z (if first then Y else if v then Y else k + Y)%Z) ->
  chi_all 0 (pre ++ kept first v k om :: post) G' == chi_all 0 (pre ++ om :: post) G.
Proof.
  intros Hk H A B. rewrite !chi_all_app. cbn [plus chi_all]. apply Qplus_comp; [apply chi_all_ext; intros i X Y L; apply A; cbn; lia|].
  apply Qplus_comp; [|apply chi_all_ext; intros i X Y L; apply A; cbn; lia].
  rewrite (chi2_ext _ _ _ B), (chi2_cut v k om (G (length pre)) Hk). destruct first; cbn [kept trimmed] in *; rewrite (chi2_masked _ _ H), ?Qplus_0_r, ?Qplus_0_l; reflexivity.
Qed.

(** ** C127 *)
(** A masked image can be left out: same log-likelihood. *)
Theorem C127_likelihood : forall pre om post, all_masked om ->
  eeq (loglik (map lift_obs (map fst (pre ++ post))) (map lift (map snd (pre ++ post))))
      (loglik (map lift_obs (map fst (pre ++ om :: post))) (map lift (map snd (pre ++ om :: post)))).
Proof.
  intros pre om post H. destruct (lik_all (pre ++ post)) as (q & -> & V). destruct (lik_all (pre ++ om :: post)) as (q' & -> & V'). cbn. rewrite V, V'.
  apply Qmult_comp; [reflexivity|]. apply drop_all; auto; reflexivity.
Qed.
(** The same for masked rows or columns at an edge of an image. *)
Theorem C127_trim_likelihood : forall first v k pre om post, (0 <= k <= size v om)%Z -> all_masked (trimmed first v k om) ->
  let trim := pre ++ kept first v k om :: post in
  eeq (loglik (map lift_obs (map fst trim)) (map lift (map snd trim)))
      (loglik (map lift_obs (map fst (pre ++ om :: post))) (map lift (map snd (pre ++ om :: post)))).
Proof.
  intros first v k pre om post Hk H trim. destruct (lik_all trim) as (q & -> & V). destruct (lik_all (pre ++ om :: post)) as (q' & -> & V'). cbn. rewrite V, V'.
  apply Qmult_comp; [reflexivity|]. apply trim_all; auto; reflexivity.
Qed.
(** The least-squares systems have the same solutions. *)
Theorem C127_step : forall sqrtf nm subs liq pre om post ns ns' imgs imgs',
  let t := PMulti nm subs liq in let whole := pre ++ om :: post in let rest := pre ++ post in
  let ds := on_images (map fst whole) (map snd whole) ns in let ds' := on_images (map fst rest) (map snd rest) ns' in
  all_masked om -> dropped_derivs (length pre) ns ns' ->
  (forall p n, In (p, n) (concat ns) -> (n < length whole)%nat) -> (forall p n, In (p, n) (concat ns') -> (n < length rest)%nat) ->
  wf t -> priors_ok t -> number_of_params t = length ns -> derivs_ok ds -> derivs_ok ds' ->
  images_of imgs ds -> images_of imgs' ds' -> (total imgs <= 2147483648)%Z -> (total imgs' <= 2147483648)%Z ->
  forall ox s s', prior_derivs t = Ok ox -> assemble sqrtf false None ds ox = Ok (Some s) -> assemble sqrtf false None ds' ox = Ok (Some s') ->
  forall d, solves s' d <-> solves s d.
Proof.
  intros sqrtf nm subs liq pre om post ns ns' imgs imgs' t whole rest ds ds' M (LN & CD) HN HN' W O N D D' IM IM' TB TB' ox s s' EX ES ES'.
  apply (same_solutions sqrtf nm subs liq whole rest ns ns' imgs imgs') with (ox := ox); auto.
  intros d. apply drop_all; [exact M| |].
  all: intros; unfold lin_change; rewrite LN; apply qsum_ext; intros c I; apply in_seq in I; apply Qmult_comp; [reflexivity|]; destruct (CD c X Y) as (A & B); [lia|].
  - apply A. auto.
  - apply B. auto.
Qed.
Theorem C127_trim : forall sqrtf nm subs liq first v k pre om post ns ns' imgs imgs',
  let t := PMulti nm subs liq in let whole := pre ++ om :: post in let trim := pre ++ kept first v k om :: post in
  let ds := on_images (map fst whole) (map snd whole) ns in let ds' := on_images (map fst trim) (map snd trim) ns' in
  (0 <= k <= size v om)%Z -> all_masked (trimmed first v k om) -> trimmed_derivs first v k (length pre) om ns ns' ->
  (forall p n, In (p, n) (concat ns) -> (n < length whole)%nat) -> (forall p n, In (p, n) (concat ns') -> (n < length trim)%nat) ->
  wf t -> priors_ok t -> number_of_params t = length ns -> derivs_ok ds -> derivs_ok ds' ->
  images_of imgs ds -> images_of imgs' ds' -> (total imgs <= 2147483648)%Z -> (total imgs' <= 2147483648)%Z ->
  forall ox s s', prior_derivs t = Ok ox -> assemble sqrtf false None ds ox = Ok (Some s) -> assemble sqrtf false None ds' ox = Ok (Some s') ->
  forall d, solves s' d <-> solves s d.
Proof.
  intros sqrtf nm subs liq first v k pre om post ns ns' imgs imgs' t whole trim ds ds' Hk M (LN & CD) HN HN' W O N D D' IM IM' TB TB' ox s s' EX ES ES'.
  apply (same_solutions sqrtf nm subs liq whole trim ns ns' imgs imgs') with (ox := ox); auto.
  intros d. apply trim_all; [exact Hk|exact M| |].
  all: intros; unfold lin_change; rewrite LN; apply qsum_ext; intros c I; apply in_seq in I; apply Qmult_comp; [reflexivity|]; destruct (CD c X Y) as (A & B); [lia|].
  - apply A. auto.
  - apply B; auto.
Qed.
(** Derivatives as asked for: the patches of the remaining images, renumbered; the
    patches themselves when the first part is kept, moved ones when the second is. *)
Definition without (j : nat) (ns : list (list (patch Q * nat))) : list (list (patch Q * nat)) :=
  map (flat_map (fun e => if (snd e <? j)%nat then [e] else if (snd e =? j)%nat then [] else [(fst e, pred (snd e))])) ns.
Theorem C127_derivs : forall j ns, dropped_derivs j ns (without j ns).
Proof.
  intros j ns. split; [apply map_length|]. intros c X Y _. unfold deriv_at, without.
  assert (NT : forall (g : list (patch Q * nat) -> list (patch Q * nat)), g [] = [] -> nth c (map g ns) [] = g (nth c ns [])).
  { intros g G. rewrite <- G at 1. apply map_nth. }
  rewrite NT by reflexivity. clear NT.
  split; intros; rewrite qsum_concat; apply qsum_ext; intros [p i] _; cbn [fst snd].
  all: destruct (Nat.ltb_spec i j); [|destruct (Nat.eqb_spec i j)]; cbn [map qsum fold_right fst snd].
  all: repeat match goal with |- context [(?a =? ?b)%nat] => destruct (Nat.eqb_spec a b); try lia end; ring.
Qed.
Definition trim_moved (first v : bool) (k : Z) (j : nat) (ns : list (list (patch Q * nat))) : list (list (patch Q * nat)) :=
  if first then ns else map (map (fun e => if (snd e =? j)%nat then (moved v k (fst e), j) else e)) ns.
Theorem C127_trim_derivs : forall first v k j om ns, trimmed_derivs first v k j om ns (trim_moved first v k j ns).
Proof.
  intros [|] v k j om ns; unfold trim_moved; [split; [reflexivity|]; intros c X Y _; split; reflexivity|].
  split; [apply map_length|]. intros c X Y _. unfold deriv_at.
  assert (NT : forall (g : list (patch Q * nat) -> list (patch Q * nat)), g [] = [] -> nth c (map g ns) [] = g (nth c ns [])).
  { intros g G. rewrite <- G at 1. apply map_nth. }
  rewrite NT by reflexivity. clear NT.
  split; intros; rewrite map_map; apply qsum_ext; intros [p i] _; cbn [fst snd]; destruct (Nat.eqb_spec i j); cbn [fst snd]; rewrite ?moved_at.
  all: repeat match goal with |- context [(?a =? ?b)%nat] => destruct (Nat.eqb_spec a b); try lia end; reflexivity.
Qed.

(** ** A case: the second column of an image is masked, and a third image wholly. *)
Section Case.
Let nn := mkNames [] [].
Let t := PMulti nn [PFixed; PList (mkPlist nn [10; 20] [true; true] [None; None] [None; None] [None; None] None [mkPrior "flux" 0 11 1])] [true; true].
Let row (a b : Q) : arr Q := mkArr 1 2 (fun _ x => if (x =? 0)%Z then a else b).
Let om : obs Q * arr Q := (mkObs (row 11 99) (row 1 0), row 10 30).
Let other : obs Q * arr Q := (mkObs (row 11 33) (row 1 2), row 10 30).
Let bad : obs Q * arr Q := (mkObs (row 77 88) (row 0 0), row 10 30).
Let ns : list (list (patch Q * nat)) := map (fun p => [(p, 0%nat); (p, 1%nat); (p, 2%nat)]) [mkPatch 0 0 (Some (row 1 1)); mkPatch 0 0 (Some (row 0 1))].
Let whole := [other; bad; om].
Example case_masked : all_masked bad /\ all_masked (trimmed true true 1 om) /\ ~ all_masked om.
Proof.
  split; [|split].
  - intros Y X _ HX. cbn. destruct (X =? 0)%Z; reflexivity.
  - intros Y X _ HX. cbn in HX |- *. assert (X = 0%Z) by lia. subst. reflexivity.
  - intros H. specialize (H 0%Z 0%Z ltac:(cbn; lia) ltac:(cbn; lia)). discriminate.
Qed.
Example case_ok : derivs_ok (on_images (map fst whole) (map snd whole) ns).
Proof.
  split.
  - intros p i H. cbn in H. decompose [or] H; try contradiction;
      match goal with E : (_, _) = (_, _) |- _ => injection E as <- <- end; vm_compute; repeat split; auto; discriminate.
  - intros p i q j H H' E. cbn in H, H'. decompose [or] H; try contradiction; decompose [or] H'; try contradiction;
      repeat match goal with E : (_, _) = (_, _) |- _ => injection E as <- <- end; auto; discriminate.
Qed.
Let values (l : list (obs Q * arr Q)) ns := 
  match prior_derivs t with Ok ox => match assemble (fun q => q) false None (on_images (map fst l) (map snd l) ns) ox with
    | Ok (Some s) => map (fun d => Qred (objective s d)) [[1; 2]; [3; 1]] | _ => [] end | _ => [] end.
Example case_same : values whole ns = [0; 16] /\ values ([other] ++ [om]) (without 1 ns) = [0; 16] /\
  values ([other; bad] ++ kept true true 1 om :: []) ns = [0; 16].
Proof. vm_compute. auto. Qed.
End Case.

Print Assumptions C127_likelihood.
Print Assumptions C127_trim_likelihood.
Print Assumptions C127_step.
Print Assumptions C127_trim.
Print Assumptions C127_derivs.
Print Assumptions C127_trim_derivs.
