(** C128: two exposures of the same pixels and their inverse-variance weighted mean
    give the same fit. *)
From Coq Require Import String List ZArith QArith Qabs Bool Lia Lqa Permutation.
From Verif Require Import Base Ext ParamsModel ParamsSpec ParamsProofs ParamsProps PatchModel PatchSpec PriorModel PriorProps LsqModel LsqSpec LsqProps.
From Verif Require EngineProps.
From Verif Require Import EngineModel OptimModel OptimProps MaskedProps OrderProps UnitsProps FreezeProps LinearProps CutProps TrimProps.
Import ListNotations.
Open Scope Q_scope.

(** ** What is claimed *)
(** [c] has the shape of [a] and [b], in each pixel the sum of their weights (the
    squares of the inverse errors) and their weighted mean. *)
Definition coadd (a b c : obs Q) : Prop :=
  ah (o_data a) = ah (o_data c) /\ aw (o_data a) = aw (o_data c) /\ ah (o_data b) = ah (o_data c) /\ aw (o_data b) = aw (o_data c) /\
  forall Y X, (0 <= Y < ah (o_data c))%Z -> (0 <= X < aw (o_data c))%Z ->
    qsq (px (o_ie c) Y X) == qsq (px (o_ie a) Y X) + qsq (px (o_ie b) Y X) /\
    px (o_data c) Y X * qsq (px (o_ie c) Y X) == px (o_data a) Y X * qsq (px (o_ie a) Y X) + px (o_data b) Y X * qsq (px (o_ie b) Y X).
(** Images j and j+1 have the derivatives that the one image j has. *)
Definition joined_derivs (j : nat) (c : obs Q) (ns ns' : list (list (patch Q * nat))) : Prop :=
  length ns' = length ns /\ forall k X Y, (k < length ns)%nat ->
    (forall n, (n < j)%nat -> deriv_at ns' k n X Y == deriv_at ns k n X Y) /\
    (forall n, (j < n)%nat -> deriv_at ns' k n X Y == deriv_at ns k (S n) X Y) /\
    ((0 <= X < aw (o_data c))%Z -> (0 <= Y < ah (o_data c))%Z ->
      deriv_at ns' k j X Y == deriv_at ns k j X Y /\ deriv_at ns' k j X Y == deriv_at ns k (S j) X Y).

(** ** Sums *)
Lemma dsum_add h w f g : dsum h w f + dsum h w g == dsum h w (fun y x => f y x + g y x).
Proof. unfold dsum. rewrite <- qsum_add. apply qsum_ext. intros y _. rewrite <- qsum_add. reflexivity. Qed.
(** What the scatter between the exposures adds; neither models nor derivatives
    enter. *)
Definition scatter (a b c : obs Q) : Q := dsum (Z.to_nat (ah (o_data c))) (Z.to_nat (aw (o_data c))) (fun Y X =>
  qsq (px (o_data c) Y X * px (o_ie c) Y X) - qsq (px (o_data a) Y X * px (o_ie a) Y X) - qsq (px (o_data b) Y X * px (o_ie b) Y X)).
Lemma chi2_coadd a b c m g ga gb : coadd a b c ->
  (forall X Y, (0 <= X < aw (o_data c))%Z -> (0 <= Y < ah (o_data c))%Z -> g X Y == ga X Y /\ g X Y == gb X Y) ->
  chi2 (c, m) g == chi2 (a, m) ga + chi2 (b, m) gb + scatter a b c.
Proof.
  intros (A1 & A2 & B1 & B2 & H) G. unfold chi2, scatter, height, width. cbn [fst snd]. rewrite A1, A2, B1, B2, !dsum_add. apply dsum_ext. intros Y X HY HX.
  destruct (H Y X) as (W & D); [lia|lia|]. destruct (G X Y) as (Ga & Gb); [lia|lia|]. unfold residual. cbn [fst snd]. rewrite <- Ga, <- Gb. unfold qsq in *.
  set (ic := px (o_ie c) Y X) in *. set (ia := px (o_ie a) Y X) in *. set (ib := px (o_ie b) Y X) in *.
  set (dc := px (o_data c) Y X) in *. set (da := px (o_data a) Y X) in *. set (db := px (o_data b) Y X) in *. set (u := g X Y + px m Y X).
  transitivity (u * u * (ic * ic) - 2 * u * (dc * (ic * ic)) + dc * ic * (dc * ic)); [unfold u; ring|].
  rewrite W at 1. rewrite D. unfold u. ring.
Qed.

(** ** C128 *)
Lemma join_all a b c m pre post G G' : coadd a b c -> let j := length pre in
  (forall n X Y, (n < j)%nat -> G' n X Y == G n X Y) -> (forall n X Y, (j < n)%nat -> G' n X Y == G (S n) X Y) ->
  (forall X Y, (0 <= X < aw (o_data c))%Z -> (0 <= Y < ah (o_data c))%Z -> G' j X Y == G j X Y /\ G' j X Y == G (S j) X Y) ->
  chi_all 0 (pre ++ (c, m) :: post) G' == chi_all 0 (pre ++ (a, m) :: (b, m) :: post) G + scatter a b c.
Proof.
  intros H j A B C. rewrite !chi_all_app. cbn [plus chi_all]. fold j. rewrite (chi2_coadd a b c m _ _ _ H C).
  rewrite (chi_all_ext pre G' G 0 0) by (intros i X Y L; apply A; exact L).
  rewrite (chi_all_ext post G' G (S j) (S (S j))) by (intros i X Y L; cbn; apply B; lia). ring.
Qed.
(** The log-likelihoods differ by a number that depends neither on the models nor on
    the other images. *)
Theorem C128_likelihood : forall a b c, coadd a b c -> exists K, forall pre post m,
  let two := pre ++ (a, m) :: (b, m) :: post in let one := pre ++ (c, m) :: post in
  exists v w, loglik (map lift_obs (map fst two)) (map lift (map snd two)) = Fin v /\
    loglik (map lift_obs (map fst one)) (map lift (map snd one)) = Fin w /\ w == v + K.
Proof.
  intros a b c H. exists (- (1 # 2) * scatter a b c). intros pre post m two one.
  destruct (lik_all two) as (v & E & V). destruct (lik_all one) as (w & E' & V'). exists v, w. split; [exact E|]. split; [exact E'|].
  rewrite V, V'. unfold one, two. rewrite (join_all a b c m pre post (fun _ _ _ => 0) (fun _ _ _ => 0) H); [ring| | |]; intros; try reflexivity. split; reflexivity.
Qed.
(** The least-squares systems have the same solutions. *)
Theorem C128_step : forall sqrtf nm subs liq a b c m pre post ns ns' imgs imgs',
  let t := PMulti nm subs liq in let two := pre ++ (a, m) :: (b, m) :: post in let one := pre ++ (c, m) :: post in
  let ds := on_images (map fst two) (map snd two) ns in let ds' := on_images (map fst one) (map snd one) ns' in
  coadd a b c -> joined_derivs (length pre) c ns ns' ->
  (forall p n, In (p, n) (concat ns) -> (n < length two)%nat) -> (forall p n, In (p, n) (concat ns') -> (n < length one)%nat) ->
  wf t -> priors_ok t -> number_of_params t = length ns -> derivs_ok ds -> derivs_ok ds' ->
  images_of imgs ds -> images_of imgs' ds' -> (total imgs <= 2147483648)%Z -> (total imgs' <= 2147483648)%Z ->
  forall ox s s', prior_derivs t = Ok ox -> assemble sqrtf false None ds ox = Ok (Some s) -> assemble sqrtf false None ds' ox = Ok (Some s') ->
  (forall d, length d = length ns -> objective s' d - objective s' (repeat 0 (length ns)) == objective s d - objective s (repeat 0 (length ns))) /\
  forall d, solves s' d <-> solves s d.
Proof.
  intros sqrtf nm subs liq a b c m pre post ns ns' imgs imgs' t two one ds ds' H (LN & CD) HN HN' W O N D D' IM IM' TB TB' ox s s' EX ES ES'.
  apply (same_up_to (scatter a b c) sqrtf nm subs liq two one ns ns' imgs imgs') with (ox := ox); auto.
  intros d. apply join_all; [exact H| | |].
  - intros; unfold lin_change; rewrite LN; apply qsum_ext; intros k I; apply in_seq in I; apply Qmult_comp; [reflexivity|]. destruct (CD k X Y) as (A & _); [lia|]. apply A. auto.
  - intros; unfold lin_change; rewrite LN; apply qsum_ext; intros k I; apply in_seq in I; apply Qmult_comp; [reflexivity|]. destruct (CD k X Y) as (_ & A & _); [lia|]. apply A. auto.
  - intros X Y HX HY. unfold lin_change; rewrite LN; split; apply qsum_ext; intros k I; apply in_seq in I; (apply Qmult_comp; [reflexivity|]);
      destruct (CD k X Y) as (_ & _ & A); [lia| |lia|]; apply A; auto.
Qed.

(** ** A case: weights 9 and 16 make 25. *)
Section Case.
Let nn := mkNames [] [].
Let t := PMulti nn [PFixed; PList (mkPlist nn [10; 20] [true; true] [None; None] [None; None] [None; None] None [mkPrior "flux" 0 11 1])] [true; true].
Let row (a b : Q) : arr Q := mkArr 1 2 (fun _ x => if (x =? 0)%Z then a else b).
Let a : obs Q := mkObs (row 10 30) (row 3 3).
Let b : obs Q := mkObs (row 35 30) (row 4 0).
Let c : obs Q := mkObs (row 26 30) (row 5 3).
Let m : arr Q := row 10 30.
Let ns : list (list (patch Q * nat)) := map (fun p => [(p, 0%nat); (p, 1%nat)]) [mkPatch 0 0 (Some (row 1 1)); mkPatch 0 0 (Some (row 0 1))].
Let ns' : list (list (patch Q * nat)) := map (fun p => [(p, 0%nat)]) [mkPatch 0 0 (Some (row 1 1)); mkPatch 0 0 (Some (row 0 1))].
Example case_coadd : coadd a b c /\ joined_derivs 0 c ns ns'.
Proof.
  split.
  - do 4 (split; [reflexivity|]). intros Y X HY HX. cbn in HX. cbn. assert (EX : X = 0%Z \/ X = 1%Z) by lia. destruct EX as [-> | ->]; split; reflexivity.
  - split; [reflexivity|]. intros k X Y L. cbn in L. split; [intros; lia|]. split.
    + intros n Hn. destruct k as [|[|]]; [| |lia]; unfold deriv_at; destruct n as [|n]; try lia; reflexivity.
    + intros _ _. destruct k as [|[|]]; [| |lia]; unfold deriv_at, qsum; cbn [nth ns ns' map fst snd Nat.eqb fold_right]; split; ring.
Qed.
Example case_ok : derivs_ok (on_images [a; b] [m; m] ns) /\ derivs_ok (on_images [c] [m] ns').
Proof.
  split; split.
  1, 3: intros p i H; cbn in H; decompose [or] H; try contradiction;
      match goal with E : (_, _) = (_, _) |- _ => injection E as <- <- end; vm_compute; repeat split; auto; discriminate.
  all: intros p i q j H H' E; cbn in H, H'; decompose [or] H; try contradiction; decompose [or] H'; try contradiction;
      repeat match goal with E : (_, _) = (_, _) |- _ => injection E as <- <- end; auto; discriminate.
Qed.
Let values os ms ns :=
  match prior_derivs t with Ok ox => match assemble (fun q => q) false None (on_images os ms ns) ox with
    | Ok (Some s) => map (fun d => Qred (objective s d)) [[0; 0]; [16; -(16)]; [1; 2]] | _ => [] end | _ => [] end.
Example case_values : map (fun v => Qred (v - nth 0 (values [a; b] [m; m] ns) 0)) (values [a; b] [m; m] ns) =
  map (fun v => Qred (v - nth 0 (values [c] [m] ns') 0)) (values [c] [m] ns') /\ length (values [c] [m] ns') = 3%nat.
Proof. vm_compute. auto. Qed.
End Case.

Print Assumptions C128_likelihood.
Print Assumptions C128_step.
