(** C126: cutting an image in two (Image.subimage) changes neither the
    log-likelihood nor the solutions of the least-squares system. *)
From Coq Require Import String List ZArith QArith Qabs Bool Lia Lqa Permutation.
From Verif Require Import Base Ext ParamsModel ParamsSpec ParamsProofs ParamsProps PatchModel PatchSpec PriorModel PriorProps LsqModel LsqSpec LsqProps.
From Verif Require EngineProps ShiftModel.
From Verif Require Import EngineModel OptimModel OptimProps MaskedProps OrderProps UnitsProps FreezeProps LinearProps.
Import ListNotations.
Open Scope Q_scope.

(** ** What is claimed *)
(** The slice [y0:y0+h, x0:x0+w] of an array (image.py 82-92, data[slc], inverr[slc]). *)
Definition slice (y0 x0 h w : Z) (a : arr Q) : arr Q := mkArr h w (fun y x => px a (y0 + y)%Z (x0 + x)%Z).
Definition slice_obs (y0 x0 h w : Z) (om : obs Q * arr Q) : obs Q * arr Q :=
  (mkObs (slice y0 x0 h w (o_data (fst om))) (slice y0 x0 h w (o_ie (fst om))), slice y0 x0 h w (snd om)).
Definition height (om : obs Q * arr Q) : Z := ah (o_data (fst om)).
Definition width (om : obs Q * arr Q) : Z := aw (o_data (fst om)).
(** An image and its model, cut before row k ([v] = false) or before column k. *)
Definition first_part (v : bool) (k : Z) (om : obs Q * arr Q) : obs Q * arr Q :=
  if v then slice_obs 0 0 (height om) k om else slice_obs 0 0 k (width om) om.
Definition second_part (v : bool) (k : Z) (om : obs Q * arr Q) : obs Q * arr Q :=
  if v then slice_obs 0 k (height om) (width om - k) om else slice_obs k 0 (height om - k) (width om) om.
Definition size (v : bool) (om : obs Q * arr Q) : Z := if v then width om else height om.
(** The derivative of the model of image n with respect to parameter c. *)
Definition deriv_at (ns : list (list (patch Q * nat))) (c n : nat) (X Y : Z) : Q :=
  qsum (map (fun e => if (snd e =? n)%nat then img_at 0 (fst e) X Y else 0) (nth c ns [])).
(** Image j is now images j and j+1, and the derivatives of these are the parts of
    the derivatives of the whole. *)
Definition cut_derivs (v : bool) (k : Z) (j : nat) (om : obs Q * arr Q) (ns ns' : list (list (patch Q * nat))) : Prop :=
  length ns' = length ns /\ forall c X Y, (c < length ns)%nat ->
    (forall n, (n < j)%nat -> deriv_at ns' c n X Y == deriv_at ns c n X Y) /\
    (forall n, (j < n)%nat -> deriv_at ns' c (S n) X Y == deriv_at ns c n X Y) /\
    ((0 <= X < width (first_part v k om))%Z -> (0 <= Y < height (first_part v k om))%Z -> deriv_at ns' c j X Y == deriv_at ns c j X Y) /\
    ((0 <= X < width (second_part v k om))%Z -> (0 <= Y < height (second_part v k om))%Z ->
      deriv_at ns' c (S j) X Y == deriv_at ns c j (if v then k + X else X)%Z (if v then Y else k + Y)%Z).

(** ** Sums over the pixels *)
Definition dsum (h w : nat) (f : Z -> Z -> Q) : Q := qsum (map (fun y => qsum (map (fun x => f (Z.of_nat y) (Z.of_nat x)) (seq 0 w))) (seq 0 h)).
Lemma dsum_grid f h w : qsum (map (fun yx => f (fst yx) (snd yx)) (grid h w)) == dsum (Z.to_nat h) (Z.to_nat w) f.
Proof. unfold grid, dsum. rewrite qsum_concat. apply qsum_ext. intros y _. rewrite map_map. reflexivity. Qed.
Lemma dsum_ext h w f g : (forall y x, (0 <= y < Z.of_nat h)%Z -> (0 <= x < Z.of_nat w)%Z -> f y x == g y x) -> dsum h w f == dsum h w g.
Proof.
  intros H. unfold dsum. apply qsum_ext. intros y I. apply in_seq in I. apply qsum_ext. intros x J. apply in_seq in J. apply H; lia.
Qed.
Lemma sum_split (f : nat -> Q) a b : qsum (map f (seq 0 (a + b))) == qsum (map f (seq 0 a)) + qsum (map (fun i => f (a + i)%nat) (seq 0 b)).
Proof.
  rewrite seq_app, map_app, qsum_app. apply Qplus_comp; [reflexivity|]. cbn. replace a with (a + 0)%nat at 1 by lia.
  generalize 0%nat. induction b as [|b IH]; intros s; cbn [seq map]; [reflexivity|]. cbn. unfold qsum in IH.
  replace (S (a + s)) with (a + S s)%nat by lia. rewrite IH. reflexivity.
Qed.
Lemma qsum_add {A} (f g : A -> Q) l : qsum (map (fun x => f x + g x) l) == qsum (map f l) + qsum (map g l).
Proof. unfold qsum. induction l as [|x l IH]; cbn [map fold_right]; [ring|]. rewrite IH. ring. Qed.
Lemma dsum_rows a b w f : dsum (a + b) w f == dsum a w f + dsum b w (fun y x => f (Z.of_nat a + y)%Z x).
Proof.
  unfold dsum. rewrite sum_split. apply Qplus_comp; [reflexivity|]. apply qsum_ext. intros y _. apply qsum_ext. intros x _. rewrite Nat2Z.inj_add. reflexivity.
Qed.
Lemma dsum_cols h a b f : dsum h (a + b) f == dsum h a f + dsum h b (fun y x => f y (Z.of_nat a + x)%Z).
Proof.
  unfold dsum. rewrite <- qsum_add. apply qsum_ext. intros y _. rewrite sum_split. apply Qplus_comp; [reflexivity|].
  apply qsum_ext. intros x _. rewrite Nat2Z.inj_add. reflexivity.
Qed.

(** ** One image *)
Definition residual (om : obs Q * arr Q) (g : Z -> Z -> Q) (Y X : Z) : Q :=
  qsq (g X Y * px (o_ie (fst om)) Y X - (px (o_data (fst om)) Y X - px (snd om) Y X) * px (o_ie (fst om)) Y X).
Definition chi2 (om : obs Q * arr Q) (g : Z -> Z -> Q) : Q := dsum (Z.to_nat (height om)) (Z.to_nat (width om)) (residual om g).
Lemma chi2_ext om g g' : (forall X Y, (0 <= X < width om)%Z -> (0 <= Y < height om)%Z -> g X Y == g' X Y) -> chi2 om g == chi2 om g'.
Proof. intros H. apply dsum_ext. intros y x A B. unfold residual. rewrite (H x y) by lia. reflexivity. Qed.
Lemma chi2_cut v k om g : (0 <= k <= size v om)%Z ->
  chi2 om g == chi2 (first_part v k om) g + chi2 (second_part v k om) (fun X Y => g (if v then k + X else X)%Z (if v then Y else k + Y)%Z).
Proof.
  intros H. unfold chi2. destruct v; cbn [first_part second_part size] in *; unfold height, width in *; cbn [slice_obs fst snd o_data slice ah aw].
  - replace (Z.to_nat (aw (o_data (fst om)))) with (Z.to_nat k + Z.to_nat (aw (o_data (fst om)) - k))%nat by lia. rewrite dsum_cols.
    apply Qplus_comp; apply dsum_ext; intros y x A B; unfold residual; cbn [fst snd slice_obs o_data o_ie slice px]; rewrite ?Z2Nat.id by lia; rewrite ?Z.add_0_l; reflexivity.
  - replace (Z.to_nat (ah (o_data (fst om)))) with (Z.to_nat k + Z.to_nat (ah (o_data (fst om)) - k))%nat by lia. rewrite dsum_rows.
    apply Qplus_comp; apply dsum_ext; intros y x A B; unfold residual; cbn [fst snd slice_obs o_data o_ie slice px]; rewrite ?Z2Nat.id by lia; rewrite ?Z.add_0_l; reflexivity.
Qed.

(** ** All images *)
Fixpoint chi_all (k : nat) (l : list (obs Q * arr Q)) (G : nat -> Z -> Z -> Q) : Q :=
  match l with [] => 0 | om :: r => chi2 om (G k) + chi_all (S k) r G end.
Lemma chi_all_app k a b G : chi_all k (a ++ b) G == chi_all k a G + chi_all (k + length a) b G.
Proof.
  revert k. induction a as [|x a IH]; intros k; cbn [app chi_all length]; [rewrite Nat.add_0_r; ring|]. rewrite IH, Nat.add_succ_r. cbn. ring.
Qed.
Lemma chi_all_ext l G G' : forall k k', (forall i X Y, (i < length l)%nat -> G (k + i)%nat X Y == G' (k' + i)%nat X Y) -> chi_all k l G == chi_all k' l G'.
Proof.
  induction l as [|om l IH]; intros k k' H; cbn [chi_all]; [reflexivity|]. apply Qplus_comp.
  - apply chi2_ext. intros X Y _ _. specialize (H 0%nat X Y). rewrite !Nat.add_0_r in H. apply H. cbn. lia.
  - apply IH. intros i X Y L. specialize (H (S i) X Y). rewrite !Nat.add_succ_r in H. apply H. cbn. lia.
Qed.
Definition none : obs Q * arr Q := (mkObs no_arr no_arr, no_arr).
Lemma chi_all_seq G l : forall k, qsum (map (fun i => chi2 (nth i l none) (G (k + i)%nat)) (seq 0 (length l))) == chi_all k l G.
Proof.
  induction l as [|om l IH]; intros k; [reflexivity|]. cbn [length seq map chi_all]. rewrite <- seq_shift, map_map. cbn [qsum fold_right nth].
  rewrite Nat.add_0_r. apply Qplus_comp; [reflexivity|]. rewrite <- (IH (S k)). apply qsum_ext. intros i _. rewrite Nat.add_succ_r. reflexivity.
Qed.
Lemma chisq_all (l : list (obs Q * arr Q)) ns d :
  linear_chisq (map (to_image (map fst l) (map snd l)) (seq 0 (length (map fst l)))) (on_images (map fst l) (map snd l) ns) d ==
  chi_all 0 l (fun n => lin_change ns n d).
Proof.
  rewrite <- chi_all_seq. unfold linear_chisq. rewrite map_map, map_length. apply qsum_ext. intros n _.
  assert (E1 : nth n (map fst l) (mkObs no_arr no_arr) = fst (nth n l none)) by (change (mkObs no_arr no_arr) with (fst none); apply map_nth).
  assert (E2 : nth n (map snd l) no_arr = snd (nth n l none)) by (change no_arr with (snd none) at 1; apply map_nth).
  unfold chi2. rewrite <- dsum_grid. unfold to_image at 3 4. cbn [im_h im_w]. rewrite E1. apply qsum_ext. intros [Y X] _. cbn [fst snd].
  rewrite lin_image, E1. unfold residual. cbn [to_image im_chi px]. rewrite E1, E2. reflexivity.
Qed.

(** ** C126 *)
Lemma cut_all v k om pre post G G' : (0 <= k <= size v om)%Z -> let j := length pre in
  (forall n X Y, (n < j)%nat -> G' n X Y == G n X Y) -> (forall n X Y, (j < n)%nat -> G' (S n) X Y == G n X Y) ->
  (forall X Y, (0 <= X < width (first_part v k om))%Z -> (0 <= Y < height (first_part v k om))%Z -> G' j X Y == G j X Y) ->
  (forall X Y, (0 <= X < width (second_part v k om))%Z -> (0 <= Y < height (second_part v k om))%Z ->
      G' (S j) X Y == G j (if v then k + X else X)%Z (if v then Y else k + Y)%Z) ->
  chi_all 0 (pre ++ first_part v k om :: second_part v k om :: post) G' == chi_all 0 (pre ++ om :: post) G.
Proof.
  intros H j A B C D. rewrite !chi_all_app. cbn [plus]. fold j. apply Qplus_comp.
  - apply chi_all_ext. intros i X Y L. cbn. apply A. exact L.
  - cbn [chi_all]. rewrite (chi2_cut v k om (G j) H), (chi2_ext _ _ _ C), (chi2_ext _ _ _ D), Qplus_assoc. apply Qplus_comp; [reflexivity|].
    apply chi_all_ext. intros i X Y L. cbn. apply B. lia.
Qed.
Lemma lik_all (l : list (obs Q * arr Q)) : exists q, loglik (map lift_obs (map fst l)) (map lift (map snd l)) = Fin q /\ q == - (1 # 2) * chi_all 0 l (fun _ _ _ => 0).
Proof.
  destruct (lik_value l) as (q & E & V). exists q. split; [exact E|]. rewrite V. apply Qmult_comp; [reflexivity|]. clear. generalize 0%nat.
  induction l as [|om l IH]; intros k; cbn [map fold_right chi_all]; [reflexivity|]. apply Qplus_comp; [|apply IH].
  unfold chi2, dsum. rewrite esum_seq. apply qsum_ext. intros y _. rewrite esum_seq. apply qsum_ext. intros x _. unfold residual, qsq. cbn zeta. ring.
Qed.
(** The log-likelihood of the images is that with one of them cut in two. *)
Theorem C126_likelihood : forall v k pre om post, (0 <= k <= size v om)%Z ->
  let whole := pre ++ om :: post in let cut := pre ++ first_part v k om :: second_part v k om :: post in
  eeq (loglik (map lift_obs (map fst cut)) (map lift (map snd cut))) (loglik (map lift_obs (map fst whole)) (map lift (map snd whole))).
Proof.
  intros v k pre om post H whole cut. destruct (lik_all whole) as (q & -> & V). destruct (lik_all cut) as (q' & -> & V'). cbn. rewrite V, V'.
  apply Qmult_comp; [reflexivity|]. apply cut_all; auto; reflexivity.
Qed.
(** The least-squares systems with and without the cut have the same solutions. *)
Theorem C126_step : forall sqrtf nm subs liq v k pre om post ns ns' imgs imgs',
  let t := PMulti nm subs liq in
  let whole := pre ++ om :: post in let cut := pre ++ first_part v k om :: second_part v k om :: post in
  let ds := on_images (map fst whole) (map snd whole) ns in let ds' := on_images (map fst cut) (map snd cut) ns' in
  (0 <= k <= size v om)%Z -> cut_derivs v k (length pre) om ns ns' ->
  (forall p n, In (p, n) (concat ns) -> (n < length whole)%nat) -> (forall p n, In (p, n) (concat ns') -> (n < length cut)%nat) ->
  wf t -> priors_ok t -> number_of_params t = length ns -> derivs_ok ds -> derivs_ok ds' ->
  images_of imgs ds -> images_of imgs' ds' -> (total imgs <= 2147483648)%Z -> (total imgs' <= 2147483648)%Z ->
  forall ox s s', prior_derivs t = Ok ox -> assemble sqrtf false None ds ox = Ok (Some s) -> assemble sqrtf false None ds' ox = Ok (Some s') ->
  (forall d, length d = length ns -> objective s' d - objective s' (repeat 0 (length ns)) == objective s d - objective s (repeat 0 (length ns))) /\
  forall d, solves s' d <-> solves s d.
Proof.
  intros sqrtf nm subs liq v k pre om post ns ns' imgs imgs' t whole cut ds ds' Hk (LN & CD) HN HN' W O N D D' IM IM' TB TB' ox s s' EX ES ES'.
  assert (LD : length ds = length ns) by apply map_length. assert (LD' : length ds' = length ns) by (unfold ds', on_images; rewrite map_length; exact LN).
  destruct (C33_objective sqrtf nm subs liq ds W O ltac:(fold t; congruence) D) as (im1 & IM1 & H).
  destruct (C33_objective sqrtf nm subs liq ds' W O ltac:(fold t; congruence) D') as (im2 & IM2 & H').
  assert (P1 : Permutation im1 imgs) by (eapply images_perm; eauto). assert (P2 : Permutation im2 imgs') by (eapply images_perm; eauto).
  assert (T1 : (total im1 <= 2147483648)%Z) by (rewrite (total_perm _ _ P1); auto). assert (T2 : (total im2 <= 2147483648)%Z) by (rewrite (total_perm _ _ P2); auto).
  specialize (H T1 ox s EX ES). specialize (H' T2 ox s' EX ES'). cbv zeta in H, H'. rewrite LD in H. rewrite LD' in H'.
  assert (NS : ls_ncols s = length ns /\ ls_ncols s' = length ns).
  { destruct (C33_layout sqrtf nm subs liq ds W O ltac:(fold t; congruence) D) as (i1 & I1 & KK). destruct KK as (o1 & r1 & A1 & B1 & KK).
    { rewrite (total_perm i1 im1); auto. eapply images_perm; eauto. }
    fold t in A1. rewrite EX in A1. injection A1 as <-. rewrite ES in B1. injection B1 as <-. split; [rewrite <- LD; apply KK|].
    destruct (C33_layout sqrtf nm subs liq ds' W O ltac:(fold t; congruence) D') as (i2 & I2 & K2).
    destruct K2 as (o2 & r2 & A2 & B2 & K2).
    { rewrite (total_perm i2 im2); auto. eapply images_perm; eauto. }
    fold t in A2. rewrite EX in A2. injection A2 as <-. rewrite ES' in B2. injection B2 as <-. rewrite <- LD'. apply K2. }
  destruct NS as (N1 & N2).
  destruct (all_images (map fst whole) (map snd whole) ns im1) as (C & HC); [rewrite map_length; exact HN|exact IM1|].
  destruct (all_images (map fst cut) (map snd cut) ns' im2) as (C' & HC'); [rewrite map_length; exact HN'|exact IM2|].
  assert (EQ : forall d, linear_chisq im2 ds' d + C' == linear_chisq im1 ds d + C).
  { intros d. unfold ds, ds'. rewrite <- HC, <- HC', !chisq_all. apply cut_all; [exact Hk| | | |].
    all: intros; unfold lin_change; rewrite LN; apply qsum_ext; intros c I; apply in_seq in I; apply Qmult_comp; [reflexivity|].
    - destruct (CD c X Y) as (A & _); [lia|]. apply A. auto.
    - destruct (CD c X Y) as (_ & A & _); [lia|]. apply A. auto.
    - destruct (CD c X Y) as (_ & _ & A & _); [lia|]. apply A; auto.
    - destruct (CD c X Y) as (_ & _ & _ & A); [lia|]. apply A; auto. }
  assert (KEY : forall d, length d = length ns -> objective s' d - objective s' (repeat 0 (length ns)) == objective s d - objective s (repeat 0 (length ns))).
  { intros d Ld. assert (Lt : length (get_params t) = length ns) by (rewrite <- number_get; auto).
    assert (SL : forall a b : list Q, length a = length b -> length (step_by a b) = length b).
    { intros a b E. unfold step_by. rewrite map_length, combine_length. lia. }
    destruct (C02_set_params_writes_exactly_thawed 0 t (step_by (get_params t) d) W ltac:(discriminate)) as (t1 & E1 & _); [rewrite SL; congruence|].
    destruct (H d t1 ltac:(congruence) E1) as (La & Lb & HLa & HLb & OB). destruct (H' d t1 ltac:(congruence) E1) as (La' & Lb' & HLa' & HLb' & OB').
    assert (La' = La) by congruence. assert (Lb' = Lb) by congruence. subst La' Lb'.
    pose proof (EQ d) as Q1. pose proof (EQ (repeat 0 (length ns))) as Q2. lra. }
  split; [exact KEY|]. intros d. unfold solves. rewrite N1, N2.
  split; intros (A & B); (split; [exact A|]); intros e Le; specialize (B e Le).
  - pose proof (KEY d A). pose proof (KEY e ltac:(congruence)). lra.
  - pose proof (KEY d A). pose proof (KEY e ltac:(congruence)). lra.
Qed.
(** The derivatives of the parts when each has the patch of the whole, moved to its
    own pixels; the patches may reach over the edges. *)
Definition moved (v : bool) (k : Z) (p : patch Q) : patch Q :=
  mkPatch (if v then PatchModel.x0 p - k else PatchModel.x0 p)%Z (if v then PatchModel.y0 p else PatchModel.y0 p - k)%Z (pimg p).
Definition on_parts (v : bool) (k : Z) (j : nat) (ns : list (list (patch Q * nat))) : list (list (patch Q * nat)) :=
  map (flat_map (fun e => if (snd e <? j)%nat then [e] else if (snd e =? j)%nat then [(fst e, j); (moved v k (fst e), S j)] else [(fst e, S (snd e))])) ns.
Lemma moved_at v k p X Y : img_at 0 (moved v k p) X Y = img_at 0 p (if v then k + X else X)%Z (if v then Y else k + Y)%Z.
Proof.
  unfold img_at, val_at, moved. destruct p as [a b [m|]]; cbn [pimg PatchModel.x0 PatchModel.y0]; [|reflexivity]. destruct v.
  - replace (X - (a - k))%Z with (k + X - a)%Z by lia. replace (a - k <=? X)%Z with (a <=? k + X)%Z by lia.
    replace (X <? a - k + aw m)%Z with (k + X <? a + aw m)%Z by lia. reflexivity.
  - replace (Y - (b - k))%Z with (k + Y - b)%Z by lia. replace (b - k <=? Y)%Z with (b <=? k + Y)%Z by lia.
    replace (Y <? b - k + ah m)%Z with (k + Y <? b + ah m)%Z by lia. reflexivity.
Qed.
Theorem C126_derivs : forall v k j om ns, cut_derivs v k j om ns (on_parts v k j ns).
Proof.
  intros v k j om ns. split; [apply map_length|]. intros c X Y _. unfold deriv_at, on_parts.
  assert (NT : forall (g : list (patch Q * nat) -> list (patch Q * nat)), g [] = [] -> nth c (map g ns) [] = g (nth c ns [])).
  { intros g G. rewrite <- G at 1. apply map_nth. }
  rewrite NT by reflexivity. clear NT.
  repeat split; intros; rewrite qsum_concat; apply qsum_ext; intros [p i] _; cbn [fst snd].
  all: destruct (Nat.ltb_spec i j); [|destruct (Nat.eqb_spec i j)]; cbn [map qsum fold_right fst snd]; rewrite ?moved_at.
  all: repeat match goal with |- context [(?a =? ?b)%nat] => destruct (Nat.eqb_spec a b); try lia end; ring.
Qed.
(** With these derivatives nothing more is asked of the parts. *)
Lemma in_parts v k j ns p i : In (p, i) (concat (on_parts v k j ns)) -> exists q n, In (q, n) (concat ns) /\ pimg p = pimg q /\
  ((n < j)%nat /\ i = n \/ n = j /\ (i = j \/ i = S j) \/ (j < n)%nat /\ i = S n).
Proof.
  unfold on_parts. rewrite in_concat. intros (r & A & B). apply in_map_iff in A as (r' & <- & A). apply in_flat_map in B as ([q n] & B & C).
  exists q, n. split; [apply in_concat; eauto|]. cbn [fst snd] in C.
  destruct (Nat.ltb_spec n j); [|destruct (Nat.eqb_spec n j)]; cbn in C; decompose [or] C; try contradiction;
    match goal with E : (_, _) = (_, _) |- _ => injection E as <- <- end; split; auto; lia.
Qed.
Lemma nth_parts {A} (pre post : list A) x a b n z : 
  ((n < length pre)%nat -> nth n (pre ++ a :: b :: post) z = nth n (pre ++ x :: post) z) /\
  nth (length pre) (pre ++ a :: b :: post) z = a /\ nth (S (length pre)) (pre ++ a :: b :: post) z = b /\ nth (length pre) (pre ++ x :: post) z = x /\
  ((length pre < n)%nat -> nth (S n) (pre ++ a :: b :: post) z = nth n (pre ++ x :: post) z).
Proof.
  repeat split; intros; rewrite ?(app_nth1 pre) by lia; auto; rewrite !app_nth2 by lia.
  - rewrite Nat.sub_diag. reflexivity.
  - replace (S (length pre) - length pre)%nat with 1%nat by lia. reflexivity.
  - rewrite Nat.sub_diag. reflexivity.
  - replace (S n - length pre)%nat with (S (S (n - length pre - 1))) by lia. replace (n - length pre)%nat with (S (n - length pre - 1)) at 2 by lia. reflexivity.
Qed.
Lemma to_image_at (l : list (obs Q * arr Q)) n : to_image (map fst l) (map snd l) n =
  let om := nth n l none in mkImage n (height om) (width om) (o_ie (fst om))
    (mkArr (height om) (width om) (fun y x => (px (o_data (fst om)) y x - px (snd om) y x) * px (o_ie (fst om)) y x)).
Proof.
  assert (E1 : nth n (map fst l) (mkObs no_arr no_arr) = fst (nth n l none)) by (change (mkObs no_arr no_arr) with (fst none); apply map_nth).
  assert (E2 : nth n (map snd l) no_arr = snd (nth n l none)) by (change no_arr with (snd none) at 1; apply map_nth).
  unfold to_image. rewrite E1, E2. reflexivity.
Qed.
Theorem C126_parts_ok : forall v k pre om post ns, (0 <= k <= size v om)%Z ->
  let whole := pre ++ om :: post in let cut := pre ++ first_part v k om :: second_part v k om :: post in let ns' := on_parts v k (length pre) ns in
  (forall p n, In (p, n) (concat ns) -> (n < length whole)%nat) -> derivs_ok (on_images (map fst whole) (map snd whole) ns) ->
  (forall p n, In (p, n) (concat ns') -> (n < length cut)%nat) /\ derivs_ok (on_images (map fst cut) (map snd cut) ns').
Proof.
  intros v k pre om post ns Hk whole cut ns' HN (D1 & _). split; [|split].
  - intros p i I. apply in_parts in I as (q & n & I & _ & C). apply HN in I. unfold whole, cut in *. rewrite app_length in *. cbn in *. lia.
  - intros p i I. unfold on_images in I. apply in_images in I as ([p' i'] & I & E). cbn in E. injection E as <- <-.
    apply in_parts in I as (q & n & I & EP & C). destruct (D1 q (to_image (map fst whole) (map snd whole) n)) as (WP & WI).
    { apply in_images. exists (q, n). auto. }
    split; [unfold wf_patch in *; rewrite EP; exact WP|]. revert WI. rewrite !to_image_at. unfold wf_image. cbn [im_h im_w im_ie im_chi ah aw]. intros WI.
    destruct (nth_parts pre post om (first_part v k om) (second_part v k om) n none) as (N1 & N2 & N3 & N4 & N5).
    destruct C as [(L & ->)|[(-> & [-> | ->])|(L & ->)]].
    + unfold cut. rewrite N1 by exact L. exact WI.
    + unfold cut. rewrite N2. unfold whole in WI. rewrite N4 in WI.
      destruct v; unfold size, height, width in *; cbn [first_part second_part slice_obs fst snd o_data o_ie slice ah aw] in *; unfold height, width in *; repeat split; lia.
    + unfold cut. rewrite N3. unfold whole in WI. rewrite N4 in WI.
      destruct v; unfold size, height, width in *; cbn [first_part second_part slice_obs fst snd o_data o_ie slice ah aw] in *; unfold height, width in *; repeat split; lia.
    + unfold cut. rewrite N5 by exact L. exact WI.
  - intros p i q j I J E. unfold on_images in I, J. apply in_images in I as ([p' i'] & _ & E1). apply in_images in J as ([q' j'] & _ & E2).
    cbn in E1, E2. injection E1 as <- <-. injection E2 as <- <-. cbn in E. congruence.
Qed.

(** The images that have derivatives are the same but for the one cut in two. *)
Lemma parts_in v k j ns q n : In (q, n) (concat ns) ->
  ((n < j)%nat -> exists p, In (p, n) (concat (on_parts v k j ns))) /\
  (n = j -> (exists p, In (p, j) (concat (on_parts v k j ns))) /\ exists p, In (p, S j) (concat (on_parts v k j ns))) /\
  ((j < n)%nat -> exists p, In (p, S n) (concat (on_parts v k j ns))).
Proof.
  intros I. apply in_concat in I as (r & A & B).
  assert (G : forall e, In e (if (n <? j)%nat then [(q, n)] else if (n =? j)%nat then [(q, j); (moved v k q, S j)] else [(q, S n)]) -> In e (concat (on_parts v k j ns))).
  { intros e H. apply in_concat. eexists. split; [unfold on_parts; apply in_map; exact A|]. apply in_flat_map. exists (q, n). auto. }
  destruct (Nat.ltb_spec n j); [|destruct (Nat.eqb_spec n j)]; repeat split; intros; try lia; eexists; apply G; cbn; eauto.
Qed.
Lemma on_in (l : list (obs Q * arr Q)) ns p i : In (p, i) (concat (on_images (map fst l) (map snd l) ns)) <->
  exists n, In (p, n) (concat ns) /\ i = to_image (map fst l) (map snd l) n.
Proof.
  unfold on_images. rewrite in_images. split.
  - intros ([q n] & A & B). cbn in B. injection B as <- <-. eauto.
  - intros (n & A & ->). exists (p, n). auto.
Qed.
Lemma parts_total v k pre om post ns imgs imgs' : (0 <= k <= size v om)%Z ->
  let whole := pre ++ om :: post in let cut := pre ++ first_part v k om :: second_part v k om :: post in
  images_of imgs (on_images (map fst whole) (map snd whole) ns) -> images_of imgs' (on_images (map fst cut) (map snd cut) (on_parts v k (length pre) ns)) ->
  total imgs' = total imgs.
Proof.
  intros Hk whole cut (ND & I) (ND' & I'). set (j := length pre) in *.
  set (ids := fun i : image => let n := im_id i in if (n <? j)%nat then [n] else if (n =? j)%nat then [j; S j] else [S n]).
  set (im := to_image (map fst cut) (map snd cut)).
  assert (F : forall i, In i imgs -> exists q n, In (q, n) (concat ns) /\ i = to_image (map fst whole) (map snd whole) n).
  { intros i J. apply I in J as (q & J). apply on_in in J as (n & J & ->). eauto. }
  assert (P : Permutation (flat_map (fun i => map im (ids i)) imgs) imgs').
  { apply NoDup_Permutation.
    - apply (NoDup_map_inv im_id). clear - ND. assert (E : map im_id (flat_map (fun i => map im (ids i)) imgs) = flat_map ids imgs).
      { induction imgs as [|i r IH]; [reflexivity|]. cbn [flat_map]. rewrite map_app, map_map, IH by (inversion ND; auto). f_equal. apply map_id. }
      rewrite E. clear E. assert (U : forall i x, In x (ids i) -> im_id i = if (x <=? j)%nat then x else pred x).
      { intros i x. unfold ids. destruct (Nat.ltb_spec (im_id i) j); [|destruct (Nat.eqb_spec (im_id i) j)]; intros H'; cbn in H'; decompose [or] H'; try contradiction; subst;
          destruct (Nat.leb_spec (im_id i) j); try (destruct (Nat.leb_spec j j)); try (destruct (Nat.leb_spec (S j) j)); try (destruct (Nat.leb_spec (S (im_id i)) j)); cbn; lia. }
      induction imgs as [|i r IH]; [constructor|]. cbn [flat_map]. inversion ND as [|? ? NI ND1]; subst. assert (NF := IH ND1). clear IH.
      assert (NI' : forall x, In x (ids i) -> ~ In x (flat_map ids r)).
      { intros x A B. apply NI. apply in_flat_map in B as (i2 & B1 & B2). apply in_map_iff. exists i2. split; [|auto]. rewrite (U _ _ A), (U _ _ B2). reflexivity. }
      unfold ids at 1. unfold ids at 1 in NI'.
      destruct (im_id i <? j)%nat; [|destruct (im_id i =? j)%nat]; cbn [app In] in *; repeat (constructor; [|auto]); auto.
      intros [E|E]; [lia|]. apply (NI' j); auto.
    - eapply NoDup_map_inv; eauto.
    - intros x. rewrite in_flat_map, I'. split.
      + intros (i & A & B). destruct (F i A) as (q & n & J & ->). destruct (parts_in v k j ns q n J) as (K1 & K2 & K3). apply in_map_iff in B as (m & <- & B).
        unfold ids in B. change (im_id (to_image (map fst whole) (map snd whole) n)) with n in B.
        destruct (Nat.ltb_spec n j) as [L|L]; [|destruct (Nat.eqb_spec n j) as [L1|L1]]; cbn in B; decompose [or] B; try contradiction; subst m.
        * destruct (K1 L) as (p & K). exists p. apply on_in. eauto.
        * destruct (K2 L1) as ((p & K) & _). exists p. apply on_in. eauto.
        * destruct (K2 L1) as (_ & (p & K)). exists p. apply on_in. eauto.
        * destruct K3 as (p & K); [lia|]. exists p. apply on_in. eauto.
      + intros (p & J). apply on_in in J as (m & J & ->). apply in_parts in J as (q & n & J & _ & C). exists (to_image (map fst whole) (map snd whole) n). split.
        * apply I. exists q. apply on_in. eauto.
        * apply in_map_iff. exists m. split; [reflexivity|]. unfold ids. change (im_id (to_image (map fst whole) (map snd whole) n)) with n.
          destruct (Nat.ltb_spec n j) as [L|L]; [|destruct (Nat.eqb_spec n j) as [L1|L1]]; cbn; lia. }
  rewrite <- (total_perm _ _ P). clear - F Hk. induction imgs as [|i r IH]; [reflexivity|]. cbn [flat_map]. rewrite total_app, IH by (intros; apply F; right; auto).
  assert (E : total (map im (ids i)) = npix i).
  { destruct (F i (or_introl eq_refl)) as (q & n & _ & ->). unfold ids. change (im_id (to_image (map fst whole) (map snd whole) n)) with n. unfold im.
    destruct (nth_parts pre post om (first_part v k om) (second_part v k om) n none) as (N1 & N2 & N3 & N4 & N5). fold j in N1, N2, N3, N4, N5.
    destruct (Nat.ltb_spec n j) as [L|L]; [|destruct (Nat.eqb_spec n j) as [->|L1]]; cbn [map]; unfold total, npix; rewrite !to_image_at; cbn [fold_right im_h im_w]; unfold whole, cut.
    - rewrite N1 by exact L. lia.
    - rewrite N2, N3, N4. destruct v; unfold first_part, second_part, size, height, width; cbn [slice_obs fst snd o_data slice ah aw]; lia.
    - rewrite N5 by lia. lia. }
  rewrite E. reflexivity.
Qed.
(** Cutting an image in two: same solutions, with the conditions of C33 on the whole
    image only. *)
Theorem C126_cut : forall sqrtf nm subs liq v k pre om post ns,
  let t := PMulti nm subs liq in
  let whole := pre ++ om :: post in let cut := pre ++ first_part v k om :: second_part v k om :: post in
  let ds := on_images (map fst whole) (map snd whole) ns in
  let ds' := on_images (map fst cut) (map snd cut) (on_parts v k (length pre) ns) in
  (0 <= k <= size v om)%Z -> (forall p n, In (p, n) (concat ns) -> (n < length whole)%nat) ->
  wf t -> priors_ok t -> number_of_params t = length ns -> derivs_ok ds ->
  exists imgs, images_of imgs ds /\ ((total imgs <= 2147483648)%Z ->
    forall ox s s', prior_derivs t = Ok ox -> assemble sqrtf false None ds ox = Ok (Some s) -> assemble sqrtf false None ds' ox = Ok (Some s') ->
    forall d, solves s' d <-> solves s d).
Proof.
  intros sqrtf nm subs liq v k pre om post ns t whole cut ds ds' Hk HN W O N D.
  destruct (C126_parts_ok v k pre om post ns Hk HN D) as (HN' & D').
  assert (LD : length ds = length ns) by apply map_length.
  assert (LD' : length ds' = length ns) by (unfold ds', on_images, on_parts; rewrite !map_length; reflexivity).
  destruct (C33_objective sqrtf nm subs liq ds W O ltac:(fold t; congruence) D) as (imgs & IM & _). exists imgs. split; [exact IM|].
  destruct (C33_objective sqrtf nm subs liq ds' W O ltac:(fold t; congruence) D') as (imgs' & IM' & _).
  intros TB ox s s' EX ES ES'. pose proof (parts_total v k pre om post ns imgs imgs' Hk IM IM') as TE.
  apply (C126_step sqrtf nm subs liq v k pre om post ns (on_parts v k (length pre) ns) imgs imgs' Hk (C126_derivs v k _ om ns) HN HN' W O N D D' IM IM' TB ltac:(lia) ox s s' EX ES ES').
Qed.
(** The pixels of Image.subimage(x0, x1, y0, y1) are the slice, for corners inside
    the image. *)
Theorem C126_subimage : forall a x0 x1 y0 y1, (0 <= x0 <= x1 /\ x1 <= aw a)%Z -> (0 <= y0 <= y1 /\ y1 <= ah a)%Z ->
  let b := ShiftModel.sub_pixels a x0 x1 y0 y1 in let c := slice y0 x0 (y1 - y0) (x1 - x0) a in
  ah b = ah c /\ aw b = aw c /\ forall y x, px b y x = px c y x.
Proof.
  intros a x0 x1 y0 y1 A B. unfold ShiftModel.sub_pixels, asub, slice, sl_len, sl_start, norm_idx. cbn [ah aw px sstart sstop].
  repeat match goal with |- context [(?p <? ?q)%Z] => destruct (Z.ltb_spec p q); try lia end.
  repeat split; try lia. intros y x. f_equal; lia.
Qed.

(** ** A case: a flux with a prior and a second flux, one image cut between its two
    columns. *)
Section Case.
Let nn := mkNames [] [].
Let t := PMulti nn [PFixed; PList (mkPlist nn [10; 20] [true; true] [None; None] [None; None] [None; None] None [mkPrior "flux" 0 11 1])] [true; true].
Let row (a b : Q) : arr Q := mkArr 1 2 (fun _ x => if (x =? 0)%Z then a else b).
Let om : obs Q * arr Q := (mkObs (row 11 33) (row 1 2), row 10 30).
Let other : obs Q * arr Q := (mkObs (row 5 5) (row 1 1), row 4 4).
Let ns : list (list (patch Q * nat)) := [[(mkPatch 0 0 (Some (row 1 1)), 1%nat)]; [(mkPatch 0 0 (Some (row 0 1)), 1%nat)]].
Let whole := [other] ++ om :: [].
Let cut := [other] ++ first_part true 1 om :: second_part true 1 om :: [].
Example case_meets : wf t /\ priors_ok t /\ number_of_params t = length ns /\ (0 <= 1 <= size true om)%Z /\
  (forall p n, In (p, n) (concat ns) -> (n < length whole)%nat) /\ derivs_ok (on_images (map fst whole) (map snd whole) ns).
Proof.
  split; [cbn; unfold wf_plist; cbn; repeat split; auto; try discriminate|].
  split; [cbn; repeat split; auto; repeat (constructor; [cbn; split; [lia|intros H; discriminate]|]); constructor|]. split; [reflexivity|]. split; [cbn; lia|].
  split; [intros p n [E|[E|[]]]; injection E as _ <-; cbn; lia|]. split.
  - intros p i H. cbn in H. decompose [or] H; try contradiction;
      match goal with E : (_, _) = (_, _) |- _ => injection E as <- <- end; vm_compute; repeat split; auto; discriminate.
  - intros p i q j H H' E. cbn in H, H'. decompose [or] H; try contradiction; decompose [or] H'; try contradiction;
      repeat match goal with E : (_, _) = (_, _) |- _ => injection E as <- <- end; auto; discriminate.
Qed.
Example case_systems : exists ox s s', prior_derivs t = Ok ox /\
  assemble (fun q => q) false None (on_images (map fst whole) (map snd whole) ns) ox = Ok (Some s) /\
  assemble (fun q => q) false None (on_images (map fst cut) (map snd cut) (on_parts true 1 1 ns)) ox = Ok (Some s') /\
  Qred (objective s [1; 2]) = 0 /\ Qred (objective s' [1; 2]) = 0 /\ Qred (objective s [3; 1]) = 12 /\ Qred (objective s' [3; 1]) = 12.
Proof. do 3 eexists. do 3 (split; [vm_compute; reflexivity|]). vm_compute. auto. Qed.
Example case_parts : map (fun om => (height om, width om, px (o_data (fst om)) 0 0, px (o_ie (fst om)) 0 0)) cut = [(1%Z, 2%Z, 5, 1); (1%Z, 1%Z, 11, 1); (1%Z, 1%Z, 33, 2)].
Proof. reflexivity. Qed.
End Case.

Print Assumptions C126_likelihood.
Print Assumptions C126_step.
Print Assumptions C126_derivs.
Print Assumptions C126_parts_ok.
Print Assumptions C126_subimage.
Print Assumptions C126_cut.
