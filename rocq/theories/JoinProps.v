(** C128, continued: replacing two exposures by their weighted mean, with conditions on
    the exposures only. *)
From Coq Require Import String List ZArith QArith Qabs Bool Lia Lqa Permutation.
From Verif Require Import Base Ext ParamsModel ParamsSpec ParamsProofs ParamsProps PatchModel PatchSpec PriorModel PriorProps LsqModel LsqSpec LsqProps.
From Verif Require EngineProps.
From Verif Require Import EngineModel OptimModel OptimProps MaskedProps OrderProps UnitsProps FreezeProps LinearProps CutProps TrimProps DropProps EdgeProps CoaddProps.
Import ListNotations.
Open Scope Q_scope.

Section Swap.
Variables (pre post : list (obs Q * arr Q)) (x y : obs Q * arr Q) (ns : list (list (patch Q * nat))).
Hypothesis Hh : height y = height x.
Hypothesis Hw : width y = width x.
Hypothesis He : ah (o_ie (fst y)) = height y /\ aw (o_ie (fst y)) = width y.
Let old := pre ++ x :: post.
Let new := pre ++ y :: post.
Lemma swap_image n : wf_image (to_image (map fst old) (map snd old) n) -> wf_image (to_image (map fst new) (map snd new) n) /\
  npix (to_image (map fst new) (map snd new) n) = npix (to_image (map fst old) (map snd old) n).
Proof.
  rewrite !to_image_at. unfold wf_image, npix. cbn [im_h im_w im_ie im_chi ah aw]. unfold old, new. destruct (Nat.eq_dec n (length pre)) as [->|NE].
  - rewrite !(proj2 (nth_same pre post _ x 0%nat none)). intros WI. rewrite Hh, Hw in *. split; [|reflexivity]. repeat split; lia.
  - rewrite (proj1 (nth_same pre post x y n none) NE). auto.
Qed.
Lemma swap_ok : derivs_ok (on_images (map fst old) (map snd old) ns) -> derivs_ok (on_images (map fst new) (map snd new) ns).
Proof.
  intros (D1 & _). split.
  - intros p i I. apply on_in in I as (n & I & ->). destruct (D1 p (to_image (map fst old) (map snd old) n)) as (WP & WI); [apply on_in; eauto|].
    split; [exact WP|]. apply swap_image. exact WI.
  - intros p i q j I J E. apply on_in in I as (n & _ & ->). apply on_in in J as (n' & _ & ->). cbn in E. congruence.
Qed.
Lemma swap_total imgs imgs' : derivs_ok (on_images (map fst old) (map snd old) ns) -> images_of imgs (on_images (map fst old) (map snd old) ns) ->
  images_of imgs' (on_images (map fst new) (map snd new) ns) -> (total imgs' <= total imgs)%Z.
Proof.
  intros (D1 & _) (ND & I) (ND' & I').
  assert (OK : forall i, In i imgs' -> exists p, In (p, to_image (map fst old) (map snd old) (im_id i)) (concat (on_images (map fst old) (map snd old) ns)) /\
    i = to_image (map fst new) (map snd new) (im_id i)).
  { intros i J. apply I' in J as (p & J). apply on_in in J as (n & J & ->). exists p. split; [apply on_in; eauto|reflexivity]. }
  transitivity (total (map (fun i => to_image (map fst old) (map snd old) (im_id i)) imgs')).
  - clear I' ND'. unfold total. induction imgs' as [|i r IH]; cbn [map fold_right]; [lia|]. specialize (IH ltac:(intros; apply OK; right; auto)).
    destruct (OK i (or_introl eq_refl)) as (p & A & B). apply D1 in A as (_ & A). apply swap_image in A as (_ & A). rewrite <- B in A. lia.
  - apply sub_total.
    + apply (NoDup_map_inv im_id). rewrite map_map. exact ND'.
    + intros z J. apply in_map_iff in J as (i & <- & J). destruct (OK i J) as (p & A & _). apply I. eauto.
    + intros i J. apply I in J as (p & J). apply D1 in J as (_ & A & B & _). unfold npix. nia.
Qed.
End Swap.
(** Two exposures with the same model and derivatives, and their weighted mean with the
    derivatives of the first: the same solutions.  The exposures of the case in
    CoaddProps.v (case_coadd, case_ok, case_values) meet the conditions. *)
Theorem C128_coadd : forall sqrtf nm subs liq a b c m pre post ns,
  let t := PMulti nm subs liq in let two := pre ++ (a, m) :: (b, m) :: post in let one := pre ++ (c, m) :: post in
  let j := length pre in
  let ds := on_images (map fst two) (map snd two) ns in let ds' := on_images (map fst one) (map snd one) (without (S j) ns) in
  coadd a b c -> ah (o_ie c) = ah (o_data c) -> aw (o_ie c) = aw (o_data c) ->
  (forall k X Y, (k < length ns)%nat -> (0 <= X < aw (o_data c))%Z -> (0 <= Y < ah (o_data c))%Z -> deriv_at ns k j X Y == deriv_at ns k (S j) X Y) ->
  (forall p n, In (p, n) (concat ns) -> (n < length two)%nat) ->
  wf t -> priors_ok t -> number_of_params t = length ns -> derivs_ok ds ->
  exists imgs, images_of imgs ds /\ ((total imgs <= 2147483648)%Z ->
    forall ox s s', prior_derivs t = Ok ox -> assemble sqrtf false None ds ox = Ok (Some s) -> assemble sqrtf false None ds' ox = Ok (Some s') ->
    forall d, solves s' d <-> solves s d).
Proof.
  intros sqrtf nm subs liq a b c m pre post ns t two one j ds ds' H E1 E2 SD HN W O N D.
  assert (T2 : two = (pre ++ [(a, m)]) ++ (b, m) :: post) by (unfold two; rewrite <- app_assoc; reflexivity).
  assert (T1 : pre ++ (a, m) :: post = (pre ++ [(a, m)]) ++ post) by (rewrite <- app_assoc; reflexivity).
  assert (LP : length (pre ++ [(a, m)]) = S j) by (rewrite app_length; cbn; fold j; lia).
  destruct (drop_ok (pre ++ [(a, m)]) post (b, m) ns) as (HN1 & D1); [rewrite <- T2; exact HN|rewrite <- T2; exact D|].
  rewrite LP, <- T1 in HN1, D1.
  pose proof H as (A1 & A2 & _).
  assert (D' : derivs_ok ds') by (apply (swap_ok pre post (a, m) (c, m)); unfold height, width; cbn; auto).
  assert (HN' : forall p n, In (p, n) (concat (without (S j) ns)) -> (n < length one)%nat).
  { intros p n I. apply HN1 in I. unfold one. rewrite app_length in *. exact I. }
  assert (LD : length ds = length ns) by apply map_length.
  assert (LD' : length ds' = length ns) by (unfold ds', on_images, without; rewrite !map_length; reflexivity).
  destruct (C33_objective sqrtf nm subs liq ds W O ltac:(fold t; congruence) D) as (imgs & IM & _). exists imgs. split; [exact IM|].
  destruct (C33_objective sqrtf nm subs liq ds' W O ltac:(fold t; congruence) D') as (imgs' & IM' & _).
  set (mid := pre ++ (a, m) :: post) in *.
  assert (LM : length (on_images (map fst mid) (map snd mid) (without (S j) ns)) = length ns) by (unfold on_images, without; rewrite !map_length; reflexivity).
  destruct (C33_objective sqrtf nm subs liq (on_images (map fst mid) (map snd mid) (without (S j) ns)) W O ltac:(fold t; congruence) D1) as (im1 & IM1 & _).
  assert (TE : (total imgs' <= total imgs)%Z).
  { transitivity (total im1).
    - apply (swap_total pre post (a, m) (c, m) (without (S j) ns)); unfold height, width; cbn; auto.
    - apply (drop_total (pre ++ [(a, m)]) post (b, m) ns); rewrite <- ?T2, <- ?T1, ?LP; auto. }
  intros TB ox s s' EX ES ES'.
  assert (JD : joined_derivs j c ns (without (S j) ns)).
  { destruct (C127_derivs (S j) ns) as (L & CD). split; [exact L|]. intros k X Y Lk. destruct (CD k X Y Lk) as (P & Q0). repeat split.
    - intros n Ln. apply P. lia.
    - intros n Ln. apply Q0. lia.
    - apply P. lia.
    - rewrite (P j) by lia. apply SD; auto. }
  apply (C128_step sqrtf nm subs liq a b c m pre post ns (without (S j) ns) imgs imgs' H JD HN HN' W O N D D' IM IM' TB ltac:(lia) ox s s' EX ES ES').
Qed.
Print Assumptions C128_coadd.
