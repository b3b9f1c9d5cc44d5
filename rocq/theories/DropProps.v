(** C127, continued: leaving out a masked image, with conditions on the images as they
    were only. *)
From Coq Require Import String List ZArith QArith Qabs Bool Lia Lqa Permutation.
From Verif Require Import Base Ext ParamsModel ParamsSpec ParamsProofs ParamsProps PatchModel PatchSpec PriorModel PriorProps LsqModel LsqSpec LsqProps.
From Verif Require EngineProps.
From Verif Require Import EngineModel OptimModel OptimProps MaskedProps OrderProps UnitsProps FreezeProps LinearProps CutProps TrimProps.
Import ListNotations.
Open Scope Q_scope.

Lemma in_without j ns p i : In (p, i) (concat (without j ns)) -> exists n, In (p, n) (concat ns) /\ ((n < j)%nat /\ i = n \/ (j < n)%nat /\ n = S i).
Proof.
  unfold without. rewrite in_concat. intros (r & A & B). apply in_map_iff in A as (r' & <- & A). apply in_flat_map in B as ([q n] & B & C).
  exists n. cbn [fst snd] in C. destruct (Nat.ltb_spec n j); [|destruct (Nat.eqb_spec n j)]; cbn in C; decompose [or] C; try contradiction;
    match goal with E : (_, _) = (_, _) |- _ => injection E as <- <- end; (split; [apply in_concat; eauto|lia]).
Qed.
Lemma nth_drop {A} (pre post : list A) x n z :
  ((n < length pre)%nat -> nth n (pre ++ post) z = nth n (pre ++ x :: post) z) /\ ((length pre <= n)%nat -> nth n (pre ++ post) z = nth (S n) (pre ++ x :: post) z).
Proof.
  split; intros; [rewrite !(app_nth1 pre) by lia; reflexivity|]. rewrite !app_nth2 by lia. replace (S n - length pre)%nat with (S (n - length pre)) by lia. reflexivity.
Qed.
Section Drop.
Variables (pre post : list (obs Q * arr Q)) (om : obs Q * arr Q) (ns : list (list (patch Q * nat))).
Let whole := pre ++ om :: post.
Let rest := pre ++ post.
Let back (n : nat) := if (n <? length pre)%nat then n else S n.
Lemma rest_image n : wf_image (to_image (map fst whole) (map snd whole) (back n)) -> wf_image (to_image (map fst rest) (map snd rest) n) /\
  npix (to_image (map fst rest) (map snd rest) n) = npix (to_image (map fst whole) (map snd whole) (back n)).
Proof.
  rewrite !to_image_at. unfold wf_image, npix, back, whole, rest. cbn [im_h im_w im_ie im_chi ah aw]. destruct (nth_drop pre post om n none) as (A & B).
  destruct (Nat.ltb_spec n (length pre)) as [L|L]; [rewrite A by exact L|rewrite B by exact L]; auto.
Qed.
Lemma without_back p i : In (p, i) (concat (without (length pre) ns)) -> In (p, back i) (concat ns).
Proof.
  intros I. apply in_without in I as (n & I & C). assert (E : back i = n); [|rewrite E; exact I]. unfold back. destruct (Nat.ltb_spec i (length pre)); lia.
Qed.
Lemma drop_ok : (forall p n, In (p, n) (concat ns) -> (n < length whole)%nat) -> derivs_ok (on_images (map fst whole) (map snd whole) ns) ->
  (forall p n, In (p, n) (concat (without (length pre) ns)) -> (n < length rest)%nat) /\ derivs_ok (on_images (map fst rest) (map snd rest) (without (length pre) ns)).
Proof.
  intros HN (D1 & _). split; [|split].
  - intros p i I. apply in_without in I as (n & I & C). apply HN in I. unfold whole, rest in *. rewrite app_length in *. cbn in *. lia.
  - intros p i I. apply on_in in I as (n & I & ->). apply without_back in I. destruct (D1 p (to_image (map fst whole) (map snd whole) (back n))) as (WP & WI); [apply on_in; eauto|].
    split; [exact WP|]. apply rest_image. exact WI.
  - intros p i q j I J E. apply on_in in I as (n & _ & ->). apply on_in in J as (n' & _ & ->). cbn in E. congruence.
Qed.
Lemma sub_total (l : list image) : forall l', NoDup l -> incl l l' -> (forall i, In i l' -> (0 <= npix i)%Z) -> (total l <= total l')%Z.
Proof.
  induction l as [|i l IH]; intros l' ND I P.
  - clear I. unfold total. cbn. induction l' as [|x r IH]; cbn; [lia|]. assert (0 <= npix x)%Z by (apply P; left; auto). assert (H1 := IH ltac:(intros; apply P; right; auto)). lia.
  - inversion ND as [|? ? NI ND1]; subst. destruct (in_split i l' (I i (or_introl eq_refl))) as (a & b & ->).
    assert (H : (total l <= total (a ++ b))%Z).
    { apply IH; auto.
      - intros x J. assert (K := I x (or_intror J)). apply in_app_iff in K. apply in_app_iff. destruct K as [K|[K|K]]; auto. subst. contradiction.
      - intros x J. apply P. apply in_app_iff in J. apply in_app_iff. destruct J; [left|right; right]; auto. }
    rewrite total_app in *. unfold total in *. cbn [fold_right]. lia.
Qed.
Lemma drop_total imgs imgs' : derivs_ok (on_images (map fst whole) (map snd whole) ns) -> images_of imgs (on_images (map fst whole) (map snd whole) ns) ->
  images_of imgs' (on_images (map fst rest) (map snd rest) (without (length pre) ns)) -> (total imgs' <= total imgs)%Z.
Proof.
  intros (D1 & _) (ND & I) (ND' & I').
  assert (OK : forall i, In i imgs' -> exists p, In (p, to_image (map fst whole) (map snd whole) (back (im_id i))) (concat (on_images (map fst whole) (map snd whole) ns)) /\
    i = to_image (map fst rest) (map snd rest) (im_id i)).
  { intros i J. apply I' in J as (p & J). apply on_in in J as (n & J & ->). apply without_back in J. exists p. split; [apply on_in; eauto|reflexivity]. }
  transitivity (total (map (fun i => to_image (map fst whole) (map snd whole) (back (im_id i))) imgs')).
  - clear I' ND'. unfold total. induction imgs' as [|i r IH]; cbn [map fold_right]; [lia|]. specialize (IH ltac:(intros; apply OK; right; auto)).
    destruct (OK i (or_introl eq_refl)) as (p & A & B). apply D1 in A as (_ & A). apply rest_image in A as (_ & A). rewrite <- A, <- B. lia.
  - apply sub_total.
    + apply (NoDup_map_inv im_id). rewrite map_map. cbn [to_image im_id].
      rewrite <- (map_map im_id back). clear - ND'. induction (map im_id imgs') as [|n r IH]; [constructor|]. inversion ND' as [|? ? NI ND1]; subst. cbn [map]. constructor; auto.
      intros K. apply in_map_iff in K as (x & E & K). apply NI. assert (x = n); [|subst; auto]. unfold back in E. destruct (Nat.ltb_spec x (length pre)), (Nat.ltb_spec n (length pre)); lia.
    + intros x J. apply in_map_iff in J as (i & <- & J). destruct (OK i J) as (p & A & _). apply I. eauto.
    + intros i J. apply I in J as (p & J). apply D1 in J as (_ & A & B & _). unfold npix. nia.
Qed.
End Drop.
(** Leaving out a masked image keeps the solutions; the images of the case in
    TrimProps.v (case_masked, case_ok, case_same) meet the conditions. *)
Theorem C127_drop : forall sqrtf nm subs liq pre om post ns,
  let t := PMulti nm subs liq in let whole := pre ++ om :: post in let rest := pre ++ post in
  let ds := on_images (map fst whole) (map snd whole) ns in
  let ds' := on_images (map fst rest) (map snd rest) (without (length pre) ns) in
  all_masked om -> (forall p n, In (p, n) (concat ns) -> (n < length whole)%nat) ->
  wf t -> priors_ok t -> number_of_params t = length ns -> derivs_ok ds ->
  exists imgs, images_of imgs ds /\ ((total imgs <= 2147483648)%Z ->
    forall ox s s', prior_derivs t = Ok ox -> assemble sqrtf false None ds ox = Ok (Some s) -> assemble sqrtf false None ds' ox = Ok (Some s') ->
    forall d, solves s' d <-> solves s d).
Proof.
  intros sqrtf nm subs liq pre om post ns t whole rest ds ds' M HN W O N D.
  destruct (drop_ok pre post om ns HN D) as (HN' & D').
  assert (LD : length ds = length ns) by apply map_length.
  assert (LD' : length ds' = length ns) by (unfold ds', on_images, without; rewrite !map_length; reflexivity).
  destruct (C33_objective sqrtf nm subs liq ds W O ltac:(fold t; congruence) D) as (imgs & IM & _). exists imgs. split; [exact IM|].
  destruct (C33_objective sqrtf nm subs liq ds' W O ltac:(fold t; congruence) D') as (imgs' & IM' & _).
  intros TB ox s s' EX ES ES'. pose proof (drop_total pre post om ns imgs imgs' D IM IM') as TE.
  apply (C127_step sqrtf nm subs liq pre om post ns (without (length pre) ns) imgs imgs' M (C127_derivs _ ns) HN HN' W O N D D' IM IM' TB ltac:(lia) ox s s' EX ES ES').
Qed.
Print Assumptions C127_drop.
