(** C127, continued: cutting off masked edges, with conditions on the images as they
    were only. *)
From Coq Require Import String List ZArith QArith Qabs Bool Lia Lqa Permutation.
From Verif Require Import Base Ext ParamsModel ParamsSpec ParamsProofs ParamsProps PatchModel PatchSpec PriorModel PriorProps LsqModel LsqSpec LsqProps.
From Verif Require EngineProps.
From Verif Require Import EngineModel OptimModel OptimProps MaskedProps OrderProps UnitsProps FreezeProps LinearProps CutProps TrimProps DropProps.
Import ListNotations.
Open Scope Q_scope.

Lemma in_trim first v k j ns p i : In (p, i) (concat (trim_moved first v k j ns)) -> exists q, In (q, i) (concat ns) /\ pimg p = pimg q.
Proof.
  unfold trim_moved. destruct first; [eauto|]. rewrite <- concat_map, in_map_iff. intros ([q n] & E & I). exists q. cbn [fst snd] in E.
  destruct (Nat.eqb_spec n j) as [E1|E1]; injection E as E2 E3; subst p i; [rewrite E1 in I|]; auto.
Qed.
Lemma nth_same {A} (pre post : list A) x y n z : (n <> length pre -> nth n (pre ++ y :: post) z = nth n (pre ++ x :: post) z) /\
  nth (length pre) (pre ++ x :: post) z = x.
Proof.
  split; [|rewrite app_nth2, Nat.sub_diag by lia; reflexivity]. intros H. destruct (Nat.lt_ge_cases n (length pre)) as [L|L].
  - rewrite !(app_nth1 pre) by lia. reflexivity.
  - rewrite !app_nth2 by lia. replace (n - length pre)%nat with (S (n - length pre - 1)) by lia. reflexivity.
Qed.
Section Edge.
Variables (first v : bool) (k : Z) (pre post : list (obs Q * arr Q)) (om : obs Q * arr Q) (ns : list (list (patch Q * nat))).
Hypothesis Hk : (0 <= k <= size v om)%Z.
Let whole := pre ++ om :: post.
Let trim := pre ++ kept first v k om :: post.
Lemma trim_image n : wf_image (to_image (map fst whole) (map snd whole) n) -> wf_image (to_image (map fst trim) (map snd trim) n) /\
  (npix (to_image (map fst trim) (map snd trim) n) <= npix (to_image (map fst whole) (map snd whole) n))%Z.
Proof.
  rewrite !to_image_at. unfold wf_image, npix. cbn [im_h im_w im_ie im_chi ah aw]. unfold whole, trim. destruct (Nat.eq_dec n (length pre)) as [->|NE].
  - rewrite !(proj2 (nth_same pre post _ om 0%nat none)).
    intros WI. destruct first, v; unfold kept, size, first_part, second_part, height, width in *; cbn [slice_obs fst snd o_data o_ie slice ah aw] in *; (split; [repeat split; lia|nia]).
  - rewrite (proj1 (nth_same pre post om (kept first v k om) n none) NE). intros WI. split; [exact WI|lia].
Qed.
Lemma edge_ok : (forall p n, In (p, n) (concat ns) -> (n < length whole)%nat) -> derivs_ok (on_images (map fst whole) (map snd whole) ns) ->
  let ns' := trim_moved first v k (length pre) ns in
  (forall p n, In (p, n) (concat ns') -> (n < length trim)%nat) /\ derivs_ok (on_images (map fst trim) (map snd trim) ns').
Proof.
  intros HN (D1 & _) ns'. split; [|split].
  - intros p i I. apply in_trim in I as (q & I & _). apply HN in I. unfold whole, trim in *. rewrite app_length in *. exact I.
  - intros p i I. apply on_in in I as (n & I & ->). apply in_trim in I as (q & I & E). destruct (D1 q (to_image (map fst whole) (map snd whole) n)) as (WP & WI); [apply on_in; eauto|].
    split; [unfold wf_patch in *; rewrite E; exact WP|]. apply trim_image. exact WI.
  - intros p i q j I J E. apply on_in in I as (n & _ & ->). apply on_in in J as (n' & _ & ->). cbn in E. congruence.
Qed.
Lemma edge_total imgs imgs' : derivs_ok (on_images (map fst whole) (map snd whole) ns) -> images_of imgs (on_images (map fst whole) (map snd whole) ns) ->
  images_of imgs' (on_images (map fst trim) (map snd trim) (trim_moved first v k (length pre) ns)) -> (total imgs' <= total imgs)%Z.
Proof.
  intros (D1 & _) (ND & I) (ND' & I').
  assert (OK : forall i, In i imgs' -> exists p, In (p, to_image (map fst whole) (map snd whole) (im_id i)) (concat (on_images (map fst whole) (map snd whole) ns)) /\
    i = to_image (map fst trim) (map snd trim) (im_id i)).
  { intros i J. apply I' in J as (p & J). apply on_in in J as (n & J & ->). apply in_trim in J as (q & J & _). exists q. split; [apply on_in; eauto|reflexivity]. }
  transitivity (total (map (fun i => to_image (map fst whole) (map snd whole) (im_id i)) imgs')).
  - clear I' ND'. unfold total. induction imgs' as [|i r IH]; cbn [map fold_right]; [lia|]. specialize (IH ltac:(intros; apply OK; right; auto)).
    destruct (OK i (or_introl eq_refl)) as (p & A & B). apply D1 in A as (_ & A). apply trim_image in A as (_ & A). rewrite <- B in A. lia.
  - apply sub_total.
    + apply (NoDup_map_inv im_id). rewrite map_map. exact ND'.
    + intros x J. apply in_map_iff in J as (i & <- & J). destruct (OK i J) as (p & A & _). apply I. eauto.
    + intros i J. apply I in J as (p & J). apply D1 in J as (_ & A & B & _). unfold npix. nia.
Qed.
End Edge.
(** Cutting off masked rows or columns at an edge keeps the solutions; the images of
    the case in TrimProps.v (case_masked, case_ok, case_same) meet the conditions. *)
Theorem C127_edge : forall sqrtf nm subs liq first v k pre om post ns,
  let t := PMulti nm subs liq in let whole := pre ++ om :: post in let trim := pre ++ kept first v k om :: post in
  let ds := on_images (map fst whole) (map snd whole) ns in
  let ds' := on_images (map fst trim) (map snd trim) (trim_moved first v k (length pre) ns) in
  (0 <= k <= size v om)%Z -> all_masked (trimmed first v k om) -> (forall p n, In (p, n) (concat ns) -> (n < length whole)%nat) ->
  wf t -> priors_ok t -> number_of_params t = length ns -> derivs_ok ds ->
  exists imgs, images_of imgs ds /\ ((total imgs <= 2147483648)%Z ->
    forall ox s s', prior_derivs t = Ok ox -> assemble sqrtf false None ds ox = Ok (Some s) -> assemble sqrtf false None ds' ox = Ok (Some s') ->
    forall d, solves s' d <-> solves s d).
Proof.
  intros sqrtf nm subs liq first v k pre om post ns t whole trim ds ds' Hk M HN W O N D.
  destruct (edge_ok first v k pre post om ns Hk HN D) as (HN' & D').
  assert (LD : length ds = length ns) by apply map_length.
  assert (LD' : length ds' = length ns) by (unfold ds', on_images, trim_moved; destruct first; rewrite !map_length; reflexivity).
  destruct (C33_objective sqrtf nm subs liq ds W O ltac:(fold t; congruence) D) as (imgs & IM & _). exists imgs. split; [exact IM|].
  destruct (C33_objective sqrtf nm subs liq ds' W O ltac:(fold t; congruence) D') as (imgs' & IM' & _).
  intros TB ox s s' EX ES ES'. pose proof (edge_total first v k pre post om ns Hk imgs imgs' D IM IM') as TE.
  apply (C127_trim sqrtf nm subs liq first v k pre om post ns (trim_moved first v k (length pre) ns) imgs imgs' Hk M (C127_trim_derivs first v k _ om ns) HN HN' W O N D D' IM IM' TB ltac:(lia) ox s s' EX ES ES').
Qed.
Print Assumptions C127_edge.
