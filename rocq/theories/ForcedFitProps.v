(** C116: forced photometry ends at the least-squares fluxes, and the inverse
    variances it reports are the curvature of chi-squared there. *)
From Coq Require Import List ZArith Bool Lia Ring Reals Lra Psatz.
From Verif Require Import Base PatchModel PatchSpec ForcedModel ForcedProps.
Import ListNotations.
Open Scope R_scope.

(** ** What is claimed *)
Notation image := (@fimg R).
Notation prms := (@params R).
Notation rsum := (lsum 0 Rplus).
Notation pixels i f := (rsum (fun Y => rsum (fun X => f X Y) (zrange (aw (fi_im i)))) (zrange (ah (fi_im i)))).
Notation rchi2 := (chi2 0 Rplus Rmult Rminus).
Notation rchi_at := (chi_at 0 Rplus Rmult Rminus).
(** The change of chi at a pixel, with sign reversed, when the fluxes change by
    [D] and the sky level by [s]. *)
Definition resp (i : image) (D : list R) (s : R) (X Y : Z) : R :=
  (rsum (fun zu => unit_at 0 (snd zu) X Y * (fst zu * fi_scale i)) (combine D (fi_um i)) + s) * px (fi_ie i) Y X.
(** The sum over all images and pixels of the squares of chi less that change:
    what the update direction minimises. *)
Fixpoint lin_chi2 (images : list image) (chis : list (arr R)) (D skies : list R) : R :=
  match images, chis with
  | i :: r, c :: cs => pixels i (fun X Y => (px c Y X - resp i D (hd 0 skies) X Y) ^ 2) + lin_chi2 r cs D (tl skies)
  | _, _ => 0
  end.
Definition nsky (sky : bool) (t : prms) : nat := if sky then length (sk t) else 0%nat.
(** At [t] and without damping, the direction is a least-squares solution (C33),
    sky levels first. *)
Definition exact (images : list image) (sky : bool) (direction : R -> prms -> option (list (arr R)) -> res (option (list R))) (t : prms) : Prop :=
  forall chis, length chis = length images ->
    exists XX, direction 0 t (Some chis) = Ok (Some XX) /\ XX <> [] /\ length XX = (nsky sky t + length (fl t))%nat /\
      forall Zs D, length Zs = nsky sky t -> length D = length (fl t) ->
        lin_chi2 images chis (skipn (nsky sky t) XX) (firstn (nsky sky t) XX) <= lin_chi2 images chis D Zs.
(** Chi-squared of parameters. *)
Definition cost (images : list image) (sky : bool) (t : prms) : R := rchi2 images (fl t) (if sky then sk t else []).
Definition same_size (t t' : prms) : Prop := length (fl t') = length (fl t) /\ length (sk t') = length (sk t).
(** No pixel changes. *)
Fixpoint no_effect (images : list image) (D skies : list R) : Prop :=
  match images with
  | [] => True
  | i :: r => (forall X Y, (0 <= X < aw (fi_im i))%Z -> (0 <= Y < ah (fi_im i))%Z -> resp i D (hd 0 skies) X Y = 0) /\ no_effect r D (tl skies)
  end.
(** Flux [k] changed by [z]. *)
Definition nudge (k : nat) (z : R) (l : list R) : list R := firstn k l ++ match skipn k l with [] => [] | v :: r => (v + z) :: r end.
Definition zipadd (l m : list R) : list R := map (fun pd => fst pd + snd pd) (combine l m).

(** ** Lemmas *)
Lemma rsum_ext {A} (f g : A -> R) l : (forall a, In a l -> f a = g a) -> rsum f l = rsum g l.
Proof. apply (sum_ext_in 0 Rplus). Qed.
Lemma rsum_plus {A} (f g : A -> R) l : rsum (fun a => f a + g a) l = rsum f l + rsum g l.
Proof. unfold lsum. induction l as [|a l IH]; simpl; [lra|]. rewrite IH. lra. Qed.
Lemma rsum_scal {A} (c : R) (f : A -> R) l : rsum (fun a => c * f a) l = c * rsum f l.
Proof. unfold lsum. induction l as [|a l IH]; simpl; [lra|]. rewrite IH. lra. Qed.
Lemma rsum_pos {A} (f : A -> R) l : (forall a, In a l -> 0 <= f a) -> 0 <= rsum f l.
Proof. unfold lsum. induction l as [|a l IH]; intros H; simpl; [lra|]. specialize (IH (fun b Hb => H b (or_intror Hb))). specialize (H a (or_introl eq_refl)). lra. Qed.
Lemma rsum_zero {A} (f : A -> R) l : (forall a, In a l -> 0 <= f a) -> rsum f l <= 0 -> forall a, In a l -> f a = 0.
Proof.
  unfold lsum. induction l as [|b l IH]; intros H S a Ha; [contradiction|]. simpl in S.
  pose proof (rsum_pos f l (fun c Hc => H c (or_intror Hc))) as P. unfold lsum in P. pose proof (H b (or_introl eq_refl)) as Q.
  destruct Ha as [<-|Ha]; [lra|]. apply (IH (fun c Hc => H c (or_intror Hc))); auto. lra.
Qed.
Lemma zrange_all n k : (0 <= k < n)%Z -> In k (zrange n).
Proof. intros H. unfold zrange. apply in_map_iff. exists (Z.to_nat k). split; [lia|]. apply in_seq. lia. Qed.
Lemma pixels_ext (i : image) f g : (forall X Y, (0 <= X < aw (fi_im i))%Z -> (0 <= Y < ah (fi_im i))%Z -> f X Y = g X Y) -> pixels i f = pixels i g.
Proof. intros H. apply rsum_ext. intros Y HY. apply rsum_ext. intros X HX. apply zrange_in in HX, HY. auto. Qed.
Lemma pixels_plus (i : image) f g : pixels i (fun X Y => f X Y + g X Y) = pixels i f + pixels i g.
Proof. rewrite <- rsum_plus. apply rsum_ext. intros. apply rsum_plus. Qed.
Lemma pixels_scal (i : image) c f : pixels i (fun X Y => c * f X Y) = c * pixels i f.
Proof. rewrite <- rsum_scal. apply rsum_ext. intros. apply rsum_scal. Qed.
Lemma pixels_pos (i : image) f : (forall X Y, 0 <= f X Y) -> 0 <= pixels i f.
Proof. intros H. apply rsum_pos. intros. apply rsum_pos. auto. Qed.
Lemma pixels_zero (i : image) f : (forall X Y, 0 <= f X Y) -> pixels i f <= 0 -> forall X Y, (0 <= X < aw (fi_im i))%Z -> (0 <= Y < ah (fi_im i))%Z -> f X Y = 0.
Proof.
  intros H S X Y HX HY. assert (S' := rsum_zero _ _ (fun y _ => rsum_pos (fun x => f x y) _ (fun x _ => H x y)) S Y (zrange_all _ _ HY)). cbv beta in S'.
  apply (rsum_zero (fun x => f x Y) (zrange (aw (fi_im i))) (fun x _ => H x Y)); [lra|apply zrange_all; auto].
Qed.

Lemma umsum_add k X Y ums : forall fl D, length D = length fl ->
  rsum (fun fu => unit_at 0 (snd fu) X Y * (fst fu * k)) (combine (zipadd fl D) ums) =
  rsum (fun fu => unit_at 0 (snd fu) X Y * (fst fu * k)) (combine fl ums) + rsum (fun fu => unit_at 0 (snd fu) X Y * (fst fu * k)) (combine D ums).
Proof.
  revert ums. intros ums fl. revert ums. induction fl as [|f fl IH]; intros ums [|z D] L; try discriminate; unfold lsum; simpl; [lra|].
  destruct ums as [|u ums]; simpl; [lra|]. unfold lsum, zipadd in IH. rewrite IH by (simpl in L; lia). lra.
Qed.
(** chi is affine. *)
Lemma chi_affine i fl s D d X Y : length D = length fl ->
  rchi_at i (zipadd fl D) (s + d) X Y = rchi_at i fl s X Y - resp i D d X Y.
Proof. intros L. unfold chi_at, model_at, resp. rewrite umsum_add by exact L. ring. Qed.
Lemma hd_zipadd s Zs : length Zs = length s -> hd 0 (zipadd s Zs) = hd 0 s + hd 0 Zs.
Proof. destruct s, Zs; intros L; try discriminate; simpl; lra. Qed.
Lemma tl_zipadd s Zs : tl (zipadd s Zs) = zipadd (tl s) (tl Zs).
Proof. destruct s as [|? [|? s]], Zs as [|? [|? Zs]]; try reflexivity. Qed.
Lemma tl_length {A} (s Zs : list A) : length Zs = length s -> length (tl Zs) = length (tl s).
Proof. destruct s, Zs; simpl; congruence || lia. Qed.

(** The chi images are those of the parameters. *)
Fixpoint chis_are (images : list image) (chis : list (arr R)) (fl skies : list R) : Prop :=
  match images, chis with
  | [], [] => True
  | i :: r, c :: cs => (forall X Y, (0 <= X < aw (fi_im i))%Z -> (0 <= Y < ah (fi_im i))%Z -> px c Y X = rchi_at i fl (hd 0 skies) X Y) /\ chis_are r cs fl (tl skies)
  | _, _ => False
  end.
Lemma lin_is_chi2 fl D : length D = length fl -> forall images chis s Zs, length Zs = length s ->
  chis_are images chis fl s -> lin_chi2 images chis D Zs = rchi2 images (zipadd fl D) (zipadd s Zs).
Proof.
  intros L. induction images as [|i r IH]; intros [|c cs] s Zs LS H; try contradiction; [reflexivity|]. destruct H as [H1 H2].
  cbn [lin_chi2 chi2]. rewrite tl_zipadd. rewrite (IH cs (tl s) (tl Zs)) by (auto using tl_length). f_equal.
  apply pixels_ext. intros X Y HX HY. rewrite H1 by auto. rewrite hd_zipadd, chi_affine by auto. ring.
Qed.
Lemma chis_length images : forall chis fl s, chis_are images chis fl s -> length chis = length images.
Proof. induction images as [|i r IH]; intros [|c cs] fl s H; try contradiction; auto. destruct H as [_ H]. simpl. f_equal. eapply IH; eauto. Qed.

(** Adding a change and taking it away. *)
Fixpoint rsq (images : list image) (D skies : list R) : R :=
  match images with [] => 0 | i :: r => pixels i (fun X Y => resp i D (hd 0 skies) X Y ^ 2) + rsq r D (tl skies) end.
Fixpoint cross (images : list image) (fl s D skies : list R) : R :=
  match images with
  | [] => 0
  | i :: r => pixels i (fun X Y => rchi_at i fl (hd 0 s) X Y * resp i D (hd 0 skies) X Y) + cross r fl (tl s) D (tl skies)
  end.
Lemma chi2_expand fl D : length D = length fl -> forall images s Zs, length Zs = length s ->
  rchi2 images (zipadd fl D) (zipadd s Zs) = rchi2 images fl s - 2 * cross images fl s D Zs + rsq images D Zs.
Proof.
  intros L. induction images as [|i r IH]; intros s Zs LS; cbn [chi2 cross rsq]; [lra|].
  rewrite tl_zipadd, IH by (apply tl_length; auto).
  replace (pixels i (fun X Y => rchi_at i (zipadd fl D) (hd 0 (zipadd s Zs)) X Y * rchi_at i (zipadd fl D) (hd 0 (zipadd s Zs)) X Y))
    with (pixels i (fun X Y => rchi_at i fl (hd 0 s) X Y * rchi_at i fl (hd 0 s) X Y) +
          (-2) * pixels i (fun X Y => rchi_at i fl (hd 0 s) X Y * resp i D (hd 0 Zs) X Y) + pixels i (fun X Y => resp i D (hd 0 Zs) X Y ^ 2)).
  - lra.
  - rewrite <- pixels_scal, <- !pixels_plus. apply pixels_ext. intros X Y _ _. rewrite hd_zipadd, chi_affine by auto. ring.
Qed.
Definition scaled (c : R) (D : list R) : list R := map (fun z => c * z) D.
Lemma hd_scaled c l : hd 0 (scaled c l) = c * hd 0 l.
Proof. destruct l; simpl; lra. Qed.
Lemma tl_scaled c l : tl (scaled c l) = scaled c (tl l).
Proof. destruct l; reflexivity. Qed.
Lemma resp_scaled i c D s X Y : resp i (scaled c D) (c * s) X Y = c * resp i D s X Y.
Proof.
  unfold resp. replace (rsum (fun zu => unit_at 0 (snd zu) X Y * (fst zu * fi_scale i)) (combine (scaled c D) (fi_um i)))
    with (c * rsum (fun zu => unit_at 0 (snd zu) X Y * (fst zu * fi_scale i)) (combine D (fi_um i))); [ring|].
  generalize (fi_um i). induction D as [|z D IH]; intros [|u ums]; unfold lsum in *; simpl; try lra. rewrite <- IH. lra.
Qed.
Lemma rsq_scaled c D : forall images Zs, rsq images (scaled c D) (scaled c Zs) = c ^ 2 * rsq images D Zs.
Proof.
  induction images as [|i r IH]; intros Zs; cbn [rsq]; [lra|]. rewrite tl_scaled, IH, Rmult_plus_distr_l, <- pixels_scal. f_equal.
  apply pixels_ext. intros X Y _ _. rewrite hd_scaled, resp_scaled. ring.
Qed.
Lemma cross_scaled c fl D : forall images s Zs, cross images fl s (scaled c D) (scaled c Zs) = c * cross images fl s D Zs.
Proof.
  induction images as [|i r IH]; intros s Zs; cbn [cross]; [lra|]. rewrite tl_scaled, IH, Rmult_plus_distr_l, <- pixels_scal. f_equal.
  apply pixels_ext. intros X Y _ _. rewrite hd_scaled, resp_scaled. ring.
Qed.
Lemma rsq_pos D : forall images Zs, 0 <= rsq images D Zs.
Proof.
  induction images as [|i r IH]; intros Zs; cbn [rsq]; [lra|].
  pose proof (pixels_pos i (fun X Y => resp i D (hd 0 Zs) X Y ^ 2) ltac:(intros; apply pow2_ge_0)). specialize (IH (tl Zs)). lra.
Qed.
Lemma rsq_zero D : forall images Zs, rsq images D Zs <= 0 -> no_effect images D Zs.
Proof.
  induction images as [|i r IH]; intros Zs H; cbn [rsq no_effect] in *; [exact I|].
  pose proof (pixels_pos i (fun X Y => resp i D (hd 0 Zs) X Y ^ 2) ltac:(intros; apply pow2_ge_0)) as P. pose proof (rsq_pos D r (tl Zs)) as Q.
  split; [|apply IH; lra]. intros X Y HX HY.
  assert (E := pixels_zero i (fun X Y => resp i D (hd 0 Zs) X Y ^ 2) ltac:(intros; apply pow2_ge_0) ltac:(lra) X Y HX HY). cbv beta in E.
  apply Rsqr_0_uniq. unfold Rsqr. lra.
Qed.
Lemma scaled_length c D : length (scaled c D) = length D.
Proof. apply map_length. Qed.

(** At a minimum, the first-order change vanishes. *)
Lemma stationary B C : 0 <= C -> (forall z : R, 0 <= - (2 * (z * B)) + z ^ 2 * C) -> B = 0.
Proof.
  intros HC H. destruct (Req_dec B 0) as [|N]; auto. exfalso. specialize (H (B / (C + 1))).
  replace (- (2 * (B / (C + 1) * B)) + (B / (C + 1)) ^ 2 * C) with (- ((C + 2) * (B / (C + 1)) ^ 2)) in H by (field; lra).
  assert (0 < (B / (C + 1)) ^ 2). { assert (NZ : B / (C + 1) <> 0); [|pose proof (Rlt_0_sqr _ NZ) as Q; unfold Rsqr in Q; lra]. unfold Rdiv. apply Rmult_integral_contrapositive. split; auto. apply Rinv_neq_0_compat. lra. }
  nra.
Qed.

(** Rendering gives the chi images. *)
Definition okimg (i : image) : Prop := fimg_ok i /\ fi_roi i = None.
Definition same_extent (i : image) : Prop := ah (fi_ie i) = ah (fi_im i) /\ aw (fi_ie i) = aw (fi_im i).
Lemma gtR_irr a : gtR a a = false.
Proof. apply gtR_no. lra. Qed.
Lemma gtR_tr a b c : gtR a b = true -> gtR b c = true -> gtR a c = true.
Proof. intros H1 H2. apply gtR_ok in H1, H2. apply gtR_ok. lra. Qed.
Lemma gtR_tri a b : gtR a b = false -> gtR b a = false -> a = b.
Proof. intros H1 H2. apply gtR_no in H1, H2. lra. Qed.
Lemma zeroR_ok a : zeroR a = true -> a = 0.
Proof. unfold zeroR. destruct (Req_EM_T a 0); congruence. Qed.
Notation rgetims := (getims 0 1 Rplus Rmult Rminus gtR zeroR (fun _ => true)).
Lemma map_floor_none l : map (@no_lower R gtR None) l = l.
Proof. apply map_id. Qed.
Lemma getims_chis pa : forall is skies ims, (forall i, In i is -> okimg i) -> rgetims pa is skies None = Ok ims ->
  chis_are is (map ri_chi ims) pa (match skies with Some l => l | None => [] end) /\ (forall i, In i is -> same_extent i).
Proof.
  induction is as [|i is IH]; intros skies ims HI E; cbn [ForcedModel.getims] in E.
  - injection E as <-. split; [exact I|intros ? []].
  - apply bind_ok in E. destruct E as (r & E1 & E). apply bind_ok in E. destruct E as (rs & E2 & E). injection E as <-.
    destruct (HI i (or_introl eq_refl)) as [I1 I2]. destruct (IH _ _ (fun j Hj => HI j (or_intror Hj)) E2) as [R1 R2].
    destruct (C37_rendered 0 1 Rplus Rmult Rminus Ropp gtR zeroR (fun _ => true) RTheory gtR_irr gtR_tri zeroR_ok pa i _ None r I1 I2 E1) as (S1 & S2 & P & _).
    assert (SH : ah (fi_im i) = ah (fi_m0 i) /\ aw (fi_im i) = aw (fi_m0 i) /\ same_extent i).
    { rewrite <- S1, <- S2. revert E1. unfold ForcedModel.getim. rewrite I2. destruct (negb _); [discriminate|]. cbv zeta. destruct (negb _); [discriminate|].
      intros E. apply bind_ok in E. destruct E as (m & _ & E). apply bind_ok in E. destruct E as (d & Ea & E). apply bind_ok in E. destruct E as (c & Eb & E).
      destruct (negb _); [discriminate|]. injection E as <-. cbn [ri_mod].
      unfold azip, same_shape in Ea, Eb.
      destruct (_ && _) eqn:EA in Ea; [|discriminate]. destruct (_ && _) eqn:EB in Eb; [|discriminate].
      apply andb_prop in EA, EB. destruct EA as [EA1 EA2], EB as [EB1 EB2]. apply Z.eqb_eq in EA1, EA2, EB1, EB2.
      injection Ea as <-. cbn [ah aw] in EB1, EB2. unfold same_extent. repeat split; congruence. }
    destruct SH as (H1 & H2 & H3). split.
    + cbn [map chis_are]. split.
      * intros X Y HX HY. destruct (P X Y) as [P1 P2]; [congruence|congruence|]. rewrite P2, P1, map_floor_none. unfold chi_at.
        destruct skies as [[|? ?]|]; reflexivity.
      * destruct skies; exact R1.
    + intros j [<-|Hj]; auto.
Qed.

Lemma split_at_length {A} (l : list A) n m : length l = (n + m)%nat -> length (firstn n l) = n /\ length (skipn n l) = m.
Proof. intros H. rewrite firstn_length, skipn_length. lia. Qed.
Definition diff (l m : list R) : list R := map (fun pd => fst pd - snd pd) (combine l m).
Lemma diff_length l m : length l = length m -> length (diff l m) = length m.
Proof. intros H. unfold diff. rewrite map_length, combine_length. lia. Qed.
Lemma zipadd_diff : forall m l, length l = length m -> zipadd m (diff l m) = l.
Proof. unfold zipadd, diff. induction m as [|b m IH]; intros [|a l] H; try discriminate; auto. cbn [combine map fst snd]. rewrite IH by (simpl in H; lia). f_equal. lra. Qed.
Lemma step_one : forall l m, step Rplus Rmult l 1 m = zipadd l m.
Proof. intros. unfold step, zipadd. apply map_ext. intros. ring. Qed.
Lemma zipadd_length l m : length m = length l -> length (zipadd l m) = length l.
Proof. intros H. unfold zipadd. rewrite map_length, combine_length. lia. Qed.
Lemma zip_scaled_0 : forall l m, length m = length l -> zipadd l (scaled 0 m) = l.
Proof. unfold zipadd, scaled. induction l as [|b l IH]; intros [|a m] H; try discriminate; auto. cbn [combine map fst snd]. rewrite IH by (simpl in H; lia). f_equal. lra. Qed.

(** One flux changed is the addition of a multiple of a unit vector. *)
Definition unit_vec (n k : nat) : list R := map (fun j => if Nat.eqb j k then 1 else 0) (seq 0 n).
Lemma nudge_zip z : forall l k, (k < length l)%nat -> nudge k z l = zipadd l (scaled z (unit_vec (length l) k)).
Proof.
  unfold nudge, zipadd, scaled, unit_vec. induction l as [|a l IH]; intros [|k] H; cbn [length] in H; try lia.
  - cbn [firstn skipn app length seq map combine fst snd Nat.eqb]. f_equal; [ring|]. rewrite <- seq_shift, !map_map. cbn [Nat.eqb].
    clear. generalize 0%nat. induction l as [|b l IH]; intros n; auto. cbn [length seq map combine fst snd]. rewrite <- IH. f_equal. ring.
  - cbn [firstn skipn app length seq map combine fst snd Nat.eqb]. rewrite IH by lia. f_equal; [ring|].
    rewrite <- seq_shift, !map_map. reflexivity.
Qed.
Lemma nudge_length k z l : length (nudge k z l) = length l.
Proof.
  unfold nudge. rewrite <- (firstn_skipn k l) at 3. rewrite !app_length. f_equal. destruct (skipn k l); auto.
Qed.
Lemma resp_unit i n k X Y : length (fi_um i) = n -> (k < n)%nat ->
  resp i (unit_vec n k) 0 X Y = unit_at 0 (nth k (fi_um i) None) X Y * fi_scale i * px (fi_ie i) Y X.
Proof.
  intros L K. unfold resp. rewrite Rplus_0_r. f_equal. revert K. rewrite <- L. clear n L. generalize (fi_um i) k. unfold unit_vec.
  assert (Z0 : forall (ums : list (option (patch R))) s j, (j < s)%nat -> rsum (fun zu => unit_at 0 (snd zu) X Y * (fst zu * fi_scale i))
     (combine (map (fun a => if Nat.eqb a j then 1 else 0) (seq s (length ums))) ums) = 0).
  { unfold lsum. induction ums as [|u ums IH]; intros s j H; cbn [length seq map combine fold_right fst snd]; auto. rewrite IH by lia.
    replace (Nat.eqb s j) with false by (symmetry; apply Nat.eqb_neq; lia). ring. }
  induction l as [|u ums IH]; intros j H; cbn [length] in H; [lia|]. cbn [length seq map combine]. rewrite (sum_cons 0 Rplus). cbn [fst snd].
  destruct j as [|j]; cbn [Nat.eqb nth].
  - rewrite Z0 by lia. ring.
  - rewrite <- (IH j) by lia. rewrite <- seq_shift, map_map. cbn [Nat.eqb]. ring.
Qed.

(** ** C116 *)
Section Fit.
Variables (images : list image) (sky : bool) (direction : R -> prms -> option (list (arr R)) -> res (option (list R))).
Variables damp_init damp_max mindlnp : R.
Variables (user_alphas : option (list R)) (default_alphas : list R).
(** _lsqr_forced_photom without damping, priors and minimum flux. *)
Notation run := (forced 0 1 Rplus Rmult Rminus (- (1/2)) gtR geR zeroR (fun _ => true) images sky None None direction 0 damp_init 10 damp_max mindlnp user_alphas default_alphas).
Notation rlnp := (lnp_at 0 1 Rplus Rmult Rminus (- (1/2)) gtR zeroR (fun _ => true) images sky None None).
Hypothesis images_fine : forall i, In i images -> okimg i.
Notation solved := (exact images sky direction).

Lemma lnp_cost t pa l ims : rlnp t pa = Ok (l, ims) ->
  l = - (1/2) * cost images sky (mkParams pa (sk t)) /\ exists rs, ims = Some rs /\ chis_are images (map ri_chi rs) pa (if sky then sk t else []) /\
    forall i, In i images -> same_extent i.
Proof.
  intros E. pose proof (lnp_at_like 0 1 Rplus Rmult Rminus Ropp (- (1/2)) gtR zeroR (fun _ => true) RTheory gtR_irr gtR_tri zeroR_ok images sky None None t pa l ims eq_refl images_fine E) as [L _].
  split. { rewrite L. unfold log_like, cost. cbn [fl sk]. rewrite map_floor_none. reflexivity. }
  unfold ForcedModel.lnp_at in E. cbv zeta iota in E. apply bind_ok in E. destruct E as (rs & E1 & E). injection E as _ <-. exists rs. split; auto.
  pose proof (getims_chis _ _ _ _ images_fine E1) as Q. destruct sky; exact Q.
Qed.

Lemma skip_sky (t : prms) (XX : list R) : length XX = (nsky sky t + length (fl t))%nat ->
  length (firstn (nsky sky t) XX) = length (if sky then sk t else []) /\ length (skipn (nsky sky t) XX) = length (fl t).
Proof. intros H. destruct (split_at_length _ _ _ H) as [A B]. split; auto. rewrite A. unfold nsky. destruct sky; auto. Qed.

(** No fluxes and sky levels fit the images better than those it ends with. *)
Theorem C116_optimum : forall fuel t w, solved t -> run fuel t = Ok (Some w) ->
  same_size t (w_t w) /\ forall t', same_size t t' -> cost images sky (w_t w) <= cost images sky t'.
Proof.
  intros fuel t w SV E. unfold forced in E. apply bind_ok in E. destruct E as ([l0 i0] & E1 & E). cbv beta iota in E. cbn [negb] in E.
  destruct fuel as [|fuel]; [discriminate|]. cbn [ForcedModel.loop] in E. apply bind_ok in E. destruct E as ([go w1] & E2 & E).
  destruct (lnp_cost _ _ _ _ E1) as (L0 & rs & -> & CH & _).
  destruct (SV (map ri_chi rs) (chis_length _ _ _ _ CH)) as (XX & D1 & D2 & D3 & D4).
  destruct (skip_sky t XX D3) as [LS LF].
  (* every candidate is an update of the start *)
  assert (BEST : forall t', same_size t t' -> rchi2 images (zipadd (fl t) (skipn (nsky sky t) XX)) (zipadd (if sky then sk t else []) (firstn (nsky sky t) XX)) <= cost images sky t').
  { intros t' [F1 F2]. rewrite <- (lin_is_chi2 _ _ LF images (map ri_chi rs) _ _ LS CH). unfold cost.
    set (s' := if sky then sk t' else []). assert (LS' : length s' = length (if sky then sk t else [])) by (unfold s'; destruct sky; auto).
    rewrite <- (zipadd_diff (fl t) (fl t') F1), <- (zipadd_diff _ s' LS').
    rewrite <- (lin_is_chi2 _ _ (diff_length _ _ F1) images (map ri_chi rs) _ _ (diff_length _ _ LS') CH).
    apply D4; rewrite diff_length; auto. unfold nsky. destruct sky; auto. }
  revert E2. unfold pass. cbv zeta. cbn [w_damping w_t w_chis0 w_lnp0]. rewrite D1. cbn [bind]. destruct XX as [|x0 XX0]; [congruence|].
  remember (x0 :: XX0) as XX. change (if sky then length (sk t) else 0%nat) with (nsky sky t). rewrite LF, Nat.eqb_refl. cbn [negb andb search].
  unfold probe. destruct t as [f s]. cbn [fl sk] in *. set (tt := if sky then _ else _).
  assert (Hsk : (if sky then sk tt else []) = zipadd (if sky then s else []) (firstn (nsky sky (mkParams f s)) XX)).
  { unfold tt. destruct sky; cbn [sk f_t]; [apply step_one|reflexivity]. }
  rewrite step_one. cbn [f_t f_lnp f_best f_last].
  destruct (rlnp tt _) as [[l1 i1]|e] eqn:E3; cbn [bind]; [|discriminate].
  destruct (lnp_cost _ _ _ _ E3) as (L1 & _). unfold cost in L1. cbn [fl sk] in L1. rewrite Hsk in L1.
  assert (UP : l0 <= l1). { rewrite L0, L1. specialize (BEST (mkParams f s) (conj eq_refl eq_refl)). unfold cost in *. cbn [fl sk] in *. lra. }
  replace (gtR (l0 - 1) l1) with false by (symmetry; apply gtR_no; lra).
  assert (FIN : forall g, Ok (g, w1) = Ok (go, w1) -> True) by auto. clear FIN.
  destruct (gtR l1 l0) eqn:G; cbn [bind f_t f_best f_last f_lnp].
  - assert (W : forall b v, (if b : bool then Ok (false, v) else Ok (false, v)) = Ok (go, w1) -> go = false /\ w1 = v) by (intros [|] v Q; injection Q as <- <-; auto).
    intros Q. apply W in Q. destruct Q as [-> ->]. injection E as <-. cbn [w_t]. split.
    + split; cbn [fl sk].
      * rewrite ?step_one, map_id; apply zipadd_length; auto.
      * unfold tt. destruct sky; cbn [sk f_t]; auto. rewrite step_one. apply zipadd_length. exact LS.
    + intros t' HT. specialize (BEST t' HT). unfold cost at 1. cbn [fl sk]. rewrite map_id, ?step_one.
      replace (if sky then if sky then zipadd s (firstn (nsky sky (mkParams f s)) XX) else sk tt else []) with
        (zipadd (if sky then s else []) (firstn (nsky sky (mkParams f s)) XX)); [exact BEST|].
      destruct sky; [reflexivity|reflexivity].
  - assert (W : forall b v, (if b : bool then Ok (false, v) else Ok (false, v)) = Ok (go, w1) -> go = false /\ w1 = v) by (intros [|] v Q; injection Q as <- <-; auto).
    intros Q. apply W in Q. destruct Q as [-> ->]. injection E as <-. cbn [w_t].
    assert (TT : (if sky then mkParams (fl tt) s else tt) = mkParams f s) by (unfold tt; destruct sky; reflexivity).
    rewrite TT. split; [split; reflexivity|]. intros t' HT. specialize (BEST t' HT). apply gtR_no in G. rewrite L0, L1 in G. unfold cost in *. cbn [fl sk] in *. lra.
Qed.

(** From wherever it starts, the fit is equally good. *)
Theorem C116_start : forall fuel fuel' t t' w w', same_size t t' -> solved t -> solved t' -> run fuel t = Ok (Some w) -> run fuel' t' = Ok (Some w') ->
  cost images sky (w_t w) = cost images sky (w_t w').
Proof.
  intros fuel fuel' t t' w w' [S1 S2] V V' E E'. destruct (C116_optimum _ _ _ V E) as [[A1 A2] B], (C116_optimum _ _ _ V' E') as [[A1' A2'] B'].
  apply Rle_antisym; [apply B|apply B']; split; congruence.
Qed.

(** If no combination of sources and sky levels cancels, the fluxes themselves do
    not depend on the start. *)
Theorem C116_unique : forall fuel fuel' t t' w w', same_size t t' -> solved t -> solved t' -> run fuel t = Ok (Some w) -> run fuel' t' = Ok (Some w') ->
  (forall D Ds, length D = length (fl t) -> length Ds = nsky sky t -> no_effect images D Ds ->
     (forall d, In d D -> d = 0) /\ (forall d, In d Ds -> d = 0)) ->
  fl (w_t w) = fl (w_t w') /\ (sky = true -> sk (w_t w) = sk (w_t w')).
Proof.
  intros fuel fuel' t t' w w' SS V V' E E' IND. pose proof (C116_start _ _ _ _ _ _ SS V V' E E') as EQ. destruct SS as [S1 S2].
  destruct (C116_optimum _ _ _ V E) as [[A1 A2] B], (C116_optimum _ _ _ V' E') as [[A1' A2'] _].
  destruct (w_t w) as [f s], (w_t w') as [f' s']. cbn [fl sk] in *. unfold cost in EQ, B. cbn [fl sk] in EQ, B.
  set (S0 := if sky then s else []) in *. set (S1' := if sky then s' else []) in *.
  assert (LF : length f' = length f) by congruence. assert (LS : length S1' = length S0) by (unfold S0, S1'; destruct sky; congruence).
  set (D := diff f' f). set (Ds := diff S1' S0).
  assert (LD : length D = length f) by (apply diff_length; auto). assert (LDs : length Ds = length S0) by (apply diff_length; auto).
  pose proof (chi2_expand f D LD images S0 Ds LDs) as X1. unfold D, Ds in X1. rewrite (zipadd_diff f f' LF), (zipadd_diff S0 S1' LS) in X1. fold D Ds in X1.
  (* half way *)
  assert (LH : length (scaled (1/2) D) = length f) by (rewrite scaled_length; auto). assert (LHs : length (scaled (1/2) Ds) = length S0) by (rewrite scaled_length; auto).
  pose proof (chi2_expand f (scaled (1/2) D) LH images S0 (scaled (1/2) Ds) LHs) as X2. rewrite rsq_scaled, cross_scaled in X2.
  assert (H : rchi2 images f S0 <= rchi2 images (zipadd f (scaled (1/2) D)) (zipadd S0 (scaled (1/2) Ds))).
  { specialize (B (mkParams (zipadd f (scaled (1/2) D)) (if sky then zipadd S0 (scaled (1/2) Ds) else sk t))). cbn [fl sk] in B.
    assert (Q : zipadd S0 (scaled (1/2) Ds) = if sky then (if sky then zipadd S0 (scaled (1/2) Ds) else sk t) else []).
    { unfold S0. destruct sky; auto. }
    rewrite Q. apply B. split; cbn [fl sk].
    - rewrite zipadd_length; congruence.
    - clear - A2 LHs. unfold S0 in *. destruct sky; auto. rewrite zipadd_length; auto. }
  assert (Z0 : rsq images D Ds <= 0) by lra. apply rsq_zero in Z0.
  assert (LK : length Ds = nsky sky t) by (rewrite LDs; unfold S0, nsky; destruct sky; auto).
  destruct (IND D Ds ltac:(congruence) LK Z0) as [N1 N2].
  assert (CAN : forall a b, length b = length a -> (forall d, In d (diff b a) -> d = 0) -> a = b).
  { clear. unfold diff. induction a as [|x a IH]; intros [|y b] L H; try discriminate; auto. cbn [combine map fst snd] in H. f_equal.
    - specialize (H _ (or_introl eq_refl)). lra.
    - apply IH; [simpl in L; lia|]. intros d Hd. apply H. right. exact Hd. }
  split; [apply CAN; auto|]. intros HS. unfold Ds, S0, S1' in *. rewrite HS in *. apply CAN; auto.
Qed.

(** The inverse variances are the curvature: chi-squared rises by [z^2] times the
    inverse variance when one flux is moved by [z] away from the fit. *)
Theorem C116_curvature : forall fuel t w n fit_sky skyvariance iv, solved t -> run fuel t = Ok (Some w) ->
  (forall i, In i images -> length (fi_um i) = n) -> length (fl t) = n ->
  fit_sky && skyvariance = false -> get_iv 0 1 Rplus Rmult fit_sky skyvariance images n = Ok iv ->
  forall k z, (k < n)%nat ->
    cost images sky (mkParams (nudge k z (fl (w_t w))) (sk (w_t w))) = cost images sky (w_t w) + z ^ 2 * nth k iv 0.
Proof.
  intros fuel t w n fs sv iv V E HU HN HF HIV k z HK. destruct (C116_optimum _ _ _ V E) as [[A1 A2] B].
  assert (EXT : forall i, In i images -> same_extent i).
  { unfold forced in E. apply bind_ok in E. destruct E as ([l0 i0] & E1 & _). destruct (lnp_cost _ _ _ _ E1) as (_ & rs & _ & _ & Q). exact Q. }
  destruct (C38_iv 0 1 Rplus Rmult Rminus Ropp gtR RTheory gtR_irr gtR_tri images n fs sv HF) as (r & E1 & LR & NR).
  { intros i Hi. split; [apply images_fine; auto|auto]. }
  rewrite HIV in E1. injection E1 as <-. rewrite (NR k HK).
  destruct (w_t w) as [f s]. cbn [fl sk] in *. unfold cost in *. cbn [fl sk] in *. set (S0 := if sky then s else []) in *.
  set (U := unit_vec n k). assert (LU : length U = length f) by (unfold U, unit_vec; rewrite map_length, seq_length; congruence).
  set (Z0 := repeat 0 (length S0)). assert (LZ : length Z0 = length S0) by apply repeat_length.
  assert (EXP : forall c, rchi2 images (nudge k c f) S0 = rchi2 images f S0 - 2 * (c * cross images f S0 U Z0) + c ^ 2 * rsq images U Z0).
  { intros c. rewrite nudge_zip by lia. replace (length f) with n by congruence. fold U.
    rewrite <- (zip_scaled_0 S0 Z0 LZ) at 1. replace (scaled 0 Z0) with (scaled c Z0).
    - rewrite (chi2_expand f (scaled c U)); [|rewrite scaled_length; auto|rewrite scaled_length; auto]. rewrite cross_scaled, rsq_scaled. lra.
    - unfold scaled, Z0. generalize (length S0). induction n0 as [|m IH]; auto. cbn [repeat map]. rewrite IH. f_equal. lra. }
  assert (ST : cross images f S0 U Z0 = 0).
  { apply (stationary _ (rsq images U Z0)); [apply rsq_pos|]. intros c. specialize (B (mkParams (nudge k c f) s)). cbn [fl sk] in B. fold S0 in B.
    rewrite EXP in B. enough (same_size t (mkParams (nudge k c f) s)) as SZ by (specialize (B SZ); lra). split; cbn [fl sk]; [rewrite nudge_length; auto|auto]. }
  rewrite EXP, ST. enough (rsq images U Z0 = rsum (fun i => whole_sum 0 Rplus (fi_ie i) (fun X Y =>
      (unit_at 0 (nth k (fi_um i) None) X Y * fi_scale i * px (fi_ie i) Y X) * (unit_at 0 (nth k (fi_um i) None) X Y * fi_scale i * px (fi_ie i) Y X))) images) as -> by (cbv zeta; lra).
  clear - HU HK EXT. unfold Z0. clear Z0. generalize (length S0). clear S0. unfold U. clear U. revert HU EXT.
  induction images as [|i is IH]; intros HU EXT m; cbn [rsq]; [reflexivity|]. rewrite (sum_cons 0 Rplus). f_equal.
  - unfold whole_sum. destruct (EXT i (or_introl eq_refl)) as [-> ->]. apply pixels_ext. intros X Y _ _.
    replace (hd 0 (repeat 0 m)) with 0 by (destruct m; reflexivity). rewrite resp_unit by (auto with datatypes; apply HU; left; auto). ring.
  - replace (tl (repeat 0 m)) with (repeat 0 (Nat.pred m)) by (destruct m; reflexivity).
    apply IH; intros; [apply HU|apply EXT]; right; auto.
Qed.
End Fit.

(** ** A concrete case *)
(** Two pixels of data 1 and 2, errors 1; a source of unit-flux model 1, 3 and a
    scale of 2. *)
Definition ex_arr (a b : R) : arr R := mkArr 1 2 (fun _ x => if (x =? 0)%Z then a else b).
Definition ex_img (ums : list (option (patch R))) : image := mkFimg (ex_arr 1 2) (ex_arr 1 1) (ex_arr 0 0) 2 None ums.
Definition ex_um : option (patch R) := Some (mkPatch 0 0 (Some (ex_arr 1 3))).
Definition ex_dir (d : R) (t : prms) (chis : option (list (arr R))) : res (option (list R)) :=
  match chis with Some [c] => Ok (Some [(2 * px c 0%Z 0%Z + 6 * px c 0%Z 1%Z) / 40]) | _ => Ok None end.
Notation ex_run := (forced 0 1 Rplus Rmult Rminus (- (1/2)) gtR geR zeroR (fun _ => true) [ex_img [ex_um]] false None None ex_dir 0 (1/1000) 10 1000 1 None []).
Lemma ex_wf a b : wf_arr (ex_arr a b).
Proof. unfold wf_arr. cbn. lia. Qed.
Lemma ex_ok ums : (forall um, In um ums -> um = ex_um) -> okimg (ex_img ums).
Proof.
  intros H. split; [|reflexivity]. unfold fimg_ok. cbn [fi_m0 fi_ie fi_um ex_img].
  split; [apply ex_wf|split; [apply ex_wf|]]. intros um Hu. rewrite (H um Hu). cbn. apply ex_wf.
Qed.
Lemma zeroR_no a : a <> 0 -> zeroR a = false.
Proof. unfold zeroR. destruct (Req_EM_T a 0); congruence. Qed.
Lemma zeroR_yes a : a = 0 -> zeroR a = true.
Proof. unfold zeroR. destruct (Req_EM_T a 0); congruence. Qed.
Lemma ex_getim f ums : (forall um, In um ums -> um = ex_um) -> length f = length ums -> (length f <= 2)%nat ->
  exists r, getim 1 Rplus Rmult Rminus gtR zeroR (fun _ => true) f (ex_img ums) None None = Ok r.
Proof.
  intros H L L2. destruct f as [|a [|b [|? ?]]], ums as [|u [|v [|? ?]]]; cbn [length] in *; try lia.
  - eexists. reflexivity.
  - rewrite (H u (or_introl eq_refl)). unfold getim. cbn. destruct (zeroR (a * 2)); cbn; eexists; reflexivity.
  - rewrite (H u (or_introl eq_refl)), (H v (or_intror (or_introl eq_refl))). unfold getim. cbn.
    destruct (zeroR (a * 2)); cbn; destruct (zeroR (b * 2)); cbn; eexists; reflexivity.
Qed.
Lemma ex_cost f : cost [ex_img [ex_um]] false (mkParams [f] []) = (1 - 2 * f) ^ 2 + (2 - 6 * f) ^ 2.
Proof. unfold cost. cbn. unfold lsum. change (Pos.to_nat 2) with 2%nat. change (Pos.to_nat 1) with 1%nat. cbn. unfold chi_at, model_at. cbn. ring. Qed.
Lemma ex_exact : exact [ex_img [ex_um]] false ex_dir (mkParams [0] []).
Proof.
  intros chis L. destruct chis as [|c [|? ?]]; try discriminate. eexists. split; [reflexivity|]. split; [discriminate|]. split; [reflexivity|].
  intros Zs D LZ LD. destruct Zs; [|discriminate]. destruct D as [|d [|? ?]]; try discriminate. cbn [nsky firstn skipn].
  cbn. change (Pos.to_nat 2) with 2%nat. change (Pos.to_nat 1) with 1%nat. cbn. unfold resp. cbn. set (a := px c 0%Z 0%Z). set (b := px c 0%Z 1%Z).
  pose proof (pow2_ge_0 (40 * d - (2 * a + 6 * b))) as Q. nra.
Qed.
Example C116_ex :
  okimg (ex_img [ex_um]) /\ exact [ex_img [ex_um]] false ex_dir (mkParams [0] []) /\
  (exists w, ex_run 1 (mkParams [0] []) = Ok (Some w) /\ fl (w_t w) = [7/20]) /\
  exists iv, get_iv 0 1 Rplus Rmult false false [ex_img [ex_um]] 1 = Ok iv /\ nth 0 iv 0 = 40.
Proof.
  assert (OK : okimg (ex_img [ex_um])) by (apply ex_ok; intros um [<-|[]]; reflexivity).
  assert (ALL : forall i, In i [ex_img [ex_um]] -> okimg i) by (intros i [<-|[]]; exact OK).
  split; [exact OK|]. split; [apply ex_exact|]. split.
  - assert (RUN : exists w, ex_run 1 (mkParams [0] []) = Ok (Some w)).
    { unfold forced, lnp_at. cbn [getims fl]. destruct (ex_getim [0] [ex_um]) as [r0 E0]; [intros um [<-|[]]; reflexivity|reflexivity|cbn; lia|].
      rewrite E0. cbn [bind negb loop pass w_damping w_t w_chis0 map ex_dir fl sk firstn skipn length Nat.eqb search probe f_t andb]. cbv zeta.
      cbn [bind negb loop w_damping w_t w_chis0 w_lnp0 w_damp0 map ex_dir fl sk firstn skipn length Nat.eqb search probe f_t f_lnp andb].
      unfold probe, lnp_at. cbn [getims fl sk f_t].
      match goal with |- context [getim _ _ _ _ _ _ _ ?f (ex_img _) None None] =>
        destruct (ex_getim f [ex_um]) as [r1 E1]; [intros um [<-|[]]; reflexivity|reflexivity|cbn; lia|] end.
      rewrite E1. cbn [bind negb andb f_lnp f_best f_last f_t].
      destruct (gtR (_ - 1) _); cbn [bind f_lnp f_best f_last f_t]; [destruct (gtR _ _); eexists; reflexivity|].
      destruct (gtR _ _); cbn [bind f_lnp f_best f_last f_t]; destruct (gtR _ _); eexists; reflexivity. }
    destruct RUN as [w E]. exists w. split; [exact E|].
    destruct (C116_optimum _ _ _ _ _ _ _ _ ALL _ _ _ ex_exact E) as [[S1 S2] B].
    destruct (w_t w) as [f s]. cbn [fl sk] in *. destruct f as [|f [|? ?]]; try discriminate. destruct s; [|discriminate].
    specialize (B (mkParams [7/20] []) (conj eq_refl eq_refl)). rewrite !ex_cost in B. f_equal.
    assert (Q : (f - 7/20) ^ 2 <= 0) by nra. assert (0 <= (f - 7/20) ^ 2) by apply pow2_ge_0. nra.
  - destruct (C38_iv 0 1 Rplus Rmult Rminus Ropp gtR RTheory gtR_irr gtR_tri [ex_img [ex_um]] 1 false false eq_refl) as (iv & E & _ & N).
    { intros i Hi. split; [apply ALL; auto|]. destruct Hi as [<-|[]]. reflexivity. }
    exists iv. split; [exact E|]. rewrite (N 0%nat) by lia. cbn. unfold whole_sum, lsum. cbn. change (Pos.to_nat 2) with 2%nat. change (Pos.to_nat 1) with 1%nat. cbn. ring.
Qed.

(** The inverse variances do not say how well a flux is known when sources
    overlap: with two sources of the same shape both inverse variances are
    positive, though flux can be moved from one to the other without changing
    the fit at all. *)
Theorem C116_known_refuted : exists iv, get_iv 0 1 Rplus Rmult false false [ex_img [ex_um; ex_um]] 2 = Ok iv /\
  nth 0 iv 0 = 40 /\ nth 1 iv 0 = 40 /\
  forall a b z, cost [ex_img [ex_um; ex_um]] false (mkParams [a + z; b - z] []) = cost [ex_img [ex_um; ex_um]] false (mkParams [a; b] []).
Proof.
  destruct (C38_iv 0 1 Rplus Rmult Rminus Ropp gtR RTheory gtR_irr gtR_tri [ex_img [ex_um; ex_um]] 2 false false eq_refl) as (iv & E & _ & N).
  { intros i [<-|[]]. split; [|reflexivity]. apply ex_ok. intros um [<-|[<-|[]]]; reflexivity. }
  exists iv. split; [exact E|]. split; [|split].
  - rewrite (N 0%nat) by lia. cbn. unfold whole_sum, lsum. cbn. change (Pos.to_nat 2) with 2%nat. change (Pos.to_nat 1) with 1%nat. cbn. ring.
  - rewrite (N 1%nat) by lia. cbn. unfold whole_sum, lsum. cbn. change (Pos.to_nat 2) with 2%nat. change (Pos.to_nat 1) with 1%nat. cbn. ring.
  - intros a b z. unfold cost. cbn. unfold lsum. change (Pos.to_nat 2) with 2%nat. change (Pos.to_nat 1) with 1%nat. cbn. unfold chi_at, model_at. cbn. ring.
Qed.

Print Assumptions C116_optimum.
Print Assumptions C116_start.
Print Assumptions C116_unique.
Print Assumptions C116_curvature.
Print Assumptions C116_known_refuted.
