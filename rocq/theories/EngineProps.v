(** Properties C24-C26: model images, likelihood and posterior, model masks. *)
From Coq Require Import List ZArith QArith Bool Lia Lqa Sorting.Permutation.
From Verif Require Import Base PatchModel PatchSpec PatchProofs Ext EngineModel.
Import ListNotations.
Open Scope Z_scope.

(** ** C26 *)
Section Masks.
Context {Mask : Type}.

(** The mask registered for the image at position [i] and source [src]. *)
Definition registered (masks : list (list (nat * Mask))) (i src : nat) (m : Mask) : Prop :=
  exists d, nth_error masks i = Some d /\ In (src, m) d.

Lemma index_of_nth x l : NoDup l -> forall i, nth_error l i = Some x -> index_of x l = Some i.
Proof.
  induction l as [|y l IH]; intros N i E; [destruct i; discriminate|].
  inversion N as [|? ? N1 N2]; subst. destruct i as [|i]; simpl in *.
  - injection E; intros ->. rewrite Nat.eqb_refl. auto.
  - destruct (Nat.eqb_spec x y) as [->|].
    + exfalso; apply N1. eapply nth_error_In; eauto.
    + rewrite (IH N2 i E). auto.
Qed.
Lemma lookup_in k (d : list (nat * Mask)) m : NoDup (map fst d) -> In (k, m) d -> lookup k d = Some m.
Proof.
  induction d as [|[k' m'] d IH]; simpl; [tauto|]. intros N [E|E]; inversion N as [|? ? N1 N2]; subst.
  - injection E; intros; subst. rewrite Nat.eqb_refl. auto.
  - destruct (Nat.eqb_spec k k') as [->|]; auto.
    exfalso; apply N1. apply (in_map fst _ _ E).
Qed.
Lemma lookup_notin k (d : list (nat * Mask)) : ~ In k (map fst d) -> lookup k d = None.
Proof.
  induction d as [|[k' m'] d IH]; simpl; auto. intros N.
  destruct (Nat.eqb_spec k k') as [->|]; [exfalso; apply N; auto|auto].
Qed.
End Masks.

(** After setModelMasks(masks): a source is rendered with exactly the mask
    registered for that image and source; without one it is not rendered (no
    model and all derivatives None) if masks are required, and rendered
    without a mask otherwise. *)
Theorem C26_masks : forall (V Mask : Type) (render : nat -> nat -> option Mask -> option (patch V))
    (derivs : nat -> nat -> option Mask -> list (option (patch V))) nparams (t : tractor Mask) masks assume i img src d,
  NoDup (t_images t) -> length masks = length (t_images t) ->
  nth_error (t_images t) i = Some img -> nth_error masks i = Some d -> NoDup (map fst d) ->
  let '(t', r) := set_model_masks t (Some masks) assume in
  r = Ok tt /\
  (forall m, registered masks i src m ->
     get_model_patch render t' img src = Ok (render src img (Some m)) /\
     get_source_derivatives derivs nparams t' src img = Ok (derivs src img (Some m))) /\
  ((forall m, ~ registered masks i src m) ->
     get_model_patch render t' img src = Ok (if assume then None else render src img None) /\
     get_source_derivatives derivs nparams t' src img =
       Ok (if assume then repeat None (nparams src) else derivs src img None)).
Proof.
  intros V Mask render derivs nparams t masks assume i img src d ND HL HI HD NDd.
  unfold set_model_masks. rewrite HL, Nat.eqb_refl. split; auto.
  unfold get_model_patch, get_source_derivatives, get_model_mask_for. simpl.
  rewrite (index_of_nth img (t_images t) ND i HI). unfold py_get. rewrite HD. simpl. split.
  - intros m (d' & E & HIn). rewrite HD in E; injection E; intros <-.
    rewrite (lookup_in src d m NDd HIn). simpl. rewrite andb_false_r. auto.
  - intros NR. rewrite (lookup_notin src d).
    + simpl. rewrite andb_true_r. destruct assume; auto.
    + intros HIn. apply in_map_iff in HIn. destruct HIn as ([s m] & E & HIn). simpl in E; subst s.
      apply (NR m). exists d. auto.
Qed.

(** setModelMasks(None) switches masks off. *)
Theorem C26_no_masks : forall (V Mask : Type) (render : nat -> nat -> option Mask -> option (patch V))
    (derivs : nat -> nat -> option Mask -> list (option (patch V))) nparams (t : tractor Mask) assume img src,
  let '(t', r) := set_model_masks t None assume in
  r = Ok tt /\ get_model_patch render t' img src = Ok (render src img None) /\
  get_source_derivatives derivs nparams t' src img = Ok (derivs src img None).
Proof. intros. simpl. split; auto. Qed.

(** A list of the wrong length is refused, but stays registered. *)
Theorem C26_wrong_length : forall (Mask : Type) (t : tractor Mask) masks assume,
  length masks <> length (t_images t) ->
  let '(t', r) := set_model_masks t (Some masks) assume in
  r = Err AssertionError /\ t_masks t' = Some masks /\ t_expect t' = t_expect t.
Proof.
  intros Mask t masks assume N. unfold set_model_masks.
  destruct (Nat.eqb_spec (length masks) (length (t_images t))); [congruence|simpl; auto].
Qed.

(** If the same image object is in the list twice, the masks of its second
    position are never used. *)
Theorem C26_repeated_image_refuted :
  exists (t : tractor Z) masks i img src m,
    length masks = length (t_images t) /\ nth_error (t_images t) i = Some img /\
    registered masks i src m /\
    forall V (render : nat -> nat -> option Z -> option (patch V)),
      get_model_patch render (fst (set_model_masks t (Some masks) true)) img src = Ok None.
Proof.
  exists (mkTractor [7%nat; 7%nat] None false), [[]; [(3%nat, 5)]], 1%nat, 7%nat, 3%nat, 5.
  split; auto. split; auto. split; [exists [(3%nat, 5)]; simpl; auto|]. reflexivity.
Qed.

Example C26_ex :
  let t := fst (set_model_masks (mkTractor [7%nat; 8%nat] None false) (Some [[(1%nat, 10)]; [(2%nat, 20)]]) true) in
  let render s i (m : option Z) := Some (mkPatch 0 0 (Some (mkArr 1 1 (fun _ _ => (s, i, m))))) in
  (get_model_patch render t 8 1 = Ok None) /\
  match get_model_patch render t 8 2 with Ok (Some p) => val_at p 0 0 = Some (2%nat, 8%nat, Some 20) | _ => False end.
Proof. split; reflexivity. Qed.

(** ** C24 *)

(** What a source contributes to pixel (X, Y): its patch there. *)
Definition source_at {V Mask} (render : nat -> nat -> option Mask -> option (patch V)) (t : tractor Mask)
    (img : nat) (src : option nat) (X Y : Z) : option V :=
  match src with
  | None => None
  | Some s => match get_model_patch render t img s with
              | Ok (Some p) => val_at p X Y
              | _ => None
              end
  end.

(** All sources can be looked up and their patches have sane shapes. *)
Definition sources_ok {V Mask} (render : nat -> nat -> option Mask -> option (patch V)) (t : tractor Mask)
    (img : nat) (srcs : list (option nat)) : Prop :=
  forall s, In (Some s) srcs -> exists op, get_model_patch render t img s = Ok op /\
    match op with None => True | Some p => wf_patch p end.

Section ModelImage.
Context {V Mask : Type}.
Variable render : nat -> nat -> option Mask -> option (patch V).
Variables (one : V) (add mul : V -> V -> V).

Lemma add_sources_spec t img srcs : sources_ok render t img srcs -> forall m, wf_arr m ->
  exists m', add_sources render one add mul t img srcs m = Ok m' /\ ah m' = ah m /\ aw m' = aw m /\
    forall Y X, 0 <= Y < ah m -> 0 <= X < aw m ->
      px m' Y X = fold_left (fun acc s => match source_at render t img s X Y with
                                          | Some v => add acc (mul v one)
                                          | None => acc end) srcs (px m Y X).
Proof.
  induction srcs as [|[s|] srcs IH]; intros HS m Wm; simpl.
  - exists m. repeat split; auto.
  - destruct (HS s) as (op & E & Wp); [simpl; auto|].
    assert (HS' : sources_ok render t img srcs) by (intros s' H'; apply HS; simpl; auto).
    rewrite E. simpl. destruct op as [p|].
    + destruct (add_to_spec add mul p m one Wp Wm) as (m1 & E1 & H1 & W1 & P1). rewrite E1. simpl.
      destruct (IH HS' m1) as (m2 & E2 & H2 & W2 & P2).
      { destruct Wm; split; lia. }
      exists m2. split; auto. split; [lia|]. split; [lia|].
      intros Y X HY HX. rewrite P2 by lia. rewrite P1 by lia. reflexivity.
    + destruct (IH HS' m Wm) as (m2 & E2 & H2 & W2 & P2). exists m2. split; auto.
  - apply IH; auto. intros s' H'; apply HS; simpl; auto.
Qed.
End ModelImage.

(** Whatever the arithmetic: each pixel is the sky followed by the source
    models added in catalog order. *)
Theorem C24_model_image : forall (V Mask : Type) (render : nat -> nat -> option Mask -> option (patch V))
    zero one add mul shape sky (t : tractor Mask) img srcs with_sky,
  0 <= fst (shape img) -> 0 <= snd (shape img) -> sources_ok render t img srcs ->
  exists m, get_model_image render zero one add mul shape sky t img srcs with_sky = Ok m /\
    (ah m, aw m) = shape img /\
    forall Y X, 0 <= Y < ah m -> 0 <= X < aw m ->
      px m Y X = fold_left (fun acc s => match source_at render t img s X Y with
                                         | Some v => add acc (mul v one)
                                         | None => acc end) srcs
                  (if with_sky then add zero (sky img Y X) else zero).
Proof.
  intros V Mask render zero one add mul shape sky t img srcs with_sky Hh Hw HS.
  unfold get_model_image. destruct (shape img) as [h w] eqn:ES. simpl in Hh, Hw.
  destruct with_sky.
  - destruct (add_sources_spec render one add mul t img srcs HS
      (mkArr h w (fun y x => add zero (sky img y x)))) as (m & E & H1 & W1 & P).
    { split; auto. }
    exists m. split; auto. simpl in *. split; [congruence|]. intros; apply P; lia.
  - destruct (add_sources_spec render one add mul t img srcs HS (mkArr h w (fun _ _ => zero)))
      as (m & E & H1 & W1 & P).
    { split; auto. }
    exists m. split; auto. simpl in *. split; [congruence|]. intros; apply P; lia.
Qed.

(** With exact addition (commutative, associative, with a zero): sky plus the
    sum of the source models, each zero outside its patch. *)
Definition total {V} (zero : V) (add : V -> V -> V) (l : list V) : V := fold_right add zero l.

Theorem C24_sum_of_sources : forall (V Mask : Type) (render : nat -> nat -> option Mask -> option (patch V))
    zero one add mul shape sky (t : tractor Mask) img srcs,
  (forall x y, add x y = add y x) -> (forall x y z, add x (add y z) = add (add x y) z) ->
  (forall x, add x zero = x) -> (forall x, mul x one = x) ->
  0 <= fst (shape img) -> 0 <= snd (shape img) -> sources_ok render t img srcs ->
  exists m, get_model_image render zero one add mul shape sky t img srcs true = Ok m /\
    (ah m, aw m) = shape img /\
    forall Y X, 0 <= Y < ah m -> 0 <= X < aw m ->
      px m Y X = add (sky img Y X)
        (total zero add (map (fun s => match source_at render t img s X Y with Some v => v | None => zero end) srcs)).
Proof.
  intros V Mask render zero one add mul shape sky t img srcs CO AS ZE ON Hh Hw HS.
  destruct (C24_model_image V Mask render zero one add mul shape sky t img srcs true Hh Hw HS)
    as (m & E & SH & P).
  exists m. split; auto. split; auto. intros Y X HY HX. rewrite P by auto. rewrite (CO zero), ZE.
  generalize (sky img Y X). clear P. induction srcs as [|s srcs IH]; intros a; simpl.
  - symmetry; apply ZE.
  - assert (HS' : sources_ok render t img srcs) by (intros s' H'; apply HS; simpl; auto).
    assert (IH' : forall a, fold_left (fun acc s => match source_at render t img s X Y with
       | Some v => add acc (mul v one) | None => acc end) srcs a =
       add a (total zero add (map (fun s => match source_at render t img s X Y with Some v => v | None => zero end) srcs))).
    { clear - CO AS ZE ON. induction srcs as [|s srcs IH]; intros a; simpl; [symmetry; apply ZE|].
      rewrite IH. destruct (source_at render t img s X Y).
      - rewrite ON, AS. auto.
      - rewrite (CO zero (total _ _ _)), ZE. auto. }
    rewrite IH'. destruct (source_at render t img s X Y).
    + rewrite ON, AS. auto.
    + rewrite (CO zero (total _ _ _)), ZE. auto.
Qed.

(** The order of the catalog does not matter. *)
Theorem C24_order_independent : forall (V Mask : Type) (render : nat -> nat -> option Mask -> option (patch V))
    zero one add mul shape sky (t : tractor Mask) img srcs srcs',
  (forall x y, add x y = add y x) -> (forall x y z, add x (add y z) = add (add x y) z) ->
  (forall x, add x zero = x) -> (forall x, mul x one = x) ->
  0 <= fst (shape img) -> 0 <= snd (shape img) -> sources_ok render t img srcs ->
  Permutation srcs srcs' ->
  exists m m', get_model_image render zero one add mul shape sky t img srcs true = Ok m /\
    get_model_image render zero one add mul shape sky t img srcs' true = Ok m' /\
    ah m = ah m' /\ aw m = aw m' /\
    forall Y X, 0 <= Y < ah m -> 0 <= X < aw m -> px m Y X = px m' Y X.
Proof.
  intros V Mask render zero one add mul shape sky t img srcs srcs' CO AS ZE ON Hh Hw HS PM.
  destruct (C24_sum_of_sources V Mask render zero one add mul shape sky t img srcs CO AS ZE ON Hh Hw HS)
    as (m & E & SH & P).
  assert (HS' : sources_ok render t img srcs').
  { intros s Hs. apply HS. eapply Permutation_in; [apply Permutation_sym; eauto|auto]. }
  destruct (C24_sum_of_sources V Mask render zero one add mul shape sky t img srcs' CO AS ZE ON Hh Hw HS')
    as (m' & E' & SH' & P').
  rewrite <- SH' in SH. injection SH; intros HW HH.
  exists m, m'. repeat (split; [auto|]). intros Y X HY HX. rewrite P by auto. rewrite P' by lia. f_equal.
  clear - PM CO AS.
  apply (Permutation_map (fun s => match source_at render t img s X Y with Some v => v | None => zero end)) in PM.
  induction PM; simpl; auto; try congruence.
Qed.

(** Two overlapping sources, one hanging over the edge, one None entry, one
    source without a model. *)
Example C24_ex :
  let t := mkTractor (Mask := unit) [0%nat] None false in
  let render (s : nat) (i : nat) (m : option unit) :=
    match s with
    | 1%nat => Some (mkPatch (-1) 0 (Some (mkArr 2 2 (fun y x => 10 * y + x))))
    | 2%nat => Some (mkPatch 0 1 (Some (mkArr 1 2 (fun y x => 100))))
    | _ => None
    end in
  match get_model_image render 0 1 Z.add Z.mul (fun _ => (2, 2)) (fun _ _ _ => 1000) t 0
          [Some 1%nat; None; Some 5%nat; Some 2%nat] true with
  | Ok m => (px m 0 0, px m 0 1, px m 1 0, px m 1 1) = (1001, 1000, 1111, 1100)
  | Err _ => False
  end.
Proof. reflexivity. Qed.

(** ** C25 *)
Open Scope Q_scope.

Definition not_positive (a : ext) : Prop :=
  match a with Fin q => q <= 0 | PInf => False | NInf | NaN => True end.
Definition not_negative (a : ext) : Prop :=
  match a with Fin q => 0 <= q | NInf => False | PInf | NaN => True end.

Lemma esq_nonneg a : not_negative (esq a).
Proof. destruct a; simpl; auto. apply Qsqr_nonneg || (unfold Qle; simpl; nia). Qed.
Lemma eadd_nonneg a b : not_negative a -> not_negative b -> not_negative (eadd a b).
Proof. destruct a, b; simpl; intros; auto; try contradiction. lra. Qed.
Lemma sum_nonneg f n : (forall k, not_negative (f k)) -> not_negative (sum_upto eadd ezero f n).
Proof. intros H. induction n; simpl; [lra|apply eadd_nonneg; auto]. Qed.

(** The log-likelihood is never positive. *)
Theorem C25_loglik_not_positive : forall chis, not_positive (get_log_likelihood chis).
Proof.
  intros chis. unfold get_log_likelihood.
  assert (G : forall acc, not_negative acc -> not_negative (fold_left (fun acc chi => eadd acc
      (arr_sum eadd ezero (mkArr (ah chi) (aw chi) (fun y x => esq (px chi y x))))) chis acc)).
  { induction chis as [|c chis IH]; simpl; auto. intros acc H. apply IH. apply eadd_nonneg; auto.
    unfold arr_sum. apply sum_nonneg. intros. apply sum_nonneg. intros. apply esq_nonneg. }
  specialize (G ezero). destruct (fold_left _ chis ezero); simpl in *; auto; [|apply G; lra].
  assert (0 <= q) by (apply G; lra). lra.
Qed.

(** For finite pixels it is minus half the sum of squares over all images. *)
Definition qsum (f : nat -> Q) (n : nat) : Q := sum_upto Qplus 0 f n.
Definition fin_chi (h w : Z) (f : Z -> Z -> Q) : arr ext := mkArr h w (fun y x => Fin (f y x)).

Lemma sum_fin f n : sum_upto eadd ezero (fun k => Fin (f k)) n = Fin (qsum f n).
Proof. induction n; simpl; auto. rewrite IHn. reflexivity. Qed.
Lemma sum_ext f g n : (forall k, f k = g k) -> sum_upto eadd ezero f n = sum_upto eadd ezero g n.
Proof. intros H. induction n; simpl; congruence. Qed.

Lemma loglik_chi_value : forall (l : list (Z * Z * (Z -> Z -> Q))),
  exists q, get_log_likelihood (map (fun '(h, w, f) => fin_chi h w f) l) = Fin q /\
    q == - (1 # 2) * fold_right Qplus 0 (map (fun '(h, w, f) =>
           qsum (fun y => qsum (fun x => f (Z.of_nat y) (Z.of_nat x) * f (Z.of_nat y) (Z.of_nat x))
                               (Z.to_nat w)) (Z.to_nat h)) l).
Proof.
  intros l. unfold get_log_likelihood.
  assert (G : forall a, exists q, fold_left (fun acc chi => eadd acc
      (arr_sum eadd ezero (mkArr (ah chi) (aw chi) (fun y x => esq (px chi y x)))))
      (map (fun '(h, w, f) => fin_chi h w f) l) (Fin a) = Fin q /\
      q == a + fold_right Qplus 0 (map (fun '(h, w, f) =>
           qsum (fun y => qsum (fun x => f (Z.of_nat y) (Z.of_nat x) * f (Z.of_nat y) (Z.of_nat x))
                               (Z.to_nat w)) (Z.to_nat h)) l)).
  { induction l as [|[[h w] f] l IH]; intros a; simpl.
    - exists a. split; auto. ring.
    - unfold arr_sum at 2; simpl.
      rewrite (sum_ext _ (fun y => Fin (qsum (fun x => f (Z.of_nat y) (Z.of_nat x) * f (Z.of_nat y) (Z.of_nat x)) (Z.to_nat w))))
        by (intros; apply sum_fin).
      rewrite sum_fin. simpl.
      destruct (IH (a + qsum (fun y => qsum (fun x => f (Z.of_nat y) (Z.of_nat x) * f (Z.of_nat y) (Z.of_nat x)) (Z.to_nat w)) (Z.to_nat h))) as (q & E & Q).
      exists q. split; auto. rewrite Q. ring. }
  destruct (G 0) as (q & E & Q). change (Fin 0) with ezero in E; rewrite E. simpl.
  eexists; split; [reflexivity|]. rewrite Q. ring.
Qed.

(** One image: height, width, data, inverse errors, model, all finite. *)
Record qimage : Type := mkQimage { q_h : Z; q_w : Z; q_data : Z -> Z -> Q; q_ie : Z -> Z -> Q; q_mod : Z -> Z -> Q }.
Definition chi_of (i : qimage) : arr ext :=
  get_chi_image (fin_chi (q_h i) (q_w i) (q_data i)) (fin_chi (q_h i) (q_w i) (q_ie i)) (fin_chi (q_h i) (q_w i) (q_mod i)).
Definition chi2_of (i : qimage) : Q :=
  qsum (fun y => qsum (fun x => let Y := Z.of_nat y in let X := Z.of_nat x in
     (q_data i Y X - q_mod i Y X) * (q_data i Y X - q_mod i Y X) * (q_ie i Y X * q_ie i Y X))
     (Z.to_nat (q_w i))) (Z.to_nat (q_h i)).

Lemma qsum_ext f g n : (forall k, f k == g k) -> qsum f n == qsum g n.
Proof. intros H. unfold qsum. induction n as [|n IH]; simpl; [reflexivity|]. rewrite IH, H. reflexivity. Qed.

(** The log-likelihood is minus half the sum of (data - model)^2 * ie^2 over
    all pixels of all images. *)
Theorem C25_loglik_value : forall imgs, exists q,
  get_log_likelihood (map chi_of imgs) = Fin q /\ q == - (1 # 2) * fold_right Qplus 0 (map chi2_of imgs).
Proof.
  intros imgs.
  destruct (loglik_chi_value (map (fun i => (q_h i, q_w i, fun y x => (q_data i y x - q_mod i y x) * q_ie i y x)) imgs)) as (q & E & Q).
  exists q. split; [rewrite <- E; rewrite map_map; reflexivity|]. rewrite Q. rewrite map_map.
  apply Qmult_comp; [reflexivity|]. clear. induction imgs as [|i imgs IH]; cbn [map fold_right]; [reflexivity|].
  rewrite IH. apply Qplus_comp; [|reflexivity]. unfold chi2_of. apply qsum_ext. intros y. apply qsum_ext. intros x. cbv zeta. ring.
Qed.

(** Pixels with zero inverse error and finite data do not count... *)
Theorem C25_masked_pixel : forall d m, exists q, emul (esub (Fin d) (Fin m)) (Fin 0) = Fin q /\ q == 0.
Proof. intros. simpl. eexists; split; [reflexivity|ring]. Qed.

(** ...but a masked pixel holding NaN makes the whole log-likelihood NaN. *)
Theorem C25_masked_nan_pixel_refuted : exists data ie m,
  px ie 0 0 = Fin 0 /\ px data 0 1 = Fin 1 /\
  get_log_likelihood [get_chi_image data ie m] = NaN /\
  get_log_prob (Fin 0) (fun _ => Ok (get_log_likelihood [get_chi_image data ie m])) = Ok NInf.
Proof.
  exists (mkArr 1 2 (fun _ x => if (x =? 0)%Z then NaN else Fin 1)),
         (mkArr 1 2 (fun _ x => if (x =? 0)%Z then Fin 0 else Fin 1)),
         (mkArr 1 2 (fun _ _ => Fin 0)).
  repeat split; reflexivity.
Qed.

(** A prior of minus infinity is returned without evaluating the images
    (whatever that evaluation would do). *)
Theorem C25_prior_short_circuit : forall loglik, get_log_prob NInf loglik = Ok NInf.
Proof. reflexivity. Qed.

(** Otherwise: the sum of the two, or minus infinity if that is NaN; so never
    NaN, and never above the prior. *)
Theorem C25_logprob : forall lnprior lnl, not_positive lnl ->
  exists r, get_log_prob lnprior (fun _ => Ok lnl) = Ok r /\ r <> NaN /\
    (isnan (eadd lnprior lnl) = false -> r = eadd lnprior lnl) /\
    (isnan (eadd lnprior lnl) = true -> r = NInf) /\
    (forall q, lnprior = Fin q -> exists q', (r = Fin q' /\ q' <= q) \/ r = NInf).
Proof.
  intros lnprior lnl NP.
  destruct lnprior, lnl; simpl in *; eexists; (split; [reflexivity|]);
    (split; [discriminate|]); (split; [try discriminate; auto|]); (split; [try discriminate; auto|]);
    intros q1 E; try discriminate; try contradiction.
  - injection E; intros <-. eexists; left; split; [reflexivity|lra].
  - exists 0; auto.
  - exists 0; auto.
Qed.

(** An exception while evaluating the images is passed on. *)
Theorem C25_errors_propagate : forall lnprior e, lnprior <> NInf ->
  get_log_prob lnprior (fun _ => Err e) = Err e.
Proof. intros [| | |] e N; simpl; auto; congruence. Qed.

Example C25_ex_images : get_log_likelihood
   [chi_of (mkQimage 1 2 (fun _ x => inject_Z x + 3) (fun _ x => inject_Z x + 1) (fun _ _ => 2))] = Fin (-17 # 2).
Proof. vm_compute. reflexivity. Qed.

Example C25_ex : get_log_prob (Fin 1) (fun _ => Ok (get_log_likelihood
   [fin_chi 1 2 (fun _ x => inject_Z x + 1)])) = Ok (Fin (1 + (-5 # 2))).
Proof. reflexivity. Qed.

Print Assumptions C24_model_image.
Print Assumptions C24_sum_of_sources.
Print Assumptions C24_order_independent.
Print Assumptions C25_loglik_not_positive.
Print Assumptions C25_loglik_value.
Print Assumptions C25_masked_nan_pixel_refuted.
Print Assumptions C25_logprob.
Print Assumptions C26_masks.
Print Assumptions C26_repeated_image_refuted.
