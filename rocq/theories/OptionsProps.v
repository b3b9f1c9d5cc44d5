(** C90: the options of a Tractor and its pickling. *)
From Coq Require Import String List ZArith Bool Lia.
From Verif Require Import Base EngineModel OptionsModel.
Import ListNotations.
Open Scope string_scope.
Local Open Scope list_scope.

(** ** Specification *)

(** The value an option should have: the call's, else the Tractor's own. *)
Definition prec {V} (call mine : kwargs V) (k : string) : option V :=
  match kw_get call k with Some v => Some v | None => kw_get mine k end.

(** Two dictionaries with the same contents. *)
Definition same {V} (a b : kwargs V) : Prop := forall k, kw_get a k = kw_get b k.

(** ** Dictionaries *)
Section Dict.
Context {V : Type}.
Implicit Types (d : kwargs V).

Lemma kw_get_set d k v k' : kw_get (kw_set d k v) k' = if (k =? k')%string then Some v else kw_get d k'.
Proof.
  induction d as [|(a, x) d IH]; cbn [kw_set kw_get].
  - reflexivity.
  - destruct (String.eqb_spec a k) as [->|N]; cbn [kw_get].
    + destruct (String.eqb_spec k k'); reflexivity.
    + rewrite IH. destruct (String.eqb_spec a k') as [->|N']; [|reflexivity].
      destruct (String.eqb_spec k k') as [->|]; [congruence|reflexivity].
Qed.

Definition nodup d : Prop := NoDup (map fst d).

Lemma kw_get_none d k : ~ In k (map fst d) -> kw_get d k = None.
Proof.
  induction d as [|(a, x) d IH]; cbn [map fst kw_get]; intros N; [reflexivity|].
  destruct (String.eqb_spec a k) as [->|]; [exfalso; apply N; left; reflexivity|].
  apply IH. intros H; apply N; right; exact H.
Qed.

Lemma kw_get_update (a b : kwargs V) k : nodup b -> kw_get (kw_update a b) k = prec b a k.
Proof.
  unfold kw_update, prec, nodup. revert a. induction b as [|(x, v) b IH]; intros a N; cbn [fold_left kw_get fst snd].
  - reflexivity.
  - inversion N as [|? ? N1 N2]; subst. rewrite IH by exact N2.
    destruct (String.eqb_spec x k) as [->|M].
    + rewrite (kw_get_none b k N1), kw_get_set, String.eqb_refl. reflexivity.
    + destruct (kw_get b k); [reflexivity|]. rewrite kw_get_set.
      destruct (String.eqb_spec x k); [contradiction|reflexivity].
Qed.

Lemma kw_get_rest names d k : kw_get (kw_rest names d) k = if existsb (String.eqb k) names then None else kw_get d k.
Proof.
  unfold kw_rest. induction d as [|(a, x) d IH]; cbn [filter kw_get fst].
  - destruct (existsb _ names); reflexivity.
  - destruct (String.eqb_spec a k) as [->|N].
    + destruct (existsb (String.eqb k) names) eqn:E; cbn [negb]; [exact IH|].
      cbn [kw_get]. rewrite String.eqb_refl. reflexivity.
    + destruct (existsb (String.eqb a) names); cbn [negb]; [exact IH|].
      cbn [kw_get]. destruct (String.eqb_spec a k); [contradiction|exact IH].
Qed.

Lemma nodup_rest names d : nodup d -> nodup (kw_rest names d).
Proof.
  unfold nodup, kw_rest. induction d as [|(a, x) d IH]; cbn [filter map fst]; intros N; [constructor|].
  inversion N as [|? ? N1 N2]; subst. destruct (negb _); [|apply IH; exact N2].
  cbn [map fst]. constructor; [|apply IH; exact N2].
  intros H. apply N1. apply in_map_iff in H. destruct H as (y & E & H). apply filter_In in H. apply in_map_iff. exists y. tauto.
Qed.

Lemma kw_get_in d k v : kw_get d k = Some v -> In k (map fst d).
Proof.
  intros H. destruct (in_dec string_dec k (map fst d)) as [I|I]; [exact I|].
  rewrite (kw_get_none d k I) in H. discriminate.
Qed.

Lemma kw_in_get d k : In k (map fst d) -> exists v, kw_get d k = Some v.
Proof.
  induction d as [|(a, x) d IH]; cbn [map fst kw_get]; intros H; [destruct H|].
  destruct (String.eqb_spec a k) as [->|N]; [eexists; reflexivity|].
  destruct H as [H|H]; [contradiction|auto].
Qed.

Lemma clash_spec names d : clash names d = true <-> exists k, In k names /\ kw_get d k <> None.
Proof.
  unfold clash. rewrite existsb_exists. split.
  - intros ((k & v) & I & E). cbn [fst] in E. apply existsb_exists in E. destruct E as (n & In' & E).
    apply String.eqb_eq in E. subst n. exists k. split; [exact In'|].
    destruct (kw_in_get d k) as (w & ->); [|discriminate]. apply in_map_iff. exists (k, v). auto.
  - intros (k & I & G). destruct (kw_get d k) as [v|] eqn:E; [|contradiction].
    apply kw_get_in in E. apply in_map_iff in E. destruct E as ((a & w) & E & I2). cbn [fst] in E. subst a.
    exists (k, w). split; [exact I2|]. apply existsb_exists. exists k. split; [exact I|apply String.eqb_refl].
Qed.

Lemma clash_same names (a b : kwargs V) : same a b -> clash names a = clash names b.
Proof.
  intros E. destruct (clash names a) eqn:A; destruct (clash names b) eqn:B; try reflexivity.
  - apply clash_spec in A. destruct A as (k & I & G). rewrite E in G.
    assert (clash names b = true) by (apply clash_spec; exists k; auto). congruence.
  - apply clash_spec in B. destruct B as (k & I & G). rewrite <- E in G.
    assert (clash names a = true) by (apply clash_spec; exists k; auto). congruence.
Qed.

Lemma nil_spec d : d = [] <-> forall k, kw_get d k = None.
Proof.
  split; [intros ->; reflexivity|]. destruct d as [|(a, x) d]; [reflexivity|]. intros H.
  specialize (H a). cbn [kw_get] in H. rewrite String.eqb_refl in H. discriminate.
Qed.
End Dict.

Section Options.
Context {V Mask P Im Ch D Opt : Type}.
Variables (vnone vzero : V).
Variable render : nat -> nat -> option Mask -> kwargs V -> option P.
Variable sderivs : nat -> nat -> option Mask -> kwargs V -> list (option P).
Variable nparams : nat -> nat.
Variable unitflux : nat -> nat -> V -> option Mask -> kwargs V -> list (option P).
Variable blank : nat -> bool -> Im.
Variable addto : P -> Im -> Im.
Variable chi_of : nat -> Im -> Ch.
Variable iderivs : nat -> list P.
Variable minval : nat -> nat -> V -> V.
Notation obj := (obj V Mask D Opt).
Notation patch_of := (model_patch render).
Notation image_of := (model_image vnone render blank addto).
Notation chis_of := (chi_images vzero render blank addto chi_of).
Notation derivs_of := (get_derivs sderivs nparams iderivs).
Notation optimize_of := (optimize vzero render sderivs nparams blank addto chi_of iderivs).
Notation forced_of := (forced vnone vzero render unitflux blank addto minval).
Implicit Types (o : obj) (call mine : kwargs V).

(** The options a Tractor was built with, or given later. *)
Definition own o mine : Prop := o_kw o = Some mine.

(** Whether the Tractor asks the source for a rendering at all: with masks
    expected, a source without one is skipped. *)
Definition asked o img src mask : Prop :=
  get_model_mask_for (o_t o) img src = Ok mask /\ (t_expect (o_t o) = true -> mask <> None).

Lemma asked_cond o img src mask : asked o img src mask -> t_expect (o_t o) && is_none mask = false.
Proof. intros (_ & H). destruct (t_expect (o_t o)); [|reflexivity]. destruct mask; [reflexivity|]. destruct (H eq_refl); reflexivity. Qed.

(** *** Options of model patches *)

(** A source rendered by getModelPatch sees every option of the call, and the
    Tractor's own value of the options that the call does not give; nothing
    else. *)
Theorem C90_patch o mine img src mask call : own o mine -> nodup call -> asked o img src mask ->
  prec call mine "self" = None -> prec call mine "img" = None -> prec call mine "modelMask" = None ->
  exists opts, patch_of o img src call = Ok (render src img mask opts) /\ forall k, kw_get opts k = prec call mine k.
Proof.
  intros O N A A1 A2 A3. exists (kw_update mine call). split; [|intros k; apply kw_get_update; exact N].
  unfold model_patch. rewrite (proj1 A). cbn [bind]. rewrite (asked_cond _ _ _ _ A).
  unfold merged. rewrite O. cbn [bind].
  destruct (clash _ (kw_update mine call)) eqn:C; [|reflexivity]. exfalso.
  apply clash_spec in C. destruct C as (k & I & G). rewrite kw_get_update in G by exact N.
  cbn [In] in I. destruct I as [<-|[<-|[<-|[]]]]; contradiction.
Qed.

(** A Tractor option called modelMask can never be used. *)
Theorem C90_modelmask o mine img src mask call : own o mine -> nodup call -> asked o img src mask ->
  prec call mine "modelMask" <> None -> patch_of o img src call = Err TypeError.
Proof.
  intros O N A A3. unfold model_patch. rewrite (proj1 A). cbn [bind]. rewrite (asked_cond _ _ _ _ A).
  unfold merged. rewrite O. cbn [bind].
  replace (clash _ (kw_update mine call)) with true; [reflexivity|]. symmetry. apply clash_spec.
  exists "modelMask". split; [cbn; auto|]. rewrite kw_get_update by exact N. exact A3.
Qed.

(** *** Options of model images *)

(** What a model image should be, given what each source renders. *)
Fixpoint painted (what : nat -> option P) (srcs : list (option nat)) (m : Im) : Im :=
  match srcs with
  | [] => m
  | None :: r => painted what r m
  | Some s :: r => painted what r (match what s with None => m | Some p => addto p m end)
  end.

(** What is rendered of a source with the given options. *)
Definition seen o (img : nat) (opts : kwargs V) (s : nat) : option P :=
  match get_model_mask_for (o_t o) img s with
  | Ok mask => if t_expect (o_t o) && is_none mask then None else render s img mask opts
  | Err _ => None
  end.

Definition reserved : list string := ["self"; "img"; "src"; "srcs"; "sky"; "modelMask"].

Lemma add_patches_seen o mine img call opts srcs m : own o mine ->
  (forall s, In (Some s) srcs -> exists mask, get_model_mask_for (o_t o) img s = Ok mask) ->
  clash ["src"] call = false -> opts = kw_update mine call -> clash ["self"; "img"; "modelMask"] opts = false ->
  add_patches render addto o img srcs call m = Ok (painted (seen o img opts) srcs m).
Proof.
  intros O Ms C1 E C2. revert m. induction srcs as [|[s|] r IH]; intros m; cbn [add_patches painted].
  - reflexivity.
  - rewrite C1. unfold seen at 2. destruct (Ms s) as (mask & G); [left; reflexivity|].
    unfold model_patch. rewrite G. cbn [bind]. destruct (t_expect (o_t o) && is_none mask); cbn [bind].
    + apply IH. intros s' I. apply Ms. right. exact I.
    + unfold merged. rewrite O. cbn [bind]. rewrite <- E, C2. cbn [bind].
      apply IH. intros s' I. apply Ms. right. exact I.
  - apply IH. intros s' I. apply Ms. right. exact I.
Qed.

Lemma model_image_with_spec dflt o mine img srcs sky call : own o mine -> nodup call ->
  (forall s, In (Some s) (match srcs with Some l => l | None => o_cat o end) -> exists mask, get_model_mask_for (o_t o) img s = Ok mask) ->
  (forall k, In k reserved -> kw_get call k = None /\ kw_get mine k = None) ->
  exists opts,
    model_image_with render blank addto dflt o img srcs sky call
      = Ok (painted (seen o img opts) (match srcs with Some l => l | None => o_cat o end) (blank img sky)) /\
    (forall k, k <> "minsb" -> kw_get opts k = prec call mine k) /\
    kw_get opts "minsb" = Some (match kw_get call "minsb" with Some v => v | None => dflt end).
Proof.
  intros O N Ms R.
  set (mb := match kw_get call "minsb" with Some v => v | None => dflt end).
  set (rest := kw_rest ["self"; "img"; "srcs"; "sky"; "minsb"] call).
  assert (Gr : forall k, kw_get (("minsb", mb) :: rest) k = if (k =? "minsb")%string then Some mb else kw_get call k).
  { intros k. cbn [kw_get]. rewrite (String.eqb_sym "minsb" k). destruct (String.eqb_spec k "minsb") as [->|M]; [reflexivity|].
    unfold rest. rewrite kw_get_rest. destruct (existsb (String.eqb k) _) eqn:X; [|reflexivity].
    apply existsb_exists in X. destruct X as (n & I & E). apply String.eqb_eq in E. subst n.
    cbn [In] in I. symmetry. assert (In k reserved -> kw_get call k = None) by (intros J; exact (proj1 (R k J))).
    unfold reserved in H. cbn [In] in H. destruct I as [<-|[<-|[<-|[<-|[<-|[]]]]]]; first [apply H; tauto | contradiction]. }
  assert (Nr : nodup (("minsb", mb) :: rest)).
  { unfold nodup. cbn [map fst]. constructor; [|apply nodup_rest; exact N].
    intros I. apply kw_in_get in I. destruct I as (v & I). unfold rest in I. rewrite kw_get_rest in I. cbn in I. discriminate. }
  exists (kw_update mine (("minsb", mb) :: rest)). split; [|split].
  - unfold model_image_with. fold mb. fold rest. apply add_patches_seen with (mine := mine); auto.
    + destruct (clash ["src"] _) eqn:C; [|reflexivity]. exfalso. apply clash_spec in C. destruct C as (k & I & G).
      cbn [In] in I. destruct I as [<-|[]]. rewrite Gr in G. cbn in G. apply G. apply (proj1 (R "src" ltac:(cbn; tauto))).
    + destruct (clash _ (kw_update mine _)) eqn:C; [|reflexivity]. exfalso. apply clash_spec in C. destruct C as (k & I & G).
      rewrite kw_get_update in G by exact Nr. unfold prec in G. rewrite Gr in G.
      assert (In k reserved) as J by (cbn [In] in I; unfold reserved; cbn [In]; tauto).
      destruct (R k J) as (R1 & R2). rewrite R1, R2 in G.
      cbn [In] in I. destruct I as [<-|[<-|[<-|[]]]]; cbn in G; apply G; reflexivity.
  - intros k M. rewrite kw_get_update by exact Nr. unfold prec. rewrite Gr.
    destruct (String.eqb_spec k "minsb"); [contradiction|reflexivity].
  - rewrite kw_get_update by exact Nr. unfold prec. rewrite Gr. reflexivity.
Qed.

(** Every option but minsb reaches the sources of a model image as it should;
    minsb is that of the call, or Python's None when the call gives none -
    whatever the Tractor's own value is. *)
Theorem C90_image o mine img srcs sky call : own o mine -> nodup call ->
  (forall s, In (Some s) (match srcs with Some l => l | None => o_cat o end) -> exists mask, get_model_mask_for (o_t o) img s = Ok mask) ->
  (forall k, In k reserved -> kw_get call k = None /\ kw_get mine k = None) ->
  exists opts,
    image_of o img srcs sky call
      = Ok (painted (seen o img opts) (match srcs with Some l => l | None => o_cat o end) (blank img sky)) /\
    (forall k, k <> "minsb" -> kw_get opts k = prec call mine k) /\
    kw_get opts "minsb" = Some (match kw_get call "minsb" with Some v => v | None => vnone end).
Proof. apply model_image_with_spec. Qed.

Lemma map_res_all {A B} (f : A -> res B) (g : A -> B) l : (forall a, In a l -> f a = Ok (g a)) -> map_res f l = Ok (map g l).
Proof.
  induction l as [|a l IH]; intros H; cbn [map_res map]; [reflexivity|].
  rewrite (H a (or_introl eq_refl)). cbn [bind]. rewrite IH by (intros x I; apply H; right; exact I). reflexivity.
Qed.

Lemma map_res_ext {A B} (f g : A -> res B) l : (forall a, In a l -> f a = g a) -> map_res f l = map_res g l.
Proof.
  induction l as [|a l IH]; intros H; cbn [map_res]; [reflexivity|].
  rewrite (H a (or_introl eq_refl)), IH by (intros x I; apply H; right; exact I). reflexivity.
Qed.

(** Sources look options up by name: the order of a dictionary does not
    matter to them. *)
Definition by_name : Prop :=
  (forall s i m a b, same a b -> render s i m a = render s i m b).

Lemma painted_ext (f g : nat -> option P) srcs m : (forall s, f s = g s) -> painted f srcs m = painted g srcs m.
Proof. intros E. revert m. induction srcs as [|[s|] r IH]; intros m; cbn [painted]; [reflexivity|rewrite E|]; apply IH. Qed.

Lemma own_minsb_lost dflt o mine v img srcs sky call : by_name -> own o mine -> nodup call ->
  (forall s, In (Some s) (match srcs with Some l => l | None => o_cat o end) -> exists mask, get_model_mask_for (o_t o) img s = Ok mask) ->
  (forall k, In k reserved -> kw_get call k = None /\ kw_get mine k = None) ->
  model_image_with render blank addto dflt (with_kw o (kw_set mine "minsb" v)) img srcs sky call
  = model_image_with render blank addto dflt o img srcs sky call.
Proof.
  intros B O N Ms R.
  destruct (model_image_with_spec dflt o mine img srcs sky call O N Ms R) as (a & -> & A1 & A2).
  destruct (model_image_with_spec dflt (with_kw o (kw_set mine "minsb" v)) (kw_set mine "minsb" v) img srcs sky call) as (b & -> & B1 & B2).
  - reflexivity.
  - exact N.
  - exact Ms.
  - intros k I. destruct (R k I) as (R1 & R2). split; [exact R1|]. rewrite kw_get_set.
    destruct (String.eqb_spec "minsb" k) as [<-|]; [|exact R2]. unfold reserved in I. cbn [In] in I.
    exfalso. repeat (destruct I as [I|I]; [discriminate I|]). exact I.
  - f_equal. cbn [o_cat with_kw]. apply painted_ext. intros s. unfold seen. cbn [o_t with_kw].
    destruct (get_model_mask_for (o_t o) img s) as [mask|]; [|reflexivity].
    destruct (_ && _); [reflexivity|]. apply B. intros k.
    destruct (String.eqb_spec k "minsb") as [->|M]; [rewrite A2, B2; reflexivity|].
    rewrite A1, B1 by exact M. unfold prec. rewrite kw_get_set.
    destruct (String.eqb_spec "minsb" k); [congruence|reflexivity].
Qed.

(** A Tractor's own minsb has no effect on model images, nor on chi images. *)
Theorem C90_minsb_refuted o mine v call : by_name -> own o mine -> nodup call ->
  (forall img s, In img (t_images (o_t o)) -> exists mask, get_model_mask_for (o_t o) img s = Ok mask) ->
  (forall k, In k reserved -> kw_get call k = None /\ kw_get mine k = None) ->
  let o' := with_kw o (kw_set mine "minsb" v) in
  (forall img srcs sky, In img (t_images (o_t o)) -> image_of o' img srcs sky call = image_of o img srcs sky call) /\
  chis_of o' call = chis_of o call.
Proof.
  intros B O N Ms R o'. split.
  - intros img srcs sky I. apply own_minsb_lost; auto.
  - unfold chi_images. apply map_res_ext. intros img I. unfold chi_image. unfold o'. rewrite own_minsb_lost; auto.
Qed.

(** *** Options of derivatives *)

(** With the images frozen, getDerivs gives the same answer whatever the
    Tractor's own options are. *)
Theorem C90_derivs_refuted o mine mine' tsrcs call :
  derivs_of (with_kw o mine) [] tsrcs call = derivs_of (with_kw o mine') [] tsrcs call.
Proof. reflexivity. Qed.

(** The options that reach the source derivatives are those of the call: when
    the Tractor has none of its own, these are the ones the models see. *)
Theorem C90_derivs o tsrcs call : own o [] -> nodup call ->
  (forall img s, In img (t_images (o_t o)) -> In s tsrcs -> exists mask, get_model_mask_for (o_t o) img s = Ok mask) ->
  kw_get call "self" = None -> kw_get call "img" = None -> kw_get call "modelMask" = None ->
  exists ds, derivs_of o [] tsrcs call = Ok ([], ds) /\
    ds = map (fun s => map (fun img =>
           match get_model_mask_for (o_t o) img s with
           | Ok mask => if t_expect (o_t o) && is_none mask then repeat None (nparams s) else sderivs s img mask call
           | Err _ => []
           end) (t_images (o_t o))) tsrcs /\
    (forall img s mask, In img (t_images (o_t o)) -> In s tsrcs -> asked o img s mask ->
      exists opts, patch_of o img s call = Ok (render s img mask opts) /\ same opts call).
Proof.
  intros O N Ms A1 A2 A3. eexists. split; [|split; [reflexivity|]].
  - unfold get_derivs, merged. rewrite O. cbn [bind map_res].
    rewrite (map_res_all _ (fun s => map (fun img =>
           match get_model_mask_for (o_t o) img s with
           | Ok mask => if t_expect (o_t o) && is_none mask then repeat None (nparams s) else sderivs s img mask call
           | Err _ => []
           end) (t_images (o_t o)))); [reflexivity|].
    intros s Is. apply map_res_all. intros img Ii. unfold source_derivs.
    destruct (Ms img s Ii Is) as (mask & ->). cbn [bind]. destruct (_ && _); [reflexivity|].
    destruct (clash _ call) eqn:C; [|reflexivity]. exfalso. apply clash_spec in C. destruct C as (k & I & G).
    cbn [In] in I. destruct I as [<-|[<-|[<-|[]]]]; contradiction.
  - intros img s mask Ii Is A. destruct (C90_patch o [] img s mask call O N A) as (opts & E & H).
    + unfold prec. rewrite A1. reflexivity.
    + unfold prec. rewrite A2. reflexivity.
    + unfold prec. rewrite A3. reflexivity.
    + exists opts. split; [exact E|]. intros k. rewrite H. unfold prec. cbn [kw_get]. destruct (kw_get call k); reflexivity.
Qed.

(** Any option at all, of the Tractor or of the call, makes getDerivs fail when
    an image is thawed. *)
Theorem C90_thawed_images_refuted o mine img timgs tsrcs call k : own o mine -> nodup call ->
  prec call mine k <> None -> derivs_of o (img :: timgs) tsrcs call = Err TypeError.
Proof.
  intros O N H. unfold get_derivs, merged. rewrite O. cbn [bind map_res].
  destruct (kw_update mine call) as [|e d] eqn:E; [|reflexivity].
  exfalso. apply H. rewrite <- (kw_get_update mine call k N), E. reflexivity.
Qed.

(** Options given to optimize never reach a rendering: one step renders the
    same with and without them. *)
Theorem C90_optimize_call_refuted o mine timgs tsrcs call : own o mine -> nodup call ->
  prec call mine "self" = None -> prec call mine "tractor" = None ->
  optimize_of o timgs tsrcs call = (d <- derivs_of o timgs tsrcs [] ;; c <- chis_of o [] ;; Ok (d, c)).
Proof.
  intros O N A1 A2. unfold optimize, merged at 1. rewrite O. cbn [bind].
  destruct (clash _ (kw_update mine call)) eqn:C; [|reflexivity]. exfalso.
  apply clash_spec in C. destruct C as (k & I & G). rewrite kw_get_update in G by exact N.
  cbn [In] in I. destruct I as [<-|[<-|[]]]; contradiction.
Qed.

(** *** Forced photometry *)

(** With the Ceres optimizer, the unit-flux models are rendered with every
    option that is not an argument of forced_photometry itself, the image of
    the frozen sources with the Tractor's own options and the minsb. *)
Theorem C90_forced o mine tsrcs fsrcs sky call : own o mine -> nodup call ->
  (forall img s, In img (t_images (o_t o)) -> exists mask, get_model_mask_for (o_t o) img s = Ok mask) ->
  (forall k, In k ("tractor" :: "minval" :: reserved) -> kw_get call k = None /\ kw_get mine k = None) ->
  exists opts minsb opts0,
    forced_of Ceres o tsrcs fsrcs sky call = Ok (
      map (fun img => map (fun s => unitflux s img (minval img s minsb)
             (match get_model_mask_for (o_t o) img s with Ok m => m | Err _ => None end) opts) tsrcs) (t_images (o_t o)),
      map (fun img => painted (seen o img opts0) fsrcs (blank img (negb sky))) (t_images (o_t o))) /\
    minsb = match prec call mine "minsb" with Some v => v | None => vzero end /\
    (forall k, kw_get opts k = if existsb (String.eqb k) fp_names then None else prec call mine k) /\
    (forall k, kw_get opts0 k = if (k =? "minsb")%string then Some minsb else kw_get mine k).
Proof.
  intros O N Ms R. set (kw := kw_update mine call).
  assert (G : forall k, kw_get kw k = prec call mine k) by (intros k; apply kw_get_update; exact N).
  assert (R0 : forall k, In k ("tractor" :: "minval" :: reserved) -> kw_get kw k = None).
  { intros k I. rewrite G. unfold prec. destruct (R k I) as (-> & ->). reflexivity. }
  set (minsb := match prec call mine "minsb" with Some v => v | None => vzero end).
  assert (Hc : forall img, exists opts0, image_of o img (Some fsrcs) (negb sky) [("minsb", minsb)] = Ok (painted (seen o img opts0) fsrcs (blank img (negb sky))) /\
    opts0 = kw_update mine [("minsb", minsb)]
    \/ ~ In img (t_images (o_t o))).
  { intros img. exists (kw_update mine [("minsb", minsb)]).
    destruct (in_dec Nat.eq_dec img (t_images (o_t o))) as [I|I]; [left|right; exact I].
    split; [|reflexivity]. unfold model_image, model_image_with.
    change (match kw_get [("minsb", minsb)] "minsb" with Some v => v | None => vnone end) with minsb.
    change (kw_rest ["self"; "img"; "srcs"; "sky"; "minsb"] [("minsb", minsb)]) with (@nil (string * V)).
    apply add_patches_seen with (mine := mine); auto.
    destruct (clash ["self"; "img"; "modelMask"] _) eqn:C; [|reflexivity]. exfalso. apply clash_spec in C. destruct C as (k & J & X).
    rewrite kw_get_update in X by (repeat constructor; intros []).
    apply X. unfold prec. cbn [kw_get]. destruct (R k) as (_ & ->).
    { unfold reserved. cbn [In] in *. tauto. }
    cbn [In] in J. destruct J as [<-|[<-|[<-|[]]]]; reflexivity. }
  exists (kw_rest fp_names kw), minsb, (kw_update mine [("minsb", minsb)]). split; [|split; [|split]].
  - unfold forced, merged. rewrite O. cbn [bind]. fold kw.
    destruct (clash ["self"; "tractor"] kw) eqn:C.
    { exfalso. apply clash_spec in C. destruct C as (k & I & X). apply X. apply R0. unfold reserved. cbn [In] in *. tauto. }
    rewrite G. fold minsb. unfold umodels.
    rewrite (map_res_all _ (fun img => map (fun s => unitflux s img (minval img s minsb)
             (match get_model_mask_for (o_t o) img s with Ok m => m | Err _ => None end) (kw_rest fp_names kw)) tsrcs)).
    2:{ intros img I. apply map_res_all. intros s _. destruct (Ms img s I) as (mask & ->). cbn [bind].
        destruct (clash _ (kw_rest fp_names kw)) eqn:C2; [|reflexivity]. exfalso. apply clash_spec in C2. destruct C2 as (k & J & X).
        apply X. rewrite kw_get_rest. destruct (existsb _ fp_names); [reflexivity|]. apply R0. unfold reserved. cbn [In] in *. tauto. }
    cbn [bind].
    rewrite (map_res_all _ (fun img => painted (seen o img (kw_update mine [("minsb", minsb)])) fsrcs (blank img (negb sky)))).
    2:{ intros img I. destruct (Hc img) as (x & [(E & ->)|X]); [exact E|contradiction]. }
    reflexivity.
  - reflexivity.
  - intros k. rewrite kw_get_rest, G. reflexivity.
  - intros k. rewrite kw_get_update by (repeat constructor; intros []). unfold prec. cbn [kw_get].
    rewrite (String.eqb_sym "minsb" k). destruct (k =? "minsb")%string; reflexivity.
Qed.

(** With the default optimizer, forced photometry never returns a result when
    there is an option that is not an argument of forced_photometry itself. *)
Theorem C90_forced_refuted o mine tsrcs fsrcs sky call k : own o mine -> nodup call ->
  ~ In k fp_names -> prec call mine k <> None -> forall r, forced_of Lsqr o tsrcs fsrcs sky call <> Ok r.
Proof.
  intros O N F H r. unfold forced, merged. rewrite O. cbn [bind].
  destruct (clash _ _); [discriminate|].
  destruct (umodels _ _ _ _ _ _) as [u|]; cbn [bind]; [|discriminate].
  destruct (map_res _ _) as [m|]; cbn [bind]; [|discriminate].
  destruct (kw_rest fp_names (kw_update mine call)) as [|e d] eqn:E; [|discriminate].
  exfalso. apply H. rewrite <- (kw_get_update mine call k N).
  assert (X : kw_get (kw_rest fp_names (kw_update mine call)) k = None) by (rewrite E; reflexivity).
  rewrite kw_get_rest in X. destruct (existsb (String.eqb k) fp_names) eqn:Y; [|exact X].
  exfalso. apply F. apply existsb_exists in Y. destruct Y as (n & I & Y). apply String.eqb_eq in Y. subst n. exact I.
Qed.

(** With the default optimizer and no such option, the result is that of the
    Ceres preparation. *)
Theorem C90_forced_lsqr o mine tsrcs fsrcs sky call : own o mine -> nodup call ->
  (forall k, ~ In k fp_names -> prec call mine k = None) ->
  forced_of Lsqr o tsrcs fsrcs sky call = forced_of Ceres o tsrcs fsrcs sky call.
Proof.
  intros O N H. unfold forced, merged. rewrite O. cbn [bind].
  assert (E : kw_rest fp_names (kw_update mine call) = []).
  { apply nil_spec. intros k. rewrite kw_get_rest. destruct (existsb (String.eqb k) fp_names) eqn:Y; [reflexivity|].
    rewrite (kw_get_update mine call k N). apply H. intros I.
    assert (existsb (String.eqb k) fp_names = true) by (apply existsb_exists; exists k; split; [exact I|apply String.eqb_refl]). congruence. }
  rewrite E. destruct (clash _ _); [reflexivity|].
  destruct (umodels _ _ _ _ _ _) as [u|]; cbn [bind]; [|reflexivity].
  destruct (map_res _ _); reflexivity.
Qed.

(** *** Pickling *)

(** Unpickling gives back everything but the options; once they are set again,
    the object is the one that was pickled. *)
Theorem C90_pickle lsqr o mine : own o mine ->
  exists o', setstate lsqr (getstate o) = Ok o' /\ o_kw o' = None /\ with_kw o' mine = o.
Proof.
  intros O. unfold own in O. destruct o as [[im ma ex] ca li mt op kw]. cbn [o_kw] in O. subst kw.
  eexists. split; [reflexivity|]. split; reflexivity.
Qed.

(** Until then the unpickled object cannot render a source, nor compute
    derivatives, nor be optimized. *)
Theorem C90_pickle_refuted lsqr o : exists o', setstate lsqr (getstate o) = Ok o' /\
  (forall img src mask call, asked o img src mask -> patch_of o' img src call = Err AttributeError) /\
  (forall timgs tsrcs call, derivs_of o' timgs tsrcs call = Err AttributeError) /\
  (forall timgs tsrcs call, optimize_of o' timgs tsrcs call = Err AttributeError) /\
  (forall k tsrcs fsrcs sky call, forced_of k o' tsrcs fsrcs sky call = Err AttributeError).
Proof.
  destruct o as [[im ma ex] ca li mt op kw]. eexists. split; [reflexivity|]. split; [|repeat split].
  intros img src mask call A. pose proof (asked_cond _ _ _ _ A) as C. destruct A as (A & _). cbn [o_t] in A, C.
  unfold model_patch. cbn [o_t t_images t_masks t_expect]. rewrite A. cbn [bind t_expect] in C |- *. rewrite C. reflexivity.
Qed.

(** States of the older kind, without version and optimizer, are read with the
    default optimizer; states of other lengths are refused. *)
Theorem C90_old_state lsqr (st : list (item Mask D Opt)) :
  (forall o o', st = tl (removelast (getstate o)) -> setstate (V := V) lsqr st = Ok o' ->
     o_t o' = o_t o /\ o_cat o' = o_cat o /\ o_liquid o' = o_liquid o /\ o_modtype o' = o_modtype o /\ o_opt o' = lsqr) /\
  (length st <> 6%nat -> length st <> 8%nat -> setstate (V := V) lsqr st = Err UnboundLocalError).
Proof.
  split.
  - intros o o' -> H. destruct o as [[im ma ex] ca li mt op kw]. cbn in H. injection H as <-. repeat split.
  - intros N6 N8.
    destruct st as [|i0 [|i1 [|i2 [|i3 [|i4 [|i5 [|i6 [|i7 [|i8 st]]]]]]]]]; try (cbn in N6, N8; lia); cbn [setstate];
      try reflexivity;try (destruct i0; try reflexivity); try (destruct i1; try reflexivity); try (destruct i2; try reflexivity); try (destruct i3; try reflexivity); try (destruct i4; try reflexivity); try (destruct i5; try reflexivity); try (destruct i6; try reflexivity); try (destruct i7; try reflexivity); try (destruct i8; try reflexivity).
Qed.
End Options.

(** ** Examples *)
Module OptEx.
Local Open Scope nat_scope.
(** Options are numbers; a patch records which source it is and the options
    "minsb" and "fast" it was rendered with. *)
Definition kw : Type := kwargs Z.
Definition P : Type := (nat * option Z * option Z)%type.
Definition render (s i : nat) (m : option bool) (k : kw) : option P := Some (s, kw_get k "minsb", kw_get k "fast").
Definition sderivs (s i : nat) (m : option bool) (k : kw) : list (option P) := [render s i m k].
Definition unitflux (s i : nat) (mv : Z) (m : option bool) (k : kw) : list (option P) := [render s i m k].
Definition blank (i : nat) (sky : bool) : list P := [].
Definition addto (p : P) (m : list P) : list P := m ++ [p].
Definition mine : kw := [("minsb", 5%Z); ("fast", 1%Z)].
Definition o : obj Z bool unit unit := init tt tt [10] [Some 0; None; Some 1] None (Some mine).
(** None is -1 here, 0. is 0. *)
Definition image := model_image (D := unit) (Opt := unit) (-1)%Z render blank addto.
Definition derivs := get_derivs (D := unit) (Opt := unit) sderivs (fun _ => 1) (fun _ => @nil P).
Definition forced := OptionsModel.forced (D := unit) (Opt := unit) (-1)%Z 0%Z render unitflux blank addto (fun _ _ v => v).

(** Own minsb 5 is lost; "fast" is kept, and overridden by the call. *)
Example C90_ex :
  model_patch render o 10 0 [] = Ok (Some (0, Some 5%Z, Some 1%Z)) /\
  image o 10 None true [] = Ok [(0, Some (-1)%Z, Some 1%Z); (1, Some (-1)%Z, Some 1%Z)] /\
  image o 10 None true [("fast", 7%Z); ("minsb", 3%Z)] = Ok [(0, Some 3%Z, Some 7%Z); (1, Some 3%Z, Some 7%Z)] /\
  derivs o [] [0] [] = Ok ([], [[[Some (0, None, None)]]]) /\
  derivs o [10] [0] [] = Err TypeError /\
  forced Lsqr o [0] [Some 1] false [] = Err TypeError /\
  forced Ceres o [0] [Some 1] false [] = Ok ([[[Some (0, None, Some 1%Z)]]], [[(1, Some 5%Z, Some 1%Z)]]) /\
  (exists o', setstate tt (getstate o) = Ok o' /\ image o' 10 None true [] = Err AttributeError /\
    image (with_kw o' mine) 10 None true [] = image o 10 None true []).
Proof. repeat split. eexists. repeat split. Qed.
End OptEx.

Print Assumptions C90_patch.
Print Assumptions C90_modelmask.
Print Assumptions C90_image.
Print Assumptions C90_minsb_refuted.
Print Assumptions C90_derivs_refuted.
Print Assumptions C90_derivs.
Print Assumptions C90_thawed_images_refuted.
Print Assumptions C90_optimize_call_refuted.
Print Assumptions C90_forced.
Print Assumptions C90_forced_refuted.
Print Assumptions C90_forced_lsqr.
Print Assumptions C90_pickle.
Print Assumptions C90_pickle_refuted.
Print Assumptions C90_old_state.
