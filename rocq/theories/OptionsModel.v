(** Model of the rendering options of a Tractor object: the dictionary
    [model_kwargs] given to the constructor, the options given to single calls,
    and what of the object survives pickling.  tractor/engine.py, with the parts
    of tractor/optimize.py, tractor/lsqr_optimizer.py and
    tractor/ceres_optimizer.py that pass options on.

    Images and sources are numbers (object identity), as in EngineModel.  What a
    source renders is an oracle that is handed the model mask and the options.
    Options are dictionaries from names to values of an arbitrary type. *)
From Coq Require Import String List ZArith Bool Lia.
From Verif Require Import Base EngineModel.
Import ListNotations.
Open Scope string_scope.
Local Open Scope list_scope.

Section Options.
Context {V Mask P Im Ch D Opt : Type}.
Variables (vnone vzero : V).

(** ** Python dictionaries of keyword arguments *)
Definition kwargs : Type := list (string * V).

Fixpoint kw_get (d : kwargs) (k : string) : option V :=
  match d with
  | [] => None
  | (k', v) :: r => if (k' =? k)%string then Some v else kw_get r k
  end.

Fixpoint kw_set (d : kwargs) (k : string) (v : V) : kwargs :=
  match d with
  | [] => [(k, v)]
  | (k', v') :: r => if (k' =? k)%string then (k', v) :: r else (k', v') :: kw_set r k v
  end.

(** kw = a.copy(); kw.update(b) *)
Definition kw_update (a b : kwargs) : kwargs := fold_left (fun d kv => kw_set d (fst kv) (snd kv)) b a.

(** The parameters of a function with the given names take their values out of
    the dictionary; the rest arrives in its own **kwargs. *)
Definition kw_rest (names : list string) (d : kwargs) : kwargs :=
  filter (fun kv => negb (existsb (String.eqb (fst kv)) names)) d.

(** f(..., **d) where f already has arguments for these names: TypeError. *)
Definition clash (names : list string) (d : kwargs) : bool :=
  existsb (fun kv => existsb (String.eqb (fst kv)) names) d.

(** ** The object *)
Record obj : Type := mkObj {
  o_t : tractor Mask;               (* images, modelMasks, expectModelMasks *)
  o_cat : list (option nat);        (* the catalog *)
  o_liquid : list bool;             (* thawed: images, catalog *)
  o_modtype : D;
  o_opt : Opt;
  o_kw : option kwargs              (* model_kwargs; None: no such attribute *)
}.

(** Tractor.__init__, engine.py:113-140.  [float32] and [lsqr] are the values
    of modtype and of the default optimizer; both lists start thawed. *)
Definition init (float32 : D) (lsqr : Opt) (images : list nat) (cat : list (option nat)) (opt : option Opt) (kw : option kwargs) : obj :=
  mkObj (mkTractor images None false) cat [true; true] float32 (match opt with Some x => x | None => lsqr end)
        (Some (match kw with Some d => d | None => [] end)).

(** ** Pickling *)
Inductive item : Type :=
| IVersion (n : nat) | IImages (l : list nat) | ICatalog (l : list (option nat)) | ILiquid (l : list bool)
| IModtype (d : D) | IMasks (m : option (list (list (nat * Mask)))) | IExpect (b : bool) | IOptimizer (o : Opt).

(** Tractor.__getstate__, engine.py:160-165. *)
Definition getstate (o : obj) : list item :=
  [IVersion 1; IImages (t_images (o_t o)); ICatalog (o_cat o); ILiquid (o_liquid o); IModtype (o_modtype o);
   IMasks (t_masks (o_t o)); IExpect (t_expect (o_t o)); IOptimizer (o_opt o)].

(** Tractor.__setstate__, engine.py:167-177, on the bare object that unpickling
    creates without calling __init__.  Simplified: a state of the right length
    with entries of other types is refused here (Python would store them). *)
Definition setstate (lsqr : Opt) (st : list item) : res obj :=
  match st with
  | [IImages im; ICatalog ca; ILiquid li; IModtype mt; IMasks ma; IExpect ex] =>
      Ok (mkObj (mkTractor im ma ex) ca li mt lsqr None)
  | [IVersion _; IImages im; ICatalog ca; ILiquid li; IModtype mt; IMasks ma; IExpect ex; IOptimizer op] =>
      Ok (mkObj (mkTractor im ma ex) ca li mt op None)
  | _ => Err UnboundLocalError
  end.

(** tractor.model_kwargs = d *)
Definition with_kw (o : obj) (d : kwargs) : obj :=
  mkObj (o_t o) (o_cat o) (o_liquid o) (o_modtype o) (o_opt o) (Some d).

(** kw = self.model_kwargs.copy(); kw.update(kwargs) *)
Definition merged (o : obj) (call : kwargs) : res kwargs :=
  match o_kw o with None => Err AttributeError | Some mine => Ok (kw_update mine call) end.

(** ** Rendering *)
Variable render : nat -> nat -> option Mask -> kwargs -> option P.          (* src.getModelPatch *)
Variable sderivs : nat -> nat -> option Mask -> kwargs -> list (option P).  (* src.getParamDerivatives *)
Variable nparams : nat -> nat.
Variable unitflux : nat -> nat -> V -> option Mask -> kwargs -> list (option P).  (* src.getUnitFluxModelPatches *)
Variable blank : nat -> bool -> Im.          (* zeros, with or without the sky added *)
Variable addto : P -> Im -> Im.              (* patch.addTo(mod) *)
Variable chi_of : nat -> Im -> Ch.           (* (data - mod) * inverr *)
Variable iderivs : nat -> list P.            (* derivatives with respect to an image's own parameters *)
Variable minval : nat -> nat -> V -> V.      (* minsb / counts, or 1e-3 *)

Definition is_none {A} (x : option A) : bool := match x with None => true | Some _ => false end.

(** Tractor.getModelPatch, engine.py:414-422. *)
Definition model_patch (o : obj) (img src : nat) (call : kwargs) : res (option P) :=
  mask <- get_model_mask_for (o_t o) img src ;;
  if t_expect (o_t o) && is_none mask then Ok None
  else
    kw <- merged o call ;;
    if clash ["self"; "img"; "modelMask"] kw then Err TypeError
    else Ok (render src img mask kw).

(** The loop over the sources, engine.py:437-444: getModelPatch has a parameter
    src of its own. *)
Fixpoint add_patches (o : obj) (img : nat) (srcs : list (option nat)) (call : kwargs) (m : Im) : res Im :=
  match srcs with
  | [] => Ok m
  | None :: r => add_patches o img r call m
  | Some s :: r =>
      p <- (if clash ["src"] call then Err TypeError else model_patch o img s call) ;;
      add_patches o img r call (match p with None => m | Some p => addto p m end)
  end.

(** Tractor.getModelImage, engine.py:424-445; srcs and sky are given apart from
    the other keyword arguments [call].  [dflt] is the value of minsb when the
    call does not give one. *)
Definition model_image_with (dflt : V) (o : obj) (img : nat) (srcs : option (list (option nat))) (sky : bool) (call : kwargs) : res Im :=
  let minsb := match kw_get call "minsb" with Some v => v | None => dflt end in
  let rest := kw_rest ["self"; "img"; "srcs"; "sky"; "minsb"] call in
  let srcs := match srcs with Some l => l | None => o_cat o end in
  add_patches o img srcs (("minsb", minsb) :: rest) (blank img sky).
Definition model_image := model_image_with vnone.

Fixpoint map_res {A B} (f : A -> res B) (l : list A) : res (list B) :=
  match l with
  | [] => Ok []
  | a :: r => b <- f a ;; bs <- map_res f r ;; Ok (b :: bs)
  end.

(** Tractor.getChiImage(s), engine.py:451-473; getLogLikelihood, 475-479, sums
    their squares. *)
Definition chi_image (o : obj) (img : nat) (call : kwargs) : res Ch :=
  m <- model_image_with vzero o img None true call ;; Ok (chi_of img m).
Definition chi_images (o : obj) (call : kwargs) : res (list Ch) :=
  map_res (fun img => chi_image o img call) (t_images (o_t o)).

(** Tractor._getSourceDerivatives, engine.py:389-412. *)
Definition source_derivs (o : obj) (src img : nat) (call : kwargs) : res (list (option P)) :=
  mask <- get_model_mask_for (o_t o) img src ;;
  if t_expect (o_t o) && is_none mask then Ok (repeat None (nparams src))
  else if clash ["self"; "img"; "modelMask"] call then Err TypeError
  else Ok (sderivs src img mask call).

(** Image.getParamDerivatives, image.py:101-121, takes no keyword arguments.
    The differences that getDerivs forms itself (engine.py:309-322) are part of
    the oracle; DerivModel has them. *)
Definition image_derivs (kw : kwargs) (img : nat) : res (list P) :=
  match kw with [] => Ok (iderivs img) | _ => Err TypeError end.

(** Tractor.getDerivs, engine.py:279-339: the derivatives of the thawed images,
    and of every thawed source in every image.  [timgs] and [tsrcs] are
    the thawed images and sources.  The order in which the results are
    arranged is the subject of DerivModel. *)
Definition get_derivs (o : obj) (timgs tsrcs : list nat) (call : kwargs) : res (list (list P) * list (list (list (option P)))) :=
  kw <- merged o call ;;
  a <- map_res (image_derivs kw) timgs ;;
  b <- map_res (fun s => map_res (fun img => source_derivs o s img call) (t_images (o_t o))) tsrcs ;;
  Ok (a, b).

(** Tractor.optimize, engine.py:242-267, with LsqrOptimizer.optimize,
    lsqr_optimizer.py:280-315, and getLinearUpdateDirection, 253-278: the
    renderings made for one step - the derivatives, and the chi images of the
    probes (tryUpdates calls getLogProb with no arguments); the probes change
    parameters, not options, so one of them stands for all. *)
Definition optimize (o : obj) (timgs tsrcs : list nat) (call : kwargs)
  : res ((list (list P) * list (list (list (option P)))) * list Ch) :=
  kw <- merged o call ;;
  if clash ["self"; "tractor"] kw then Err TypeError
  else
    d <- get_derivs o timgs tsrcs [] ;;
    c <- chi_images o [] ;;
    Ok (d, c).

Inductive kind : Type := Lsqr | Ceres.

(** The named parameters of Optimizer.forced_photometry, optimize.py:16-34. *)
Definition fp_names : list string :=
  ["alphas"; "damp"; "priors"; "minsb"; "mindlnp"; "rois"; "sky"; "minFlux"; "fitstats"; "fitstat_extras";
   "justims0"; "variance"; "skyvariance"; "shared_params"; "nonneg"; "nilcounts"; "wantims"; "negfluxval"].

(** Optimizer._get_umodels, optimize.py:147-222, with rois=None: the unit-flux
    models of every thawed source in every image. *)
Definition umodels (o : obj) (tsrcs : list nat) (minsb : V) (rest : kwargs) : res (list (list (list (option P)))) :=
  map_res (fun img => map_res (fun s =>
      mask <- get_model_mask_for (o_t o) img s ;;
      if clash ["self"; "img"; "minval"; "modelMask"] rest then Err TypeError
      else Ok (unitflux s img (minval img s minsb) mask rest)) tsrcs) (t_images (o_t o)).

(** Tractor.optimize_forced_photometry, engine.py:210-238, with
    Optimizer.forced_photometry, optimize.py:16-145 (rois=None), up to the call
    of _optimize_forcedphot_core: lsqr_optimizer.py:11-17 accepts no further
    keyword arguments, ceres_optimizer.py:38-40 does.  Result: the unit-flux
    models and the image of the frozen sources. *)
Definition forced (k : kind) (o : obj) (tsrcs : list nat) (fsrcs : list (option nat)) (sky : bool) (call : kwargs)
  : res (list (list (list (option P))) * list Im) :=
  kw <- merged o call ;;
  if clash ["self"; "tractor"] kw then Err TypeError
  else
    let minsb := match kw_get kw "minsb" with Some v => v | None => vzero end in
    let rest := kw_rest fp_names kw in
    u <- umodels o tsrcs minsb rest ;;
    m <- map_res (fun img => model_image o img (Some fsrcs) (negb sky) [("minsb", minsb)]) (t_images (o_t o)) ;;
    match k, rest with
    | Lsqr, _ :: _ => Err TypeError
    | _, _ => Ok (u, m)
    end.

End Options.
Arguments obj : clear implicits.
Arguments kwargs : clear implicits.
Arguments item : clear implicits.
