(** Model of tractor/engine.py: model masks, model images, chi images,
    log-likelihood and log-probability.

    Images and sources are identified by Python object identity (neither class
    defines __eq__), here by numbers.  Rendering of one source (getModelPatch
    of the source) is an oracle. *)
From Coq Require Import List ZArith QArith Bool Lia.
From Verif Require Import Base PatchModel Ext.
Import ListNotations.
Open Scope Z_scope.

Section Engine.
Context {V Mask : Type}.

(** The parts of the Tractor object that matter: the image list, modelMasks
    (per image position, a dictionary from sources to masks) and
    expectModelMasks. *)
Record tractor : Type := mkTractor {
  t_images : list nat;
  t_masks : option (list (list (nat * Mask)));
  t_expect : bool
}.

(** Tractor.setModelMasks, engine.py:341-361.  The assignment precedes the
    assertion; on a failed assertion expectModelMasks keeps its old value. *)
Definition set_model_masks (t : tractor) (masks : option (list (list (nat * Mask)))) (assume : bool)
  : tractor * res unit :=
  let t1 := mkTractor (t_images t) masks (t_expect t) in
  if match masks with None => true | Some l => (length l =? length (t_images t))%nat end
  then (mkTractor (t_images t) masks (match masks with None => false | Some _ => assume end), Ok tt)
  else (t1, Err AssertionError).

(** list.index by identity. *)
Fixpoint index_of (x : nat) (l : list nat) : option nat :=
  match l with
  | [] => None
  | y :: r => if (x =? y)%nat then Some O else option_map S (index_of x r)
  end.

Fixpoint lookup (k : nat) (d : list (nat * Mask)) : option Mask :=
  match d with
  | [] => None
  | (k', m) :: r => if (k =? k')%nat then Some m else lookup k r
  end.

(** Tractor._getModelMaskFor, engine.py:363-370. *)
Definition get_model_mask_for (t : tractor) (img src : nat) : res (option Mask) :=
  match t_masks t with
  | None => Ok None
  | Some masks =>
      match index_of img (t_images t) with
      | None => Err ValueError
      | Some i => d <- py_get masks i ;; Ok (lookup src d)
      end
  end.

(** src.getModelPatch(img, modelMask=mask, **kw). *)
Variable render : nat -> nat -> option Mask -> option (patch V).

(** Tractor.getModelPatch, engine.py:414-422. *)
Definition get_model_patch (t : tractor) (img src : nat) : res (option (patch V)) :=
  mask <- get_model_mask_for t img src ;;
  if t_expect t && match mask with None => true | Some _ => false end then Ok None
  else Ok (render src img mask).

(** src.getParamDerivatives(img, modelMask=mask, **kw). *)
Variable derivs : nat -> nat -> option Mask -> list (option (patch V)).
Variable nparams : nat -> nat.

(** Tractor._getSourceDerivatives, engine.py:389-412. *)
Definition get_source_derivatives (t : tractor) (src img : nat) : res (list (option (patch V))) :=
  mask <- get_model_mask_for t img src ;;
  if t_expect t && match mask with None => true | Some _ => false end
  then Ok (repeat None (nparams src))
  else Ok (derivs src img mask).

(** Tractor.getModelImage, engine.py:424-445.  [shape img] is
    img.getModelShape() as (h, w); the sky model adds [sky img y x] to each
    pixel (Sky.addTo); [None] in the source list is Python None. *)
Variables (zero one : V) (add mul : V -> V -> V).
Variable shape : nat -> Z * Z.
Variable sky : nat -> Z -> Z -> V.

Fixpoint add_sources (t : tractor) (img : nat) (srcs : list (option nat)) (m : arr V) : res (arr V) :=
  match srcs with
  | [] => Ok m
  | None :: r => add_sources t img r m
  | Some s :: r =>
      op <- get_model_patch t img s ;;
      match op with
      | None => add_sources t img r m
      | Some p => m' <- add_to add mul p m one ;; add_sources t img r m'
      end
  end.

Definition get_model_image (t : tractor) (img : nat) (srcs : list (option nat)) (with_sky : bool)
  : res (arr V) :=
  let '(h, w) := shape img in
  let m := mkArr h w (fun _ _ => zero) in
  let m := if with_sky then mkArr h w (fun y x => add (px m y x) (sky img y x)) else m in
  add_sources t img srcs m.
End Engine.
Arguments tractor : clear implicits.

(** ** Likelihood and posterior, over extended numbers *)
Section Lik.

(** Tractor.getChiImage, engine.py:455-473: (img - mod) * inverr, pixelwise;
    the model image is given. *)
Definition get_chi_image (data ie m : arr ext) : arr ext :=
  mkArr (ah data) (aw data) (fun y x => emul (esub (px data y x) (px m y x)) (px ie y x)).

Definition ezero : ext := Fin 0.
Definition esq (a : ext) : ext := emul a a.

(** Tractor.getLogLikelihood, engine.py:475-479. *)
Definition get_log_likelihood (chis : list (arr ext)) : ext :=
  emul (Fin (-1 # 2))
    (fold_left (fun acc chi => eadd acc (arr_sum eadd ezero (mkArr (ah chi) (aw chi)
        (fun y x => esq (px chi y x))))) chis ezero).

(** Tractor.getLogProb, engine.py:481-497.  The likelihood is a thunk that may
    raise; it is evaluated only after the test of the prior. *)
Definition get_log_prob (lnprior : ext) (loglik : unit -> res ext) : res ext :=
  match lnprior with
  | NInf => Ok NInf
  | _ =>
      lnl <- loglik tt ;;
      let lnp := eadd lnprior lnl in
      if isnan lnp then Ok NInf else Ok lnp
  end.
End Lik.
