(** Which code optimizes which Tractor: tractor/gpu_optimizer.py
    GpuFriendlyOptimizer (lines 24-61) and GpuOptimizer __init__, __getstate__,
    __setstate__, set_cp (65-92), one_source_try_updates, one_source_update
    (133-137) and _gpu_checks (139-182); the calls around them in
    tractor/lsqr_optimizer.py optimize (280-315).

    Images and sources are objects known by number, as in EngineModel.  The
    solvers themselves are parameters (DenseModel, SmarterModel, GpuLsqModel,
    GpuSearchModel have them).  Logging and timing are left out. *)
From Coq Require Import String List ZArith QArith Bool Lia.
From Verif Require Import Base Ext EngineModel OptimModel.
Import ListNotations.
Local Open Scope list_scope.

(** What isinstance can tell about a catalogue entry: ProfileGalaxy,
    PointSource, None, ConstantSurfaceBrightness, anything else.  The number is
    the object.  Sources have parts, so that they are true in Python (MultiParams
    __len__, utils.py:963). *)
Inductive entry : Type :=
| Galaxy (id : nat) | Point (id : nat) | NoSource | Glow (id : nat) | Other (id : nat).

Section Pick.
Context {Mask : Type}.
(** The Tractor: isParamFrozen('images'), its catalogue, and images with masks. *)
Record scene : Type := mkScene { v_frozen : bool; v_cat : list entry; v_t : tractor Mask }.

Definition is_star (e : entry) : bool := match e with Galaxy _ | Point _ => true | _ => false end.
Definition is_none (e : entry) : bool := match e with NoSource => true | _ => false end.
Definition is_glow (e : entry) : bool := match e with Glow _ => true | _ => false end.

(** The condition of lines 27-33 and 47-53. *)
Definition eligible (v : scene) : bool :=
  v_frozen v &&
  match v_cat v with
  | [a] => is_star a
  | [a; b] => (is_star a || is_none a) && is_glow b
  | _ => false
  end.

(** _gpu_checks, lines 139-182: images and masks, or None, None. *)
Definition key (e : entry) : nat :=
  match e with Galaxy i | Point i | Glow i | Other i => i | NoSource => 0 end.
Fixpoint mask_list (t : tractor Mask) (src : nat) (tims : list nat) : res (list (option Mask)) :=
  match tims with
  | [] => Ok []
  | i :: r => m <- get_model_mask_for t i src ;; ms <- mask_list t src r ;; Ok (m :: ms)
  end.
Fixpoint good (tims : list nat) (ms : list (option Mask)) : list (nat * Mask) :=
  match tims, ms with
  | i :: r, Some m :: s => (i, m) :: good r s
  | _ :: r, None :: s => good r s
  | _, _ => []
  end.
Definition missing (m : option Mask) : bool := match m with None => true | Some _ => false end.
Definition gpu_checks (v : scene) : res (option (list (nat * Mask))) :=
  let cat := v_cat v in
  if negb ((length cat =? 1)%nat || (length cat =? 2)%nat) then Err AssertionError else
  src <- py_get cat 0 ;;
  if negb (is_star src || is_none src) then Err AssertionError else
  sb <- (if (length cat =? 2)%nat
         then (b <- py_get cat 1 ;; if is_glow b then Ok (Some b) else Err AssertionError)
         else Ok None) ;;
  who <- (if is_none src then match sb with Some b => Ok (key b) | None => Err AssertionError end else Ok (key src)) ;;
  let tims := t_images (v_t v) in
  masks <- mask_list (v_t v) who tims ;;
  if existsb missing masks then
    match good tims masks with [] => Ok None | l => Ok (Some l) end
  else Ok (Some (good tims masks)).

(** What getLinearUpdateDirection returns: None, a vector, or a vector with
    variances. *)
Inductive dir : Type := DNone | DVec (x : list Q) | DVar (x var : list Q).
(** Keywords of optimize that are passed on. *)
Record opts : Type := mkOpts { o_damp : Q; o_priors : bool; o_scale : bool; o_shared : bool; o_variance : bool }.
(** What tryUpdates gives: parameters afterwards, gain and step. *)
Definition tried : Type := (list Q * ext * option Q)%type.
(** What optimize returns: three things, four things, or the variances only;
    the parameters afterwards go with it. *)
Inductive report : Type :=
| Three (p : list Q) (dlnp : ext) (x : dir) (alpha : option Q)
| Four (p : list Q) (dlnp : ext) (x : dir) (alpha : option Q) (var : option (list Q))
| JustVar (p : list Q) (var : list Q)
| JustNumber (p : list Q) (var : Q).

(** An optimizer: its direction and its line search on a scene. *)
Record optimizer : Type := mkOptimizer {
  z_dir : scene -> list Q -> opts -> bool -> res dir;    (* the last is get_icov *)
  z_try : scene -> list Q -> list Q -> res tried }.

(** LsqrOptimizer.optimize, lines 280-315; p: the parameters before.  Unpacking
    a vector into two takes a vector of length two, and len of the number then
    fails. *)
Definition optimize (z : optimizer) (v : scene) (p : list Q) (o : opts) (just : bool) : res report :=
  x <- z_dir z v p o false ;;
  match x with
  | DNone => Ok (Three p (Fin 0) DNone None)
  | _ =>
      if o_variance o then
        match x with
        | DVec [] => Ok (Four p (Fin 0) x None None)
        | DVec [a; b] => if just then Ok (JustNumber p b) else Err TypeError
        | DVec _ => Err ValueError
        | DVar x var =>
            if just then Ok (JustVar p var) else
            match x with
            | [] => Ok (Three p (Fin 0) (DVec []) None)
            | _ => '(q, d, a) <- z_try z v p x ;; Ok (Four q d (DVec x) a (Some var))
            end
        | DNone => Ok (Three p (Fin 0) DNone None)
        end
      else
        match x with
        | DVec [] => Ok (Three p (Fin 0) x None)
        | DVec l => '(q, d, a) <- z_try z v p l ;; Ok (Three q d x a)
        | DVar _ _ => Err TypeError
        | DNone => Ok (Three p (Fin 0) DNone None)
        end
  end.

(** SmarterDenseOptimizer: LsqrOptimizer.getLinearUpdateDirection
    (lsqr_optimizer.py:253-278), which drops get_icov, then the head of
    SmarterDenseOptimizer.getUpdateDirection (smarter_dense_optimizer.py:46-47);
    [solve] is the rest of it, given priors and scale_columns. *)
Variable solve : scene -> list Q -> bool -> bool -> res dir.
Variable search : scene -> list Q -> list Q -> res tried.
Definition smarter : optimizer := mkOptimizer
  (fun v p o _ =>
     if o_shared o || negb (Qle_bool (o_damp o) 0) || o_variance o then Err RuntimeError
     else solve v p (o_priors o) (o_scale o))
  search.

(** GpuFriendlyOptimizer, lines 26-61: one_source_update and
    one_source_try_updates go back to the parent class. *)
Definition friendly : optimizer := mkOptimizer
  (fun v p o icov =>
     if negb (eligible v) then z_dir smarter v p o icov
     else if icov then Err AssertionError
     else z_dir smarter v p o false)
  (fun v p x => if negb (eligible v) then z_try smarter v p x else z_try smarter v p x).

(** GpuOptimizer: [gsolve] is gpu_one_source_update after _gpu_checks, which
    takes priors and drops the other keywords; [gsearch] is
    gpu_one_source_try_updates after _gpu_checks. *)
Variable gsolve : scene -> list (nat * Mask) -> list Q -> bool -> res dir.
Variable gsearch : scene -> list (nat * Mask) -> list Q -> list Q -> res tried.
Definition gpu_update (v : scene) (p : list Q) (priors : bool) : res dir :=
  c <- gpu_checks v ;;
  match c with
  | None | Some [] => Ok DNone
  | Some l => gsolve v l p priors
  end.
Definition gpu_try (v : scene) (p x : list Q) : res tried :=
  c <- gpu_checks v ;;
  match c with
  | None => Ok (p, Fin 0, None)
  | Some l => gsearch v l p x
  end.
Definition gpu : optimizer := mkOptimizer
  (fun v p o icov =>
     if negb (eligible v) then z_dir smarter v p o icov
     else if icov then Err AssertionError
     else gpu_update v p (o_priors o))
  (fun v p x => if negb (eligible v) then z_try smarter v p x else gpu_try v p x).
End Pick.
Arguments scene : clear implicits.
Arguments optimizer : clear implicits.

(** ** The module of array functions, lines 65-95 *)

(** What is passed as cp: a string, a module (a number) or anything else, such
    as None. *)
Inductive cpval : Type := CName (s : string) | CModule (m : nat) | CNone.
(** cp_orig, cp and the kept frames. *)
Record gopt (F : Type) : Type := mkGopt { g_orig : option string; g_cp : cpval; g_frames : option F }.
Arguments mkGopt {F}.
Arguments g_orig {F}.
Arguments g_cp {F}.
Arguments g_frames {F}.
(** A process: the modules that import cupy and import numpy give (an error if
    not installed), and whether a module has been given the attribute "get". *)
Record process : Type := mkProcess { w_cupy : res nat; w_numpy : nat; w_get : nat -> bool }.
Definition give (w : process) (m : nat) : process :=
  mkProcess (w_cupy w) (w_numpy w) (fun k => if (k =? m)%nat then true else w_get w k).

(** set_cp, lines 80-92. *)
Definition set_cp {F} (w : process) (g : gopt F) (cp : cpval) : res (process * gopt F) :=
  match cp with
  | CName "cupy" => m <- w_cupy w ;; Ok (give w m, mkGopt (Some "cupy"%string) (CModule m) (g_frames g))
  | CName "numpy" => Ok (give w (w_numpy w), mkGopt (Some "numpy"%string) (CModule (w_numpy w)) (g_frames g))
  | _ => Ok (w, mkGopt None cp (g_frames g))
  end.
(** __init__, lines 65-68. *)
Definition new_gopt {F} (w : process) (cp : cpval) : res (process * gopt F) :=
  set_cp w (mkGopt None CNone None) cp.
(** __getstate__ and __setstate__, lines 70-78, the latter perhaps in another
    process. *)
Definition dump {F} (g : gopt F) : option string * option F := (g_orig g, g_frames g).
Definition undump {F} (w : process) (d : option string * option F) : res (process * gopt F) :=
  set_cp w (mkGopt (fst d) CNone (snd d)) (match fst d with Some s => CName s | None => CNone end).
(** The first use: cp.newaxis (lines 186, 469) and cp.get (line 858). *)
Definition use {F} (w : process) (g : gopt F) : res nat :=
  match g_cp g with
  | CModule m => if w_get w m then Ok m else Err AttributeError
  | _ => Err AttributeError
  end.

(** ** Parameters of the Tractor and the vector of the update

    tr.getParams() of a frozen-image Tractor has the parameters of the thawed
    catalogue entries; the vector of gpu_one_source_update (lines 796-801) has
    those of the source and all bands of the background, thawed or not.
    getParameterSteps pairs them by position (constrained_optimizer.py:127,
    147). *)
Definition tractor_params (thaw_src thaw_sb : bool) (ps pb : list Q) : list Q :=
  (if thaw_src then ps else []) ++ (if thaw_sb then pb else []).
Definition update_vector (us ub : list Q) : list Q := us ++ ub.
Definition step_to (p x : list Q) (alpha : Q) : list Q :=
  step_params Qplus Qmult p (map (fun _ => None) p) (map (fun _ => None) p) x alpha.
