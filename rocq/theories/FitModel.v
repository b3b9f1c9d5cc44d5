(** Fitting, on the tree of parameter objects of ParamsModel, with evaluations
    that may raise at any time (a rendering error, or the user's interrupt):
    tractor/optimize.py tryUpdates, tractor/constrained_optimizer.py tryUpdates
    and optimize_loop, tractor/lsqr_optimizer.py getLinearUpdateDirection,
    optimize, optimize_loop, and the stepping of parameters for derivatives in
    tractor/engine.py, pointsource.py, galaxy.py.

    A computation takes the tree and the number of evaluations made so far, and
    yields the tree it leaves behind, also when it raises.  Evaluations
    (getLogProb, rendering, linear algebra) are oracles: functions of that number
    and of the tree, that may raise; that they do not write parameters is C34's.
    What a failing setParams leaves behind is not modelled: the theorems are about
    directions of the right length, for which it does not fail. *)
From Coq Require Import List ZArith QArith Qabs Bool Lia.
From Verif Require Import Base Ext ParamsModel OptimModel.
Import ListNotations.

Section Fit.
Context {V : Type}.
Notation ptree := (ptree V).

Definition M (A : Type) : Type := ptree * nat -> (ptree * nat) * res A.
Definition ret {A} (a : A) : M A := fun s => (s, Ok a).
Definition raise {A} (e : exn) : M A := fun s => (s, Err e).
Definition andthen {A B} (m : M A) (k : A -> M B) : M B :=
  fun s => match m s with (s', Ok a) => k a s' | (s', Err e) => (s', Err e) end.
(** tractor.getParams(), tractor.setParams(p), x.setParam(i, v) *)
Definition get : M (list V) := fun s => (s, Ok (get_params (fst s))).
Definition put (p : list V) : M unit := fun s =>
  match set_params (fst s) p with Ok t => ((t, snd s), Ok tt) | Err e => (s, Err e) end.
Definition put_one (i : nat) (v : V) : M V := fun s =>
  match set_param (fst s) (Z.of_nat i) v with Ok (t, old) => ((t, snd s), Ok old) | Err e => (s, Err e) end.
Definition ask {A} (ev : nat -> ptree -> res A) : M A := fun s => ((fst s, S (snd s)), ev (snd s) (fst s)).

Notation "x <-- m ;; k" := (andthen m (fun x => k)) (at level 61, m at next level, right associativity).

Variables (add sub mul : V -> V -> V) (one : V).
(** getLogProb; what else is evaluated for derivatives, and getUpdateDirection
    (None: failure) *)
Variable ev : nat -> ptree -> res ext.
Variable render : nat -> ptree -> res unit.
Variable direction : nat -> ptree -> res (option (list V)).

(** One derivative by differences: engine.py:318-320, pointsource.py:204-219 and
    231-233 (galaxy.py:182-212 alike); [sym] is symmetric_derivs. *)
Definition step_one (p0 : list V) (job : nat * bool) : M unit :=
  let '(i, sym) := job in
  fun s => match nth_error p0 i, nth_error (get_step_sizes one (fst s)) i with
  | Some p, Some h =>
      (old <-- put_one i (add p h) ;;
       _ <-- ask render ;;
       _ <-- (if sym then (_ <-- put_one i (sub p h) ;; ask render) else ret tt) ;;
       _ <-- put_one i old ;; ret tt) s
  | _, _ => (s, Err IndexError)
  end.
(** All of them, in any order, for any number of images: [jobs]. *)
Fixpoint step_all (p0 : list V) (jobs : list (nat * bool)) : M unit :=
  match jobs with
  | [] => ret tt
  | j :: r => _ <-- step_one p0 j ;; step_all p0 r
  end.
(** getLinearUpdateDirection, lsqr_optimizer.py:253-278 *)
Definition linear_direction (jobs : list (nat * bool)) : M (option (list V)) :=
  p0 <-- get ;; _ <-- step_all p0 jobs ;; ask direction.

(** Optimizer.tryUpdates, optimize.py:425-470 (as OptimModel's try_updates) *)
Fixpoint try_steps (p0 X alphas : list V) (best : option V) (pBest : ext) : M (option V * ext) :=
  match alphas with
  | [] => ret (best, pBest)
  | alpha :: r =>
      _ <-- put (move add mul alpha p0 X) ;;
      pAfter <-- ask ev ;;
      if negb (isfinite pAfter) then ret (best, pBest)
      else if eltb pAfter (esub pBest (Fin 1)) then ret (best, pBest)
      else if egtb pAfter pBest then try_steps p0 X r (Some alpha) pAfter
      else try_steps p0 X r best pBest
  end.
Definition try_fit (X alphas : list V) : M (ext * option V) :=
  pBefore <-- ask ev ;;
  p0 <-- get ;;
  b <-- try_steps p0 X alphas None pBefore ;;
  match fst b with
  | None => _ <-- put p0 ;; ret (Fin 0, None)
  | Some a => _ <-- put (move add mul a p0 X) ;; ret (esub (snd b) pBefore, Some a)
  end.

(** LsqrOptimizer.optimize, lsqr_optimizer.py:280-315, with any tryUpdates: the
    gain *)
Definition optimize_fit (jobs : list (nat * bool)) (search : list V -> M (ext * option V)) : M ext :=
  X <-- linear_direction jobs ;;
  match X with
  | None | Some [] => ret (Fin 0)
  | Some X => r <-- search X ;; ret (fst r)
  end.
(** LsqrOptimizer.optimize_loop, lsqr_optimizer.py:317-326, and that of
    ConstrainedOptimizer, constrained_optimizer.py:12-34: [stop] decides from the
    gain, and from what the optimizer remembers, whether to go on. *)
Fixpoint fit_loop (one_step : M ext) (stop : nat -> ext -> bool) (n step : nat) : M nat :=
  match n with
  | O => ret step   (* not reached *)
  | S n' => d <-- one_step ;;
            if stop step d then ret step
            else match n' with O => ret step | S _ => fit_loop one_step stop n' (S step) end
  end.
Definition fit (one_step : M ext) (stop : nat -> ext -> bool) (steps : nat) : M nat :=
  match steps with O => raise UnboundLocalError | S _ => fit_loop one_step stop steps 0 end.
End Fit.

(** ** ConstrainedOptimizer.tryUpdates, constrained_optimizer.py:36-82, with
    getParameterSteps reading the bounds of the tree (84-159) *)
Section CFit.
Notation "x <-- m ;; k" := (andthen m (fun x => k)) (at level 61, m at next level, right associativity).
Variables (add sub mul div : Q -> Q -> Q) (tiny : Q).
Variable ev : nat -> ptree Q -> res ext.
(** check_step: may raise too; None if not given. *)
Variable check : option (nat -> ptree Q -> res bool).

Fixpoint ctry_steps (steps : list step) (p_best : list Q) (best : option Q) (pBest : ext) : @M Q (list Q * option Q * ext) :=
  match steps with
  | [] => ret (p_best, best, pBest)
  | s :: r =>
      _ <-- put (s_params s) ;;
      go <-- match check with Some c => ask c | None => ret true end ;;
      if negb go then ret (p_best, best, pBest) else
      l <-- ask ev ;;
      if negb (isfinite l) then ret (p_best, best, pBest)
      else if eltb l (esub pBest (Fin 1)) then ret (p_best, best, pBest)
      else if egtb l pBest then ctry_steps r (s_params s) (Some (s_alpha s)) l
      else ctry_steps r p_best best pBest
  end.
Definition ctry_fit (alphas : list Q) (X : list Q) : @M Q (ext * option Q) :=
  p0 <-- get ;;
  before <-- ask ev ;;
  fun s =>
  match parameter_steps add sub mul div tiny p0 (get_max_step (fst s)) (get_lower_bounds (fst s)) (get_upper_bounds (fst s)) X alphas with
  | Err e => (s, Err e)
  | Ok steps =>
      (b <-- ctry_steps steps p0 None before ;;
       let '(p_best, best, l_best) := b in
       _ <-- put p_best ;;
       match best with None => ret (Fin 0, None) | Some a => ret (esub l_best before, Some a) end) s
  end.
End CFit.
