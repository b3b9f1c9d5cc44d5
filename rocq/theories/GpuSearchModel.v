(** The line search of the GPU optimizer: tractor/gpu_optimizer.py
    GpuFriendlyOptimizer.tryUpdates (lines 46-55, 60-61) and
    gpu_one_source_try_updates (184-465) without the arithmetic on frames, which
    is in GpuModel.v.

    The Tractor is its vector of thawed parameters.  getLogPrior and the
    chi-square change against the start are functions of that vector.  The
    steps are those of getParameterSteps (OptimModel.parameter_steps). *)
From Coq Require Import List ZArith QArith Bool Lia.
From Verif Require Import Base Ext OptimModel.
Import ListNotations.

Section Search.
Variable logprior : list Q -> ext.
(** dchisqs[istep] for the parameters of the step *)
Variable dchisq : list Q -> ext.
(** Is a pixel position beyond 1e6?  Line 247. *)
Variable haywire : list Q -> bool.

(** The steps before the first haywire one, lines 245-263. *)
Fixpoint cut (steps : list step) : list step :=
  match steps with
  | [] => []
  | s :: r => if haywire (s_params s) then [] else s :: cut r
  end.

(** dlogprobs[istep], line 438. *)
Definition dlogprob (p0 p : list Q) : ext :=
  esub (esub (logprior p) (logprior p0)) (emul (Fin (1 # 2)) (dchisq p)).

(** self.hit_limit, self.last_step_hit_limit, self.stepLimited *)
Record flags : Type := mkFlags { f_hit : bool; f_last : bool; f_limited : bool }.

(** Lines 443-462: (p_best, alpha_best, dlogprob_best, flags). *)
Fixpoint gtry_loop (p0 : list Q) (steps : list step) (p_best : list Q) (a_best : option Q) (d_best : ext) (fl : flags)
  : list Q * option Q * ext * flags :=
  match steps with
  | [] => (p_best, a_best, d_best, fl)
  | s :: r =>
      let fl := if s_hit s then mkFlags true (f_last fl) true else fl in
      let d := dlogprob p0 (s_params s) in
      if negb (isfinite d) then (p_best, a_best, d_best, fl)
      else if eltb d (esub d_best (Fin 1)) then (p_best, a_best, d_best, fl)
      else if egtb d d_best
           then gtry_loop p0 r (s_params s) (Some (s_alpha s)) d (mkFlags (f_hit fl) (s_hit s) (f_limited fl))
           else gtry_loop p0 r p_best a_best d_best fl
  end.

(** The parameters afterwards, the gain and the step fraction ([None] is 0.).
    The start is the first step, so that the test for an empty list of steps
    (lines 215-218) never holds.  check_step disappears among the keywords. *)
Definition gtry_updates (p0 : list Q) (steps : list step) (fl : flags) : list Q * ext * option Q * flags :=
  if haywire p0 then (p0, Fin 0, None, fl)
  else
    let '(p, a, d, fl) := gtry_loop p0 (cut steps) p0 None (dlogprob p0 p0) fl in
    (p, d, a, fl).
End Search.
