(** Model of the line searches and optimization loops:
    tractor/optimize.py (tryUpdates), tractor/lsqr_optimizer.py (optimize,
    optimize_loop) and tractor/constrained_optimizer.py.

    The Tractor is its vector of thawed parameters; getLogProb is an arbitrary
    function [lp] of that vector (deterministic), with extended-number values;
    the update direction is an oracle.  Logging is left out. *)
From Coq Require Import List ZArith QArith Qabs Bool Lia.
From Verif Require Import Base Ext.
Import ListNotations.

Section Try.
Context {V : Type}.
Variables (add mul : V -> V -> V).
Variable lp : list V -> ext.

(** [p + alpha * d for p, d in zip(p0, X)], optimize.py:437. *)
Fixpoint move (alpha : V) (p0 X : list V) : list V :=
  match p0, X with
  | p :: ps, d :: ds => add p (mul alpha d) :: move alpha ps ds
  | _, _ => []
  end.

(** tractor.setParams on the thawed vector: a vector of another length is an
    error (see C02). *)
Definition set_vec (p v : list V) : res (list V) :=
  if (length v =? length p)%nat then Ok v else Err IndexError.

(** The loop of Optimizer.tryUpdates, optimize.py:435-454: state after it is
    (current parameters, alphaBest, pBest). *)
Fixpoint try_loop (p0 X : list V) (alphas : list V) (cur : list V) (best : option V) (pBest : ext)
  : res (list V * option V * ext) :=
  match alphas with
  | [] => Ok (cur, best, pBest)
  | alpha :: r =>
      cur <- set_vec cur (move alpha p0 X) ;;
      let pAfter := lp cur in
      if negb (isfinite pAfter) then Ok (cur, best, pBest)
      else if eltb pAfter (esub pBest (Fin 1)) then Ok (cur, best, pBest)
      else if egtb pAfter pBest then try_loop p0 X r cur (Some alpha) pAfter
      else try_loop p0 X r cur best pBest
  end.

(** Optimizer.tryUpdates, optimize.py:425-470: the parameters afterwards, the
    gain and the step fraction ([None] is the returned 0.). *)
Definition try_updates (p0 X alphas : list V) : res (list V * ext * option V) :=
  let pBefore := lp p0 in
  '(cur, best, pBest) <- try_loop p0 X alphas p0 None pBefore ;;
  match best with
  | None => cur <- set_vec cur p0 ;; Ok (cur, Fin 0, None)
  | Some a => cur <- set_vec cur (move a p0 X) ;; Ok (cur, esub pBest pBefore, Some a)
  end.

(** LsqrOptimizer.optimize without variance, lsqr_optimizer.py:280-315: [dir]
    is getLinearUpdateDirection (None on failure).  The result is the new
    parameters and the gain. *)
Definition optimize (dir : list V -> option (list V)) (alphas p : list V) : res (list V * ext) :=
  match dir p with
  | None => Ok (p, Fin 0)
  | Some [] => Ok (p, Fin 0)
  | Some X => '(p', dlnp, _) <- try_updates p X alphas ;; Ok (p', dlnp)
  end.

Definition eleb (a b : ext) : bool :=
  match a, b with NaN, _ | _, NaN => false | _, _ => negb (eltb b a) end.

(** The for loop of LsqrOptimizer.optimize_loop, lsqr_optimizer.py:319-324;
    [n] iterations remain, [step] is the loop variable.  Returns the list of
    gains of the steps taken too (not returned by the code). *)
Fixpoint opt_loop (dir : list V -> option (list V)) (alphas : list V) (dchisq : ext) (n step : nat) (p : list V)
  : res (list V * nat * list ext) :=
  match n with
  | O => Ok (p, step, [])   (* not reached from optimize_loop *)
  | S n' =>
      '(p', dlnp) <- optimize dir alphas p ;;
      if eleb dlnp dchisq then Ok (p', step, [dlnp])
      else match n' with
           | O => Ok (p', step, [dlnp])
           | S _ => '(q, s, l) <- opt_loop dir alphas dchisq n' (S step) p' ;; Ok (q, s, dlnp :: l)
           end
  end.

(** LsqrOptimizer.optimize_loop, lsqr_optimizer.py:317-326: with steps=0 the
    loop variable is unbound at line 325. *)
Definition optimize_loop dir alphas dchisq (steps : nat) (p : list V) : res (list V * nat * list ext) :=
  match steps with
  | O => Err UnboundLocalError
  | _ => opt_loop dir alphas dchisq steps 0 p
  end.
End Try.

(** ** Constrained steps, constrained_optimizer.py:84-159.

    Numbers are rationals; the arithmetic operations are parameters (so that
    the bounds can be proved for any rounding), comparisons are exact.  A bound
    or limit of [None] is Python None.  All lists have one entry per
    parameter. *)
Section Steps.
Variables (add sub mul div : Q -> Q -> Q).

(** Lines 113-123: the reduced alpha and the flag. *)
Fixpoint limit_steps (maxs : list (option Q)) (dir : list Q) (alpha : Q) (lim : bool) : Q * bool :=
  match maxs, dir with
  | mx :: ms, d :: ds =>
      match mx with
      | None => limit_steps ms ds alpha lim
      | Some m => if qltb m (mul alpha (Qabs d)) then limit_steps ms ds (div m (Qabs d)) true
                  else limit_steps ms ds alpha lim
      end
  | _, _ => (alpha, lim)
  end.

(** Lines 127-138. *)
Fixpoint limit_bounds (p0 : list Q) (los his : list (option Q)) (dir : list Q) (alpha : Q) (hit : bool)
  : Q * bool :=
  match p0, los, his, dir with
  | p :: ps, l :: ls, u :: us, d :: ds =>
      let px := add p (mul alpha d) in
      let '(alpha, px, hit) :=
        match l with
        | Some l => if qltb px l then (div (sub l p) d, l, true) else (alpha, px, hit)
        | None => (alpha, px, hit)
        end in
      let '(alpha, hit) :=
        match u with
        | Some u => if qltb u px then (div (sub u p) d, true) else (alpha, hit)
        | None => (alpha, hit)
        end in
      limit_bounds ps ls us ds alpha hit
  | _, _, _, _ => (alpha, hit)
  end.

(** Lines 148-152. *)
Definition clamp (l u : option Q) (px : Q) : Q :=
  let px := match l with Some l => if qltb px l then l else px | None => px end in
  match u with Some u => if qltb u px then u else px | None => px end.

(** Lines 146-153. *)
Fixpoint step_params (p0 : list Q) (los his : list (option Q)) (dir : list Q) (alpha : Q) : list Q :=
  match p0, dir, los, his with
  | p :: ps, d :: ds, l :: ls, u :: us =>
      clamp l u (add p (mul alpha d)) :: step_params ps ls us ds alpha
  | _, _, _, _ => []
  end.

Record step : Type := mkStep { s_alpha : Q; s_params : list Q; s_limit : bool; s_hit : bool }.

Variable tiny : Q.

Fixpoint steps_loop (p0 : list Q) (maxs los his : list (option Q)) (dir alphas : list Q) : list step :=
  match alphas with
  | [] => []
  | alpha :: r =>
      let '(alpha, lim) := limit_steps maxs dir alpha false in
      let '(alpha, hit) := limit_bounds p0 los his dir alpha false in
      if qltb alpha tiny then []
      else mkStep alpha (step_params p0 los his dir alpha) lim hit ::
           (if lim then [] else steps_loop p0 maxs los his dir r)
  end.

(** np.all(np.diff(alphas) > 0), line 102. *)
Fixpoint increasing (l : list Q) : bool :=
  match l with
  | a :: (b :: _) as r => match r with b :: _ => qltb a b && increasing r | [] => true end
  | _ => true
  end.

Definition parameter_steps (p0 : list Q) (maxs los his : list (option Q)) (dir alphas : list Q)
  : res (list step) :=
  if increasing alphas then Ok (steps_loop p0 maxs los his dir alphas) else Err AssertionError.
End Steps.

(** ** ConstrainedOptimizer.tryUpdates, constrained_optimizer.py:36-82 *)
Section ConstrainedTry.
Variable lp : list Q -> ext.
(** check_step(optimizer, tractor, X, alpha): None if not given. *)
Variable check : option (list Q -> Q -> bool).

(** The loop of lines 50-76: (p_best, alpha_best, logprob_best, self.hit_limit,
    self.last_step_hit_limit). *)
Fixpoint ctry_loop (steps : list step) (p_best : list Q) (a_best : option Q) (l_best : ext)
    (hit last : bool) : list Q * option Q * ext * bool * bool :=
  match steps with
  | [] => (p_best, a_best, l_best, hit, last)
  | s :: r =>
      let hit := hit || s_hit s in
      if match check with Some c => negb (c (s_params s) (s_alpha s)) | None => false end
      then (p_best, a_best, l_best, hit, last)
      else
        let l := lp (s_params s) in
        if negb (isfinite l) then (p_best, a_best, l_best, hit, last)
        else if eltb l (esub l_best (Fin 1)) then (p_best, a_best, l_best, hit, last)
        else if egtb l l_best then ctry_loop r (s_params s) (Some (s_alpha s)) l hit (s_hit s)
        else ctry_loop r p_best a_best l_best hit last
  end.

(** The result is the parameters afterwards, the gain and the step fraction
    ([None] is 0.), and the flags hit_limit and last_step_hit_limit, which were
    [hit0] and [last0] before. *)
Definition ctry_updates (p0 : list Q) (steps : list step) (hit0 last0 : bool)
  : list Q * ext * option Q * bool * bool :=
  let before := lp p0 in
  let '(hit0, last0) := match steps with [] => (true, true) | _ => (hit0, last0) end in
  let '(p_best, a_best, l_best, hit, last) := ctry_loop steps p0 None before hit0 last0 in
  match a_best with
  | None => (p_best, Fin 0, None, hit, last)
  | Some a => (p_best, esub l_best before, Some a, hit, last)
  end.
End ConstrainedTry.

(** ** ConstrainedOptimizer.optimize_loop, constrained_optimizer.py:12-34.

    One call of self.optimize is an oracle: new parameters, gain, and whether
    self.stepLimited was set; [check] is check_step. *)
Section ConstrainedLoop.
Context {St : Type}.
Variable one_step : St -> St * ext * bool.
Variable check : option (St -> ext -> bool).

Fixpoint copt_loop (dchisq dlim : ext) (n step : nat) (p : St) : St * nat * list (ext * bool) :=
  match n with
  | O => (p, step, [])   (* not reached *)
  | S n' =>
      let '(p', dlnp, limited) := one_step p in
      if match check with Some c => negb (c p' dlnp) | None => false end then (p', step, [(dlnp, limited)])
      else if negb limited && eleb dlnp dchisq then (p', step, [(dlnp, limited)])
      else if limited && eleb dlnp dlim then (p', step, [(dlnp, limited)])
      else match n' with
           | O => (p', step, [(dlnp, limited)])
           | S _ => let '(q, s, l) := copt_loop dchisq dlim n' (S step) p' in (q, s, (dlnp, limited) :: l)
           end
  end.

Definition coptimize_loop (dchisq dlim : ext) (steps : nat) (p : St) : res (St * nat * list (ext * bool)) :=
  match steps with
  | O => Err UnboundLocalError
  | _ => Ok (copt_loop dchisq dlim steps 0 p)
  end.
End ConstrainedLoop.
