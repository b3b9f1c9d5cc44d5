(** A constant surface brightness: tractor/basics.py ConstantSurfaceBrightness
    (lines 36-123); pixscale_at of tractor/wcs.py (lines 45-46, 241-246) and
    tractor/ducks.py (lines 425-431).  Real numbers (float32 rounding not
    modelled).  The conversion of a brightness to counts is a function of the
    parameters of the brightness. *)
From Coq Require Import List ZArith Reals Bool.
From Verif Require Import Base ShiftModel.
Import ListNotations.
Local Open Scope R_scope.

(** A patch: corner and rows of pixels; a model mask: corner, width, height. *)
Record patch : Type := mkPatch { p_x0 : Z; p_y0 : Z; p_rows : list (list R) }.
Record mask : Type := mkMask { m_x0 : Z; m_y0 : Z; m_w : nat; m_h : nat }.
(** The brightness: all its parameters, which of them are thawed, their step
    sizes (ParamList, utils.py:710-806). *)
Record bright : Type := mkBright { b_vals : list R; b_liquid : list bool; b_steps : list R }.

(** pixscale_at: NullWCS, wcs.py:45-46; ConstantFitsWcs, wcs.py:241-246, with
    the pixel scale of its CD matrix; WcslibWcs and the wrappers of shifted.py
    are no ducks.WCS and have no such method. *)
Definition pixscale_at (w : wcs) (x y : R) : res R :=
  match w with
  | NullWCS ps _ _ => Ok ps
  | FitsWcs f _ _ => let '(a, b, (c, d)) := get_cd f in Ok (3600 * sqrt (Rabs (a * d - b * c)))
  | WcslibWcs _ _ _ | ShiftedWcs _ _ _ | ScaledWcs _ _ => Err AttributeError
  end.

Section Surface.
Context (counts : list R -> R).

(** Lines 63-68, 102-107 *)
Definition region (W H : nat) (m : option mask) : mask := match m with None => mkMask 0 0 W H | Some m => m end.
Definition center (m : mask) : R * R := (IZR (m_x0 m) + INR (m_w m) / 2, IZR (m_y0 m) + INR (m_h m) / 2).
Definition const_patch (m : mask) (v : R) : patch := mkPatch (m_x0 m) (m_y0 m) (repeat (repeat v (m_w m)) (m_h m)).
(** getModelPatch, basics.py:62-78 *)
Definition model_patch (w : wcs) (W H : nat) (m : option mask) (b : bright) : res patch :=
  let r := region W H m in
  let '(cx, cy) := center r in
  ps <- pixscale_at w cx cy ;;
  Ok (const_patch r (counts (b_vals b) * ps ^ 2)).

(** _indexLiquid and setParam, utils.py:690-698, 766-772 *)
Fixpoint index_liquid (liq : list bool) (i raw : nat) : res nat :=
  match liq with
  | [] => Err IndexError
  | false :: liq => index_liquid liq i (S raw)
  | true :: liq => match i with 0%nat => Ok raw | S i => index_liquid liq i (S raw) end
  end.
Definition set_param (b : bright) (i : nat) (v : R) : res (bright * R) :=
  j <- index_liquid (b_liquid b) i 0 ;;
  old <- py_get (b_vals b) j ;;
  Ok (mkBright (upd j v (b_vals b)) (b_liquid b) (b_steps b), old).
(** The loop of lines 90-98 over the thawed step sizes; [counts0] and the
    parameters [bvals] are those before the loop. *)
Fixpoint scales_loop (b : bright) (counts0 : R) (bvals bsteps : list R) (i : nat) : res (list R * bright) :=
  match bsteps with
  | [] => Ok ([], b)
  | bstep :: rest =>
      v <- py_get bvals i ;;
      '(b, oldval) <- set_param b i (v + bstep) ;;
      let countsi := counts (b_vals b) in
      '(b, _) <- set_param b i oldval ;;
      let s := if Req_EM_T countsi counts0 then 0 else (countsi - counts0) / bstep in
      '(l, b) <- scales_loop b counts0 bvals rest (S i) ;;
      Ok (s :: l, b)
  end.
Definition is_zero (r : R) : bool := if Req_EM_T r 0 then true else false.
(** getParamDerivatives, basics.py:80-123; [frozen]: the brightness is frozen as
    a whole. *)
Definition param_derivs (w : wcs) (W H : nat) (m : option mask) (frozen : bool) (b : bright) : res (list (option patch) * bright) :=
  if frozen then Ok ([], b) else
  let counts0 := counts (b_vals b) in
  '(scales, b) <- scales_loop b counts0 (keep (b_liquid b) (b_vals b)) (keep (b_liquid b) (b_steps b)) 0 ;;
  if forallb is_zero scales then Ok (map (fun _ => None) scales, b) else
  let r := region W H m in
  let '(cx, cy) := center r in
  ps <- pixscale_at w cx cy ;;
  Ok (map (fun s => if is_zero s then None else Some (const_patch r (s * ps ^ 2))) scales, b).
End Surface.
