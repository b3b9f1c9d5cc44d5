(** Derivatives by differences, with rounded arithmetic as in RoundModel: the
    arithmetic is a parameter. *)
From Coq Require Import Reals Bool.
From Verif Require Import RoundModel.
Open Scope R_scope.

Section Deriv.
Context {A : Type}.
Variables (add sub mul div : A -> A -> A) (eqb : A -> A -> bool).

(** The derivative of the counts of a source with respect to one brightness
    parameter [f] with step [h], pointsource.py:228-240 (the same in
    galaxy.py:182-195): None if the counts do not change, else the factor of the
    unit-flux patch. *)
Definition counts_deriv (counts : A -> A) (f h : A) : option A :=
  let counts0 := counts f in
  let countsi := counts (add f h) in
  if eqb countsi counts0 then None else Some (div (sub countsi counts0) h).
(** LinearPhotoCal.brightnessToCounts, brightness.py:336-342 *)
Definition linear_counts (scale : A) (f : A) : A := mul f scale.
(** One pixel of an image derivative, engine.py:318-321 *)
Definition image_deriv (mod1 mod0 h : A) : A := div (sub mod1 mod0) h.
(** One pixel of the derivative with respect to a position parameter [p] with
    step [h], pointsource.py:203-224; [sym] is pos.symmetric_derivs; [render] is
    the pixel of the unit-flux patch as a function of the parameter (its extent
    is not modelled here, see PatchModel).  [add], [sub] and [mul] are those of the
    parameters, [psub], [pmul], [pdiv] those of the pixels. *)
Definition position_deriv (psub pmul pdiv : A -> A -> A) (two : A) (sym : bool) (render : A -> A) (counts0 p h : A) : A :=
  let patchx := render (add p h) in
  let '(p0, pdiff) := if sym then (render (sub p h), mul h two) else (render p, h) in
  pmul (psub patchx p0) (pdiv counts0 pdiff).
End Deriv.

Definition fdiv (prec emin : BinNums.Z) (x y : R) : R := rn prec emin (x / y).
Definition req (x y : R) : bool := if Req_EM_T x y then true else false.
(** The smallest step of the type, halved: what a result that underflows may lack *)
Definition tiny_err (emin : BinNums.Z) : R := / 2 * Flocq.Core.Raux.bpow Flocq.Core.Zaux.radix2 emin.
