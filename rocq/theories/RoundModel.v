(** Rounded arithmetic, and the sums of the model that it matters for.

    A number type with [prec] bits and least exponent [emin] is a set of reals
    (Flocq's FLT format); each operation rounds the exact result to nearest,
    ties to even, as IEEE 754 prescribes.  binary32 is [prec] 24, [emin] -149;
    binary64 53, -1074.  Overflow is left out: there are no infinities. *)
From Coq Require Import Reals List ZArith.
From Flocq Require Import Core.
Import ListNotations.
Open Scope R_scope.

Section Float.
Variables (prec emin : Z).
(** The numbers of the type *)
Definition fmt (x : R) : Prop := generic_format radix2 (FLT_exp emin prec) x.
Definition rn (x : R) : R := round radix2 (FLT_exp emin prec) ZnearestE x.
Definition fadd (x y : R) : R := rn (x + y).
Definition fsub (x y : R) : R := rn (x - y).
Definition fmul (x y : R) : R := rn (x * y).
(** Half the distance from 1 to the next number: 2^-prec *)
Definition unit_err : R := bpow radix2 (- prec).
End Float.

Definition add32 := fadd 24 (-149).
Definition sub32 := fsub 24 (-149).
Definition mul32 := fmul 24 (-149).
Definition add64 := fadd 53 (-1074).
Definition mul64 := fmul 53 (-1074).

(** ** numpy's sum adds in an order of its own (in blocks, pairwise): any tree
    of additions *)
Inductive tree (A : Type) : Type := Leaf (v : A) | Node (l r : tree A).
Arguments Leaf {A}. Arguments Node {A}.
Fixpoint leaves {A} (t : tree A) : list A := match t with Leaf v => [v] | Node l r => leaves l ++ leaves r end.
Fixpoint eval {A} (add : A -> A -> A) (t : tree A) : A := match t with Leaf v => v | Node l r => add (eval add l) (eval add r) end.
(** The longest chain of additions *)
Fixpoint depth {A} (t : tree A) : nat := match t with Leaf _ => O | Node l r => S (Nat.max (depth l) (depth r)) end.
(** An array with its order of summation; None: without pixels, sum 0 *)
Definition sum_of {A} (zero : A) (add : A -> A -> A) (t : option (tree A)) : A :=
  match t with None => zero | Some t => eval add t end.
Fixpoint map_tree {A B} (f : A -> B) (t : tree A) : tree B := match t with Leaf v => Leaf (f v) | Node l r => Node (map_tree f l) (map_tree f r) end.

(** ** Tractor.getLogLikelihood, engine.py:475-479: chisq = 0.;
    chisq += (chi.astype(float) ** 2).sum() per image; -0.5 * chisq.  [half] is
    -0.5. *)
Definition log_likelihood {A} (zero half : A) (add mul : A -> A -> A) (chis : list (option (tree A))) : A :=
  mul half (fold_left (fun acc chi => add acc (sum_of zero add (option_map (map_tree (fun c => mul c c)) chi))) chis zero).
(** One pixel of getChiImage, engine.py:459, in the type of the images *)
Definition chi_pixel {A} (sub mul : A -> A -> A) (data model inverr : A) : A := mul (sub data model) inverr.

(** Patch.addTo of a float64 patch to a float32 image, patch.py:354: numpy adds
    in float64 and casts the result to the type of the image. *)
Definition add_into (x y : R) : R := rn 24 (-149) (add64 x y).
