(** Plain sums over boxes of pixels. *)
From Coq Require Import List ZArith Bool Lia.
From Verif Require Import Base.
Import ListNotations.
Open Scope Z_scope.

(** The integers a <= i < b. *)
Definition zrange (a b : Z) : list Z := map (fun k => a + Z.of_nat k) (seq 0 (Z.to_nat (b - a))).

Section Spec.
Context {V : Type} (zero : V) (vadd : V -> V -> V).

Definition total (l : list V) : V := fold_right vadd zero l.

(** Sum of f over the columns x0 < x <= x1 and rows y0 < y <= y1. *)
Definition box_sum (f : Z -> Z -> V) (x0 x1 y0 y1 : Z) : V :=
  total (map (fun y => total (map (fun x => f x y) (zrange (x0 + 1) (x1 + 1)))) (zrange (y0 + 1) (y1 + 1))).

(** The pixel in column x and row y; zero outside the image. *)
Definition pixel (img : list (list V)) (x y : Z) : V :=
  if (0 <=? x) && (0 <=? y) then nth (Z.to_nat x) (nth (Z.to_nat y) img []) zero else zero.

(** The (2m+1) x (2m+1) image that is mirror-symmetric in both axes and whose
    first quadrant (with the middle row and column) is that of [img]. *)
Definition mirrored (img : list (list V)) (m x y : Z) : V :=
  if (0 <=? x) && (x <=? 2 * m) && (0 <=? y) && (y <=? 2 * m)
  then pixel img (Z.min x (2 * m - x)) (Z.min y (2 * m - y)) else zero.

Definition rectangular (img : list (list V)) (w h : nat) : Prop :=
  length img = h /\ Forall (fun r => length r = w) img.
End Spec.
