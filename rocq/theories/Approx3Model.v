(** Ring-growing rendering: tractor/approx3.c (all) and its caller
    tractor/mixture_profiles.py MixtureOfGaussians.evaluate_grid_approx3
    (lines 345-411).

    The brightness of the mixture at a pixel is any function: [ev x y] is
    eval_all (used to choose the start), [val x y] eval_all_dxy (mix.i:32-79).
    [below v] is v < minval, [above v m] is v > m.  C ints are integers: no
    overflow.  The derivative arrays are written at the same offsets as the
    result array and are left out.  Writes to the result array are listed in
    order; a write outside the array is undefined behaviour. *)
From Coq Require Import List Bool Arith ZArith Lia.
From Verif Require Import Base.
Import ListNotations.
Open Scope Z_scope.

(** Result of a run: [NoFuel] never happens with enough fuel, [Undefined] means
    a write outside the array. *)
Inductive outcome (A : Type) : Type := NoFuel | Undefined | Done (a : A).
Arguments NoFuel {A}. Arguments Undefined {A}. Arguments Done {A}.

Section Approx3.
Context {V : Type} (zero : V) (ev val : Z -> Z -> V) (above : V -> V -> bool) (below : V -> bool).
Context (x0 x1 y0 y1 minradius : Z).

Definition W : Z := x1 - x0.
Definition H : Z := y1 - y0.
Definition zrange (lo hi : Z) : list Z := map (fun k => lo + Z.of_nat k) (seq 0 (Z.to_nat (hi - lo))).

(** Choice of the start pixel, approx3.c:127-168.  The state is (maxpix, newxc,
    newyc); [quot] is the division of C. *)
Definition try_pixel (s : V * Z * Z) (ix iy : Z) : V * Z * Z :=
  let '(maxpix, _, _) := s in
  let v := ev ix iy in
  if above v maxpix then (v, ix, iy) else s.
Definition start (xc yc : Z) : Z * Z :=
  if (xc <? x0) || (yc <? y0) || (xc >=? x1) || (yc >=? y1) then
    let s := (zero, Z.quot (x0 + x1) 2, Z.quot (y0 + y1) 2) in
    let s := if (xc <? x0) || (xc >=? x1) then
               let ix := if xc <? x0 then x0 else x1 - 1 in
               fold_left (fun s iy => try_pixel s ix iy) (zrange y0 y1) s
             else s in
    let s := if (yc <? y0) || (yc >=? y1) then
               let iy := if yc <? y0 then y0 else y1 - 1 in
               fold_left (fun s ix => try_pixel s ix iy) (zrange x0 x1) s
             else s in
    let '(_, nx, ny) := s in (nx, ny)
  else (xc, yc).

(** #define SET(arr, i, lo, hi), approx3.c:170-171 *)
Definition SET (lo hi i : Z) (arr : list bool) : list bool :=
  if (i >=? lo) && (i <? hi) then upd (Z.to_nat (i - lo)) true arr else arr.

(** The marks of the next ring: top, bottom, left, right. *)
Record marks : Type := mkMarks { mT : list bool; mB : list bool; mL : list bool; mR : list bool }.
Definition setT (i : Z) (m : marks) : marks := mkMarks (SET x0 x1 i (mT m)) (mB m) (mL m) (mR m).
Definition setB (i : Z) (m : marks) : marks := mkMarks (mT m) (SET x0 x1 i (mB m)) (mL m) (mR m).
Definition setL (i : Z) (m : marks) : marks := mkMarks (mT m) (mB m) (SET y0 y1 i (mL m)) (mR m).
Definition setR (i : Z) (m : marks) : marks := mkMarks (mT m) (mB m) (mL m) (SET y0 y1 i (mR m)).
Definition no_marks : marks :=
  mkMarks (repeat false (Z.to_nat W)) (repeat false (Z.to_nat W)) (repeat false (Z.to_nat H)) (repeat false (Z.to_nat H)).
(** approx3.c:173-188 *)
Definition first_marks (xc yc : Z) : marks :=
  let m := no_marks in
  let m := if yc >? y0 then setB (xc - 1) (setB xc (setB (xc + 1) m)) else m in
  let m := if yc <? y1 - 1 then setT (xc - 1) (setT (xc + 1) (setT xc m)) else m in
  let m := if xc >? x0 then setL yc m else m in
  if xc <? x1 - 1 then setR yc m else m.

(** The state of the loop: marks of the next ring, writes so far (offset in the
    array, value; latest first), any, anyrow, and the reported box. *)
Record state : Type := mkState {
  nxt : marks; writes : list (Z * V); any : bool; anyrow : bool;
  sx0 : Z; sx1 : Z; sy0 : Z; sy1 : Z }.
Definition put (p : Z * V) (s : state) : state :=
  mkState (nxt s) (p :: writes s) true true (sx0 s) (sx1 s) (sy0 s) (sy1 s).
Definition mark (f : marks -> marks) (s : state) : state :=
  mkState (f (nxt s)) (writes s) (any s) (anyrow s) (sx0 s) (sx1 s) (sy0 s) (sy1 s).
Definition clear_row (s : state) : state :=
  mkState (nxt s) (writes s) (any s) false (sx0 s) (sx1 s) (sy0 s) (sy1 s).
Definition offset (x y : Z) : Z := (y - y0) * W + (x - x0).
(** if ((R > minradius) && (r < minval)) continue; *)
Definition stops (R : Z) (r : V) : bool := (R >? minradius) && below r.
Definition when (b : bool) (f : marks -> marks) : marks -> marks := if b then f else fun m => m.

(** Top row, approx3.c:273-325 *)
Definition top_px (xc yc R : Z) (doT : list bool) (yy : Z) (s : state) (i : nat) : state :=
  if negb (nth i doT false) then s else
  let xx := x0 + Z.of_nat i in
  let r := val xx yy in
  let s := put (offset xx yy, r) s in
  if stops R r then s else
  let s := mark (when ((xx =? xc - R) && (xx >? x0)) (fun m => setL (yy - 1) (setL yy m))) s in
  let s := mark (when ((xx =? xc + R) && (xx <? x1 - 1)) (fun m => setR (yy - 1) (setR yy m))) s in
  mark (when (yy <? y1 - 1) (fun m => setT (xx + 1) (setT xx (setT (xx - 1) m)))) s.
Definition do_top (xc yc R : Z) (d : marks) (s : state) : state :=
  let yy := yc + R in
  if negb (yy <? y1) then s else
  let s := fold_left (top_px xc yc R (mT d) yy) (seq 0 (Z.to_nat W)) (clear_row s) in
  if anyrow s then mkState (nxt s) (writes s) (any s) (anyrow s) (sx0 s) (sx1 s) (sy0 s) (yy - y0) else s.
(** Bottom row, approx3.c:326-374 *)
Definition bottom_px (xc yc R : Z) (doB : list bool) (yy : Z) (s : state) (i : nat) : state :=
  if negb (nth i doB false) then s else
  let xx := x0 + Z.of_nat i in
  let r := val xx yy in
  let s := put (offset xx yy, r) s in
  if stops R r then s else
  let s := mark (when ((xx =? xc - R) && (xx >? x0)) (fun m => setL (yy + 1) (setL yy m))) s in
  let s := mark (when ((xx =? xc + R) && (xx <? x1 - 1)) (fun m => setR (yy + 1) (setR yy m))) s in
  mark (when (yy >? y0) (fun m => setB (xx + 1) (setB xx (setB (xx - 1) m)))) s.
Definition do_bottom (xc yc R : Z) (d : marks) (s : state) : state :=
  let yy := yc - R in
  if negb (yy >=? y0) then s else
  let s := fold_left (bottom_px xc yc R (mB d) yy) (seq 0 (Z.to_nat W)) (clear_row s) in
  if anyrow s then mkState (nxt s) (writes s) (any s) (anyrow s) (sx0 s) (sx1 s) (yy - y0) (sy1 s) else s.
(** Left column, approx3.c:376-407 *)
Definition left_px (R : Z) (doL : list bool) (xx : Z) (s : state) (i : nat) : state :=
  if negb (nth i doL false) then s else
  let yy := y0 + Z.of_nat i in
  let r := val xx yy in
  let s := put (offset xx yy, r) s in
  if stops R r then s else
  mark (when (xx >? x0) (fun m => setL (yy + 1) (setL yy (setL (yy - 1) m)))) s.
Definition do_left (xc R : Z) (d : marks) (s : state) : state :=
  let xx := xc - R in
  if negb (xx >=? x0) then s else
  let s := fold_left (left_px R (mL d) xx) (seq 0 (Z.to_nat H)) (clear_row s) in
  if anyrow s then mkState (nxt s) (writes s) (any s) (anyrow s) (xx - x0) (sx1 s) (sy0 s) (sy1 s) else s.
(** Right column, approx3.c:408-439 *)
Definition right_px (R : Z) (doR : list bool) (xx : Z) (s : state) (i : nat) : state :=
  if negb (nth i doR false) then s else
  let yy := y0 + Z.of_nat i in
  let r := val xx yy in
  let s := put (offset xx yy, r) s in
  if stops R r then s else
  mark (when (xx <? x1 - 1) (fun m => setR (yy + 1) (setR yy (setR (yy - 1) m)))) s.
Definition do_right (xc R : Z) (d : marks) (s : state) : state :=
  let xx := xc + R in
  if negb (xx <? x1) then s else
  let s := fold_left (right_px R (mR d) xx) (seq 0 (Z.to_nat H)) (clear_row s) in
  if anyrow s then mkState (nxt s) (writes s) (any s) (anyrow s) (sx0 s) (xx - x0) (sy0 s) (sy1 s) else s.

(** One pass of for (R=1;; R++), approx3.c:206-441: the marks become the
    pixels to do, fresh marks are made. *)
Definition ring (xc yc R : Z) (s : state) : state :=
  let d := nxt s in
  let s := mkState no_marks (writes s) false (anyrow s) (sx0 s) (sx1 s) (sy0 s) (sy1 s) in
  do_right xc R d (do_left xc R d (do_bottom xc yc R d (do_top xc yc R d s))).
(** The loop; [None] when the fuel runs out. *)
Fixpoint rings (fuel : nat) (xc yc R : Z) (s : state) : option state :=
  match fuel with
  | O => None
  | S fuel => let s := ring xc yc R s in
              if any s then rings fuel xc yc (R + 1) s else Some s
  end.
(** approx3.c:190-201 *)
Definition first_state (xc yc : Z) : state :=
  mkState (first_marks xc yc) [(offset xc yc, val xc yc)] false false (xc - x0) (xc - x0) (yc - y0) (yc - y0).

(** The writes, carried out in order on the array of zeros. *)
Fixpoint store (ws : list (Z * V)) (arr : list V) : option (list V) :=
  match ws with
  | [] => Some arr
  | (o, v) :: ws => if (0 <=? o) && (o <? Z.of_nat (length arr)) then store ws (upd (Z.to_nat o) v arr) else None
  end.
(** c_gauss_2d_approx3 from the given start: the array and the box
    (sx0, sx1, sy0, sy1), with sx1++ and sy1++ at the end (approx3.c:461-462). *)
Definition approx3 (fuel : nat) (xc yc : Z) : outcome (list V * (Z * Z * Z * Z)) :=
  let '(xc, yc) := start xc yc in
  match rings fuel xc yc 1 (first_state xc yc) with
  | None => NoFuel
  | Some s =>
      match store (rev (writes s)) (repeat zero (Z.to_nat W * Z.to_nat H)) with
      | None => Undefined
      | Some arr => Done (arr, (sx0 s, sx1 s + 1, sy0 s, sy1 s + 1))
      end
  end.
(** evaluate_grid_approx3, mixture_profiles.py:345-411: the returned patch as
    its lower corner, size and pixels; [Done None] for a source too far away
    (maxmargin). *)
Definition grid (fuel : nat) (cx cy maxmargin : Z) (doslice : bool) : outcome (option (Z * Z * Z * Z * (Z -> Z -> V))) :=
  if (cx <? x0 - maxmargin) || (cx >? x1 + maxmargin) || (cy <? y0 - maxmargin) || (cy >? y1 + maxmargin) then Done None else
  match approx3 fuel cx cy with
  | NoFuel => NoFuel
  | Undefined => Undefined
  | Done (arr, (a0, a1, b0, b1)) =>
      let px i j := nth (Z.to_nat (j * W + i)) arr zero in
      if doslice then Done (Some (x0 + a0, y0 + b0, a1 - a0, b1 - b0, fun i j => px (a0 + i) (b0 + j)))
      else Done (Some (x0, y0, W, H, px))
  end.
End Approx3.
