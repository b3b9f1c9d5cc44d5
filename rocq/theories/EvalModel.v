(** Values of a mixture of Gaussians at points and on a grid:
    tractor/mixture_profiles.py MixtureOfGaussians.evaluate_1, evaluate_2,
    evaluate_3 (lines 224-268) and evaluate_grid_approx (285-303), with mix.i
    eval_g, eval_all (19-42), c_gauss_2d (319-446) and c_gauss_2d_approx2
    (650-1090).

    Mixtures of dimension two.  Real numbers stand for floats, components as in
    GaussPsfModel (positive determinant); C ints do not overflow; lround is a
    parameter.  c_gauss_2d_approx (526-645), which no caller uses, is left out.
    The rings of pixels are those of approx3.c (Approx3Model.v) with minradius
    0: the two C functions have the same loop. *)
From Coq Require Import List ZArith Bool Reals Lra Lia.
From Verif Require Import Base PatchModel Approx3Model GaussPsfModel.
Import ListNotations.
Open Scope R_scope.

(** ** At points *)

(** The points in an array of the given shape: lines 225-228, 244-247, 260-263.
    Two numbers in any shape are one point. *)
Fixpoint pairs (l : list R) : list (R * R) :=
  match l with x :: y :: r => (x, y) :: pairs r | _ => [] end.
Definition points (shape : list nat) (data : list R) : res (list (R * R)) :=
  if (length data =? 2)%nat then Ok (pairs data) else
  match shape with
  | [_; d] => if (d =? 2)%nat then Ok (pairs data) else Err AssertionError
  | _ => Err ValueError
  end.

(** np.linalg.det and np.linalg.inv of a 2 x 2 matrix. *)
Definition det2 (c : gcomp) : R := g_xx c * g_yy c - g_xy c * g_yx c.
Definition inv2 (c : gcomp) : R * R * R * R :=
  (g_yy c / det2 c, - g_xy c / det2 c, - g_yx c / det2 c, g_xx c / det2 c).
Definition norm2 (c : gcomp) : R := g_amp c / sqrt ((2 * PI) ^ 2 * det2 c).

(** One component of evaluate_3, lines 232-239. *)
Definition comp_3 (c : gcomp) (x y : R) : R :=
  let '(a, b, d, e) := inv2 c in
  let dx := x - g_mx c in
  let dy := y - g_my c in
  let dsq := dx * (dx * a + dy * d) + dy * (dx * b + dy * e) in
  if Rlt_dec dsq 700 then norm2 c * exp (- 0.5 * dsq) else 0.
(** One component of evaluate_1, lines 250-255; cdist gives the root. *)
Definition comp_1 (c : gcomp) (x y : R) : R :=
  let '(a, b, d, e) := inv2 c in
  let dx := x - g_mx c in
  let dy := y - g_my c in
  let dist := sqrt (dx * (a * dx + b * dy) + dy * (d * dx + e * dy)) in
  let dsq := dist ^ 2 in
  if Rlt_dec dsq 700 then norm2 c * exp (- 0.5 * dsq) else 0.
(** One component of c_gauss_2d, mix.i:404-431. *)
Definition comp_2 (c : gcomp) (x y : R) : R :=
  let '(a, b, d, e) := inv2 c in
  let dx := x - g_mx c in
  let dy := y - g_my c in
  let dsq := a * dx * dx + b * dx * dy + d * dx * dy + e * dy * dy in
  if Rle_dec 100 dsq then 0 else norm2 c * exp (- 0.5 * dsq).

Definition summed (comp : gcomp -> R -> R -> R) (m : list gcomp) (p : R * R) : R :=
  fold_left (fun r c => r + comp c (fst p) (snd p)) m 0.
Definition evaluate_with (comp : gcomp -> R -> R -> R) (m : list gcomp) (shape : list nat) (data : list R) : res (list R) :=
  ps <- points shape data ;; Ok (map (summed comp m) ps).
Definition evaluate_1 := evaluate_with comp_1.
Definition evaluate_2 := evaluate_with comp_2.
Definition evaluate_3 := evaluate_with comp_3.
(** evaluate = evaluate_2, line 413 *)
Definition evaluate := evaluate_2.

(** ** c_gauss_2d_approx2 *)
Section Approx2.
Variable lround : R -> Z.
Variables (m : list gcomp) (x0 x1 y0 y1 : Z) (fx fy minval : R).

(** Lines 697-719: symmetrized, -1/2 folded in. *)
Definition sym (c : gcomp) : R := (g_xy c + g_yx c) * 0.5.
Definition sdet (c : gcomp) : R := g_xx c * g_yy c - sym c * sym c.
Definition icov (c : gcomp) : R * R * R :=
  let isc := - 0.5 / sdet c in (g_yy c * isc, - sym c * isc * 2, g_xx c * isc).
Definition sscale (c : gcomp) : R :=
  if Rle_dec (sdet c) 0 then 0 else g_amp c / sqrt ((2 * PI) ^ 2 * sdet c).
(** eval_g, eval_all, lines 19-42. *)
Definition eval_g (i : R * R * R) (dx dy : R) : R :=
  let '(i0, i1, i2) := i in
  let dsq := i0 * dx * dx + i1 * dx * dy + i2 * dy * dy in
  if Rlt_dec dsq (- 100) then 0 else exp dsq.
Definition eval_all (x y : R) : R :=
  fold_left (fun r c => r + sscale c * eval_g (icov c) (x - g_mx c) (y - g_my c)) m 0.
Definition value (x y : Z) : R := eval_all (IZR x - fx) (IZR y - fy).
Definition dim (v : R) : bool := if Rlt_dec v minval then true else false.

(** One edge of the box, lines 757-828: the best place on it. *)
Definition clampR (lo hi : Z) (v : R) : R :=
  if Rlt_dec v (IZR lo) then IZR lo else if Rlt_dec (IZR (hi - 1)) v then IZR (hi - 1) else v.
Definition quad (i : R * R * R) (dx dy : R) : R := let '(i0, i1, i2) := i in i0 * dx * dx + i1 * dx * dy + i2 * dy * dy.
Definition on_x (i : R * R * R) (mx my xx : R) : R * R * R :=
  let '(i0, i1, i2) := i in
  let dx := xx - mx in
  let yy := clampR y0 y1 (- i1 * dx / (2 * i2) + my) in
  (quad i dx (yy - my), xx, yy).
Definition on_y (i : R * R * R) (mx my yy : R) : R * R * R :=
  let '(i0, i1, i2) := i in
  let dy := yy - my in
  let xx := clampR x0 x1 (- i1 * dy / (2 * i0) + mx) in
  (quad i (xx - mx) dy, xx, yy).
Definition better (s t : R * R * R) : R * R * R :=
  if Rlt_dec (fst (fst s)) (fst (fst t)) then t else s.
(** Lines 727-838, one component: its greatest value and where. *)
Definition brightest (c : gcomp) : R * Z * Z :=
  let mx := g_mx c + fx in
  let my := g_my c + fy in
  let ix := lround mx in
  let iy := lround my in
  if ((x0 <=? ix) && (ix <? x1) && (y0 <=? iy) && (iy <? y1))%Z then (sscale c, ix, iy)
  else
    let i := icov c in
    let s := on_x i mx my (IZR x0) in
    let s := better s (on_x i mx my (IZR (x1 - 1))) in
    let s := better s (on_y i mx my (IZR y0)) in
    let '(maxd, maxx, maxy) := better s (on_y i mx my (IZR (y1 - 1))) in
    (sscale c * exp maxd, lround maxx, lround maxy).
(** The start pixel, lines 721-853. *)
Definition start2 : Z * Z :=
  let '(_, xc, yc) :=
    fold_left (fun s c => let '(maxpix, _, _) := s in
                          let '(v, ix, iy) := brightest c in
                          if Rlt_dec maxpix v then (v, ix, iy) else s) m (0, x0, y0) in
  (xc, yc).
(** Lines 844-1070; the asserts of 849-852 come first. *)
Definition approx2 (fuel : nat) : outcome (list R) :=
  let '(xc, yc) := start2 in
  if negb ((x0 <=? xc) && (xc <? x1) && (y0 <=? yc) && (yc <? y1))%Z then Undefined else
  match rings value dim x0 x1 y0 y1 0 fuel xc yc 1 (first_state value x0 x1 y0 y1 xc yc) with
  | None => NoFuel
  | Some s =>
      match store (rev (writes s)) (repeat 0 (Z.to_nat (W x0 x1) * Z.to_nat (H y0 y1))) with
      | None => Undefined
      | Some arr => Done arr
      end
  end.
(** evaluate_grid_approx: the pixels by column and row of the box. *)
Definition grid_approx (fuel : nat) : outcome (Z -> Z -> R) :=
  match approx2 fuel with
  | NoFuel => NoFuel
  | Undefined => Undefined
  | Done arr => Done (fun x y => nth (Z.to_nat ((y - y0) * (x1 - x0) + (x - x0))) arr 0)
  end.
End Approx2.
