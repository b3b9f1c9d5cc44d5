(** Model of the fast derivatives with respect to position: the mixture of
    Gaussians with its derivatives (eval_all_dxy and eval_all_dxy_f,
    tractor/mix.i:44-135), their conversion into derivatives with respect to
    the parameters of the position (WCS.pixelDerivsToPositionDerivs,
    tractor/ducks.py:403-425), and the differences that galaxies use
    (tractor/galaxy.py:161-178).

    Real numbers stand for floats (rounding not modelled).  Patches of one
    source have the same extent, and patch arithmetic is pixel by pixel (C19),
    so an image is a function of the pixel. *)
From Coq Require Import List ZArith Bool Reals.
Import ListNotations.
Open Scope R_scope.

(** One component: scales[k], icov[3k..3k+2] (with the -1/2 and the 2 dx dy
    folded in), means[2k], means[2k+1], maxD[k]. *)
Record comp : Type := mkComp {
  c_scale : R; c_i0 : R; c_i1 : R; c_i2 : R; c_mx : R; c_my : R; c_maxD : R }.

(** mix.i:60-62 *)
Definition dsq (c : comp) (x y : R) : R :=
  let dx := x - c_mx c in let dy := y - c_my c in
  c_i0 c * dx * dx + c_i1 c * dx * dy + c_i2 c * dy * dy.

(** The loop, mix.i:54-80: (r, xderiv, yderiv). *)
Definition eval_step (x y : R) (acc : R * R * R) (c : comp) : R * R * R :=
  let '(r, xd, yd) := acc in
  let dx := x - c_mx c in let dy := y - c_my c in
  let d := dsq c x y in
  if Rle_dec (c_maxD c) d then
    let G := c_scale c * exp d in
    (r + G, xd + - G * (2 * c_i0 c * dx + c_i1 c * dy), yd + - G * (2 * c_i2 c * dy + c_i1 c * dx))
  else (r, xd, yd).
Definition eval_dxy (cs : list comp) (x y : R) : R * R * R := fold_left (eval_step x y) cs (0, 0, 0).

Definition g_val (cs : list comp) (x y : R) : R := fst (fst (eval_dxy cs x y)).
Definition g_xd (cs : list comp) (x y : R) : R := snd (fst (eval_dxy cs x y)).
Definition g_yd (cs : list comp) (x y : R) : R := snd (eval_dxy cs x y).

(** gauss_masked.c:73-82 and approx3.c: the component of amplitude a, mean
    (mx, my), variance (v0 v1; v1 v2). *)
Definition comp_of (a mx my v0 v1 v2 maxD : R) : comp :=
  let det := v0 * v2 - v1 * v1 in
  let isc := -1 / 2 / det in
  mkComp (a / sqrt ((2 * PI) * (2 * PI) * det)) (v2 * isc) (- v1 * isc * 2) (v0 * isc) mx my maxD.

(** The patches for a source at (px, py): gauss_masked.c:124, x - fx, y - fy. *)
Definition image : Type := Z -> Z -> R.
Definition patch0 (cs : list comp) (px py : R) : image := fun X Y => g_val cs (IZR X - px) (IZR Y - py).
Definition patchdx (cs : list comp) (px py : R) : image := fun X Y => g_xd cs (IZR X - px) (IZR Y - py).
Definition patchdy (cs : list comp) (px py : R) : image := fun X Y => g_yd cs (IZR X - px) (IZR Y - py).

(** ** WCS *)
Record mat : Type := mkMat { m00 : R; m01 : R; m10 : R; m11 : R }.

(** np.linalg.inv, of a matrix that has an inverse *)
Definition inv2 (m : mat) : mat :=
  let det := m00 m * m11 m - m01 m * m10 m in
  mkMat (m11 m / det) (- m01 m / det) (- m10 m / det) (m00 m / det).

Definition mcol (m : mat) (i : nat) : R * R :=
  match i with O => (m00 m, m10 m) | _ => (m01 m, m11 m) end.

Record wcs : Type := mkWcs {
  to_pixel : R -> R -> R * R;        (* positionToPixel *)
  cd_at : R -> R -> mat;             (* cdAtPixel *)
  cdi_at_pos : R -> R -> mat }.      (* cdInverseAtPosition *)

(** WCS.cdInverseAtPixel and cdInverseAtPosition, ducks.py:403-411. *)
Definition duck_wcs (topix : R -> R -> R * R) (cd : R -> R -> mat) : wcs :=
  mkWcs topix cd (fun a b => let '(x, y) := topix a b in inv2 (cd x y)).

(** NullWCS, wcs.py:7-49. *)
Definition null_wcs (pixscale dx dy : R) : wcs :=
  mkWcs (fun x y => (x + dx, y + dy))
        (fun _ _ => mkMat (1 * pixscale / 3600) (0 * pixscale / 3600) (0 * pixscale / 3600) (1 * pixscale / 3600))
        (fun _ _ => mkMat (1 / (pixscale / 3600)) (0 / (pixscale / 3600))
                          (0 / (pixscale / 3600)) (1 / (pixscale / 3600))).

(** pixelDerivsToPositionDerivs, ducks.py:413-425; thawed: the indices of the
    thawed parameters of the position. *)
Definition pos_derivs (w : wcs) (a b : R) (thawed : list nat) (counts0 : R) (pdx pdy : image) : list image :=
  let cdi := cdi_at_pos w a b in
  map (fun i => let '(u, v) := mcol cdi i in
                fun X Y => (pdx X Y * u + pdy X Y * v) * counts0) thawed.

(** ** Galaxies, galaxy.py:166-171: p0 has H rows and W columns. *)
Definition central_dx (H W : nat) (p0 : nat -> nat -> R) (iy ix : nat) : R :=
  if ((1 <=? iy) && (iy <? H - 1) && (1 <=? ix) && (ix <? W - 1))%nat
  then (p0 iy (ix - 1)%nat - p0 iy (ix + 1)%nat) / 2 else 0.
Definition central_dy (H W : nat) (p0 : nat -> nat -> R) (iy ix : nat) : R :=
  if ((1 <=? iy) && (iy <? H - 1) && (1 <=? ix) && (ix <? W - 1))%nat
  then (p0 (iy - 1)%nat ix - p0 (iy + 1)%nat ix) / 2 else 0.
