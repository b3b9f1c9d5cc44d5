(** Coordinates of subimages: tractor/wcs.py NullWCS, WcslibWcs,
    ConstantFitsWcs, TanWcs; tractor/shifted.py; the shift methods of sky.py,
    splinesky.py, psf.py, psfex.py; Image.subimage (image.py:82-92).
    Real numbers (rounding not modelled), except pixel arrays of any value type
    and stamp positions, which are rationals. *)
From Coq Require Import List Reals ZArith QArith Bool Lia.
From Verif Require Import Base PatchModel RoiModel.
Import ListNotations.
Open Scope R_scope.

(** A position (ra, dec) or (x, y). *)
Definition pos : Type := R * R.
(** The FITS WCS objects of the astrometry library: oracles. *)
Record fits : Type := mkFits {
  radec2xy : pos -> R * R; xy2radec : R * R -> pos; get_cd : R * R * (R * R) }.

Inductive wcs : Type :=
| NullWCS (pixscale dx dy : R)
| FitsWcs (w : fits) (x0 y0 : R)      (* ConstantFitsWcs and TanWcs *)
| WcslibWcs (w : fits) (x0 y0 : R)
| ShiftedWcs (w : wcs) (x0 y0 : R)
| ScaledWcs (w : wcs) (factor : R).

(** positionToPixel: wcs.py:30-31, 121-124, 202-216; shifted.py:147-151,
    183-185. *)
Fixpoint position_to_pixel (w : wcs) (p : pos) : R * R :=
  match w with
  | NullWCS _ dx dy => (fst p + dx, snd p + dy)
  | FitsWcs f x0 y0 | WcslibWcs f x0 y0 =>
      let xy := radec2xy f p in (fst xy - 1 - x0, snd xy - 1 - y0)
  | ShiftedWcs w x0 y0 => let xy := position_to_pixel w p in (fst xy - x0, snd xy - y0)
  | ScaledWcs w k => let xy := position_to_pixel w p in ((fst xy + 0.5) * k - 0.5, (snd xy + 0.5) * k - 0.5)
  end.
(** pixelToPosition: wcs.py:33-34, 126-130, 218-225; shifted.py:187-189; the
    scaled one has none. *)
Fixpoint pixel_to_position (w : wcs) (x y : R) : res pos :=
  match w with
  | NullWCS _ dx dy => Ok (x - dx, y - dy)
  | FitsWcs f x0 y0 | WcslibWcs f x0 y0 => Ok (xy2radec f (x + 1 + x0, y + 1 + y0))
  | ShiftedWcs w x0 y0 => pixel_to_position w (x + x0) (y + y0)
  | ScaledWcs _ _ => Err AttributeError
  end.
(** The position at which a wrapped CD matrix is asked for, and the factor on
    it: cdAtPixel, wcs.py:36-37, 132-150, 227-233; shifted.py:142-145,
    180-181.  [base_cd] is the innermost object's own method (for WcslibWcs a
    finite difference of the oracle): an oracle of the pixel. *)
Definition mscale (k : R) (m : R * R * (R * R)) : R * R * (R * R) :=
  ((k * fst (fst m), k * snd (fst m)), (k * fst (snd m), k * snd (snd m))).
Definition wcslib_cd (cosd : R -> R) (f : fits) (x y : R) : R * R * (R * R) :=
  let p0 := xy2radec f (x + 1, y + 1) in
  let p1 := xy2radec f (x + 2, y + 1) in
  let p2 := xy2radec f (x + 1, y + 2) in
  ((fst p1 - fst p0) * cosd (snd p0), (fst p2 - fst p0) * cosd (snd p0), (snd p1 - snd p0, snd p2 - snd p0)).
Fixpoint cd_at_pixel (cosd : R -> R) (w : wcs) (x y : R) : R * R * (R * R) :=
  match w with
  | NullWCS ps _ _ => (ps / 3600, 0, (0, ps / 3600))
  | FitsWcs f _ _ => get_cd f
  | WcslibWcs f x0 y0 => wcslib_cd cosd f (x + x0) (y + y0)
  | ShiftedWcs w x0 y0 => cd_at_pixel cosd w (x + x0) (y + y0)
  | ScaledWcs w k => mscale (1 / k) (cd_at_pixel cosd w ((x + 0.5) / k - 0.5) ((y + 0.5) * k - 0.5))
  end.
(** copy: BaseParams utils.py:206-207 for NullWCS, which has no parameters, so
    NullWCS() with the default arguments (wcs.py:14); wcs.py:88-89 (WcslibWcs),
    175-179, 303-307.  The wrappers inherit BaseParams.copy, which passes the
    parameters of the wrapped WCS instead of (wcs, x0, y0): TypeError in
    general; not used below. *)
Definition wcs_copy (w : wcs) : res wcs :=
  match w with
  | NullWCS _ _ _ => Ok (NullWCS 1 0 0)
  | FitsWcs f x0 y0 => Ok (FitsWcs f x0 y0)
  | WcslibWcs _ _ _ => Err RuntimeError
  | ShiftedWcs _ _ _ | ScaledWcs _ _ => Err TypeError
  end.
(** shifted: wcs.py:48-49, 181-185, 309-313; the others have no such method. *)
Definition wcs_shifted (w : wcs) (dx dy : R) : res wcs :=
  match w with
  | NullWCS _ _ _ => wcs_copy w
  | FitsWcs f x0 y0 => Ok (FitsWcs f (x0 + dx) (y0 + dy))
  | WcslibWcs _ _ _ | ShiftedWcs _ _ _ | ScaledWcs _ _ => Err AttributeError
  end.

(** *** Sky *)
(** NullSky (0), ConstantSky (sky.py:16-56), SplineSky (splinesky.py:96-135)
    with the spline as an oracle. *)
Inductive sky : Type := ConstantSky (v : R) | SplineSky (spl : R -> R -> R) (x0 y0 : R).
Definition sky_at (s : sky) (x y : R) : R :=
  match s with ConstantSky v => v | SplineSky spl x0 y0 => spl (x + x0) (y + y0) end.
Definition sky_shifted (s : sky) (x y : R) : sky :=
  match s with ConstantSky v => ConstantSky v | SplineSky spl x0 y0 => SplineSky spl (x0 + x) (y0 + y) end.

(** *** PSF *)
(** psfex.py:276-321 PsfExModel: shifted and the polynomial terms; the index of
    the term dx^j dy^k. *)
Record psfex : Type := mkPsfex { px_x0 : R; px_y0 : R; px_xscale : R; px_yscale : R; px_degree : nat }.
Definition psfex_shifted (p : psfex) (dx dy : R) : psfex :=
  mkPsfex (px_x0 p - dx) (px_y0 p - dy) (px_xscale p) (px_yscale p) (px_degree p).
Definition term_index (degree j k : nat) : nat := (j + (degree + 1) * k - k * (k - 1) / 2)%nat.
(** The double loop of lines 304-315: (index, amplitude) in the order written. *)
Definition poly_writes (p : psfex) (x y : R) : list (nat * R) :=
  let dx := (x - px_x0 p) / px_xscale p in
  let dy := (y - px_y0 p) / px_yscale p in
  flat_map (fun d => map (fun j => (term_index (px_degree p) j (d - j), dx ^ j * dy ^ (d - j))) (seq 0 (d + 1)))
           (seq 0 (px_degree p + 1)).
(** terms = np.zeros(nb) and the assignments; IndexError outside. *)
Fixpoint do_writes (t : list R) (ws : list (nat * R)) : res (list R) :=
  match ws with
  | [] => Ok t
  | (i, v) :: r => if (i <? length t)%nat then do_writes (upd i v t) r else Err IndexError
  end.
Definition polynomials (p : psfex) (nb : nat) (x y : R) : res (list R) :=
  do_writes (repeat 0 nb) (poly_writes p x y).

(** A point-spread function: a constant one, whose stamp does not depend on
    the position, a varying one, and ShiftedPsf (shifted.py:59-108).  Rendering
    is an oracle giving the patch origin and its pixels; [mask]: a modelMask was
    passed, which ShiftedPsf reads as modelMask.patch, an attribute ModelMask
    does not have (patch.py:3-57). *)
Inductive psf (V : Type) : Type :=
| BasePsf (render : R -> R -> bool -> option (R * R * V))
| ShiftedPsf (p : psf V) (x0 y0 : R).
Arguments BasePsf {V}. Arguments ShiftedPsf {V}.
Fixpoint psf_patch {V} (p : psf V) (px py : R) (mask : bool) : res (option (R * R * V)) :=
  match p with
  | BasePsf f => Ok (f px py mask)
  | ShiftedPsf q x0 y0 =>
      if mask then Err AttributeError else
      r <- psf_patch q (x0 + px) (y0 + py) false ;;
      match r with
      | None => Ok None
      | Some (ox, oy, v) => Ok (Some (ox - x0, oy - y0, v))
      end
  end.
(** Stamp placement of PixelizedPSF.getPointSourcePatch, psf.py:160-166: corner
    and sub-pixel shift for a stamp of W columns; round is to nearest, ties to
    even.  getShifted returns the PSF itself. *)
Definition stamp_origin (px : Q) (W : Z) : Z := (np_round px - W / 2)%Z.
Definition stamp_frac (px : Q) : Q := (px - inject_Z (np_round px))%Q.

(** *** Image.subimage, image.py:82-92: the pixel arrays *)
Definition sub_pixels {V} (a : arr V) (x0 x1 y0 y1 : Z) : arr V := asub a (mkSl y0 y1) (mkSl x0 x1).
