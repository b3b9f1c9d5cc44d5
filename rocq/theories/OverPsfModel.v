(** Point sources from a stamp sampled at another spacing than the image:
    tractor/psf.py PixelizedPSF.__init__ (82-106), _sampleImage (284-310),
    _getOversampledPointSourcePatch (312-345), NormalizedPsf._sampleImage
    (962-967), and the early exit of pointsource.py:102-113.

    Positions and pixels are reals.  [interp img x y] is the value that
    astrometry.net's lanczos3_interpolate_grid gives for column x and row y of
    the stamp: the grid is read at xstart + i xstep, ystart + j ystep. *)
From Coq Require Import Reals List ZArith Bool.
From Flocq Require Import Core.
From Verif Require Import Base PatchModel PsfModel.
Import ListNotations.
Open Scope R_scope.

Section Over.
Variable interp : arr R -> R -> R -> R.
(** Python's round: some integer at most half away *)
Variable rnd : R -> Z.

(** psf.py:102-106 *)
Definition native (n : Z) (s : R) : Z := Zceil (IZR n * s).

(** _sampleImage, psf.py:284-310; the arguments that may be None are given *)
Definition sample_image (img : arr R) (s dx dy : R) (xlo ylo width height : Z) : res (arr R) :=
  let cx := IZR (aw img / 2) in
  let cy := IZR (ah img / 2) in
  let xstep := 1 / s in
  let ystep := 1 / s in
  let xstart := (cx - dx / s) + IZR xlo * xstep in
  let ystart := (cy - dy / s) + IZR ylo * ystep in
  if (height <? 0)%Z || (width <? 0)%Z then Err ValueError else
  Ok (mkArr height width (fun j i => interp img (xstart + IZR i * xstep) (ystart + IZR j * ystep))).

(** NormalizedPsf._sampleImage, psf.py:962-967 *)
Definition normalize (a : arr R) : arr R :=
  let n := arr_sum Rplus 0 a in
  if Req_EM_T n 0 then a else mkArr (ah a) (aw a) (fun y x => px a y x / n).
Definition sample (normalized : bool) (img : arr R) (s dx dy : R) (xlo ylo width height : Z) : res (arr R) :=
  a <- sample_image img s dx dy xlo ylo width height ;; Ok (if normalized then normalize a else a).

(** psf.py:333-343, R = int(np.ceil(radius)) *)
Definition crop (rad : Z) (x0 y0 : Z) (img : arr R) : patch R :=
  let H := ah img in let W := aw img in
  let cx := (W / 2)%Z in let cy := (H / 2)%Z in
  let xlo := Z.max (cx - rad) 0 in
  let ylo := Z.max (cy - rad) 0 in
  mkPatch (x0 + xlo) (y0 + ylo) (Some (asub img (mkSl ylo (Z.min (cy + rad + 1) (H - 1))) (mkSl xlo (Z.min (cx + rad + 1) (W - 1))))).

(** _getOversampledPointSourcePatch, psf.py:312-345; [img] is getImage(px, py) *)
Definition over_patch (normalized : bool) (img : arr R) (s x y : R) (modelMask : option mask) (radius : option R) : res (patch R) :=
  let ix := rnd x in
  let iy := rnd y in
  let dx := x - IZR ix in
  let dy := y - IZR iy in
  match modelMask with
  | Some m =>
      a <- sample normalized img s dx dy (mx0 m - ix) (my0 m - iy) (mw m) (mh m) ;;
      Ok (mkPatch (mx0 m - ix + ix) (my0 m - iy + iy) (Some a))
  | None =>
      let nw := native (aw img) s in
      let nh := native (ah img) s in
      let xl := (- (nw / 2))%Z in
      let yl := (- (nh / 2))%Z in
      a <- sample normalized img s dx dy xl yl nw nh ;;
      match radius with
      | None => Ok (mkPatch (ix + xl) (iy + yl) (Some a))
      | Some r => Ok (crop (Zceil r) (ix + xl) (iy + yl) a)
      end
  end.

(** psf.py:99: the radius of the PSF *)
Definition psf_radius (img : arr R) : R := sqrt ((IZR (ah img) / 2) * (IZR (ah img) / 2) + (IZR (aw img) / 2) * (IZR (aw img) / 2)).
(** PointSource.getUnitFluxModelPatch, pointsource.py:102-125, for an image of
    W by H pixels; without a fixed radius *)
Definition unit_patch (normalized : bool) (img : arr R) (s x y : R) (W H : Z) (modelMask : option mask) : res (option (patch R)) :=
  let r := psf_radius img in
  if Rlt_dec (x + r) 0 then Ok None else if Rlt_dec (IZR W) (x - r) then Ok None else
  if Rlt_dec (y + r) 0 then Ok None else if Rlt_dec (IZR H) (y - r) then Ok None else
  p <- over_patch normalized img s x y modelMask None ;; Ok (Some p).
End Over.
