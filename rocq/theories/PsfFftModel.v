(** Images and Fourier transforms handed out by pixelized PSFs: PixelizedPSF
    (tractor/psf.py:84-135, 249-366), PixelizedPsfEx (psfex.py:425-518) and the
    NormalizedPsf mixin (psf.py:947-971, psfex.py:735-744), with their cache of
    transforms.

    Real numbers stand for floats; the conversions to float32 and complex64 are
    left out.  [sample] is lanczos3_interpolate_grid, called through
    _sampleImage (psf.py:284-313).  Arrays are values, so the in-place divisions
    of the mixin are written as updates of the object that owns the array. *)
From Coq Require Import List ZArith Bool Reals.
From Verif Require Import Base ShiftModel GalPatchModel PatchModel PsfModel.
Import ListNotations.
Open Scope R_scope.

Definition sumR (n : nat) (f : nat -> R) : R := fold_right Rplus 0 (map f (seq 0 n)).
(** A sum over the pixels of an h x w image. *)
Definition sum2 (h w : Z) (f : Z -> Z -> R) : R :=
  sumR (Z.to_nat h) (fun y => sumR (Z.to_nat w) (fun x => f (Z.of_nat y) (Z.of_nat x))).

(** np.fft.rfft2, from its definition: real and imaginary part of the
    coefficient of row frequency k and column frequency l. *)
Record fft : Type := mkFft { fre : Z -> Z -> R; fim : Z -> Z -> R }.
Definition angle (h w k l y x : Z) : R := 2 * PI * (IZR k * IZR y / IZR h + IZR l * IZR x / IZR w).
Definition rfft2 (a : arr R) : fft :=
  mkFft (fun k l => sum2 (ah a) (aw a) (fun y x => px a y x * cos (angle (ah a) (aw a) k l y x)))
        (fun k l => - sum2 (ah a) (aw a) (fun y x => px a y x * sin (angle (ah a) (aw a) k l y x))).
(** np.abs of a coefficient; [fft /= n] *)
Definition cabs (f : fft) (k l : Z) : R := sqrt (fre f k l * fre f k l + fim f k l * fim f k l).
Definition fdiv (f : fft) (n : R) : fft := mkFft (fun k l => fre f k l / n) (fun k l => fim f k l / n).
Definition fscale (c : R) (f : fft) : fft := mkFft (fun k l => c * fre f k l) (fun k l => c * fim f k l).
Definition fadd (f g : fft) : fft := mkFft (fun k l => fre f k l + fre g k l) (fun k l => fim f k l + fim g k l).
Definition fzero : fft := mkFft (fun _ _ => 0) (fun _ _ => 0).

Definition np_sum (a : arr R) : R := sum2 (ah a) (aw a) (px a).
Definition arr_div (a : arr R) (n : R) : arr R := mkArr (ah a) (aw a) (fun y x => px a y x / n).

(** What getFourierTransform returns, without the frequency vectors (which
    depend on the shape only): the transform, the centre (cx, cy), the shape. *)
Record ftret : Type := mkRet { r_fft : fft; r_cx : R; r_cy : R; r_shape : Z * Z }.

(** *** PixelizedPSF, sampling = 1 *)
(** [self.img] and [self.fftcache], a dictionary. *)
Record pix : Type := mkPix { p_img : arr R; p_cache : list (Z * ftret) }.
Definition find_ft {B} (sz : Z) (c : list (Z * B)) : option B :=
  match find (fun e => Z.eqb (fst e) sz) c with Some e => Some (snd e) | None => None end.
(** The constructor, psf.py:84-106: only odd sizes. *)
Definition pix_new (img : arr R) : res pix :=
  if (Z.odd (ah img) && Z.odd (aw img))%bool then Ok (mkPix img []) else Err AssertionError.
(** psf.py:111-112 *)
Definition clear_cache (s : pix) : pix := mkPix (p_img s) [].
(** getFourierTransform, psf.py:249-280. *)
Definition pix_ft (s : pix) (radius : R) : res (pix * ftret) :=
  let sz := fft_size radius in
  match find_ft sz (p_cache s) with
  | Some r => Ok (s, r)
  | None =>
      '(pad, cx, cy) <- pad_in_image 0 sz sz (p_img s) ;;
      let r := mkRet (rfft2 pad) (IZR cx) (IZR cy) (ah pad, aw pad) in
      Ok (mkPix (p_img s) ((sz, r) :: p_cache s), r)
  end.
(** getImage, psf.py:134-135. *)
Definition pix_image (s : pix) : pix * arr R := (s, p_img s).

(** NormalizedPixelizedPsf: the mixin over PixelizedPSF.  The array divided in
    line 952 is the one in the cache, the one divided in line 959 is self.img.
    getFourierTransform, psf.py:948-953; getImage, psf.py:955-960. *)
Definition norm_ft (s : pix) (radius : R) : res (pix * ftret) :=
  '(s, r) <- pix_ft s radius ;;
  let n := cabs (r_fft r) 0 0 in
  if Req_EM_T n 0 then Ok (s, r)
  else
    let r := mkRet (fdiv (r_fft r) n) (r_cx r) (r_cy r) (r_shape r) in
    Ok (mkPix (p_img s) ((fft_size radius, r) :: p_cache s), r).
Definition norm_image (s : pix) : pix * arr R :=
  let n := np_sum (p_img s) in
  if Req_EM_T n 0 then (s, p_img s)
  else let a := arr_div (p_img s) n in (mkPix a (p_cache s), a).

(** Histories: transforms, images (every point source asks for one,
    psf.py:147), clearing the cache. *)
Inductive op : Type := OFt (radius : R) | OImage | OClear.
Definition step (normalized : bool) (s : pix) (o : op) : pix :=
  match o with
  | OFt r => match (if normalized then norm_ft s r else pix_ft s r) with Ok (s, _) => s | Err _ => s end
  | OImage => fst (if normalized then norm_image s else pix_image s)
  | OClear => clear_cache s
  end.
Definition run (normalized : bool) (s : pix) (h : list op) : pix := fold_left (step normalized) h s.

(** *** PixelizedPsfEx, sampling = 1 *)
(** The PsfEx model (polynomials in ShiftModel.v) with its basis images, and
    the cache of their transforms. *)
Record exstate : Type := mkEx { e_model : psfex; e_bases : list (arr R); e_cache : list (Z * (list fft * Z * Z * (Z * Z))) }.
(** at, psfex.py:326-347; zeros_like of the first basis image. *)
Definition ex_image (s : exstate) (x y : R) : res (arr R) :=
  match e_bases s with
  | [] => Err IndexError
  | b0 :: _ =>
      terms <- polynomials (e_model s) (length (e_bases s)) x y ;;
      Ok (fold_left (fun p tb => mkArr (ah p) (aw p) (fun y x => px p y x + fst tb * px (snd tb) y x))
            (combine terms (e_bases s)) (mkArr (ah b0) (aw b0) (fun _ _ => 0)))
  end.
(** The loop over the bases, psfex.py:495-508; cx, cy and shape are those of the
    last one. *)
Fixpoint base_fts (sz : Z) (bs : list (arr R)) (last : option (Z * Z * (Z * Z)))
  : res (list fft * option (Z * Z * (Z * Z))) :=
  match bs with
  | [] => Ok ([], last)
  | b :: bs =>
      '(pad, cx, cy) <- pad_in_image 0 sz sz b ;;
      '(fs, last) <- base_fts sz bs (Some (cx, cy, (ah pad, aw pad))) ;;
      Ok (rfft2 pad :: fs, last)
  end.
(** getFourierTransform, psfex.py:481-518. *)
Definition ex_ft (s : exstate) (x y radius : R) : res (exstate * ftret) :=
  let sz := fft_size radius in
  '(s, (fs, cx, cy, shape)) <-
     match find_ft sz (e_cache s) with
     | Some e => Ok (s, e)
     | None =>
         '(fs, last) <- base_fts sz (e_bases s) None ;;
         match last with
         | None => Err UnboundLocalError
         | Some (cx, cy, shape) => let e := (fs, cx, cy, shape) in
             Ok (mkEx (e_model s) (e_bases s) ((sz, e) :: e_cache s), e)
         end
     end ;;
  terms <- polynomials (e_model s) (length (e_bases s)) x y ;;
  Ok (s, mkRet (fold_left (fun f tf => fadd f (fscale (fst tf) (snd tf))) (combine terms fs) fzero)
           (IZR cx) (IZR cy) shape).
(** The mixin over it (NormalizedPixelizedPsfEx): here the arrays are fresh. *)
Definition norm_ex_ft (s : exstate) (x y radius : R) : res (exstate * ftret) :=
  '(s, r) <- ex_ft s x y radius ;;
  let n := cabs (r_fft r) 0 0 in
  if Req_EM_T n 0 then Ok (s, r) else Ok (s, mkRet (fdiv (r_fft r) n) (r_cx r) (r_cy r) (r_shape r)).
Definition norm_ex_image (s : exstate) (x y : R) : res (arr R) :=
  a <- ex_image s x y ;;
  let n := np_sum a in if Req_EM_T n 0 then Ok a else Ok (arr_div a n).
(** shift, psfex.py:459-467. *)
Definition ex_shift (s : exstate) (dx dy : R) : exstate := mkEx (psfex_shifted (e_model s) dx dy) (e_bases s) (e_cache s).

Inductive exop : Type := XFt (x y radius : R) | XImage (x y : R) | XShift (dx dy : R) | XClear.
Definition exstep (s : exstate) (o : exop) : exstate :=
  match o with
  | XFt x y r => match ex_ft s x y r with Ok (s, _) => s | Err _ => s end
  | XImage _ _ => s
  | XShift dx dy => ex_shift s dx dy
  | XClear => mkEx (e_model s) (e_bases s) []
  end.
Definition exrun (s : exstate) (h : list exop) : exstate := fold_left exstep h s.

(** *** Sampling other than 1 *)
Section Over.
Variable sample : arr R -> R -> R -> arr R.
Variable trunc : R -> Z.  (* int(x) *)
(** _getOversampledFourierTransform, psf.py:347-366, when the result is not in
    the cache; [img0] is self.img (psf.py:287-288). *)
Definition over_ft (img0 : arr R) (x y radius : R) : res ftret :=
  let sz := fft_size radius in
  let dx := x - IZR (trunc x) in
  let dy := y - IZR (trunc y) in
  let img := sample img0 dx dy in
  '(pad, cx, cy) <- pad_in_image 0 sz sz img ;;
  Ok (mkRet (rfft2 pad) (IZR cx + dx) (IZR cy + dy) (ah pad, aw pad)).
(** The native-pixel stamp of a point source, psf.py:315-345 (without mask and
    radius), from the image of getImage(px, py). *)
Definition over_stamp (img : arr R) (x y : R) (rnd : R -> Z) : arr R := sample img (x - IZR (rnd x)) (y - IZR (rnd y)).
(** The same for PixelizedPsfEx: self.img is the first basis image
    (psfex.py:437-438) and getImage evaluates the model (psfex.py:476-477). *)
Definition ex_over_ft (s : exstate) (x y radius : R) : res ftret :=
  match e_bases s with [] => Err IndexError | b0 :: _ => over_ft b0 x y radius end.
Definition ex_over_stamp (s : exstate) (x y : R) (rnd : R -> Z) : res (arr R) :=
  a <- ex_image s x y ;; Ok (over_stamp a x y rnd).
End Over.

(** PixelizedPSF.copy, psf.py:120-121: the class is called with the image only,
    so the sampling is the default. *)
Definition pix_copy (o : arr R * R) : arr R * R := (fst o, 1).
(** The size of the stamps it renders, psf.py:99-106. *)
Definition native_size (o : arr R * R) : Z * Z :=
  let '(img, s) := o in
  if Req_EM_T s 1 then (ah img, aw img) else (rceil (IZR (ah img) * s), rceil (IZR (aw img) * s)).
