(** Images of SDSS frames, tractor/sdss.py:650-907, and the coordinate methods
    of SdssWcs they use, sdss.py:983-1023.  The readers of astrometry.net (frame,
    psField, fpM) are records of what they return; pixel values are real numbers,
    pixel coordinates rational ones (as in [RoiModel]).  Plots, prints, names
    and the [info] dictionary except [roi] are left out, as are the conversions
    to float32. *)
From Coq Require Import String List ZArith QArith Reals Bool.
From Verif Require Import Base RoiModel.
Import ListNotations.
Local Open Scope Z_scope.
Local Open Scope list_scope.

Definition arr : Type := list (list R).
(** an inverse variance: one number for all pixels, or an image *)
Inductive ivar : Type := Scalar (v : R) | Map (a : arr).

(** What is read for one frame.  [masked plane row col]: the fpM mask planes
    (rectangles there).  [to_pix], [to_sky]: asTrans, pixel centres at half
    integers.  [G], [D], [P]: fitted mixtures, double Gaussians, power laws. *)
Record frame (G D P : Type) : Type := mkFrame {
  fimage : arr;                         (* getImage *)
  fivar : bool -> arr;                  (* getInvvar(ignoreSourceFlux) *)
  fivar_at : bool -> Z -> Z -> R;       (* getInvvar(..., constantSkyAt=(x, y)) *)
  masked : string -> Z -> Z -> bool;
  to_pix : Q * Q -> Q * Q;
  to_sky : Q * Q -> Q * Q;
  psf_at : Q -> Q -> arr;               (* psField.getPsfAtPoints *)
  em_fit : arr -> Z -> Z -> option G;   (* em_fit_2d; None: nonzero return code *)
  double_gauss : D;
  power_law : P;
  meansky : R; gain : R; darkvar : R; meancalib : R }.
Arguments fimage {G D P}. Arguments fivar {G D P}. Arguments fivar_at {G D P}. Arguments masked {G D P}.
Arguments to_pix {G D P}. Arguments to_sky {G D P}. Arguments psf_at {G D P}. Arguments em_fit {G D P}.
Arguments double_gauss {G D P}. Arguments power_law {G D P}. Arguments meansky {G D P}. Arguments gain {G D P}.
Arguments darkvar {G D P}. Arguments meancalib {G D P}.

Inductive psf (G D P : Type) : Type :=
| Pixelized (a : arr) | Mixture (g : G) | Double (d : D) | Bright (p : psf G D P) (w : P).
Arguments Pixelized {G D P}. Arguments Mixture {G D P}. Arguments Double {G D P}. Arguments Bright {G D P}.
Inductive photocal : Type := Linear (scale : R) | Mags (zeropoint : R).

Record loaded (G D P : Type) : Type := mkLoaded {
  limage : arr; livar : ivar; lpsf : psf G D P; lx0 : Q; ly0 : Q; lphoto : photocal; lsky : R; lzr : list R; lroi : region }.
Arguments limage {G D P}. Arguments livar {G D P}. Arguments lpsf {G D P}. Arguments lx0 {G D P}. Arguments ly0 {G D P}.
Arguments lphoto {G D P}. Arguments lsky {G D P}. Arguments lzr {G D P}. Arguments lroi {G D P}.

(** l[lo:hi]: negative bounds count from the end, all are clipped *)
Definition zslice {A} (lo hi : Z) (l : list A) : list A :=
  let n := Z.of_nat (length l) in
  let b i := Z.to_nat (clip (if i <? 0 then i + n else i) 0 n) in
  slice (b lo) (b hi) l.
Definition slice2 (r : region) (a : arr) : arr :=
  let '(x0, x1, y0, y1) := r in map (zslice x0 x1) (zslice y0 y1 a).
(** a.shape of an image with rows *)
Definition height (a : arr) : Z := Z.of_nat (length a).
Definition width (a : arr) : Z := match a with [] => 0 | r :: _ => Z.of_nat (length r) end.

Fixpoint imap {A} (g : Z -> A -> A) (i : Z) (l : list A) : list A :=
  match l with [] => [] | a :: l => g i a :: imap g (i + 1) l end.
(** fpM.setMaskedPixels(plane, img, 0, roi=roi) of astrometry.net: assigns to
    the masked pixels inside [roi], in the coordinates of [roi]; assigning to a
    numpy scalar raises TypeError *)
Definition any_masked (m : Z -> Z -> bool) (r : region) : bool :=
  let '(x0, x1, y0, y1) := r in
  existsb (fun i => existsb (fun j => m (y0 + Z.of_nat i) (x0 + Z.of_nat j)) (seq 0 (Z.to_nat (x1 - x0)))) (seq 0 (Z.to_nat (y1 - y0))).
Definition set_masked (m : Z -> Z -> bool) (r : region) (iv : ivar) : res ivar :=
  let '(x0, x1, y0, y1) := r in
  match iv with
  | Scalar v => if any_masked m r then Err TypeError else Ok (Scalar v)
  | Map a => Ok (Map (imap (fun i => imap (fun j v =>
               if (i <? y1 - y0) && (j <? x1 - x0) && m (y0 + i) (x0 + j) then 0%R else v) 0) 0 a))
  end.
Fixpoint set_planes (m : string -> Z -> Z -> bool) (r : region) (planes : list string) (iv : ivar) : res ivar :=
  match planes with [] => Ok iv | p :: planes => iv <- set_masked (m p) r iv ;; set_planes m r planes iv end.

(** The loop trimming a pixelized PSF, sdss.py:825-833 *)
Definition zeros (l : list R) : bool := forallb (fun v => if Req_EM_T v 0 then true else false) l.
Definition column (j : Z) (a : arr) : res (list R) :=
  if (width a =? 0) then Err IndexError
  else Ok (map (fun r => nth (Z.to_nat (if j <? 0 then j + width a else j)) r 0%R) a).
Definition inner {A} (l : list A) : list A := zslice 1 (-1) l.
Definition border_zero (a : arr) : res bool :=
  match a with
  | [] => Err IndexError
  | r :: _ =>
      if zeros r then
        c <- column 0 a ;;
        if zeros c then
          if zeros (last a []) then c <- column (-1) a ;; Ok (zeros c) else Ok false
        else Ok false
      else Ok false
  end.
Fixpoint trim (fuel : nat) (a : arr) : res arr :=
  match fuel with
  | O => Err RuntimeError
  | S fuel => b <- border_zero a ;; if b then trim fuel (map inner (inner a)) else Ok a
  end.

(** II /= II.sum(); II = np.maximum(II, 0), sdss.py:849-852 *)
Definition total (a : arr) : R := fold_right (fun r s => (fold_right Rplus 0 r + s)%R) 0%R a.
Definition em_image (a : arr) : arr := map (map (fun v => Rmax (v / total a) 0)) a.

Section Load.
Context {G D P : Type}.
Notation frame := (frame G D P).
Notation psf := (psf G D P).
Notation loaded := (loaded G D P).

(** sdss.py:818-882 for a PSF name without "bright-" *)
Definition make_psf (f : frame) (name : string) (x y : Q) : res psf :=
  if (name =? "kl-pix")%string then
    a <- trim (S (length (psf_at f x y))) (psf_at f x y) ;;
    (* PixelizedPSF.__init__, psf.py:93-96 *)
    if Z.odd (height a) && Z.odd (width a) then Ok (Pixelized a) else Err AssertionError
  else if (name =? "kl-gm")%string then
    let a := psf_at f x y in
    let s := height a / 2 in
    match em_fit f (em_image a) (- s) (- s) with
    | Some g => Ok (Mixture g)
    | None => Ok (Double (double_gauss f))
    end
  else Ok (Double (double_gauss f)).

Definition strip_bright (name : string) : bool * string :=
  if prefix "bright-" name then (true, substring 7 (String.length name - 7) name) else (false, name).
Definition valid_psf (name : string) : bool := existsb (String.eqb name) ["dg"; "kl-gm"; "kl-pix"]%string.

Local Open Scope Q_scope.
(** _get_tractor_image_dr8, sdss.py:706-897.  None: (None, None) is returned. *)
Definition load (f : frame) (psfname : string) (roi : option region) (radecsize : option (Q * Q * Z))
    (radecbox : option (Q * Q * Q * Q)) (nanomaggies ignoreflux atcenter atcenterimage : bool) (zrange : list R)
  : res (option loaded) :=
  let '(bright, name) := strip_bright psfname in
  if negb (valid_psf name) then Err RuntimeError else
  let H := height (fimage f) in
  let W := width (fimage f) in
  match interpret_roi (to_pix f) H W roi radecsize radecbox with
  | None => Ok None
  | Some ((x0, x1, y0, y1), hasroi) =>
      let roi := (x0, x1, y0, y1) in
      let wx0 := inject_Z x0 + (1 # 2) in
      let wy0 := inject_Z y0 + (1 # 2) in
      let pc := if nanomaggies then Linear 1 else Mags (45 / 2) in
      let atcenter := atcenter || atcenterimage in
      iv <- (if atcenter then
               if hasroi then Ok (Scalar (fivar_at f ignoreflux (Z.quot (x0 + x1) 2) (Z.quot (y0 + y1) 2)))
               else Ok (Scalar (fivar_at f ignoreflux (Z.quot W 2) (Z.quot H 2)))
             else
               let a := fivar f ignoreflux in
               if ((height a =? H) && (width a =? W))%Z then Ok (Map a) else Err AssertionError) ;;
      let skysig := (sqrt (meansky f / gain f + darkvar f) * meancalib f)%R in
      let zr := map (fun z => z * skysig + 0)%R zrange in
      let image := if hasroi then slice2 roi (fimage f) else fimage f in
      let iv := if hasroi then
                  match iv with
                  | Scalar v => if atcenterimage then Map (map (map (fun _ => v + 0)%R) image) else Scalar v
                  | Map a => Map (slice2 roi a)
                  end
                else iv in
      let H := height image in
      let W := width image in
      iv <- (if negb atcenter || atcenterimage then set_planes (masked f) roi ["INTERP"; "SATUR"; "CR"; "GHOST"]%string iv
             else Ok iv) ;;
      p <- make_psf f name (inject_Z x0 + inject_Z W / 2) (inject_Z y0 + inject_Z H / 2) ;;
      let p := if bright then Bright p (power_law f) else p in
      Ok (Some (mkLoaded _ _ _ image iv p wx0 wy0 pc 0%R zr roi))
  end.

(** SdssWcs.positionToPixel and pixelToPosition for zero colour, sdss.py:1008-1023 *)
Definition position_to_pixel (f : frame) (l : loaded) (p : Q * Q) : Q * Q :=
  let xy := to_pix f p in (fst xy - lx0 l, snd xy - ly0 l).
Definition pixel_to_position (f : frame) (l : loaded) (x y : Q) : Q * Q := to_sky f (x + lx0 l, y + ly0 l).
Local Close Scope Q_scope.
End Load.

(** get_tractor_image_dr8, sdss.py:683-703: [attempt] is _get_tractor_image_dr8 in
    a state of the files, [retrieve] fetches one file again; [nargs] counts the
    positional arguments, unpacked into four names. *)
Definition with_retry {S A} (attempt : S -> res A) (retrieve : string -> S -> res S) (nargs : nat) (retry : bool) (s : S) : res A :=
  if retry then
    match attempt s with
    | Ok a => Ok a
    | Err _ =>
        if (nargs =? 4)%nat then
          s <- retrieve "psField"%string s ;; s <- retrieve "fpM"%string s ;; s <- retrieve "frame"%string s ;; attempt s
        else Err ValueError
    end
  else attempt s.
