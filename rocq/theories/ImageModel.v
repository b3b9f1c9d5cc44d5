(** Images: tractor/image.py Image.__init__, copy, getInvvar, setInvvar,
    readFromFits, toFits, getFitsHeader (lines 15-77, 127-254), with what the
    classes of the calibrations do when copied, written and read:
    tractor/ducks.py ImageCalibration (lines 162-193), tractor/psf.py
    (PixelizedPSF.copy, GaussianMixturePSF, NCircularGaussianPSF),
    tractor/wcs.py, tractor/sky.py, tractor/brightness.py (lines 246-349).
    Pixels are reals or NaN ([None]).  FITS files are the three HDUs that are
    written; keys of the form prefix + 'P' + number are pairs; comments, data
    types, keys prefix + 'A' + number (never written by the package) and the
    extra records of ShiftedWcs (shifted.py:164-175, never read) are left
    out. *)
From Coq Require Import String List Bool Arith ZArith Reals.
From Verif Require Import Base MogModel ShiftModel.
Import ListNotations.
Local Open Scope R_scope.

Record grid (D : Type) : Type := mkGrid { gh : nat; gw : nat; gv : list D }.
Arguments mkGrid {D}. Arguments gh {D}. Arguments gw {D}. Arguments gv {D}.
Definition gmap {D E} (f : D -> E) (g : grid D) : grid E := mkGrid (gh g) (gw g) (map f (gv g)).
Definition px : Type := option R.

(** np.sqrt: NaN for negative numbers. *)
Definition np_sqrt (v : px) : px :=
  match v with
  | None => None
  | Some v => if Rlt_dec v 0 then None else Some (sqrt v)
  end.
(** inverr**2 *)
Definition np_sq (v : px) : px := match v with None => None | Some v => Some (v * v) end.
Definition half_sum (a b : R) : R := / 2 * (a + b).

(** *** Calibrations *)
Inductive cal : Type :=
| PsfMix (m : @mog R) (liq : list bool) (radius : R)   (* GaussianMixturePSF, psf.py:369-425 *)
| PsfPix (stamp : grid px) (sampling : R) (lorder : nat)   (* PixelizedPSF, psf.py:68-121 *)
| PsfCirc (sigmas weights : list R) (liq : list bool)  (* NCircularGaussianPSF, psf.py:792-876; flags of all values *)
| Wcs (w : wcs)                                        (* wcs.py, shifted.py; FitsWcs is ConstantFitsWcs *)
| SkyNull                                              (* sky.py:6-11 *)
| SkyConst (v : R)                                     (* sky.py:14-54 *)
| PhoNull                                              (* brightness.py:305-312 *)
| PhoLinear (scale : R) (band : option string)         (* brightness.py:315-342 *)
| PhoMags (band : string) (zp : R) (liq : bool)        (* brightness.py:263-303 *)
| PhoFluxes (band : string).                           (* brightness.py:246-260 *)

(** '%s.%s' % (tt.__module__, tt.__name__), image.py:219-227 *)
Definition class_name (c : cal) : string :=
  match c with
  | PsfMix _ _ _ => "tractor.psf.GaussianMixturePSF"
  | PsfPix _ _ _ => "tractor.psf.PixelizedPSF"
  | PsfCirc _ _ _ => "tractor.psf.NCircularGaussianPSF"
  | Wcs (NullWCS _ _ _) => "tractor.wcs.NullWCS"
  | Wcs (FitsWcs _ _ _) => "tractor.wcs.ConstantFitsWcs"
  | Wcs (WcslibWcs _ _ _) => "tractor.wcs.WcslibWcs"
  | Wcs (ShiftedWcs _ _ _) => "tractor.shifted.ShiftedWcs"
  | Wcs (ScaledWcs _ _) => "tractor.shifted.ScaledWcs"
  | SkyNull => "tractor.sky.NullSky"
  | SkyConst _ => "tractor.sky.ConstantSky"
  | PhoNull => "tractor.brightness.NullPhotoCal"
  | PhoLinear _ _ => "tractor.brightness.LinearPhotoCal"
  | PhoMags _ _ _ => "tractor.brightness.MagsPhotoCal"
  | PhoFluxes _ => "tractor.brightness.FluxesPhotoCal"
  end%string.
(** getAllParams: BaseParams utils.py:225-231 (none), ScalarParam 350-351,
    ParamList, MultiParams and MogParams. *)
Definition all_params (c : cal) : list R :=
  match c with
  | PsfMix m _ _ => get_things m
  | PsfCirc s w _ => s ++ w
  | SkyConst v => [v]
  | PhoLinear s _ => [s]
  | PhoMags _ zp _ => [zp]
  | PsfPix _ _ _ | Wcs _ | SkyNull | PhoNull | PhoFluxes _ => []
  end.
(** len(getParamNames()): the names of thawed parameters only. *)
Definition n_names (c : cal) : nat :=
  match c with
  | PsfMix _ liq _ | PsfCirc _ _ liq => count_true liq
  | SkyConst _ | PhoLinear _ _ => 1
  | PhoMags _ _ l => if l then 1 else 0
  | PsfPix _ _ _ | Wcs _ | SkyNull | PhoNull | PhoFluxes _ => 0
  end.

(** copy: BaseParams utils.py:206-207, ScalarParam 334-335, ParamList 722-725;
    psf.py:120-121 and 874-876, brightness.py:251-252, 284-285, 333-334;
    WCSs as in ShiftModel.  GaussianMixturePSF sets radius = 25
    (psf.py:390); PixelizedPSF(img) has sampling 1 and Lorder 3 (psf.py:82) and
    asserts odd sizes. *)
Definition cal_copy (c : cal) : res cal :=
  match c with
  | PsfMix m liq _ => m <- mog_of_args half_sum (get_things m) ;; Ok (PsfMix m liq 25)
  | PsfPix g _ _ => if Nat.odd (gh g) && Nat.odd (gw g) then Ok (PsfPix g 1 3) else Err AssertionError
  | PsfCirc s w _ => if length s =? length w then Ok (PsfCirc s w (repeat true (length s + length w))) else Err AssertionError
  | Wcs w => w <- wcs_copy w ;; Ok (Wcs w)
  | SkyNull => Ok SkyNull
  | SkyConst v => Ok (SkyConst v)
  | PhoNull => Ok PhoNull
  | PhoLinear s b => Ok (PhoLinear s b)
  | PhoMags b zp _ => Ok (PhoMags b zp true)
  | PhoFluxes b => Ok (PhoFluxes b)
  end.

(** *** Headers: class records and parameter records. *)
Definition prec : Type := (string * nat * (R * unit))%type.
Record fhdr : Type := mkHdr { h_class : list (string * string); h_par : @header R unit }.
(** FITSHDR.add_record: a record of that name is replaced, else appended. *)
Fixpoint put_class (k v : string) (l : list (string * string)) : list (string * string) :=
  match l with
  | [] => [(k, v)]
  | e :: r => if String.eqb (fst e) k then (k, v) :: r else e :: put_class k v r
  end.
Definition get_class (k : string) (l : list (string * string)) : res string :=
  match find (fun e => String.eqb (fst e) k) l with Some e => Ok (snd e) | None => Err KeyError end.
Fixpoint put_par (pre : string) (i : nat) (v : R) (l : @header R unit) : @header R unit :=
  match l with
  | [] => [(pre, i, (v, tt))]
  | e :: r => if String.eqb (fst (fst e)) pre && (snd (fst e) =? i) then (pre, i, (v, tt)) :: r else e :: put_par pre i v r
  end.
(** ImageCalibration.toFitsHeader, ducks.py:163-168: enumerate(zip(names,
    params)). *)
Fixpoint put_pars (pre : string) (i : nat) (vs : list R) (l : @header R unit) : @header R unit :=
  match vs with
  | [] => l
  | v :: vs => put_pars pre (S i) vs (put_par pre i v l)
  end.
Definition cal_to_header (pre : string) (c : cal) (l : @header R unit) : @header R unit :=
  put_pars pre 0 (firstn (n_names c) (all_params c)) l.

(** fromFitsHeader for a class without arguments in the header: clazz() is a
    TypeError for classes whose constructors need arguments (ducks.py:173-193;
    psf.py:407-425 for mixtures; constructors at psf.py:82, 797; wcs.py:63, 157;
    shifted.py:135, 160; brightness.py:247, 269, 322).  BaseParams.setParams
    (utils.py:251-262) and ScalarParam.setParams (353-355) check the number of
    values. *)
Definition from_class (cls : string) (pre : string) (l : @header R unit) : res cal :=
  let p := header_params pre l in
  let is := String.eqb cls in
  if is "tractor.psf.GaussianMixturePSF"%string then
    m <- gmpsf_from_header half_sum 0 pre l ;; Ok (PsfMix m (repeat true (6 * mog_K m)) 25)
  else if is "tractor.wcs.NullWCS"%string then if length p =? 0 then Ok (Wcs (NullWCS 1 0 0)) else Err AssertionError
  else if is "tractor.sky.NullSky"%string then if length p =? 0 then Ok SkyNull else Err AssertionError
  else if is "tractor.sky.ConstantSky"%string then
    match p with [v] => Ok (SkyConst v) | _ => Err AssertionError end
  else if is "tractor.brightness.NullPhotoCal"%string then if length p =? 0 then Ok PhoNull else Err AssertionError
  else Err TypeError.
(** readObject, image.py:193-202 *)
Definition read_object (h : fhdr) (k : string) : res cal :=
  cls <- get_class k (h_class h) ;; from_class cls (k ++ "_") (h_par h).

(** *** Images *)
Record image : Type := mkImage {
  im_data : option (grid px); im_inverr : option (grid px);   (* None: no data; no attribute *)
  im_psf : option cal; im_wcs : cal; im_pho : cal; im_sky : cal;
  im_liquid : list bool;               (* psf, wcs, photocal, sky *)
  im_name : option string; im_time : option R; im_zr : option (R * R); im_minval : R }.
(** The defaults, image.py:49-58 *)
Definition dflt {A} (o : option A) (d : A) : A := match o with Some a => a | None => d end.
(** Image.__init__, image.py:15-64 *)
Definition new_image (data invvar inverr : option (grid px)) (psf wcs sky pho : option cal)
  (name : option string) (time : option R) (zr : option (R * R)) : image :=
  mkImage data
    (match inverr with
     | Some e => Some e
     | None => match invvar with Some iv => Some (gmap np_sqrt iv) | None => None end
     end)
    psf (dflt wcs (Wcs (NullWCS 1 0 0))) (dflt pho PhoNull) (dflt sky SkyNull)
    [true; true; true; true] name time zr 0.
Definition attr {A} (o : option A) : res A := match o with Some a => Ok a | None => Err AttributeError end.
(** getInvError, getInvvar, image.py:164-171 *)
Definition get_inverr (im : image) : res (grid px) := attr (im_inverr im).
Definition get_invvar (im : image) : res (grid px) := e <- attr (im_inverr im) ;; Ok (gmap np_sq e).
(** setInvvar, image.py:173-177 *)
Definition set_invvar (im : image) (iv : grid px) : image :=
  mkImage (im_data im) (Some (gmap np_sqrt iv)) (im_psf im) (im_wcs im) (im_pho im) (im_sky im)
    (im_liquid im) (im_name im) (im_time im) (im_zr im) (im_minval im).
(** copy, image.py:69-81; time.copy() gives an equal time. *)
Definition image_copy (im : image) : res image :=
  d <- attr (im_data im) ;;
  e <- attr (im_inverr im) ;;
  w <- cal_copy (im_wcs im) ;;
  p <- attr (im_psf im) ;; p <- cal_copy p ;;
  s <- cal_copy (im_sky im) ;;
  c <- cal_copy (im_pho im) ;;
  Ok (new_image (Some d) None (Some e) (Some p) (Some w) (Some s) (Some c) (im_name im) (im_time im) None).

(** getFitsHeader, image.py:222-254: [h0] is the header given, or the empty one.
    The header object given is changed: the result is also its new content. *)
Definition fits_header (h0 : fhdr) (pre : string) (im : image) : res fhdr :=
  p <- attr (im_psf im) ;;
  let cl := put_class (pre ++ "PSF") (class_name p) (h_class h0) in
  let cl := put_class (pre ++ "WCS") (class_name (im_wcs im)) cl in
  let cl := put_class (pre ++ "SKY") (class_name (im_sky im)) cl in
  let cl := put_class (pre ++ "PHO") (class_name (im_pho im)) cl in
  let l := cal_to_header (pre ++ "PSF_") p (h_par h0) in
  let l := cal_to_header (pre ++ "WCS_") (im_wcs im) l in
  let l := cal_to_header (pre ++ "SKY_") (im_sky im) l in
  let l := cal_to_header (pre ++ "PHO_") (im_pho im) l in
  Ok (mkHdr cl l).
(** toFits, image.py:215-220: a primary header, the image and the inverse
    variances.  An image without data is written as an empty HDU. *)
Definition file : Type := (fhdr * option (grid px) * grid px)%type.
Definition to_fits (h0 : fhdr) (pre : string) (im : image) : res file :=
  h <- fits_header h0 pre im ;;
  iv <- get_invvar im ;;
  Ok (h, im_data im, iv).
(** readFromFits, image.py:185-213 *)
Definition read_fits (pre : string) (f : file) : res image :=
  let '(h, pix, iv) := f in
  pix <- attr pix ;;
  if negb ((gh pix =? gh iv) && (gw pix =? gw iv)) then Err AssertionError else
  p <- read_object h (pre ++ "PSF") ;;
  w <- read_object h (pre ++ "WCS") ;;
  s <- read_object h (pre ++ "SKY") ;;
  c <- read_object h (pre ++ "PHO") ;;
  Ok (new_image (Some pix) (Some iv) None (Some p) (Some w) (Some s) (Some c) None None None).
