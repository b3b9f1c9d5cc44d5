(** Model of how forced photometry is set up: Optimizer.forced_photometry and
    Optimizer._get_umodels, tractor/optimize.py:18-128, 147-203, on a catalog
    of sources with one or two profiles (CompositeModel.v) of which any
    parameters may be frozen.  The fit itself is in ForcedModel.v.

    Real numbers stand for floats.  Every image has a LinearPhotoCal (asserted
    at optimize.py:40-42) and a constant sky; every brightness has a flux in
    the band of every image, and bands are numbered by the position of their
    flux among the parameters of the brightness (NanoMaggies). *)
From Coq Require Import List ZArith Bool Reals.
From Verif Require Import Base PatchModel GalPatchModel CompositeModel EngineModel FitstatsModel ForcedModel.
Import ListNotations.
Open Scope R_scope.

(** Parameters of an object: whether each is free, and its value. *)
Definition plist : Type := list (bool * R).
(** One profile of a source: the fluxes, the shape, and the unit-flux model as
    a function of position and shape, of the image, the model mask and the
    cutoff. *)
Record prof : Type := mkProf {
  c_flux : plist; c_shape : plist; c_draw : list R -> list R -> nat -> option nat -> R -> option (patch R) }.
(** A source of the catalog: whether the catalog has it thawed, its position
    and its profiles. *)
Record fsrc : Type := mkSrc { fs_liquid : bool; fs_pos : plist; fs_a : prof; fs_b : option prof }.

(** *** Parameters *)

(** getParams of one object: the free ones, utils.py:782-786. *)
Definition free (l : plist) : list R := map snd (filter fst l).
(** setParams with as many values as are free, utils.py:775-780; the rest goes
    to the next object (utils.py:1166-1171). *)
Fixpoint fill (l : plist) (p : list R) : plist * list R :=
  match l with
  | [] => ([], p)
  | (false, v) :: l => let '(l', p') := fill l p in ((false, v) :: l', p')
  | (true, v) :: l =>
      let '(l', p') := fill l (tl p) in ((true, nth 0 p v) :: l', p')
  end.
(** In the order of the namedparams: PointSource pos, brightness; Galaxy pos,
    brightness, shape (galaxy.py:103-104); CompositeGalaxy pos, brightnessExp,
    shapeExp, brightnessDev, shapeDev (galaxy.py:1046-1048). *)
Definition prof_params (c : prof) : list R := free (c_flux c) ++ free (c_shape c).
Definition fill_prof (c : prof) (p : list R) : prof * list R :=
  let '(f, p) := fill (c_flux c) p in
  let '(s, p) := fill (c_shape c) p in
  (mkProf f s (c_draw c), p).
Definition src_params (s : fsrc) : list R :=
  free (fs_pos s) ++ prof_params (fs_a s) ++ match fs_b s with None => [] | Some b => prof_params b end.
Definition fill_src (s : fsrc) (p : list R) : fsrc * list R :=
  let '(x, p) := fill (fs_pos s) p in
  let '(a, p) := fill_prof (fs_a s) p in
  match fs_b s with
  | None => (mkSrc (fs_liquid s) x a None, p)
  | Some b => let '(b, p) := fill_prof b p in (mkSrc (fs_liquid s) x a (Some b), p)
  end.
(** Catalog.getParams and setParams: thawed sources only, utils.py:1133-1143, 1166-1171. *)
Definition cat_params (cat : list fsrc) : list R := flat_map src_params (filter fs_liquid cat).
Fixpoint set_cat (cat : list fsrc) (p : list R) : list fsrc :=
  match cat with
  | [] => []
  | s :: cat => if fs_liquid s then let '(s, p) := fill_src s p in s :: set_cat cat p else s :: set_cat cat p
  end.

(** *** Drawing *)
Section Draw.
Variable scale : nat -> R.          (* img.getPhotoCal().getScale() *)
Variable band : nat -> nat.         (* img.getPhotoCal().band *)

(** photocal.brightnessToCounts(brightness), brightness.py:339-344. *)
Definition counts (img : nat) (c : prof) : R := snd (nth (band img) (c_flux c) (false, 0)) * scale img.
(** The profile as [part] of CompositeModel.v. *)
Definition part_of (img : nat) (mask : option nat) (pos : plist) (c : prof) : part :=
  mkPart (Some (counts img c)) (c_draw c (map snd pos) (map snd (c_shape c)) img mask).

(** src.getModelPatch(img, minsb=minsb, modelMask=mask). The sum of two
    patches with pixels does not fail (C74). *)
Definition draw (minsb : option R) (mm : R) (img : nat) (mask : option nat) (s : fsrc) : option (patch R) :=
  let a := part_of img mask (fs_pos s) (fs_a s) in
  match fs_b s with
  | None => single_model mm minsb a
  | Some b => match comp_model mm minsb a (part_of img mask (fs_pos s) b) with Ok r => r | Err _ => None end
  end.
(** src.getUnitFluxModelPatches(img, minval=minval, modelMask=mask). *)
Definition units (minval : R) (img : nat) (mask : option nat) (s : fsrc) : list (option (patch R)) :=
  let a := part_of img mask (fs_pos s) (fs_a s) in
  match fs_b s with
  | None => single_units minval a
  | Some b => comp_units minval a (part_of img mask (fs_pos s) b)
  end.

Variable shape : nat -> Z * Z.      (* img.getModelShape() *)
Variable sky : nat -> R.            (* img.getSky().val *)
Variable mm : nat -> R.             (* img.modelMinval *)

(** Tractor.getModelImage(img, srcs, minsb=minsb, sky=with_sky) of the sources
    with the given positions in the catalog. *)
Definition model_image (t : tractor nat) (cat : list fsrc) (minsb : option R) (img : nat) (srcs : list nat) (with_sky : bool) : res (arr R) :=
  get_model_image (fun s img mask => match nth_error cat s with None => None | Some s => draw minsb (mm img) img mask s end)
    0 1 Rplus Rmult shape (fun img _ _ => sky img) t img (map Some srcs) with_sky.

(** *** The setup *)
Definition places (b : bool) (cat : list fsrc) : list nat :=
  map fst (filter (fun x => Bool.eqb b (fs_liquid (snd x))) (combine (seq 0 (length cat)) cat)).

(** The unit-flux models of one source in an image, optimize.py:174-185. *)
Definition src_umods (t : tractor nat) (cat : list fsrc) (minsb : R) (img s : nat) : res (list (option (patch R))) :=
  match nth_error cat s with
  | None => Err IndexError
  | Some x =>
      let c := counts img (fs_a x) + match fs_b x with None => 0 | Some b => counts img b end in
      let mv := if rltb 0 c then minsb / c else 0.001 in
      mask <- get_model_mask_for t img s ;;
      Ok (units mv img mask x)
  end.
(** The loop over the thawed sources, optimize.py:173-203; the models move to
    the region that starts at (x, y). *)
Fixpoint img_umods (t : tractor nat) (cat : list fsrc) (minsb : R) (img : nat) (x y : Z) (srcs : list nat) : res (list (option (patch R))) :=
  match srcs with
  | [] => Ok []
  | s :: srcs =>
      ums <- src_umods t cat minsb img s ;;
      rest <- img_umods t cat minsb img x y srcs ;;
      Ok (map (shift_um x y) ums ++ rest)
  end.

(** An image: its data and inverse errors; with a region, the number of the
    subimage and the region. *)
Record fin : Type := mkFin { in_img : nat; in_im : arr R; in_ie : arr R; in_roi : option (nat * (sl * sl)) }.
Variable image_params : nat.        (* tractor.images.numberOfParams() *)
Variable sky_params : nat -> nat.   (* img.getSky().numberOfParams() *)

Fixpoint umodels (t : tractor nat) (cat : list fsrc) (minsb : R) (imgs : list fin) : res (list (list (option (patch R)))) :=
  match imgs with
  | [] => Ok []
  | i :: imgs =>
      let '(x, y) := match in_roi i with None => (0, 0)%Z | Some (_, (ys, xs)) => (sstart xs, sstart ys) end in
      u <- img_umods t cat minsb (in_img i) x y (places true cat) ;;
      us <- umodels t cat minsb imgs ;;
      Ok (u :: us)
  end.
Fixpoint mod0s (t : tractor nat) (cat : list fsrc) (minsb : R) (fit_sky : bool) (imgs : list fin) : res (list (arr R)) :=
  match imgs with
  | [] => Ok []
  | i :: imgs =>
      let img := match in_roi i with None => in_img i | Some (sub, _) => sub end in
      m <- model_image t cat (Some minsb) img (places false cat) (negb fit_sky) ;;
      ms <- mod0s t cat minsb fit_sky imgs ;;
      Ok (m :: ms)
  end.
(** forced_photometry up to the call of _optimize_forcedphot_core,
    optimize.py:36-127: the images that _getims is given. *)
Definition setup (t : tractor nat) (cat : list fsrc) (minsb : R) (fit_sky : bool) (imgs : list fin) : res (list (@fimg R)) :=
  if fit_sky && negb (forallb (fun i => sky_params (in_img i) =? 1)%nat imgs) then Err AssertionError else
  let n := length (cat_params cat) in
  us <- umodels t cat minsb imgs ;;
  if negb (forallb (fun u => length u =? n)%nat us) then Err AssertionError else
  ms <- mod0s t cat minsb fit_sky imgs ;;
  if fit_sky && negb (length imgs =? image_params)%nat then Err AssertionError else
  Ok (map (fun x => let '(i, (u, m)) := x in
         mkFimg (in_im i) (in_ie i) m (scale (in_img i)) (option_map snd (in_roi i)) u)
       (combine imgs (combine us ms))).
End Draw.
