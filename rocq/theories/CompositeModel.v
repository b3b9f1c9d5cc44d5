(** Model of how sources turn brightnesses into pixels:
    SingleProfileSource.getModelPatch (tractor/pointsource.py:27-60), the
    two-component sources CompositeGalaxy (tractor/galaxy.py:1067-1105),
    DevCoreGalaxy (tractor/devcore.py:34-70) and SersicCoreGalaxy
    (tractor/sercore.py:37-73), and the profile and the box of
    FixedCompositeGalaxy and HoggGalaxy (tractor/galaxy.py:648-691, 762-795,
    822-932).

    Real numbers stand for floats (rounding not modelled); a count that is not
    finite as a float32 is [None].  How one component is rendered at unit flux
    (getUnitFluxModelPatch; GalPatchModel.v and PsfModel.v) is a parameter: a
    function of the surface-brightness cutoff [minval].  The model mask, the
    image and the box half-size are the same for every call and are part of
    that function (a composite copies its own half-size, if it has one, onto
    its galaxy components, but not onto a core's point source).  The extra keywords of
    getModelPatch, which CompositeGalaxy passes on and the core galaxies do not
    accept, are left out.  The finiteness assertions of pointsource.py:51-59 hold of real numbers. *)
From Coq Require Import List ZArith Bool Reals.
From Verif Require Import Base PatchModel GalPatchModel MixModel.
Import ListNotations.
Open Scope R_scope.

Definition reqb (x y : R) : bool := if Req_EM_T x y then true else false.

(** One component: photocal.brightnessToCounts(brightness), and
    getUnitFluxModelPatch(img, minval=...). *)
Record part : Type := mkPart { p_counts : option R; p_unit : R -> option (patch R) }.

(** Patch.__mul__, patch.py:396-399. *)
Definition pmul (p : patch R) (f : R) : patch R :=
  mkPatch (x0 p) (y0 p)
    (match pimg p with
     | None => None
     | Some a => Some (mkArr (ah a) (aw a) (fun y x => PatchModel.px a y x * f))
     end).

(** SingleProfileSource.getModelPatch, pointsource.py:36-60; [mm] is
    img.modelMinval. *)
Definition single_model (mm : R) (minsb : option R) (c : part) : option (patch R) :=
  match p_counts c with
  | None => None
  | Some k =>
      if reqb k 0 then None else
      let m := match minsb with None => mm | Some m => m end in
      match p_unit c (m / k) with
      | None => None
      | Some u => Some (pmul u k)
      end
  end.

(** SingleProfileSource.getUnitFluxModelPatches, pointsource.py:33-34. *)
Definition single_units (minval : R) (c : part) : list (option (patch R)) := [p_unit c minval].

(** CompositeGalaxy._getModelPatches, galaxy.py:1076-1086 (devcore.py:41-52
    and sercore.py:44-55 test [minsb == 0. or minsb is None]
    instead): the cutoff handed to each component; [None] is no keyword. *)
Definition comp_kw (minsb : option R) : option R :=
  match minsb with
  | None => None
  | Some m => if reqb m 0 then None else Some (m / 2)
  end.

(** CompositeGalaxy.getModelPatch, galaxy.py:1088-1091; devcore.py:54-56;
    sercore.py:57-59. *)
Definition comp_model (mm : R) (minsb : option R) (a b : part) : res (option (patch R)) :=
  let pa := single_model mm (comp_kw minsb) a in
  let pb := single_model mm (comp_kw minsb) b in
  add_patches 0 Rplus pa pb.

(** CompositeGalaxy.getUnitFluxModelPatches, galaxy.py:1093-1105;
    devcore.py:58-70; sercore.py:61-73. *)
Definition comp_units (minval : R) (a b : part) : list (option (patch R)) :=
  let minval := if rltb 0 minval then minval * 0.5 else minval in
  single_units minval a ++ single_units minval b.

(** getBrightnesses through the photocal: pointsource.py:30-31,
    galaxy.py:1073-1074, devcore.py:38-39, sercore.py:41-42. *)
Definition single_counts (c : part) : list (option R) := [p_counts c].
Definition comp_counts (a b : part) : list (option R) := [p_counts a; p_counts b].

(** ** The fraction of the de Vaucouleurs profile *)

(** FracDev.clipped and derivative, galaxy.py:765-773. *)
Definition frac_clipped (f : R) : R := Rmin (Rmax f 0) 1.
Definition frac_deriv (f : R) : R := 1.
(** SoftenedFracDev.clipped and derivative, galaxy.py:787-795. *)
Definition soft_clipped (f : R) : R := 1 / (1 + exp (4 * (0.5 - f))).
Definition soft_deriv (f : R) : R :=
  let ef := exp (-4 * f + 2) in 4 * ef / (ef + 1) ^ 2.

(** ** The profile of FixedCompositeGalaxy *)

(** amix.amp = amix.amp * f *)
Definition amp_scale (m : mog) (f : R) : mog :=
  mkMog (mg_D m) (map (fun c => MixModel.mkComp (c_amp c * f) (c_mean c) (c_var c)) (mg_comps m)).

(** np.dot(cdinv, shape.getRaDecBasis()), galaxy.py:654-655, 868, 872. *)
Definition mdot (a b : nat -> nat -> R) : nat -> nat -> R :=
  fun i j => dsum 2 (fun k => a i k * b k j).

(** HoggGalaxy._getAffineProfile, galaxy.py:648-657. *)
Definition hogg_affine (prof : mog) (cdinv basis : nat -> nat -> R) (shift : nat -> R) : mog :=
  apply_affine prof shift (mdot cdinv basis).
(** HoggGalaxy._getShearedProfile, galaxy.py:659-669. *)
Definition hogg_sheared (prof : mog) (cdinv basis : nat -> nat -> R) : mog :=
  apply_shear prof (mdot cdinv basis).

(** galaxy.py:866-876 and 904-914, the end of both methods: [d] and [e] are
    the transformed profiles, [f] = fracDev.clipped(). *)
Definition fixed_mix (f : R) (d e : mog) : res mog :=
  let mix := (if rltb 0 f then [amp_scale d f] else []) ++
             (if rltb f 1 then [amp_scale e (1 - f)] else []) in
  match mix with
  | [] => Err IndexError
  | [m] => Ok m
  | m :: m' :: _ => mog_add m m'
  end.
(** FixedCompositeGalaxy._getAffineProfile, galaxy.py:847-876. *)
Definition fixed_affine (f : R) (dev exp : mog) (cdinv bdev bexp : nat -> nat -> R) (shift : nat -> R) : res mog :=
  fixed_mix f (apply_affine dev shift (mdot cdinv bdev)) (apply_affine exp shift (mdot cdinv bexp)).
(** FixedCompositeGalaxy._getShearedProfile, galaxy.py:878-914. *)
Definition fixed_sheared (f : R) (dev exp : mog) (cdinv bdev bexp : nat -> nat -> R) : res mog :=
  fixed_mix f (apply_shear dev (mdot cdinv bdev)) (apply_shear exp (mdot cdinv bexp)).

(** ** The half-size of the box *)

(** HoggGalaxy._getUnitFluxPatchSize, galaxy.py:678-691, with getRadius,
    galaxy.py:645-646; [own] is the attribute halfsize. *)
Definition hogg_size (own : option R) (nre re pixscale psfrad : R) (w h : Z) (px py : R) : R :=
  match own with
  | Some s => s
  | None =>
      let hs := Rmax 1 (nre * re / pixscale) in
      let imsize := Rmax (Rmax px (IZR w - 1 - px)) (Rmax py (IZR h - 1 - py)) + 1 in
      let hs := Rmin hs imsize in
      let hs := Rmax hs psfrad in
      IZR (rceil hs)
  end.

(** FixedCompositeGalaxy._getUnitFluxPatchSize, galaxy.py:916-932. *)
Definition fixed_size (own : option R) (f re_exp re_dev pixscale psfrad : R) : R :=
  match own with
  | Some s => s
  | None =>
      let r := 1 in
      let r := if rltb f 1 then Rmax r (4 * re_exp) else r in
      let r := if rltb 0 f then Rmax r (Rmax r (8 * re_dev)) else r in
      r / pixscale + psfrad
  end.
