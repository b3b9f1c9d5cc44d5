(** Model of moving point sources: TAITime (tractor/tractortime.py:4-45),
    Parallax, PMRaDec and MovingPointSource (tractor/motion.py:5-212).

    Numbers are reals (rounding is not modelled); sources are the parameter
    objects of ParamsModel, stepped with the functions of DerivModel.

    Simplifications:
    - [radectoxyz], [xyztoradec] and the constants [arcsecperrad] and
      [axistilt] come from astrometry.util, which is not part of the
      repository: the first is written out from its documentation, the others
      are parameters;
    - the PSF's getPointSourcePatch (with the image's model mask and the
      keyword arguments) and the WCS's positionToPixel are arbitrary functions;
    - an exception in the middle of a derivative leaves the stepped value in
      the source; only the exception is modelled. *)
From Coq Require Import String List ZArith Bool Reals.
From Verif Require Import Base ParamsModel ClassCopyModel DerivModel PatchModel CompositeModel.
Import ListNotations.
Open Scope R_scope.

(** ** Time *)
(** Class constants, tractortime.py:15-17. *)
Definition equinox : R := 5308428 / 100.
Definition daysperyear : R := 36525 / 100.
Definition mjd2k : R := 515445 / 10.
(** __init__, tractortime.py:19-26 (without a date). *)
Definition tai_init (t mjd : option R) : option R :=
  match t with
  | Some t => Some t
  | None => match mjd with Some m => Some (m * 24 * 3600) | None => None end
  end.
(** toMjd, tractortime.py:28-29. *)
Definition to_mjd (v : R) : R := v / (24 * 3600).
(** np.fmod: the remainder with the sign of the dividend. *)
Definition trunc (x : R) : Z := if Rle_dec 0 x then Int_part x else (- Int_part (- x))%Z.
Definition fmod (x y : R) : R := x - y * IZR (trunc (x / y)).
(** getSunTheta, tractortime.py:31-35. *)
Definition sun_theta (v : R) : R :=
  let th := 2 * PI * (to_mjd v - equinox) / daysperyear in
  fmod th (2 * PI).
(** toYears, tractortime.py:37-39; toYear, 41-43. *)
Definition to_years (v : R) : R := v / (24 * 3600 * daysperyear).
Definition to_year (v : R) : R := to_years v - to_years (mjd2k * 24 * 3600) + 2000.

(** ** Positions *)
Definition vec : Type := (R * R * R)%type.
Definition vadd (a b : vec) : vec :=
  let '(ax, ay, az) := a in let '(bx, by_, bz) := b in (ax + bx, ay + by_, az + bz).
Definition vscale (k : R) (a : vec) : vec := let '(ax, ay, az) := a in (k * ax, k * ay, k * az).
Definition rad (deg : R) : R := deg * PI / 180.
(** starutil_numpy.radectoxyz, degrees to a unit vector. *)
Definition radectoxyz (ra dec : R) : vec :=
  (cos (rad dec) * cos (rad ra), cos (rad dec) * sin (rad ra), sin (rad dec)).

(** PMRaDec, motion.py:38-52: degrees per year. *)
Definition ra_arcsec_per_year (pmra : R) : R := pmra * 3600.
Definition dec_arcsec_per_year (pmdec : R) : R := pmdec * 3600.

Definition rops (o : opname) : R -> R -> R :=
  match o with Add => Rplus | Sub => Rminus | Mul => Rmult | Div => Rdiv end.

Section Moving.
Variables arcsecperrad axistilt : R.
Variable xyztoradec : vec -> R * R.

(** The displacement per arcsecond of parallax, motion.py:96-112. *)
Definition sun_step (theta : R) : vec :=
  let dxyz1 := vscale (/ arcsecperrad) (radectoxyz 0 0) in
  let dxyz2 := vscale (/ arcsecperrad) (radectoxyz 90 axistilt) in
  vadd (vscale (cos theta) dxyz1) (vscale (sin theta) dxyz2).

(** getPositionAtTime, motion.py:78-115; members pos, brightness, pm, parallax;
    [t] is the image's time, None if it has none. *)
Definition position_at (epoch : R) (src : ptree R) (t : option R) : res (R * R) :=
  match t with
  | None => Err TypeError
  | Some t =>
      let dt := to_years (t - epoch) in
      pos <- sub R src 0 ;; pm <- sub R src 2 ;; par <- sub R src 3 ;;
      m <- py_rbinop 1 rops Mul dt pm ;;
      p <- py_binop 1 rops Add pos (OParams m) ;;
      ra <- py_get (get_all_params p) 0 ;; dec <- py_get (get_all_params p) 1 ;;
      match par with
      | PScalar s => Ok (xyztoradec (vadd (radectoxyz ra dec) (vscale (s_val s) (sun_step (sun_theta t)))))
      | _ => Err AttributeError
      end
  end.

Variable psf : R * R -> option (patch R).             (* getPointSourcePatch(px, py, ...) *)
Variable pixel : R * R -> option (ptree R) -> R * R.  (* positionToPixel(pos, src) *)
Variable counts : ptree R -> R.                       (* brightnessToCounts *)
Variable epoch : R.
Variable time : option R.

(** getUnitFluxModelPatch, motion.py:117-122. *)
Definition moving_patch (src : ptree R) : res (option (patch R)) :=
  pos <- position_at epoch src time ;; Ok (psf (pixel pos None)).

(** [patchx - patch0], patch.py:445-446: None has no subtraction, and the other
    operand must be a Patch. *)
Definition patch_sub (p q : option (patch R)) : res (patch R) :=
  match p, q with
  | None, _ => Err TypeError
  | Some _, None => Err AssertionError
  | Some p, Some q => perform_arithmetic 0 Rminus p q
  end.

(** One turn of _add_posderivs, motion.py:163-180. *)
Definition step_body (k : nat) (counts0 : R) (patch0 : option (patch R)) (i : nat) (v st : R) (src : ptree R)
  : res (patch R * ptree R) :=
  x <- stepped R src k i (v + st)
         (fun s => tpos <- position_at epoch s time ;; Ok (psf (pixel tpos (Some s)))) ;;
  d <- patch_sub (fst x) patch0 ;;
  Ok (pmul d (counts0 / st), snd x).
(** One brightness derivative, motion.py:189-195. *)
Definition mbright_body (counts0 : R) (patch0 : option (patch R)) (i : nat) (v st : R) (src : ptree R)
  : res (patch R * ptree R) :=
  x <- stepped R src 1 i (v + st) (fun s => b <- sub R s 1 ;; Ok (counts b)) ;;
  match patch0 with
  | Some p => Ok (pmul p ((fst x - counts0) / st), snd x)
  | None => Err TypeError
  end.
Definition member_derivs (k : nat) (body : nat -> R -> R -> ptree R -> res (patch R * ptree R)) (src : ptree R)
  : res (list (patch R) * ptree R) :=
  if is_frozen R src k then Ok ([], src)
  else s <- sub R src k ;; step_loop R body 0 (get_step_sizes 1 s) (get_params s) src.
(** getParamDerivatives, motion.py:124-212. *)
Definition moving_derivs (src : ptree R) : res (list (patch R) * ptree R) :=
  pos0 <- position_at epoch src time ;;
  let patch0 := psf (pixel pos0 (Some src)) in
  br <- sub R src 1 ;;
  let counts0 := counts br in
  d0 <- member_derivs 0 (step_body 0 counts0 patch0) src ;;
  d1 <- member_derivs 1 (mbright_body counts0 patch0) (snd d0) ;;
  d2 <- member_derivs 2 (step_body 2 counts0 patch0) (snd d1) ;;
  d3 <- member_derivs 3 (step_body 3 counts0 patch0) (snd d2) ;;
  Ok (fst d0 ++ fst d1 ++ fst d2 ++ fst d3, snd d3).
End Moving.

(** ** Making and copying *)
(** A source as an object: [m_radii] are fixedRadius and minRadius, None if the
    attributes do not exist. *)
Record moving : Type := mkMoving { m_tree : ptree R; m_epoch : R; m_radii : option (option R * option R) }.
(** __init__, motion.py:59-67: the constructor of PointSource is left out, and
    with it pointsource.py:71-76. *)
Definition moving_names : names :=
  add_named_params (mkNames [] []) [("pos", 0%nat); ("brightness", 1%nat); ("pm", 2%nat); ("parallax", 3%nat)]%string.
Definition parallax_obj (v : R) : ptree R := PScalar (mkScalar "Parallax"%string v None None None (1 / 1000)).
Definition moving_init (pos br pm : ptree R) (parallax epoch : R) : moving :=
  mkMoving (mk_multi moving_names [pos; br; pm; parallax_obj parallax]) epoch None.
(** PointSource.copy, pointsource.py:78-82, over MultiParams.copy: the copy has
    the default epoch 0, and its parallax (true) is a Parallax around a
    Parallax, since __init__ wraps its argument. *)
Definition moving_copy (m : moving) : res (ptree R * R * bool) :=
  t <- copy 1 (m_tree m) ;;
  match m_radii m with
  | None => Err AttributeError
  | Some _ => Ok (t, 0, true)
  end.

(** ParallaxWithPrior.getLogPrior, motion.py:14-20 (the parallax not 0), and
    isLegal, 22-24. *)
Definition lk_prior (p : R) : option R := if Rlt_dec p 0 then None else Some (- (4) * ln p).
Definition lk_legal (p : R) : bool := if Rle_dec 0 p then true else false.
