(** Pixelized PSFs with a Gaussian approximation, attribute by attribute:
    tractor/psf.py HybridPixelizedPSF (600-656) and the constructor, copy and
    attributes of PixelizedPSF (68-135).
    Objects live in a heap; an attribute is found in the object, then in its class,
    then by __getattr__.  Simplified: names with leading and trailing double
    underscores (found on every class) are left out; the Gaussian PSF is one value
    [g : G] with its copy [gcopy] a parameter (utils.py:206-207, 722-725); fitting the
    Gaussians when none are given (617-618) is not modelled; methods are called on
    the class, also where an attribute of the object hides them. *)
From Coq Require Import String List ZArith QArith Qround Bool.
From Verif Require Import Base.
Import ListNotations.
Open Scope string_scope.

(** Numbers, references, functions of a class, tuples; [VHypot h w] is
    np.hypot(h / 2., w / 2.). *)
Inductive val : Type :=
| VNum (q : Q) | VRef (a : nat) | VMethod (cls name : string) | VTup (h w : val) | VHypot (h w : Z).
(** Arrays, Gaussian PSFs, dictionaries (sizes to transforms, of which only the
    keys are kept), PixelizedPSF objects ([norm]: NormalizedPixelizedPsf, 969-971) and
    HybridPixelizedPSF objects with their two entries, missing before __init__. *)
Inductive obj (G : Type) : Type :=
| OArr (h w : Z) (px : list Q)
| OGauss (g : G)
| ODict (keys : list Z)
| OPix (norm : bool) (d : list (string * val))
| OHyb (gauss pix : option val).
Arguments OArr {G} _ _ _. Arguments OGauss {G} _. Arguments ODict {G} _. Arguments OPix {G} _ _. Arguments OHyb {G} _ _.

Fixpoint dget (n : string) (d : list (string * val)) : option val :=
  match d with [] => None | (k, v) :: d => if k =? n then Some v else dget n d end.
Fixpoint dset (n : string) (v : val) (d : list (string * val)) : list (string * val) :=
  match d with [] => [(n, v)] | (k, w) :: d => if k =? n then (k, v) :: d else (k, w) :: dset n v d end.

(** The functions of PixelizedPSF, psf.py:82-366, and of its bases BaseParams,
    utils.py:195-306, and ImageCalibration, ducks.py:162-189. *)
Definition pix_methods : list string :=
  ["clear_cache"; "hashkey"; "copy"; "getShifted"; "constantPsfAt"; "getRadius"; "getImage"; "getPointSourcePatch";
   "getFourierTransformSize"; "_padInImage"; "getFourierTransform"; "_sampleImage"; "_getOversampledPointSourcePatch";
   "_getOversampledFourierTransform"; "getParamNames"; "numberOfParams"; "getParams"; "getAllParams"; "getAllStepSizes";
   "getStepSizes"; "setAllStepSizes"; "setStepSizes"; "setParams"; "setAllParams"; "setParam"; "getLogPrior";
   "getLogPriorDerivatives"; "getLowerBounds"; "getUpperBounds"; "getMaxStep"; "getGaussianPriors"; "toFitsHeader"; "toStandardFitsHeader"; "fromFitsHeader"].
(** The functions of HybridPixelizedPSF, psf.py:625-638; HybridPSF (64-65) has none. *)
Definition hyb_methods : list string := ["copy"; "getMixtureOfGaussians"; "getShifted"; "constantPsfAt"].
Definition mem (n : string) (l : list string) : bool := existsb (String.eqb n) l.

Section Heap.
Context {G : Type}.
Notation heap := (list (obj G)).

(** Attribute lookup on a PixelizedPSF: shape is a property (113-115), which comes
    before the entries of the object; then the class. *)
Definition pix_get (norm : bool) (d : list (string * val)) (n : string) : res val :=
  if n =? "shape" then
    match dget "H" d, dget "W" d with
    | Some h, Some w => Ok (VTup h w)
    | _, _ => Err AttributeError
    end
  else match dget n d with
       | Some v => Ok v
       | None => if mem n pix_methods then Ok (VMethod (if norm then "NormalizedPixelizedPsf" else "PixelizedPSF") n) else Err AttributeError
       end.

(** getattr(object, name).  [lim] is the depth of calls left; python's RecursionError
    is a RuntimeError.  __getattr__, psf.py:640-642, reads self.pix and its
    attribute. *)
Fixpoint getattr (lim : nat) (h : heap) (a : nat) (n : string) : res val :=
  match lim with
  | O => Err RuntimeError
  | S lim =>
      match nth_error h a with
      | Some (OPix norm d) => pix_get norm d n
      | Some (OHyb g p) =>
          match (if n =? "gauss" then g else if n =? "pix" then p else None) with
          | Some v => Ok v
          | None =>
              if mem n hyb_methods then Ok (VMethod "HybridPixelizedPSF" n)
              else
                v <- getattr lim h a "pix" ;;
                match v with VRef b => getattr lim h b n | _ => Err AttributeError end
          end
      | _ => Err AttributeError
      end
  end.

(** setattr(object, name, value); a PixelizedPSF takes any name except the property;
    __setattr__, psf.py:644-648. *)
Fixpoint setattr (lim : nat) (h : heap) (a : nat) (n : string) (v : val) : res heap :=
  match lim with
  | O => Err RuntimeError
  | S lim =>
      match nth_error h a with
      | Some (OPix norm d) => if n =? "shape" then Err AttributeError else Ok (upd a (OPix norm (dset n v d)) h)
      | Some (OHyb g p) =>
          if n =? "gauss" then Ok (upd a (OHyb (Some v) p) h)
          else if n =? "pix" then Ok (upd a (OHyb g (Some v)) h)
          else match p with
               | None => Err KeyError
               | Some (VRef b) => setattr lim h b n v
               | Some _ => Err AttributeError
               end
      | _ => Err AttributeError
      end
  end.

(** A new object at the end of the heap. *)
Definition alloc (h : heap) (o : obj G) : heap * nat := ((h ++ [o])%list, List.length h).

(** PixelizedPSF(img, sampling, Lorder), psf.py:82-105.  astype copies the array and
    rounds its values ([f32]). *)
Definition pix_new (f32 : Q -> Q) (norm : bool) (h : heap) (img : nat) (sampling : Q) (lorder : Z) : res (heap * nat) :=
  match nth_error h img with
  | Some (OArr H W px) =>
      if negb ((H mod 2 =? 1)%Z && (W mod 2 =? 1)%Z) then Err AssertionError
      else
        let (h1, i) := alloc h (OArr H W (map f32 px)) in
        let (h2, c) := alloc h1 (ODict []) in
        Ok (alloc h2 (OPix norm
          ([("img", VRef i); ("radius", VHypot H W); ("H", VNum (inject_Z H)); ("W", VNum (inject_Z W)); ("Lorder", VNum (inject_Z lorder));
            ("fftcache", VRef c); ("sampling", VNum sampling)] ++ 
           (if Qeq_bool sampling 1 then []
            else [("nativeW", VNum (inject_Z (Qceiling (inject_Z W * sampling)))); ("nativeH", VNum (inject_Z (Qceiling (inject_Z H * sampling))))]))%list))
  | _ => Err AttributeError
  end.
(** PixelizedPSF.copy, psf.py:120-121: the array is copied and copied again by
    astype. *)
Definition pix_copy (f32 : Q -> Q) (lim : nat) (h : heap) (a : nat) : res (heap * nat) :=
  match nth_error h a with
  | Some (OPix norm d) =>
      v <- getattr lim h a "img" ;;
      match v with
      | VRef i =>
          match nth_error h i with
          | Some (OArr H W px) => let (h1, j) := alloc h (OArr H W px) in pix_new f32 norm h1 j 1 3
          | _ => Err AttributeError
          end
      | _ => Err AttributeError
      end
  | _ => Err AttributeError
  end.

(** HybridPixelizedPSF(pix, gauss), psf.py:606-619: object.__init__, then pix, then
    gauss. *)
Definition hyb_new (lim : nat) (h : heap) (pix gauss : val) : res (heap * nat) :=
  let (h1, a) := alloc h (OHyb None None) in
  h2 <- setattr lim h1 a "pix" pix ;;
  h3 <- setattr lim h2 a "gauss" gauss ;;
  Ok (h3, a).
(** copy, psf.py:625-627. *)
Definition hyb_copy (f32 : Q -> Q) (gcopy : G -> res G) (lim : nat) (h : heap) (a : nat) : res (heap * nat) :=
  vp <- getattr lim h a "pix" ;;
  match vp with
  | VRef p =>
      r <- pix_copy f32 lim h p ;;
      let (h1, p') := r in
      vg <- getattr lim h1 a "gauss" ;;
      match vg with
      | VRef g =>
          match nth_error h1 g with
          | Some (OGauss x) =>
              y <- gcopy x ;;
              let (h2, g') := alloc h1 (OGauss y) in
              hyb_new lim h2 (VRef p') (VRef g')
          | _ => Err AttributeError
          end
      | _ => Err AttributeError
      end
  | _ => Err AttributeError
  end.
(** PixelizedPSF.getShifted and constantPsfAt, psf.py:123-129, give the object
    itself; getShifted(dx, dy) and constantPsfAt(x, y) of the hybrid, psf.py:632-638. *)
Definition hyb_shifted (lim : nat) (h : heap) (a : nat) : res (heap * nat) :=
  vp <- getattr lim h a "pix" ;;
  match vp with
  | VRef p =>
      match nth_error h p with
      | Some (OPix _ _) => vg <- getattr lim h a "gauss" ;; hyb_new lim h (VRef p) vg
      | _ => Err AttributeError
      end
  | _ => Err AttributeError
  end.
(** getMixtureOfGaussians, psf.py:629-630: the Gaussians asked. *)
Definition hyb_gaussians (lim : nat) (h : heap) (a : nat) : res G :=
  vg <- getattr lim h a "gauss" ;;
  match vg with
  | VRef g => match nth_error h g with Some (OGauss x) => Ok x | _ => Err AttributeError end
  | _ => Err AttributeError
  end.
(** __getstate__, __setstate__, psf.py:651-655; copy.copy and pickle make an object
    without calling __init__ and set its state. *)
Definition getstate (lim : nat) (h : heap) (a : nat) : res (val * val) :=
  g <- getattr lim h a "gauss" ;; p <- getattr lim h a "pix" ;; Ok (g, p).
Definition setstate (lim : nat) (h : heap) (a : nat) (st : val * val) : res heap :=
  h1 <- setattr lim h a "gauss" (fst st) ;; setattr lim h1 a "pix" (snd st).
Definition shallow_copy (lim : nat) (h : heap) (a : nat) : res (heap * nat) :=
  st <- getstate lim h a ;;
  let (h1, b) := alloc h (OHyb None None) in
  h2 <- setstate lim h1 b st ;; Ok (h2, b).
End Heap.
