(** Cache keys: hashkey of parameter objects, PSFs, coordinate systems,
    calibrations and images, and the number hash(...) under which the model
    cache files a model (cache.py:25-26).

    A key is a nested tuple.  Every object carries the attributes that are not
    parameters as [attrs] of any type; class names are those of getClassName
    (utils.py:58-62).  Object addresses, id(x), are natural numbers; they are
    taken to be those of live objects. *)
From Coq Require Import String List ZArith QArith Qround Bool Lia.
From Verif Require Import Base PatchModel.
Import ListNotations.
Open Scope Z_scope.

Section Hash.
Context {V A : Type}.

Inductive hkey : Type :=
| KStr (s : string) | KNum (v : V) | KInt (z : Z) | KNone | KId (n : nat) | KTup (l : list hkey).

(** A parameter object: values only, or a group of members (None allowed). *)
Inductive pobj : Type :=
| OList (cls : string) (vals : list V) (attrs : A)
| OMulti (cls : string) (subs : list (option pobj)) (attrs : A).

(** BaseParams.hashkey, utils.py:209-210; MultiParams.hashkey, utils.py:998-1005. *)
Fixpoint hashkey (o : pobj) : list hkey :=
  match o with
  | OList cls vals _ => KStr cls :: map KNum vals
  | OMulti cls subs _ =>
      KStr cls :: map (fun s => match s with None => KNone | Some s => KTup (hashkey s) end) subs
  end.

(** PSFs.  [Pixelized normalized stamp sampling]: PixelizedPSF and its subclass
    NormalizedPixelizedPsf, psf.py:68-118, 969-971.  [PsfEx normalized fn ext
    model]: PixelizedPsfEx, psfex.py:425-446, 735-737; [model] is its PsfExModel.
    [Shifted]: shifted.py:64-77.  [PsfParams]: any PSF class with parameters and
    the inherited hashkey.  [HybridPsf pix gauss]: HybridPixelizedPSF,
    psf.py:600-656. *)
Inductive psf : Type :=
| Pixelized (normalized : bool) (stamp : arr V) (sampling : Q)
| PsfEx (normalized : bool) (fn : option string) (ext : Z) (model : A)
| PsfParams (o : pobj)
| ShiftedPsf (x0 y0 : Z) (p : psf)
| HybridPsf (pix : psf) (gauss : pobj).

(** [self.img.ravel()] *)
Definition ravel (a : arr V) : list V :=
  flat_map (fun y => map (fun x => px a (Z.of_nat y) (Z.of_nat x)) (seq 0 (Z.to_nat (aw a)))) (seq 0 (Z.to_nat (ah a))).

(** psf.py:117-118; psfex.py:445-446; shifted.py:76-77; the hybrid has no
    hashkey of its own and passes the call on to its pixelized PSF,
    psf.py:640-642. *)
Fixpoint psf_key (p : psf) : list hkey :=
  match p with
  | Pixelized _ img _ => [KStr "PixelizedPSF"; KTup (map KNum (ravel img))]
  | PsfEx _ fn ext _ => [KStr "PixelizedPsfEx"; match fn with None => KNone | Some f => KStr f end; KInt ext]
  | PsfParams o => hashkey o
  | ShiftedPsf x0 y0 p => KStr "ShiftedPsf" :: KInt x0 :: KInt y0 :: psf_key p
  | HybridPsf p _ => psf_key p
  end.

(** Coordinate systems.  NullWCS, wcs.py:8-23; ConstantFitsWcs, wcs.py:150-173
    ([wid] is the address of the wrapped object); ScaledWcs and ShiftedWcs,
    shifted.py:134-141, 160-179. *)
Inductive wcs : Type :=
| NullWCS (pixscale dx dy : V)
| ConstantFitsWcs (x0 y0 : Z) (wid : nat)
| WcsParams (o : pobj)
| ScaledWcs (factor : V) (w : wcs)
| ShiftedWcs (x0 y0 : Z) (w : wcs).
(** wcs.py:22-23, 172-173; shifted.py:140-141, 178-179. *)
Fixpoint wcs_key (w : wcs) : list hkey :=
  match w with
  | NullWCS _ dx dy => [KStr "NullWCS"; KNum dx; KNum dy]
  | ConstantFitsWcs x0 y0 i => [KInt x0; KInt y0; KId i]
  | WcsParams o => hashkey o
  | ScaledWcs f w => KStr "ScaledWcs" :: KNum f :: wcs_key w
  | ShiftedWcs x0 y0 w => KStr "ShiftedWcs" :: KInt x0 :: KInt y0 :: wcs_key w
  end.

(** Calibrations: every class uses the inherited hashkey (the band is an
    attribute, brightness.py:240-243, 263-278, 328-337); ScaledPhotoCal,
    shifted.py:121-128. *)
Inductive photocal : Type :=
| PcParams (o : pobj)
| ScaledPhotoCal (factor : V) (p : photocal).
Fixpoint pc_key (p : photocal) : list hkey :=
  match p with
  | PcParams o => hashkey o
  | ScaledPhotoCal f p => KStr "ScaledPhotoCal" :: KNum f :: pc_key p
  end.

(** Image.hashkey, image.py:154-157.  The sky is a parameter object. *)
Record image : Type := mkImage { i_data : nat; i_inverr : nat; i_psf : psf; i_sky : pobj; i_wcs : wcs; i_pc : photocal }.
Definition image_key (i : image) : list hkey :=
  [KStr "Image"; KId (i_data i); KId (i_inverr i); KTup (psf_key (i_psf i)); KTup (hashkey (i_sky i));
   KTup (wcs_key (i_wcs i)); KTup (pc_key (i_pc i))].

(** (img.hashkey(), src.hashkey()), cache.py:25. *)
Definition deps (i : image) (s : pobj) : hkey := KTup [KTup (image_key i); KTup (hashkey s)].

(** hash(key), cache.py:26: the hash of a tuple is some function [htup] of the
    hashes of its entries, the hash of a string some function [hstr]; numbers
    hash by [hnum], None to [hnone]. *)
Variables (hstr : string -> Z) (hnum : V -> Z) (hint : Z -> Z) (hnone : Z) (htup : list Z -> Z).
Fixpoint pyhash (k : hkey) : Z :=
  match k with
  | KStr s => hstr s
  | KNum v => hnum v
  | KInt z => hint z
  | KNone => hnone
  | KId n => hint (Z.of_nat n)
  | KTup l => htup (map pyhash l)
  end.
End Hash.
Arguments hkey : clear implicits.
Arguments pobj : clear implicits.
Arguments psf : clear implicits.
Arguments wcs : clear implicits.
Arguments photocal : clear implicits.
Arguments image : clear implicits.

(** hash of a whole number (int, or float with a whole value), from the
    documentation of numeric hashing (64-bit Python): the absolute value modulo
    2^61 - 1 with the sign of the number, and -2 in place of -1. *)
Definition hash_whole (n : Z) : Z :=
  let h := Z.abs n mod (2 ^ 61 - 1) in
  let h := if n <? 0 then - h else h in
  if h =? -1 then -2 else h.

(** The size of the stamp returned without a mask: psf.py:99-106, 263-266. *)
Definition stamp_size {V A} (p : psf V A) : option (Z * Z) :=
  match p with
  | Pixelized _ img s =>
      Some (if Qeq_bool s 1 then (ah img, aw img)
            else (Qceiling (inject_Z (ah img) * s), Qceiling (inject_Z (aw img) * s)))
  | _ => None
  end.
(** getImage: psf.py:134-135, 955-960. *)
Definition get_image {A} (p : psf Q A) : option (arr Q) :=
  match p with
  | Pixelized normalized img _ =>
      let n := fold_right Qplus 0%Q (ravel img) in
      Some (if normalized && negb (Qeq_bool n 0) then mkArr (ah img) (aw img) (fun y x => px img y x / n)%Q else img)
  | _ => None
  end.
(** NullWCS.cdAtPixel, wcs.py:25-37: the scale on the diagonal. *)
Definition cd_scale {A} (w : wcs Q A) : option Q :=
  match w with NullWCS s _ _ => Some (1 * s / 3600)%Q | _ => None end.
(** The Gaussians that galaxies are rendered with, psf.py:629-630. *)
Definition gaussians {V A} (p : psf V A) : option (pobj V A) :=
  match p with HybridPsf _ g => Some g | PsfParams o => Some o | _ => None end.
