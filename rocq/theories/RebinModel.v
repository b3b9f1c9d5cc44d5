(** Rebinning of an image: tractor/sdss.py scale_sdss_image (lines 604-648), with
    ScaledWcs, ScaledPhotoCal (tractor/shifted.py:121-152; the former as in
    ShiftModel) and GaussianMixturePSF.scaleBy (tractor/psf.py:432-437).

    Real pixel values.  The PSF is a mixture of Gaussians (components as in
    GaussPsfModel), the sky is constant; other PSFs have no scaleBy.  [py2]
    tells how "/" divides ints: as in Python 2 (floor) or as in Python 3 (to a
    float, which np.zeros takes no size from).  Arrays of different shapes are
    a ValueError (numpy would stretch those of size one).  Names and zr are left
    out. *)
From Coq Require Import List Arith Reals Bool.
From Verif Require Import Base SdssImgModel GaussPsfModel ShiftModel.
Import ListNotations.
Local Open Scope list_scope.
Local Open Scope R_scope.

(** l[i::S] *)
Definition strided {A} (d : A) (i S : nat) (l : list A) : list A :=
  map (fun k => nth (i + k * S) l d) (seq 0 ((length l - i + S - 1) / S)).
(** a[i::S, j::S] *)
Definition block (i j S : nat) (a : arr) : arr := map (strided 0 j S) (strided [] i S a).
Definition cols (a : arr) : nat := match a with [] => 0%nat | r :: _ => length r end.
(** a[:-(n % S)] if n % S else a *)
Definition drop_rem {A} (S : nat) (l : list A) : list A :=
  if (length l mod S =? 0)%nat then l else slice 0 (length l - length l mod S) l.
(** Lines 616-622; the number of columns is that of the whole image. *)
Definition crop (S : nat) (a : arr) : arr :=
  let a' := drop_rem S a in
  if (cols a mod S =? 0)%nat then a' else map (slice 0 (cols a - cols a mod S)) a'.
Fixpoint zipw {A B C} (f : A -> B -> C) (l : list A) (m : list B) : list C :=
  match l, m with a :: l, b :: m => f a b :: zipw f l m | _, _ => [] end.
Definition arr_op (f : R -> R -> R) (a b : arr) : arr := zipw (zipw f) a b.
Definition alike (a b : arr) : bool := (length a =? length b)%nat && forallb (fun p => (length (fst p) =? length (snd p))%nat) (combine a b).

Definition is0 (v : R) : bool := if Req_EM_T v 0 then true else false.
(** Lines 627-638, [h] x [w] pixels remaining *)
Definition rebin (S h w : nat) (data iv : arr) : arr * arr :=
  let zeros := repeat (repeat 0 (w / S)) (h / S) in
  let '(nd, ni) := fold_left (fun (acc : arr * arr) (ij : nat * nat) =>
      let v := block (fst ij) (snd ij) S iv in
      (arr_op Rplus (fst acc) (arr_op Rmult (block (fst ij) (snd ij) S data) v), arr_op Rplus (snd acc) v))
    (list_prod (seq 0 S) (seq 0 S)) (zeros, zeros) in
  let nd := arr_op (fun d v => d / (v + (if is0 v then 1 else 0) * 1)) nd ni in
  (arr_op (fun d v => if is0 v then 0 else d) nd ni, ni).

(** psf.py:432-437 *)
Definition scale_comp (k : R) (c : gcomp) : gcomp :=
  mkG (g_amp c) (g_mx c * k) (g_my c * k) (g_xx c * k ^ 2) (g_xy c * k ^ 2) (g_yx c * k ^ 2) (g_yy c * k ^ 2).

Section Img.
Context {B : Type}.
Record img : Type := mkImg {
  i_data : arr; i_iv : arr;
  i_psf : list gcomp; i_wcs : wcs; i_sky : R; i_counts : B -> R }.
(** scale_sdss_image, lines 604-648 *)
Definition scale_image (py2 : bool) (S : nat) (t : img) : res img :=
  if (S =? 0)%nat then Err ZeroDivisionError else
  let data := crop S (i_data t) in
  let iv := crop S (i_iv t) in
  if negb py2 then Err TypeError else
  if negb (alike data iv) then Err ValueError else
  let '(nd, ni) := rebin S (length data) (cols data) data iv in
  let k := 1 / INR S in
  Ok (mkImg nd ni (map (scale_comp k) (i_psf t)) (ScaledWcs (i_wcs t) k) (i_sky t) (fun b => k ^ 2 * i_counts t b)).
End Img.
(** cdInverseAtPixel, which rendering of galaxies asks for (galaxy.py:653, 665):
    wcs.py:39-40, 235-239, ducks.py:403-407.  The others derive from
    ImageCalibration, not from ducks.WCS (wcs.py:52, shifted.py:134, 155), and
    have none. *)
Definition has_cd_inverse (w : wcs) : bool :=
  match w with WcslibWcs _ _ _ | ShiftedWcs _ _ _ | ScaledWcs _ _ => false | _ => true end.
