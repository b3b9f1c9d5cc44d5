(** Pixelized point-spread functions: tractor/psf.py lanczos_shift_image (lines
    25-57), PixelizedPSF.getPointSourcePatch (lines 137-207, sampling = 1) and
    _padInImage (lines 214-247).

    The position (px, py) enters as the rounded pixel (ix, iy) and the remainder
    (dx, dy), any integers and any remainders; the filter for a remainder is an
    oracle (LanczosProps.v shows that the C and the Python filter are the same).
    Rounding of pixel values and the final isfinite assertion are left out. *)
From Coq Require Import List ZArith Bool Lia.
From Verif Require Import Base PatchModel Corr7Model.
Import ListNotations.
Open Scope Z_scope.

Section Psf.
Context {V D : Type} (zero : V) (add mul : V -> V -> V) (halfdiff : V -> V -> V).
Variable filt : D -> list V.
Notation arr := (@arr V).

(** _padInImage, psf.py:214-247: (pad, cx, cy). *)
Definition pad_in_image (H W : Z) (img : arr) : res (arr * Z * Z) :=
  let ph := ah img in
  let pw := aw img in
  let '(y0, subimg, cy) :=
    if H >=? ph then ((H - ph) / 2, img, (H - ph) / 2 + ph / 2)
    else let cut := (ph - H) / 2 in (0, asub img (mkSl cut (cut + H)) (sl_all (aw img)), ph / 2 - cut) in
  let '(x0, subimg, cx) :=
    if W >=? pw then ((W - pw) / 2, subimg, (W - pw) / 2 + pw / 2)
    else let cut := (pw - W) / 2 in (0, asub subimg (sl_all (ah subimg)) (mkSl cut (cut + W)), pw / 2 - cut) in
  if (H <? 0) || (W <? 0) then Err ValueError else
  pad <- aupd (fun _ v => v) (mkArr H W (fun _ _ => zero)) (mkSl y0 (y0 + ah subimg)) (mkSl x0 (x0 + aw subimg)) subimg ;;
  Ok (pad, cx, cy).

(** scipy.ndimage.correlate1d(img, w, axis, mode='constant') for 7 weights,
    from its documentation. *)
Definition taps (f : list V) (row : Z -> V) (n i : Z) : V :=
  fold_left (fun s k => let p := i + Z.of_nat k - 3 in
               add s (mul (nth k f zero) (if (0 <=? p) && (p <? n) then row p else zero))) (seq 0 7) zero.
Definition correlate_x (a : arr) (f : list V) : arr := mkArr (ah a) (aw a) (fun y x => taps f (fun p => px a y p) (aw a) x).
Definition correlate_y (a : arr) (f : list V) : arr := mkArr (ah a) (aw a) (fun y x => taps f (fun p => px a p x) (ah a) y).

(** The memory of a contiguous array and back. *)
Definition flat (a : arr) : list V :=
  map (fun p => px a (Z.of_nat p / aw a) (Z.of_nat p mod aw a)) (seq 0 (Z.to_nat (ah a) * Z.to_nat (aw a))).
Definition unflat (h w : Z) (l : list V) : arr := mkArr h w (fun y x => nth (Z.to_nat (y * w + x)) l zero).

(** lanczos_shift_image, psf.py:25-57: [has_c] the C library is there; the
    global scratch array has shape (wr, wc) and contents [work]; np.empty gives
    an array with contents [junk]. *)
Record env : Type := mkEnv { has_c : bool; wr1 : nat; wc1 : nat; work : list V; junk : nat -> list V }.
Definition lanczos_shift_image (e : env) (img : arr) (dx dy : D) : res arr :=
  if negb (has_c e) || (aw img <=? 8) || (ah img <=? 8) || (ah img >? Z.of_nat (wr1 e)) || (aw img >? Z.of_nat (wc1 e)) then
    Ok (correlate_y (correlate_x img (filt dx)) (filt dy))
  else
    let h := Z.to_nat (ah img) in
    let w := Z.to_nat (aw img) in
    '(out, _) <- correlate7_inout zero add mul (flat img) h w (junk e (h * w)) h w (filt dx) (filt dy) (work e) (wr1 e) (wc1 e) ;;
    Ok (unflat (ah img) (aw img) out).

Record mask : Type := mkMask { mx0 : Z; my0 : Z; mw : Z; mh : Z }.
Inductive rendered : Type := NoModel | One (p : @patch V) | Three (p pdx pdy : @patch V).

(** psf.py:149-155, R = int(np.ceil(radius)) *)
Definition crop_radius (img : arr) (R : Z) : arr :=
  let H := ah img in let W := aw img in
  let cx := W / 2 in let cy := H / 2 in
  asub img (mkSl (Z.max (cy - R) 0) (Z.min (cy + R + 1) (H - 1))) (mkSl (Z.max (cx - R) 0) (Z.min (cx + R + 1) (W - 1))).
(** The derivative images, psf.py:199-205. *)
Definition deriv_x (a : arr) : res arr :=
  let l := asub a (mkSl 1 (-1)) (sl_to (-2)) in
  let r := asub a (mkSl 1 (-1)) (sl_from 2 (aw a)) in
  aupd (fun _ v => v) (mkArr (ah a) (aw a) (fun _ _ => zero)) (mkSl 1 (-1)) (mkSl 1 (-1))
       (mkArr (ah r) (aw r) (fun y x => halfdiff (px r y x) (px l y x))).
Definition deriv_y (a : arr) : res arr :=
  let l := asub a (sl_to (-2)) (mkSl 1 (-1)) in
  let r := asub a (sl_from 2 (ah a)) (mkSl 1 (-1)) in
  aupd (fun _ v => v) (mkArr (ah a) (aw a) (fun _ _ => zero)) (mkSl 1 (-1)) (mkSl 1 (-1))
       (mkArr (ah r) (aw r) (fun y x => halfdiff (px r y x) (px l y x))).

(** getPointSourcePatch, psf.py:137-207; [img] is getImage(px, py). *)
Definition point_source_patch (e : env) (img : arr) (ix iy : Z) (dx dy : D)
    (radius : option Z) (modelMask : option mask) (derivs : bool) : res rendered :=
  let img := match radius with None => img | Some R => crop_radius img R end in
  let H := ah img in
  let W := aw img in
  let x0 := ix - W / 2 in
  let y0 := iy - H / 2 in
  match modelMask with
  | None =>
      outimg <- lanczos_shift_image e img dx dy ;;
      Ok (One (mkPatch x0 y0 (Some outimg)))
  | Some m =>
      if (mx0 m >=? x0 + W) || (mx0 m + mw m <=? x0) || (my0 m >=? y0 + H) || (my0 m + mh m <=? y0) then Ok NoModel
      else
        let padding := 3 in
        let mm := mkArr (mh m + 2 * padding) (mw m + 2 * padding) (fun _ _ => zero) in
        match get_overlapping_region (my0 m - y0 - padding) (my0 m - y0 + mh m - 1 + padding) 0 (H - 1),
              get_overlapping_region (mx0 m - x0 - padding) (mx0 m - x0 + mw m - 1 + padding) 0 (W - 1) with
        | Some (yi, yo), Some (xi, xo) =>
            mm <- aupd (fun _ v => v) mm yo xo (asub img yi xi) ;;
            mm <- lanczos_shift_image e mm dx dy ;;
            let mm := asub mm (mkSl padding (- padding)) (mkSl padding (- padding)) in
            let p := mkPatch (mx0 m) (my0 m) (Some mm) in
            if negb derivs then Ok (One p)
            else
              gx <- deriv_x mm ;;
              gy <- deriv_y mm ;;
              Ok (Three p (mkPatch (mx0 m) (my0 m) (Some gx)) (mkPatch (mx0 m) (my0 m) (Some gy)))
        | _, _ => Err ValueError
        end
  end.
End Psf.
