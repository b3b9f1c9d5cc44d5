(** Images and tiles of the unWISE coadds: wise/unwise.py (lines 14-197), with
    ConstantFitsWcs.positionToPixel (tractor/wcs.py) and get_subimage of
    astrometry.net.

    Real pixel values, rational pixel coordinates (as in RoiModel).  Files are
    what is read from them, by directory and kind: the path of a file tells
    both.  Counts of exposures are real numbers too.  np.median is a parameter,
    None for no number (its NaN).  Slices of FITS images are those of arrays.
    Messages and the header (but for its dates) are left out. *)
From Coq Require Import String List ZArith QArith Reals Bool.
From Verif Require Import Base RoiModel SdssImgModel.
Import ListNotations.
Local Open Scope Z_scope.
Local Open Scope list_scope.

(** ** One image *)

(** One directory of coadds, for the tile and band asked for: img-m or img-u,
    then invvar and n with and without .gz.  The first argument is [masked]. *)
Record dir : Type := mkDir {
  d_img : bool -> option arr;
  d_to_pix : Q * Q -> Q * Q;             (* zero-indexed pixel of a position, by the image's header *)
  d_mjd : option (R * R);                (* MJDMIN, MJDMAX *)
  d_iv : bool -> bool -> option arr;     (* masked, gz *)
  d_n : bool -> bool -> option arr }.
Record image : Type := mkImage {
  u_img : arr; u_iv : arr; u_roi : region; u_n : arr; u_nu : arr;
  u_to_pix : Q * Q -> Q * Q; u_sig1 : option R; u_mjd : option R; u_band : string; u_psf : nat }.

(** A file and, if it is not there, the one without .gz: lines 124-129 *)
Definition either {A} (f : bool -> option A) : option A := match f true with Some a => Some a | None => f false end.
Definition positive (k : R) : bool := if Rlt_dec 0 k then true else false.
Fixpoint map2 {A B C} (f : A -> B -> C) (l : list A) (m : list B) : list C :=
  match l, m with a :: l, b :: m => f a b :: map2 f l m | _, _ => [] end.
Definition same_shape (a n : arr) : bool :=
  (length a =? length n)%nat && forallb (fun p => (length (fst p) =? length (snd p))%nat) (combine a n).
(** invvar[~good] = 0, line 163 *)
Definition blank (a n : arr) : arr := map2 (map2 (fun v k => if positive k then v else 0%R)) a n.
(** invvar[good], line 164 *)
Definition chosen (a n : arr) : list R := concat (map2 (fun v k => keep (map positive k) v) a n).
Definition digit (b : nat) : string := String (Ascii.ascii_of_nat (48 + b)) EmptyString.

Section Image.
Context (median : list R -> option R).
(** get_unwise_tractor_image from line 142 on; [img] is cut already *)
Definition finish (d : dir) (band : nat) (name : option string) (r : region) (img iv n nu : arr) : res image :=
  let '(x0, _, y0, _) := r in
  let iv := slice2 r iv in
  let iv := if (band =? 4)%nat then map (map (fun v => v * / 4)%R) iv else iv in
  let n := slice2 r n in
  let nu := slice2 r nu in
  if negb (same_shape iv n) then Err IndexError else
  let iv := blank iv n in
  Ok (mkImage img iv r n nu
        (fun p => let xy := d_to_pix d p in (fst xy - inject_Z x0, snd xy - inject_Z y0)%Q)
        (match median (chosen iv n) with Some m => Some (/ sqrt m)%R | None => None end)
        (match d_mjd d with Some (a, b) => Some ((a + b) / 2)%R | None => None end)
        (match name with Some s => s | None => "w" ++ digit band end)%string
        band).
(** get_unwise_tractor_image, lines 72-197.  The value None: no overlap; IOError
    (no complete directory) is RuntimeError here. *)
Fixpoint get_image (dirs : list dir) (band : nat) (name : option string) (mu : bool)
    (roi : option region) (radecsize : option (Q * Q * Z)) (radecbox : option (Q * Q * Q * Q)) : res (option image) :=
  match dirs with
  | [] => Err RuntimeError
  | d :: dirs =>
      match d_img d mu with
      | None => get_image dirs band name mu roi radecsize radecbox
      | Some img =>
          match interpret_roi (d_to_pix d) (height img) (width img) roi radecsize radecbox with
          | None => Ok None
          | Some (r, _) =>
              match either (d_iv d mu), either (d_n d mu), either (d_n d false) with
              | Some iv, Some n, Some nu => u <- finish d band name r (slice2 r img) iv n nu ;; Ok (Some u)
              | _, _, _ => get_image dirs band name mu roi radecsize radecbox
              end
          end
      end
  end.
End Image.

(** ** Tiles *)
Section Tiles.
Local Open Scope R_scope.
Definition lt_b (a b : R) : bool := if Rlt_dec a b then true else false.
(** unwise_tile_wcs, lines 14-21: reference pixel, and degrees per pixel along
    x and y in the tangent plane *)
Definition tile_wcs (W H pixscale : R) : (R * R) * (R * R) := (((W + 1) / 2, (H + 1) / 2), (- pixscale / 3600, pixscale / 3600)).
(** Place of a (FITS) pixel in the tangent plane at the centre, degrees *)
Definition plane (w : (R * R) * (R * R)) (x y : R) : R * R :=
  (fst (snd w) * (x - fst (fst w)), snd (snd w) * (y - snd (fst w))).

(** A tile of the atlas: its centre.  [dist]: degrees_between; [meets]:
    polygons_intersect of the outlines of image and tile, lines 40-64. *)
Context (dist : R * R -> R * R -> R) (meets : R * R -> bool).
Definition tile_radius : R := sqrt 2 / 2 * 2048 * 2.75 / 3600.
(** Lines 30-35 *)
Definition close (centre : R * R) (rad : R) (t : R * R) : bool :=
  lt_b (Rabs (snd t - snd centre)) rad && lt_b (dist t centre) rad.
(** unwise_tiles_touching_wcs, lines 24-65; an empty list made an array has
    floats, which are no indices *)
Definition touching (atlas : list (R * R)) (centre : R * R) (radius : R) (polygons : bool) : res (list (R * R)) :=
  let rad := radius + tile_radius in
  let t := filter (close centre rad) atlas in
  if negb polygons then Ok t
  else match filter meets t with [] => Err IndexError | l => Ok l end.
End Tiles.
