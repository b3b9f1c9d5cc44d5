(** Galactic extinction: tractor/sfd.py SFDMap.bilinear_interp_nonzero, ebv,
    extinction (lines 66-117).  Real numbers.  An image is its size and a
    function of row and column; negative indices count from the end, as numpy's
    do.  The conversions to galactic coordinates and to pixels of the two maps
    are functions. *)
From Coq Require Import String List ZArith Reals Bool.
From Verif Require Import Base.
Import ListNotations.
Local Open Scope R_scope.

Record image : Type := mkIm { im_h : Z; im_w : Z; im_px : Z -> Z -> R }.
(** a numpy index along an axis of length n *)
Definition np_index (n i : Z) : res Z :=
  if ((- n <=? i) && (i <? 0))%Z then Ok (i + n)%Z
  else if ((0 <=? i) && (i <? n))%Z then Ok i
  else Err IndexError.
Definition im_get (im : image) (y x : Z) : res R :=
  y <- np_index (im_h im) y ;; x <- np_index (im_w im) x ;; Ok (im_px im y x).
Definition zclip (i lo hi : Z) : Z := Z.min (Z.max i lo) hi.
Definition rclip (x lo hi : R) : R := Rmin (Rmax x lo) hi.
(** (1 - f) a + f b, then b where a is zero, then a where b is zero; lines
    74-77, 81-83, 85-88 *)
Definition mix_nonzero (f a b : R) : R :=
  let m := (1 - f) * a + f * b in
  let m := if Req_EM_T a 0 then b else m in
  if Req_EM_T b 0 then a else m.
(** bilinear_interp_nonzero for one position (the code does the same for each
    element of the arrays), sfd.py:67-89 *)
Definition interp (im : image) (x y : R) : res R :=
  let x0 := Int_part x in
  let y0 := Int_part y in
  let fx := rclip (x - IZR x0) 0 1 in
  let x1 := zclip (x0 + 1) 0 (im_w im - 1) in
  let y1 := zclip (y0 + 1) 0 (im_h im - 1) in
  a <- im_get im y0 x0 ;;
  b <- im_get im y0 x1 ;;
  let e1 := mix_nonzero fx a b in
  a <- im_get im y1 x0 ;;
  b <- im_get im y1 x1 ;;
  let e2 := mix_nonzero fx a b in
  let fy := rclip (y - IZR y0) 0 1 in
  Ok (mix_nonzero fy e1 e2).

Section Map.
Context (radectolb : R * R -> R * R) (north south : image) (northwcs southwcs : R * R -> R * R).

Definition le_b (a b : R) : bool := if Rle_dec a b then true else false.
Definition in_image (im : image) (p : R * R) : bool :=
  le_b (/ 2) (fst p) && le_b (fst p) (IZR (im_w im) + / 2) && le_b (/ 2) (snd p) && le_b (snd p) (IZR (im_h im) + / 2).
Fixpoint mapr {A B} (f : A -> res B) (l : list A) : res (list B) :=
  match l with [] => Ok [] | a :: l => b <- f a ;; l <- mapr f l ;; Ok (b :: l) end.
(** a[cut] and a[cut] = v *)
Definition select {A} (cut : list bool) (l : list A) : list A := keep cut l.
Fixpoint assign (cut : list bool) (l v : list R) : list R :=
  match cut, l with
  | true :: cut, _ :: l => match v with x :: v => x :: assign cut l v | [] => [] end
  | false :: cut, x :: l => x :: assign cut l v
  | _, _ => []
  end.
(** One turn of the loop of lines 95-108. *)
Definition turn (wcs : R * R -> R * R) (im : image) (cut : list bool) (lb : list (R * R)) (ebv : list R) : res (list R) :=
  if (count_true cut =? 0)%nat then Ok ebv else
  let xy := map wcs (select cut lb) in
  if negb (forallb (in_image im) xy) then Err AssertionError else
  v <- mapr (fun p => interp im (fst p - 1) (snd p - 1)) xy ;;
  Ok (assign cut ebv v).
(** ebv, sfd.py:91-109 *)
Definition ebv (pos : list (R * R)) : res (list R) :=
  let lb := map radectolb pos in
  let n := map (fun p => le_b 0 (snd p)) lb in
  e <- turn northwcs north n lb (map (fun _ => 0) lb) ;;
  turn southwcs south (map negb n) lb e.
(** extinctions, sfd.py:26-40, and extinction, sfd.py:111-117 *)
Definition extinctions : list (string * R) :=
  [("FUV", 6.793); ("NUV", 6.620); ("SDSS u", 4.239); ("DES u", 3.995); ("DES g", 3.214); ("DES r", 2.165); ("DES i", 1.592);
   ("DES z", 1.211); ("DES Y", 1.064); ("WISE W1", 0.184); ("WISE W2", 0.113); ("WISE W3", 0.0241); ("WISE W4", 0.00910)]%string.
Fixpoint lookup (l : list (string * R)) (f : string) : res R :=
  match l with [] => Err KeyError | (g, v) :: l => if String.eqb f g then Ok v else lookup l f end.
Definition extinction (filts : list string) (pos : list (R * R)) : res (list (list R)) :=
  e <- ebv pos ;;
  factors <- mapr (lookup extinctions) filts ;;
  Ok (map (fun v => map (fun f => f * v) factors) e).
End Map.
