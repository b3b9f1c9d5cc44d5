(** Integral images: tractor/integral_image.py and
    tractor/symmetric_integral_image.py.

    Pixel values form an arbitrary type with addition, subtraction and zero;
    the theorems assume a commutative ring (exact arithmetic: float rounding
    and integer overflow are not modelled).  Coordinates are integers
    ([astype(int)] is the identity on them).  The four coordinate arrays of
    equal shape are one list of boxes (x0, x1, y0, y1); the shape assertions
    are then trivially true. *)
From Coq Require Import List ZArith Bool Lia.
From Verif Require Import Base.
Import ListNotations.
Open Scope Z_scope.

Section Model.
Variable V : Type.
Variables zero : V.
Variables vadd vsub : V -> V -> V.

(** [cumsum] of one row. *)
Fixpoint cumsum_row (acc : V) (r : list V) : list V :=
  match r with
  | [] => []
  | v :: r => let a := vadd acc v in a :: cumsum_row a r
  end.
Definition add_rows (a b : list V) : list V := map (fun p => vadd (fst p) (snd p)) (combine a b).
(** [cumsum(I, axis=0)]: running sums of whole rows. *)
Fixpoint cumsum_cols (acc : list V) (rows : list (list V)) : list (list V) :=
  match rows with
  | [] => []
  | r :: rs => let a := add_rows acc r in a :: cumsum_cols a rs
  end.
(** integral_image, integral_image.py:6-7. *)
Definition integral_image (img : list (list V)) : list (list V) :=
  map (cumsum_row zero) (cumsum_cols (map (fun _ => zero) (hd [] img)) img).

(** [img[y, x]] with numpy index rules. *)
Definition idx (img : list (list V)) (y x : Z) : res V :=
  match py_index (length img) y with
  | None => Err IndexError
  | Some j =>
      match nth_error img j with
      | None => Err IndexError
      | Some r => match py_index (length r) x with
                  | None => Err IndexError
                  | Some i => py_get r i
                  end
      end
  end.

Definition box : Type := Z * Z * Z * Z.

(** One element of intimg_rect, integral_image.py:53-59. *)
Definition rect1 (img : list (list V)) (b : box) : res V :=
  let '(x0, x1, y0, y1) := b in
  a <- idx img y1 x1 ;;
  a <- (if (0 <=? x0) && (0 <=? y0) then c <- idx img y0 x0 ;; Ok (vadd a c) else Ok a) ;;
  a <- (if 0 <=? x0 then c <- idx img y1 x0 ;; Ok (vsub a c) else Ok a) ;;
  (if 0 <=? y0 then c <- idx img y0 x1 ;; Ok (vsub a c) else Ok a).

Fixpoint mapM {A B} (f : A -> res B) (l : list A) : res (list B) :=
  match l with
  | [] => Ok []
  | a :: r => b <- f a ;; bs <- mapM f r ;; Ok (b :: bs)
  end.

(** intimg_rect, integral_image.py:10-62. *)
Definition intimg_rect (img : list (list V)) (bs : list box) : res (list V) :=
  if forallb (fun b => let '(x0, x1, y0, y1) := b in
       (0 <=? x1) && (0 <=? y1) && (x0 <? x1) && (y0 <? y1)) bs
  then mapM (rect1 img) bs else Err AssertionError.

(** [R[I] += vals] with I a mask over the boxes. *)
Fixpoint scatter_add (mask : box -> bool) (bs : list box) (R vals : list V) : list V :=
  match bs, R with
  | b :: bs, r :: R =>
      if mask b then match vals with
                     | v :: vs => vadd r v :: scatter_add mask bs R vs
                     | [] => r :: R
                     end
      else r :: scatter_add mask bs R vals
  | _, _ => R
  end.

(** One of the four blocks of symm_intimg_rect. *)
Definition quadrant (img : list (list V)) (mask : box -> bool) (flip : box -> box)
    (bs : list box) (R : list V) : res (list V) :=
  if existsb mask bs then
    v <- intimg_rect img (map flip (filter mask bs)) ;; Ok (scatter_add mask bs R v)
  else Ok R.

(** symm_intimg_rect, symmetric_integral_image.py:15-109. *)
Definition symm_intimg_rect (img : list (list V)) (m : Z) (bs : list box) : res (list V) :=
  if forallb (fun b => let '(x0, x1, y0, y1) := b in (x0 <=? x1) && (y0 <=? y1)) bs then
    let R := map (fun _ => zero) bs in
    R <- quadrant img (fun b => let '(x0, x1, y0, y1) := b in (y0 <? m) && (x0 <? m))
           (fun b => let '(x0, x1, y0, y1) := b in (x0, Z.min x1 m, y0, Z.min y1 m)) bs R ;;
    R <- quadrant img (fun b => let '(x0, x1, y0, y1) := b in (m <? x1) && (y0 <? m))
           (fun b => let '(x0, x1, y0, y1) := b in
              (2 * m - x1 - 1, 2 * m - Z.max (m + 1) (x0 + 1), y0, Z.min y1 m)) bs R ;;
    R <- quadrant img (fun b => let '(x0, x1, y0, y1) := b in (m <? y1) && (x0 <? m))
           (fun b => let '(x0, x1, y0, y1) := b in
              (x0, Z.min x1 m, 2 * m - y1 - 1, 2 * m - Z.max (m + 1) (y0 + 1))) bs R ;;
    quadrant img (fun b => let '(x0, x1, y0, y1) := b in (m <? y1) && (m <? x1))
           (fun b => let '(x0, x1, y0, y1) := b in
              (2 * m - x1 - 1, 2 * m - Z.max (m + 1) (x0 + 1),
               2 * m - y1 - 1, 2 * m - Z.max (m + 1) (y0 + 1))) bs R
  else Err AssertionError.

(** symm_intimg_ref, symmetric_integral_image.py:113-142. *)
Definition symm_intimg_ref (img : list (list V)) (x y m : Z) : res V :=
  if (x <=? m) && (y <=? m) then idx img y x
  else if (x <=? m) && (m <? y) then
    let ry := 2 * m - y in
    a <- idx img m x ;; b <- idx img (m - 1) x ;;
    let s := vadd a b in
    if 0 <? ry then c <- idx img (ry - 1) x ;; Ok (vsub s c) else Ok s
  else if (y <=? m) && (m <? x) then
    let rx := 2 * m - x in
    a <- idx img y m ;; b <- idx img y (m - 1) ;;
    let s := vadd a b in
    if 0 <? rx then c <- idx img y (rx - 1) ;; Ok (vsub s c) else Ok s
  else
    let rx := 2 * m - x in
    let ry := 2 * m - y in
    a <- idx img m m ;; b <- idx img m (m - 1) ;;
    c <- idx img (m - 1) m ;; d <- idx img (m - 1) (m - 1) ;;
    let s := vadd (vadd (vadd a b) c) d in
    s <- (if (0 <? rx) && (0 <? ry) then e <- idx img (ry - 1) (rx - 1) ;; Ok (vadd s e) else Ok s) ;;
    s <- (if 0 <? rx then e <- idx img m (rx - 1) ;; f <- idx img (m - 1) (rx - 1) ;;
                          Ok (vsub s (vadd e f)) else Ok s) ;;
    (if 0 <? ry then e <- idx img (ry - 1) m ;; f <- idx img (ry - 1) (m - 1) ;;
                     Ok (vsub s (vadd e f)) else Ok s).
End Model.
