(** The 7-tap separable correlation: tractor/mp_fourier.i correlate7 (lines
    69-155), correlate7f (158-248), correlate7f_inout (267-352).  The three
    routines are the same text up to the element type and the destination of
    the second pass.  Buffers are flat arrays of the numpy data; an access
    outside a buffer (undefined in C) is [Err IndexError], a failed assert is
    [Err AssertionError].  Elements, sum and product are arbitrary, so that
    rounding is covered; C ints are unbounded here (image sizes below 2^31
    pixels).  All subtractions are of numbers for which the asserts make the
    result non-negative, hence nat. *)
From Coq Require Import List Bool Arith Lia.
From Verif Require Import Base.
Import ListNotations.

Section Corr.
Context {V : Type} (zero : V) (add mul : V -> V -> V).

(** buf[i] *)
Definition rd (b : list V) (i : nat) : res V := match nth_error b i with Some v => Ok v | None => Err IndexError end.
(** buf[i] = v *)
Definition wr (b : list V) (i : nat) (v : V) : res (list V) :=
  if (i <? length b)%nat then Ok (firstn i b ++ v :: skipn (S i) b) else Err IndexError.
(** for (i=i0; i<i0+n; i++) st = body i st *)
Fixpoint for_ {S} (n i : nat) (body : nat -> S -> res S) (st : S) : res S :=
  match n with
  | O => Ok st
  | Datatypes.S n => st <- body i st ;; for_ n (Datatypes.S i) body st
  end.

(** sum = 0; for (k=0; k<n; k++) sum += filter[foff+k] * src[soff+k];
    mp_fourier.i:101-103, 108-110, 116-118, 134-136, 141-143, 149-151 *)
Definition dot (n : nat) (filter : list V) (foff : nat) (src : list V) (soff : nat) : res V :=
  for_ n 0 (fun k sum => f <- rd filter (foff + k) ;; x <- rd src (soff + k) ;; Ok (add sum (mul f x))) zero.
(** One pass over the rows of [src] (h rows of width w), written transposed
    into [dst]; mp_fourier.i:96-121 with (w, h) = (W, H) and 131-154 with
    (w, h) = (workW, workH) = (H, W). *)
Definition pass_row (w h j : nat) (filter src : list V) (dst : list V) : res (list V) :=
  let offset := j * w in
  (* left edge *)
  dst <- for_ 3 0 (fun i dst => sum <- dot (4 + i) filter (3 - i) src offset ;; wr dst (i * h + j) sum) dst ;;
  (* middle section: i <= w-7 *)
  dst <- for_ (w - 6) 0 (fun i dst => sum <- dot 7 filter 0 src (offset + i) ;; wr dst ((i + 3) * h + j) sum) dst ;;
  (* right edge *)
  for_ 3 0 (fun i dst => sum <- dot (4 + i) filter 0 src (offset + (w - (4 + i))) ;; wr dst ((w - 1 - i) * h + j) sum) dst.
Definition pass (w h : nat) (filter src dst : list V) : res (list V) :=
  for_ h 0 (fun j dst => pass_row w h j filter src dst) dst.

(** correlate7f_inout, mp_fourier.i:267-352: shapes (rows, columns) and data;
    result: (outimg, work). *)
Definition correlate7_inout (inimg : list V) (in1 in2 : nat) (outimg : list V) (out1 out2 : nat)
    (filtx filty work : list V) (work1 work2 : nat) : res (list V * list V) :=
  if negb (length filtx =? 7) then Err AssertionError else
  if negb (length filty =? 7) then Err AssertionError else
  if negb (in1 <=? work1) then Err AssertionError else
  if negb (in2 <=? work2) then Err AssertionError else
  if negb (out1 =? in1) then Err AssertionError else
  if negb (out2 =? in2) then Err AssertionError else
  if negb (8 <? in1) then Err AssertionError else
  if negb (8 <? in2) then Err AssertionError else
  let W := in2 in let H := in1 in
  work <- pass W H filtx inimg work ;;
  outimg <- pass H W filty work outimg ;;
  Ok (outimg, work).
(** correlate7 / correlate7f, mp_fourier.i:69-248: the output goes back into
    img; result: (img, work). *)
Definition correlate7 (img : list V) (d1 d2 : nat) (filtx filty work : list V) (work1 work2 : nat) : res (list V * list V) :=
  if negb (length filtx =? 7) then Err AssertionError else
  if negb (length filty =? 7) then Err AssertionError else
  if negb (d1 <=? work1) then Err AssertionError else
  if negb (d2 <=? work2) then Err AssertionError else
  if negb (8 <? d2) then Err AssertionError else
  if negb (8 <? d1) then Err AssertionError else
  let W := d2 in let H := d1 in
  work <- pass W H filtx img work ;;
  img <- pass H W filty work img ;;
  Ok (img, work).
End Corr.
