(** Model of tractor/patch.py: image patches.

    Arrays are rectangular; pixel values are of an arbitrary type [V] whose
    operations are parameters, so they can be read as floats.  An array is a
    shape and an indexing function [px a y x] (row, column) that is only ever
    meaningful inside the shape; all statements about arrays are about
    in-range pixels.  NumPy dtype conversions are not modelled, except the
    32-bit index arithmetic of getPixelIndices. *)
From Coq Require Import List ZArith Bool Lia.
From Verif Require Import Base.
Import ListNotations.
Open Scope Z_scope.

Section Arr.
Context {V : Type}.

Record arr : Type := mkArr { ah : Z; aw : Z; px : Z -> Z -> V }.

Definition same_shape (a b : arr) : bool := (ah a =? ah b) && (aw a =? aw b).

(** A Python slice start:stop (step 1); [None] bounds are spelled 0 and n. *)
Record sl : Type := mkSl { sstart : Z; sstop : Z }.

(** slice.indices(n) for step 1. *)
Definition norm_idx (n i : Z) : Z := if i <? 0 then Z.max 0 (i + n) else Z.min i n.
Definition sl_start (n : Z) (s : sl) : Z := norm_idx n (sstart s).
Definition sl_len (n : Z) (s : sl) : Z := Z.max 0 (norm_idx n (sstop s) - norm_idx n (sstart s)).

(** a[ys, xs]: a view. *)
Definition asub (a : arr) (ys xs : sl) : arr :=
  mkArr (sl_len (ah a) ys) (sl_len (aw a) xs)
        (fun y x => px a (y + sl_start (ah a) ys) (x + sl_start (aw a) xs)).

Definition sl_all (n : Z) : sl := mkSl 0 n.
Definition sl_from (i n : Z) : sl := mkSl i n.
Definition sl_to (i : Z) : sl := mkSl 0 i.

(** a[ys, xs] = f(a[ys, xs], b), the in-place update of a view; shapes must
    agree (NumPy would also broadcast an axis of length 1; that is reported
    as an error here and shown not to occur). *)
Definition aupd (f : V -> V -> V) (a : arr) (ys xs : sl) (b : arr) : res arr :=
  if (ah b =? sl_len (ah a) ys) && (aw b =? sl_len (aw a) xs) then
    Ok (mkArr (ah a) (aw a) (fun y x =>
      let y' := y - sl_start (ah a) ys in
      let x' := x - sl_start (aw a) xs in
      if (0 <=? y') && (y' <? ah b) && (0 <=? x') && (x' <? aw b)
      then f (px a y x) (px b y' x') else px a y x))
  else Err ValueError.

(** Patch: patch.py:82-92.  [None] is the no-data patch. *)
Record patch : Type := mkPatch { x0 : Z; y0 : Z; pimg : option arr }.

(** Patch.shape, patch.py:221-225, as (h, w). *)
Definition pshape (p : patch) : Z * Z :=
  match pimg p with None => (0, 0) | Some a => (ah a, aw a) end.

(** Patch.getExtent (margin 0), patch.py:206-213. *)
Definition get_extent (p : patch) : Z * Z * Z * Z :=
  let '(h, w) := pshape p in (x0 p, x0 p + w, y0 p, y0 p + h).

(** get_overlapping_region(xlo, xhi, xmin, xmax) of astrometry.net's
    util/miscutils.py (imported at patch.py:172, 320, 342; not in /repo,
    transcribed from its documented behaviour): None stands for ([], []). *)
Definition get_overlapping_region (xlo xhi xmin xmax : Z) : option (sl * sl) :=
  if (xlo >? xmax) || (xhi <? xmin) || (xlo >? xhi) || (xmin >? xmax) then None
  else
    let Xlo := Z.max xlo xmin in
    let Xhi := Z.min xhi xmax in
    Some (mkSl Xlo (Xhi + 1), mkSl (Xlo - xlo) (Xlo - xlo + (Xhi - Xlo) + 1)).

(** Patch.addTo, patch.py:341-354. *)
Definition add_to (add mul : V -> V -> V) (p : patch) (img : arr) (scale : V) : res arr :=
  match pimg p with
  | None => Ok img
  | Some a =>
      match get_overlapping_region (x0 p) (x0 p + aw a - 1) 0 (aw img - 1),
            get_overlapping_region (y0 p) (y0 p + ah a - 1) 0 (ah img - 1) with
      | Some (outx, inx), Some (outy, iny) =>
          let s := asub a iny inx in
          aupd add img outy outx (mkArr (ah s) (aw s) (fun y x => mul (px s y x) scale))
      | _, _ => Ok img
      end
  end.

(** Patch.getSlices(shape), patch.py:313-329: (iny, inx, outy, outx). *)
Definition get_slices (p : patch) (ih iw : Z) : sl * sl * (sl * sl) :=
  let '(ph, pw) := pshape p in
  match get_overlapping_region (x0 p) (x0 p + pw - 1) 0 (iw - 1),
        get_overlapping_region (y0 p) (y0 p + ph - 1) 0 (ih - 1) with
  | Some (outx, inx), Some (outy, iny) => (iny, inx, (outy, outx))
  | _, _ => (mkSl 0 0, mkSl 0 0, (mkSl 0 0, mkSl 0 0))
  end.

(** np.clip(v, lo, hi). *)
Definition np_clip (v lo hi : Z) : Z := Z.min (Z.max v lo) hi.

(** Patch.getSlice(parent), patch.py:302-311, with a parent image; None for
    the no-data patch ([], []). *)
Definition get_slice_in (p : patch) (H W : Z) : option (sl * sl) :=
  match pimg p with
  | None => None
  | Some a => Some (mkSl (np_clip (y0 p) 0 H) (np_clip (y0 p + ah a) 0 H),
                    mkSl (np_clip (x0 p) 0 W) (np_clip (x0 p + aw a) 0 W))
  end.

(** Patch.clipTo(W, H), patch.py:241-278: the new patch and the return value.
    The closing assertions (272-277) are checked. *)
Definition clip_to (p : patch) (W H : Z) : res (patch * bool) :=
  match pimg p with
  | None => Ok (p, false)
  | Some a =>
      if x0 p >=? W then Ok (mkPatch (x0 p) (y0 p) None, false)
      else if y0 p >=? H then Ok (mkPatch (x0 p) (y0 p) None, false)
      else
        let '(a1, X) := if x0 p <? 0
                        then (asub a (sl_all (ah a)) (sl_from (- x0 p) (aw a)), 0)
                        else (a, x0 p) in
        let '(a2, Y) := if y0 p <? 0
                        then (asub a1 (sl_from (- y0 p) (ah a1)) (sl_all (aw a1)), 0)
                        else (a1, y0 p) in
        let h := ah a2 in
        let w := aw a2 in
        let a3 := if X + w >? W then asub a2 (sl_all (ah a2)) (sl_to (W - X)) else a2 in
        let a4 := if Y + h >? H then asub a3 (sl_to (H - Y)) (sl_all (aw a3)) else a3 in
        if (X >=? 0) && (Y >=? 0) && (aw a4 <=? W) && (ah a4 <=? H)
        then Ok (mkPatch X Y (Some a4), true)
        else Err AssertionError
  end.

(** Patch.clipToRoi(x0, x1, y0, y1), patch.py:280-300. *)
Definition clip_to_roi (p : patch) (rx0 rx1 ry0 ry1 : Z) : patch * bool :=
  match pimg p with
  | None => (p, false)
  | Some a =>
      if (x0 p >=? rx1) || (x0 p + aw a <=? rx0) || (y0 p >=? ry1) || (y0 p + ah a <=? ry0)
      then (mkPatch (x0 p) (y0 p) None, false)
      else
        let '(a1, X) := if x0 p <? rx0
                        then (asub a (sl_all (ah a)) (sl_from (rx0 - x0 p) (aw a)), rx0)
                        else (a, x0 p) in
        let '(a2, Y) := if y0 p <? ry0
                        then (asub a1 (sl_from (ry0 - y0 p) (ah a1)) (sl_all (aw a1)), ry0)
                        else (a1, y0 p) in
        let h := ah a2 in
        let w := aw a2 in
        let a3 := if X + w >? rx1 then asub a2 (sl_all (ah a2)) (sl_to (rx1 - X)) else a2 in
        let a4 := if Y + h >? ry1 then asub a3 (sl_to (ry1 - Y)) (sl_all (aw a3)) else a3 in
        (mkPatch X Y (Some a4), true)
  end.

(** Patch.performArithmetic, patch.py:406-440; [f] is the in-place operation
    (__iadd__ or __isub__).  With a no-data self and another extent,
    self.patch.shape raises (420); with a no-data other, the in-place
    operation gets None (438). *)
Definition perform_arithmetic (zero : V) (f : V -> V -> V) (p q : patch) : res patch :=
  if (x0 p =? x0 q) && (y0 p =? y0 q) &&
     (fst (pshape p) =? fst (pshape q)) && (snd (pshape p) =? snd (pshape q)) then
    match pimg p, pimg q with
    | Some a, Some b =>
        Ok (mkPatch (x0 p) (y0 p) (Some (mkArr (ah a) (aw a) (fun y x => f (px a y x) (px b y x)))))
    | _, _ => Ok (mkPatch (x0 p) (y0 p) None)
    end
  else
    match pimg p with
    | None => Err AttributeError
    | Some a =>
        let '(oh, ow) := pshape q in
        let ux0 := Z.min (x0 q) (x0 p) in
        let uy0 := Z.min (y0 q) (y0 p) in
        let ux1 := Z.max (x0 q + ow) (x0 p + aw a) in
        let uy1 := Z.max (y0 q + oh) (y0 p + ah a) in
        let z := mkArr (uy1 - uy0) (ux1 - ux0) (fun _ _ => zero) in
        z1 <- aupd (fun _ v => v) z (mkSl (y0 p - uy0) (y0 p - uy0 + ah a))
                                    (mkSl (x0 p - ux0) (x0 p - ux0 + aw a)) a ;;
        match pimg q with
        | None => Err TypeError
        | Some b =>
            z2 <- aupd f z1 (mkSl (y0 q - uy0) (y0 q - uy0 + oh))
                            (mkSl (x0 q - ux0) (x0 q - ux0 + ow)) b ;;
            Ok (mkPatch ux0 uy0 (Some z2))
        end
    end.

(** add_patches, patch.py:61-68 ([p += pb] is [p + pb]: Patch has no
    __iadd__). *)
Definition add_patches (zero : V) (add : V -> V -> V) (pa pb : option patch) : res (option patch) :=
  match pb with
  | None => Ok pa
  | Some q => match pa with
              | None => Ok (Some q)
              | Some p => r <- perform_arithmetic zero add p q ;; Ok (Some r)
              end
  end.

(** ** trimToNonZero, patch.py:121-157 *)

(** np.all(patch[:, x] == 0) and np.all(patch[y, :] == 0). *)
Definition col_zero (isz : V -> bool) (a : arr) (x : nat) : bool :=
  forallb (fun y => isz (px a (Z.of_nat y) (Z.of_nat x))) (seq 0 (Z.to_nat (ah a))).
Definition row_zero (isz : V -> bool) (a : arr) (y : nat) : bool :=
  forallb (fun x => isz (px a (Z.of_nat y) (Z.of_nat x))) (seq 0 (Z.to_nat (aw a))).

(** [for x in range(W): if not z(x): break]: the value of x afterwards (W > 0);
    [n] iterations remain from [x]. *)
Fixpoint first_loop (z : nat -> bool) (n x : nat) : nat :=
  match n with
  | O => x
  | S O => x
  | S n' => if negb (z x) then x else first_loop z n' (S x)
  end.

(** [for x in range(W, 0, -1): if not z(x-1): break; if x <= lo: break]:
    the value of x afterwards, counting down from [x]. *)
Fixpoint last_loop (z : nat -> bool) (lo x : nat) : nat :=
  match x with
  | O => O   (* not reached: the range is not empty and stops at 1 *)
  | S x' =>
      if negb (z x') then x
      else if (x <=? lo)%nat then x
      else match x' with O => x | _ => last_loop z lo x' end
  end.

Definition trim (isz : V -> bool) (p : patch) : patch :=
  match pimg p with
  | None => p
  | Some a =>
      if (aw a =? 0) || (ah a =? 0) then p
      else
        let W := Z.to_nat (aw a) in
        let H := Z.to_nat (ah a) in
        let cx0 := first_loop (col_zero isz a) W 0 in
        let cx1 := last_loop (col_zero isz a) cx0 W in
        let cy0 := first_loop (row_zero isz a) H 0 in
        let cy1 := last_loop (row_zero isz a) cy0 H in
        if (cx0 =? 0)%nat && (cy0 =? 0)%nat && (cx1 =? W)%nat && (cy1 =? H)%nat then p
        else
          let s := asub a (mkSl (Z.of_nat cy0) (Z.of_nat cy1)) (mkSl (Z.of_nat cx0) (Z.of_nat cx1)) in
          mkPatch (x0 p + Z.of_nat cx0) (y0 p + Z.of_nat cy0)
            (if (ah s =? 0) || (aw s =? 0) then None else Some s)
  end.

(** ** Overlap tests, patch.py:159-186 *)

(** Patch.overlapsBbox, patch.py:159-165; box is (x0, x1, y0, y1). *)
Definition overlaps_bbox (p : patch) (box : Z * Z * Z * Z) : bool :=
  let '(px0, px1, py0, py1) := get_extent p in
  let '(ox0, ox1, oy0, oy1) := box in
  negb ((px0 >=? ox1) || (ox0 >=? px1) || (py0 >=? oy1) || (oy0 >=? py1)).

(** Patch.hasBboxOverlapWith, patch.py:167-169. *)
Definition has_bbox_overlap (p q : patch) : bool := overlaps_bbox p (get_extent q).

(** Sum over an array, in row-major order from [z] (np.sum; the order NumPy
    really uses differs, which matters only for rounding). *)
Fixpoint sum_upto (add : V -> V -> V) (z : V) (f : nat -> V) (n : nat) : V :=
  match n with O => z | S k => add (sum_upto add z f k) (f k) end.
Definition arr_sum (add : V -> V -> V) (zero : V) (a : arr) : V :=
  sum_upto add zero (fun y => sum_upto add zero (fun x => px a (Z.of_nat y) (Z.of_nat x))
    (Z.to_nat (aw a))) (Z.to_nat (ah a)).

(** Patch.hasNonzeroOverlapWith, patch.py:171-186.  An empty list from
    get_overlapping_region has no .start (180-181). *)
Definition has_nonzero_overlap (add mul : V -> V -> V) (zero : V) (gt0 : V -> bool)
    (p q : patch) : res bool :=
  if negb (has_bbox_overlap p q) then Ok false
  else
    let '(px0, px1, py0, py1) := get_extent p in
    let '(ox0, ox1, oy0, oy1) := get_extent q in
    match get_overlapping_region ox0 (ox1 - 1) px0 (px1 - 1),
          get_overlapping_region oy0 (oy1 - 1) py0 (py1 - 1) with
    | Some (ix, ox), Some (iy, oy) =>
        let ix := mkSl (sstart ix - px0) (sstop ix - px0) in
        let iy := mkSl (sstart iy - py0) (sstop iy - py0) in
        match pimg p, pimg q with
        | Some a, Some b =>
            let sub := asub a iy ix in
            let osub := asub b oy ox in
            if same_shape sub osub then
              Ok (gt0 (arr_sum add zero (mkArr (ah sub) (aw sub)
                        (fun y x => mul (px sub y x) (px osub y x)))))
            else Err AssertionError
        | _, _ => Err TypeError
        end
    | _, _ => Err AttributeError
    end.

End Arr.
Arguments arr : clear implicits.
Arguments patch : clear implicits.

(** ** getPixelIndices, patch.py:331-337, with dtype int32: every operation
    wraps. *)
Definition wrap32 (z : Z) : Z := ((z + 2147483648) mod 4294967296) - 2147483648.

Definition get_pixel_indices {V} (p : patch V) (W : Z) : list Z :=
  match pimg p with
  | None => []
  | Some a =>
      flat_map (fun y => map (fun x =>
          wrap32 (wrap32 (Z.of_nat x + wrap32 (x0 p)) +
                  wrap32 (wrap32 (Z.of_nat y + wrap32 (y0 p)) * wrap32 W)))
        (seq 0 (Z.to_nat (aw a)))) (seq 0 (Z.to_nat (ah a)))
  end.
