(** Tangent-plane coordinates as parameters: tractor/wcs.py ConstantFitsWcs and
    TanWcs (lines 153-370) with the methods of tractor/utils.py ParamList
    (lines 710-806) that TanWcs inherits.  Real numbers.  The Tan object of
    astrometry.net is its eight numbers; its projection on the tangent plane at
    the reference point is a pair of functions, the linear part (CD matrix and
    reference pixel) is written out.  Tan objects are cells of a store: a TanWcs
    keeps a reference to the one it was made from. *)
From Coq Require Import String List ZArith Reals Bool.
From Verif Require Import Base.
Import ListNotations.
Local Open Scope R_scope.
Local Open Scope list_scope.

Record tan : Type := mkTan {
  crval1 : R; crval2 : R; crpix1 : R; crpix2 : R; cd11 : R; cd12 : R; cd21 : R; cd22 : R }.
Definition matrix : Type := (R * R) * (R * R).
Definition tan_cd (t : tan) : matrix := ((cd11 t, cd12 t), (cd21 t, cd22 t)).
Definition mdet (m : matrix) : R := fst (fst m) * snd (snd m) - snd (fst m) * fst (snd m).
(** np.linalg.inv of a 2x2 matrix *)
Definition minv (m : matrix) : matrix :=
  ((snd (snd m) / mdet m, - snd (fst m) / mdet m), (- fst (snd m) / mdet m, fst (fst m) / mdet m)).
Definition mapply (m : matrix) (v : R * R) : R * R :=
  (fst (fst m) * fst v + snd (fst m) * snd v, fst (snd m) * fst v + snd (snd m) * snd v).
(** astrometry.net tan_pixel_scale: arcseconds per pixel *)
Definition tan_pixel_scale (t : tan) : R := 3600 * sqrt (Rabs (mdet (tan_cd t))).

Section Tan.
(** reference point, then position on the sky (to the plane) or in the plane
    (to the sky) *)
Context (plane sky : R * R -> R * R -> R * R).

Definition radec2pixelxy (t : tan) (p : R * R) : R * R :=
  let d := mapply (minv (tan_cd t)) (plane (crval1 t, crval2 t) p) in (crpix1 t + fst d, crpix2 t + snd d).
Definition pixelxy2radec (t : tan) (xy : R * R) : R * R :=
  sky (crval1 t, crval2 t) (mapply (tan_cd t) (fst xy - crpix1 t, snd xy - crpix2 t)).

Definition store : Type := list tan.
(** The attributes of a TanWcs: wcs (reference), x0, y0, liquid, and the three
    attributes computed when it is made (wcs.py:167-171). *)
Record twcs : Type := mkTw {
  ref : nat; wx0 : R; wy0 : R; liquid : list bool; acd : matrix; acd_inverse : matrix; apixscale : R }.
Definition get_tan (h : store) (w : twcs) : res tan := py_get h (ref w).
(** TanWcs.__init__, wcs.py:271-301, ConstantFitsWcs.__init__, wcs.py:159-171,
    NamedParams.__init__, utils.py:413-416: all ten parameters are thawed.
    np.linalg.inv raises for singular matrices (LinAlgError, here ValueError). *)
Definition new_tan (h : store) (r : nat) : res twcs :=
  t <- py_get h r ;;
  if Req_EM_T (mdet (tan_cd t)) 0 then Err ValueError
  else Ok (mkTw r 0 0 (repeat true 10) (tan_cd t) (minv (tan_cd t)) (tan_pixel_scale t)).
(** _setThing, wcs.py:317-336 *)
Definition set_thing (h : store) (w : twcs) (i : nat) (v : R) : res (store * twcs) :=
  t <- get_tan h w ;;
  let put t := Ok (upd (ref w) t h, w) in
  match i with
  | 0%nat => put (mkTan v (crval2 t) (crpix1 t) (crpix2 t) (cd11 t) (cd12 t) (cd21 t) (cd22 t))
  | 1%nat => put (mkTan (crval1 t) v (crpix1 t) (crpix2 t) (cd11 t) (cd12 t) (cd21 t) (cd22 t))
  | 2%nat => put (mkTan (crval1 t) (crval2 t) v (crpix2 t) (cd11 t) (cd12 t) (cd21 t) (cd22 t))
  | 3%nat => put (mkTan (crval1 t) (crval2 t) (crpix1 t) v (cd11 t) (cd12 t) (cd21 t) (cd22 t))
  | 4%nat => put (mkTan (crval1 t) (crval2 t) (crpix1 t) (crpix2 t) v (cd12 t) (cd21 t) (cd22 t))
  | 5%nat => put (mkTan (crval1 t) (crval2 t) (crpix1 t) (crpix2 t) (cd11 t) v (cd21 t) (cd22 t))
  | 6%nat => put (mkTan (crval1 t) (crval2 t) (crpix1 t) (crpix2 t) (cd11 t) (cd12 t) v (cd22 t))
  | 7%nat => put (mkTan (crval1 t) (crval2 t) (crpix1 t) (crpix2 t) (cd11 t) (cd12 t) (cd21 t) v)
  | 8%nat => Ok (h, mkTw (ref w) v (wy0 w) (liquid w) (acd w) (acd_inverse w) (apixscale w))
  | 9%nat => Ok (h, mkTw (ref w) (wx0 w) v (liquid w) (acd w) (acd_inverse w) (apixscale w))
  | _ => Err IndexError
  end.
(** _getThing, wcs.py:338-354 *)
Definition get_thing (h : store) (w : twcs) (i : nat) : res R :=
  t <- get_tan h w ;;
  match i with
  | 0%nat => Ok (crval1 t) | 1%nat => Ok (crval2 t) | 2%nat => Ok (crpix1 t) | 3%nat => Ok (crpix2 t)
  | 4%nat => Ok (cd11 t) | 5%nat => Ok (cd12 t) | 6%nat => Ok (cd21 t) | 7%nat => Ok (cd22 t)
  | 8%nat => Ok (wx0 w) | 9%nat => Ok (wy0 w) | _ => Err IndexError
  end.
(** _getThings, wcs.py:356-358 *)
Definition get_things (h : store) (w : twcs) : res (list R) :=
  t <- get_tan h w ;;
  Ok ([crval1 t; crval2 t] ++ [crpix1 t; crpix2 t] ++ [cd11 t; cd12 t; cd21 t; cd22 t] ++ [wx0 w; wy0 w]).
(** getParams, setParams, setParam with _indexLiquid, utils.py:766-786, 690-707 *)
Definition get_params (h : store) (w : twcs) : res (list R) := l <- get_things h w ;; Ok (keep (liquid w) l).
Fixpoint set_from (h : store) (w : twcs) (liq : list bool) (j : nat) (p : list R) : res (store * twcs) :=
  match liq with
  | [] => Ok (h, w)
  | false :: liq => set_from h w liq (S j) p
  | true :: liq => match p with
                   | [] => Err IndexError
                   | v :: p => '(h, w) <- set_thing h w j v ;; set_from h w liq (S j) p
                   end
  end.
Definition set_params (h : store) (w : twcs) (p : list R) : res (store * twcs) := set_from h w (liquid w) 0 p.
Fixpoint index_liquid (liq : list bool) (j raw : nat) : res nat :=
  match liq with
  | [] => Err IndexError
  | false :: liq => index_liquid liq j (S raw)
  | true :: liq => match j with 0%nat => Ok raw | S j => index_liquid liq j (S raw) end
  end.
Definition set_param (h : store) (w : twcs) (i : nat) (v : R) : res (store * twcs * R) :=
  j <- index_liquid (liquid w) i 0 ;; old <- get_thing h w j ;; '(h, w) <- set_thing h w j v ;; Ok (h, w, old).
(** getNamedParams, wcs.py:266-269 *)
Definition named_params : list (string * nat) :=
  [("crval1", 0); ("crval2", 1); ("crpix1", 2); ("crpix2", 3); ("cd1_1", 4); ("cd1_2", 5); ("cd2_1", 6); ("cd2_2", 7)]%string%nat.
(** getLowerBounds etc., utils.py:799-806, of the empty lists made by
    ParamList.__init__ without arguments (utils.py:715-720) *)
Definition lower_bounds (w : twcs) : list (option R) := keep (liquid w) [].
(** getStepSizes, wcs.py:363-370 *)
Definition step_sizes (h : store) (w : twcs) : res (list R) :=
  t <- get_tan h w ;;
  let dcrval := tan_pixel_scale t / 3600 in
  let dcd := tan_pixel_scale t / 3600 / 1000 in
  Ok (keep (liquid w) [dcrval; dcrval; 1; 1; dcd; dcd; dcd; dcd; 1; 1]).
(** positionToPixel and pixelToPosition, wcs.py:203-225 *)
Definition position_to_pixel (h : store) (w : twcs) (p : R * R) : res (R * R) :=
  t <- get_tan h w ;; let xy := radec2pixelxy t p in Ok (fst xy - 1 - wx0 w, snd xy - 1 - wy0 w).
Definition pixel_to_position (h : store) (w : twcs) (x y : R) : res (R * R) :=
  t <- get_tan h w ;; Ok (pixelxy2radec t (x + 1 + wx0 w, y + 1 + wy0 w)).
(** cdAtPixel, cdInverseAtPixel, pixel_scale, wcs.py:227-246 *)
Definition cd_at_pixel (w : twcs) (x y : R) : matrix := acd w.
Definition cd_inverse_at_pixel (w : twcs) (x y : R) : matrix := acd_inverse w.
Definition pixel_scale (w : twcs) : R := apixscale w.
(** copy and shifted, wcs.py:303-313 *)
Definition copy (h : store) (w : twcs) : res (store * twcs) :=
  t <- get_tan h w ;;
  let h := h ++ [t] in
  c <- new_tan h (length h - 1) ;;
  Ok (h, mkTw (ref c) (wx0 w) (wy0 w) (liquid c) (acd c) (acd_inverse c) (apixscale c)).
Definition shifted (h : store) (w : twcs) (dx dy : R) : res (store * twcs) :=
  '(h, c) <- copy h w ;;
  Ok (h, mkTw (ref c) (wx0 w + dx) (wy0 w + dy) (liquid c) (acd c) (acd_inverse c) (apixscale c)).
(** hashkey, wcs.py:173-174 *)
Definition hashkey (w : twcs) : R * R * nat := (wx0 w, wy0 w, ref w).

(** Any sequence of parameter changes of one object. *)
Inductive op : Type := OpParams (p : list R) | OpParam (i : nat) (v : R) | OpFlags (l : list bool).
Definition run_op (h : store) (w : twcs) (o : op) : res (store * twcs) :=
  match o with
  | OpParams p => set_params h w p
  | OpParam i v => '(h, w, _) <- set_param h w i v ;; Ok (h, w)
  | OpFlags l => if (length l =? length (liquid w))%nat
                 then Ok (h, mkTw (ref w) (wx0 w) (wy0 w) l (acd w) (acd_inverse w) (apixscale w)) else Err IndexError
  end.
Fixpoint run (h : store) (w : twcs) (l : list op) : res (store * twcs) :=
  match l with [] => Ok (h, w) | o :: l => '(h, w) <- run_op h w o ;; run h w l end.

(** *** TractorWCSWrapper, basics.py:125-165: a Tractor WCS seen as a FITS one.
    The vectorized branch goes through the positions one by one. *)
Definition wrapper_xy2radec (h : store) (w : twcs) (x0 y0 x y : R) : res (R * R) :=
  pixel_to_position h w (x + x0 - 1) (y + y0 - 1).
Definition wrapper_radec2xy (h : store) (w : twcs) (x0 y0 : R) (p : R * R) : res (R * R) :=
  xy <- position_to_pixel h w p ;; Ok (fst xy - x0 + 1, snd xy - y0 + 1).
Fixpoint wrapper_vector (h : store) (w : twcs) (x0 y0 : R) (l : list (R * R)) : res (list (R * R)) :=
  match l with
  | [] => Ok []
  | p :: l => xy <- position_to_pixel h w p ;; r <- wrapper_vector h w x0 y0 l ;; Ok ((fst xy + (1 - x0), snd xy + (1 - y0)) :: r)
  end.
End Tan.
