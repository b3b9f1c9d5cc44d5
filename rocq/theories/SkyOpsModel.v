(** Spline skies: tractor/splinesky.py SplineSky.__init__, copy, get_grid,
    shift, shifted, offset, scale, setPriorSmoothness, evaluateGrid, addTo (lines 53-135),
    to_fits_table and from_fits_row (lines 211-261), with the parameters of
    tractor/utils.py ParamList (lines 756-792).  Real numbers.  scipy's
    RectBivariateSpline is given by two functions: [fit], the coefficients of
    the spline through given values, and [basis], the functions that the
    coefficients multiply.  The coefficient array is a cell of a store, since
    it is shared by the spline (tck) and the parameter list (vals). *)
From Coq Require Import List ZArith Reals Bool.
From Verif Require Import Base.
Import ListNotations.
Local Open Scope R_scope.

Section Sky.
(** positions of the control points, order, number of the coefficient, x, y *)
Context (basis : list R -> list R -> nat -> nat -> R -> R -> R).
(** the values are rows (one per y) of values per x: bg, of which bg.T is given
    to scipy *)
Context (fit : list R -> list R -> nat -> list (list R) -> list R).

Fixpoint dot (b : nat -> R) (k : nat) (c : list R) : R :=
  match c with [] => 0 | v :: c => v * b k + dot b (S k) c end.
Definition ev (xs ys : list R) (ord : nat) (c : list R) (x y : R) : R := dot (fun k => basis xs ys ord k x y) 0 c.

Definition store : Type := list (list R).
Record sky : Type := mkSky {
  xgrid : list R; ygrid : list R; order : nat;
  tck : nat; vals : nat;               (* cells of the store *)
  liquid : list bool; sx0 : R; sy0 : R;
  smooth : option R }.                 (* prior_smooth_sigma *)
Fixpoint increasing (l : list R) : bool :=
  match l with
  | a :: ((b :: _) as r) => (if Rlt_dec a b then true else false) && increasing r
  | _ => true
  end.
(** __init__, splinesky.py:53-82: scipy checks the positions (ValueError) and
    their number (here RuntimeError). *)
Definition new_sky (h : store) (xs ys : list R) (bg : list (list R)) (ord : nat) : res (store * sky) :=
  if negb (increasing xs && increasing ys) then Err ValueError
  else if negb ((ord <? length xs)%nat && (ord <? length ys)%nat) then Err RuntimeError
  else let c := fit xs ys ord bg in
       Ok (h ++ [c], mkSky xs ys ord (length h) (length h) (repeat true (length c)) 0 0 None).
Definition cell (h : store) (r : nat) : res (list R) := py_get h r.
(** getAllParams, utils.py:785-786 *)
Definition all_params (h : store) (s : sky) : res (list R) := cell h (vals s).
(** getParams, utils.py:778-782 *)
Definition get_params (h : store) (s : sky) : res (list R) := c <- cell h (vals s) ;; Ok (keep (liquid s) c).
(** setParam on a raw index, utils.py:756-757: in place *)
Definition set_raw (h : store) (s : sky) (j : nat) (v : R) : res store :=
  c <- cell h (vals s) ;;
  if (j <? length c)%nat then Ok (upd (vals s) (upd j v c) h) else Err IndexError.
(** setParams, utils.py:774-776: _indexBoth with p[i] *)
Fixpoint set_from (h : store) (s : sky) (liq : list bool) (j : nat) (p : list R) : res store :=
  match liq with
  | [] => Ok h
  | false :: liq => set_from h s liq (S j) p
  | true :: liq => match p with
                   | [] => Err IndexError
                   | v :: p => h <- set_raw h s j v ;; set_from h s liq (S j) p
                   end
  end.
Definition set_params (h : store) (s : sky) (p : list R) : res store := set_from h s (liquid s) 0 p.
(** offset, splinesky.py:105-110: c += dsky in place; self.vals = c *)
Definition offset (h : store) (s : sky) (d : R) : res (store * sky) :=
  c <- cell h (tck s) ;;
  Ok (upd (tck s) (map (fun v => v + d) c) h, mkSky (xgrid s) (ygrid s) (order s) (tck s) (tck s) (liquid s) (sx0 s) (sy0 s) (smooth s)).
(** scale, splinesky.py:114-120 *)
Definition scale (h : store) (s : sky) (f : R) : res (store * sky) :=
  c <- cell h (tck s) ;;
  Ok (upd (tck s) (map (fun v => v * f) c) h, mkSky (xgrid s) (ygrid s) (order s) (tck s) (tck s) (liquid s) (sx0 s) (sy0 s) (smooth s)).
(** shift, splinesky.py:96-98 *)
Definition shift (s : sky) (x y : R) : sky :=
  mkSky (xgrid s) (ygrid s) (order s) (tck s) (vals s) (liquid s) (sx0 s + x) (sy0 s + y) (smooth s).
(** setPriorSmoothness, splinesky.py:122-127 *)
Definition set_smooth (s : sky) (v : option R) : sky :=
  mkSky (xgrid s) (ygrid s) (order s) (tck s) (vals s) (liquid s) (sx0 s) (sy0 s) v.
(** get_grid, splinesky.py:92-94 *)
Definition get_grid (h : store) (s : sky) : res (list (list R)) :=
  c <- cell h (tck s) ;;
  Ok (map (fun y => map (fun x => ev (xgrid s) (ygrid s) (order s) c x y) (xgrid s)) (ygrid s)).
(** copy, splinesky.py:84-90 *)
Definition copy (h : store) (s : sky) : res (store * sky) :=
  g <- get_grid h s ;;
  '(h, c) <- new_sky h (xgrid s) (ygrid s) g (order s) ;;
  Ok (h, mkSky (xgrid c) (ygrid c) (order c) (tck c) (vals c) (liquid s) (sx0 s) (sy0 s) (smooth c)).
(** shifted, splinesky.py:100-103 *)
Definition shifted (h : store) (s : sky) (x y : R) : res (store * sky) :=
  '(h, c) <- copy h s ;; Ok (h, shift c x y).
(** evaluateGrid, splinesky.py:129-130 *)
Definition evaluate_grid (h : store) (s : sky) (xv yv : list R) : res (list (list R)) :=
  c <- cell h (tck s) ;;
  Ok (map (fun y => map (fun x => ev (xgrid s) (ygrid s) (order s) c (x + sx0 s) (y + sy0 s)) xv) yv).
(** addTo, splinesky.py:132-135, of an image of H rows and W columns *)
Definition arange (n : nat) : list R := map INR (seq 0 n).
Fixpoint map2 {A B C} (f : A -> B -> C) (l : list A) (m : list B) : list C :=
  match l, m with a :: l, b :: m => f a b :: map2 f l m | _, _ => [] end.
Definition add_to (h : store) (s : sky) (H W : nat) (mod_ : list (list R)) (f : R) : res (list (list R)) :=
  g <- evaluate_grid h s (arange W) (arange H) ;;
  Ok (map2 (map2 (fun m v => m + v * f)) mod_ g).

(** *** Tables: to_fits_table and from_fits_row, splinesky.py:211-228, 255-261.
    Positions and offsets are written as integers (astype(int32) truncates);
    the rounding of the values to 32-bit floats is not modelled. *)
Definition trunc (x : R) : R := if Rle_dec 0 x then IZR (Int_part x) else - IZR (Int_part (- x)).
Record row : Type := mkRow { t_x : list R; t_y : list R; t_x0 : R; t_y0 : R; t_v : list (list R); t_order : nat }.
Definition to_row (h : store) (s : sky) : res row :=
  g <- get_grid h s ;;
  Ok (mkRow (map trunc (xgrid s)) (map trunc (ygrid s)) (trunc (sx0 s)) (trunc (sy0 s)) g (order s)).
Definition from_row (h : store) (t : row) : res (store * sky) :=
  '(h, s) <- new_sky h (t_x t) (t_y t) (t_v t) (t_order t) ;; Ok (h, shift s (t_x0 t) (t_y0 t)).

(** Any sequence of changes. *)
Inductive op : Type := OpSet (p : list R) | OpOffset (d : R) | OpScale (f : R) | OpShift (x y : R) | OpSmooth (v : option R).
Definition run_op (h : store) (s : sky) (o : op) : res (store * sky) :=
  match o with
  | OpSet p => h <- set_params h s p ;; Ok (h, s)
  | OpOffset d => offset h s d
  | OpScale f => scale h s f
  | OpShift x y => Ok (h, shift s x y)
  | OpSmooth v => Ok (h, set_smooth s v)
  end.
Fixpoint run (h : store) (s : sky) (l : list op) : res (store * sky) :=
  match l with
  | [] => Ok (h, s)
  | o :: l => '(h, s) <- run_op h s o ;; run h s l
  end.
End Sky.
