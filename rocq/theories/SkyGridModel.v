(** Estimating a spline sky from an image: tractor/splinesky.py
    median_estimator and SplineSky.BlantonMethod (lines 7-51), and the checks
    made when the spline is built (lines 53-73).  Pixels are rationals or NaN
    ([None]); rounding is not modelled; sizes are small enough for floor
    divisions of floats to be exact. *)
From Coq Require Import List ZArith QArith Bool Lia.
From Verif Require Import Base.
Import ListNotations.
Local Open Scope Z_scope.

Definition px : Type := option Q.
(** range(n) and the indices of a slice lo:hi with 0 <= lo. *)
Definition zrange (lo hi : Z) : list Z := map (fun k => lo + Z.of_nat k) (seq 0 (Z.to_nat (hi - lo))).

(** *** The control points, splinesky.py:24-33: one axis of length [W].
    np.round(W // float(halfbox)) is W // halfbox; astype(int) truncates. *)
Definition n_nodes (W hb : Z) : Z := W / hb + 2.
Definition start (W hb : Z) : Z := (W - (n_nodes W hb - 2) * hb) / 2.
Definition node (W hb i : Z) : Z := start W hb + Z.quot (hb * (2 * i - 1)) 2.
Definition nodes (W hb : Z) : list Z := map (node W hb) (zrange 0 (n_nodes W hb)).
(** int(max(0, x - halfbox)), int(min(W, x + halfbox)), lines 38, 40 *)
Definition box_lo (hb x : Z) : Z := Z.max 0 (x - hb).
Definition box_hi (W hb x : Z) : Z := Z.min W (x + hb).

(** *** The estimator, splinesky.py:7-16.  [cells] are the pixels of the box
    with their mask flags. *)
Fixpoint insert (v : Q) (l : list Q) : list Q :=
  match l with
  | [] => [v]
  | x :: r => if Qle_bool v x then v :: l else x :: insert v r
  end.
Fixpoint sort (l : list Q) : list Q := match l with [] => [] | v :: r => insert v (sort r) end.
(** np.median: NaN if there is one, the middle value or the mean of the two
    middle values. *)
Fixpoint all_numbers (l : list px) : option (list Q) :=
  match l with
  | [] => Some []
  | None :: _ => None
  | Some v :: r => match all_numbers r with Some r => Some (v :: r) | None => None end
  end.
Definition np_median (l : list px) : px :=
  match all_numbers l with
  | None => None
  | Some vs =>
      let s := sort vs in
      let n := length vs in
      if Nat.odd n then Some (nth (n / 2) s 0%Q)
      else Some ((1 # 2) * (nth (n / 2 - 1) s 0 + nth (n / 2) s 0))%Q
  end.
Definition median_estimator (min_fraction : option Q) (cells : list (px * bool)) : px :=
  let n := length cells in
  let pix := map fst (filter snd cells) in
  let few := match min_fraction with
             | Some f => Qle_bool (inject_Z (Z.of_nat (length pix))) (inject_Z (Z.of_nat n) * f)
             | None => false
             end in
  if few then Some 0%Q
  else match pix with [] => Some 0%Q | _ => np_median pix end.

(** *** BlantonMethod, splinesky.py:20-51: images and masks are functions of
    row and column.  Without a mask, [msk] is unbound when it is used (line
    44). *)
Definition cells_of (image : Z -> Z -> px) (mask : Z -> Z -> bool) (ylo yhi xlo xhi : Z) : list (px * bool) :=
  flat_map (fun y => map (fun x => (image y x, mask y x)) (zrange xlo xhi)) (zrange ylo yhi).
Fixpoint mapr {A B} (f : A -> res B) (l : list A) : res (list B) :=
  match l with
  | [] => Ok []
  | a :: r => b <- f a ;; r <- mapr f r ;; Ok (b :: r)
  end.
Definition grid_value (est : list (px * bool) -> px) (image : Z -> Z -> px) (mask : option (Z -> Z -> bool))
  (H W hb y x : Z) : res Q :=
  match mask with
  | None => Err UnboundLocalError
  | Some m =>
      match est (cells_of image m (box_lo hb y) (box_hi H hb y) (box_lo hb x) (box_hi W hb x)) with
      | None => Err AssertionError
      | Some g => Ok g
      end
  end.
(** SplineSky(xgrid, ygrid, grid): RectBivariateSpline wants strictly increasing
    positions (ValueError) and more of them than its order, 3 (an error of
    scipy, here RuntimeError). *)
Fixpoint increasing (l : list Z) : bool :=
  match l with
  | a :: ((b :: _) as r) => (a <? b) && increasing r
  | _ => true
  end.
Record spline_data : Type := mkSD { sd_x : list Z; sd_y : list Z; sd_v : list (list Q) }.
Definition new_spline (xs ys : list Z) (v : list (list Q)) : res spline_data :=
  if negb (increasing xs && increasing ys) then Err ValueError
  else if negb ((3 <? length xs)%nat && (3 <? length ys)%nat) then Err RuntimeError
  else Ok (mkSD xs ys v).
Definition blanton (est : list (px * bool) -> px) (image : Z -> Z -> px) (mask : option (Z -> Z -> bool)) (H W gridsize : Z) : res spline_data :=
  let hb := gridsize / 2 in
  if hb =? 0 then Err ZeroDivisionError else
  let xs := nodes W hb in
  let ys := nodes H hb in
  g <- mapr (fun y => mapr (fun x => grid_value est image mask H W hb y x) xs) ys ;;
  new_spline xs ys g.
