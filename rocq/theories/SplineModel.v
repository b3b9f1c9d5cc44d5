(** The smoothness prior of the spline sky, tractor/splinesky.py:18-195, and
    the way lsqr_optimizer.py:433-487 puts prior blocks into the sparse system
    when a block names one column per entry (an array) instead of one column.
    Numbers are rationals: rounding is not modelled.  The spline itself (scipy)
    is not modelled except for the order of its coefficients. *)
From Coq Require Import List ZArith QArith Bool Lia Arith.
From Verif Require Import Base PriorModel.
Import ListNotations.
Open Scope Q_scope.

(** The attributes of SplineSky used here, splinesky.py:53-82; sp_vals is the
    coefficient list c. *)
Record spline : Type := mkSpline {
  sp_W : nat; sp_H : nat; sp_vals : list Q; sp_liquid : list bool;
  sp_sigma : option Q; sp_x0 : Q; sp_y0 : Q }.

(** copy, splinesky.py:84-90: refitting the grid values of a spline gives its
    coefficients again (property of the interpolation, trusted); __init__ sets
    prior_smooth_sigma to None. *)
Definition sp_copy (s : spline) : spline :=
  mkSpline (sp_W s) (sp_H s) (sp_vals s) (sp_liquid s) None (sp_x0 s) (sp_y0 s).
(** shift, shifted, splinesky.py:96-103. *)
Definition sp_shift (s : spline) (x y : Q) : spline :=
  mkSpline (sp_W s) (sp_H s) (sp_vals s) (sp_liquid s) (sp_sigma s) (sp_x0 s + x) (sp_y0 s + y).
Definition sp_shifted (s : spline) (x y : Q) : spline := sp_shift (sp_copy s) x y.
(** setPriorSmoothness, splinesky.py:122-127. *)
Definition sp_set_prior (s : spline) (sig : Q) : spline :=
  mkSpline (sp_W s) (sp_H s) (sp_vals s) (sp_liquid s) (Some sig) (sp_x0 s) (sp_y0 s).

(** np.ravel of an h x w array. *)
Definition ravel {A} (h w : nat) (f : nat -> nat -> A) : list A :=
  flat_map (fun i => map (fun j => f i j) (seq 0 w)) (seq 0 h).
(** getParamGrid, splinesky.py:137-141; reshape(H, -1) fills row by row. *)
Definition param_grid (s : spline) : res (nat -> nat -> Q) :=
  if (length (sp_vals s) =? sp_W s * sp_H s)%nat
  then Ok (fun i j => nth (i * sp_W s + j) (sp_vals s) 0) else Err AssertionError.

(** getLogPrior, splinesky.py:143-150. *)
Definition sp_log_prior (s : spline) : res Q :=
  match sp_sigma s with
  | None => Ok 0
  | Some sig =>
      p <- param_grid s ;;
      Ok ((-1 # 2) * qsum (ravel (sp_H s - 1) (sp_W s) (fun i j => qsq (p (i + 1)%nat j - p i j))) / qsq sig
          + (-1 # 2) * qsum (ravel (sp_H s) (sp_W s - 1) (fun i j => qsq (p i (j + 1)%nat - p i j))) / qsq sig)
  end.

(** A block of the prior matrix: rows, columns and values of equal length. *)
Definition block : Type := (list nat * list nat * list Q)%type.
(** getLogPriorDerivatives, splinesky.py:152-195: rA, cA, vA as blocks, pb. *)
Definition sp_prior_rows (s : spline) : res (option (list block * list (list Q))) :=
  match sp_sigma s with
  | None => Ok None
  | Some sig =>
      p <- param_grid s ;;
      let W := sp_W s in let H := sp_H s in
      let dx := ravel H (W - 1) (fun i j => p i (j + 1)%nat - p i j) in
      let dy := ravel (H - 1) W (fun i j => p (i + 1)%nat j - p i j) in
      let NX := length dx in
      let NY := length dy in
      Ok (Some ([ (seq 0 NX, ravel H (W - 1) (fun i j => i * W + j)%nat, repeat (1 / sig) NX);
                  (seq 0 NX, ravel H (W - 1) (fun i j => i * W + (j + 1))%nat, repeat (- (1) / sig) NX);
                  (seq NX NY, ravel (H - 1) W (fun i j => i * W + j)%nat, repeat (1 / sig) NY);
                  (seq NX NY, ravel (H - 1) W (fun i j => (i + 1) * W + j)%nat, repeat (- (1) / sig) NY) ],
                [map (fun d => d / sig) dx; map (fun d => d / sig) dy]))
  end.

(** listmax, utils.py:51-55, plus one, of the row lists (listmax(rA, -1) + 1). *)
Definition rows_needed (bs : list block) : nat :=
  fold_right Nat.max 0%nat (map (fun b => fold_right Nat.max 0%nat (map S (fst (fst b)))) bs).
(** MultiParams.getLogPriorDerivatives, utils.py:1258-1260: the column offset
    of the sky within all parameters (the row offset is that of the other
    priors, here part of [nrows]). *)
Definition offset_cols (c0 : nat) (bs : list block) : list block :=
  map (fun b => (fst (fst b), map (Nat.add c0) (snd (fst b)), snd b)) bs.
(** lsqr_optimizer.py:441-455 and 475-487: [nrows] rows exist already.  With
    column scaling "if scale == 0" tests an array: ValueError unless the array
    has one element (an empty one counts as False).  Otherwise the entries of
    the matrix (538-551) and the right-hand side; b[oldnrows:] = np.hstack(pb)
    raises ValueError if lengths differ.  The scaled values themselves are left
    out ([None]). *)
Definition assemble (scale_columns : bool) (nrows : nat) (bs : list block) (pb : list (list Q))
  : res (option (list (nat * nat * Q) * list Q)) :=
  if negb (length (concat pb) =? rows_needed bs)%nat then Err ValueError else
  if scale_columns then
    if existsb (fun b => (1 <? length (snd (fst b)))%nat) bs then Err ValueError else Ok None
  else Ok (Some (flat_map (fun b => combine (combine (map (Nat.add nrows) (fst (fst b))) (snd (fst b))) (snd b)) bs,
                 concat pb)).
