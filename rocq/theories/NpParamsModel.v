(** Model of NpArrayParams, tractor/utils.py:1272-1296: the entries of a numpy
    array offered as parameters.

    The array is modelled as what numpy holds: a buffer and a rule from
    (row, column) to an offset in that buffer.  [np.array(a)] (1278) keeps the
    memory order of an array it is given (its default is order='K'), so an
    object built from a transposed or Fortran-ordered array is itself in
    Fortran order; lists and C-ordered arrays give C order.  One-dimensional
    arrays are those with one row.  More than two axes and arrays with a
    stride of their own are not modelled (np.array(a) never makes the latter).
    Entries are of an arbitrary type, so nothing is said of dtypes. *)
From Coq Require Import List Arith ZArith Bool.
From Verif Require Import Base ParamsModel.
Import ListNotations.

Section NpParams.
Variable V : Type.

(** A numpy array of two axes. *)
Record nda : Type := mkNda { nr : nat; nc : nat; fortran : bool; buf : list V }.

(** The offset of entry (i, j). *)
Definition offset (a : nda) (i j : nat) : nat :=
  if fortran a then i + j * nr a else i * nc a + j.

Definition entry (a : nda) (i j : nat) : option V := nth_error (buf a) (offset a i j).

(** numpy's C-contiguity flag: C order, or at most one row or column. *)
Definition contiguous (a : nda) : bool :=
  negb (fortran a) || (nr a <=? 1) || (nc a <=? 1).

(** [a.ravel()] read as a list: the entries row by row. *)
Definition flat (a : nda) : list V :=
  flat_map (fun i => flat_map (fun j => match entry a i j with Some v => [v] | None => [] end)
                       (seq 0 (nc a)))
    (seq 0 (nr a)).

(** The instance: attributes a (1278), lowers, uppers, maxstep (ParamList's
    __init__ 715-720 is called without values, 1279), liquid (1283). *)
Record npp : Type := mkNpp {
  np_a : nda;
  np_liquid : list bool;
  np_lowers : list (option V);
  np_uppers : list (option V);
  np_maxstep : list (option V)
}.

(** __init__, utils.py:1277-1283. *)
Definition np_init (a : nda) : npp :=
  mkNpp a (repeat true (length (flat a))) [] [] [].

Definition with_a (o : npp) (a : nda) : npp :=
  mkNpp a (np_liquid o) (np_lowers o) (np_uppers o) (np_maxstep o).

(** _setThing(i, val), utils.py:753-754, with [self.vals] found by
    __getattr__ (1285-1287): [self.a.ravel()[i] = val].  ravel() is a view of
    the array when that is C-contiguous and otherwise a copy, which is
    dropped after the assignment. *)
Definition set_thing (a : nda) (i : nat) (v : V) : res nda :=
  if i <? length (flat a) then
    Ok (if contiguous a then mkNda (nr a) (nc a) (fortran a) (upd i v (buf a)) else a)
  else Err IndexError.

(** setParams, utils.py:775-777 with _indexBoth 701-707. *)
Fixpoint np_set_loop (liq : list bool) (i j : nat) (p : list V) (a : nda) : res nda :=
  match liq with
  | [] => Ok a
  | true :: ls =>
      x <- py_get p i ;; a' <- set_thing a j x ;; np_set_loop ls (S i) (S j) p a'
  | false :: ls => np_set_loop ls i (S j) p a
  end.

Definition np_set_params (o : npp) (p : list V) : res npp :=
  a <- np_set_loop (np_liquid o) 0 0 p (np_a o) ;; Ok (with_a o a).

(** setParam, utils.py:769-773. *)
Definition np_set_param (o : npp) (i : Z) (v : V) : res (npp * V) :=
  ii <- index_liquid (np_liquid o) i ;;
  old <- py_get (flat (np_a o)) ii ;;
  a <- set_thing (np_a o) ii v ;;
  Ok (with_a o a, old).

(** setAllParams, utils.py:795-797. *)
Fixpoint np_setall_loop (i : nat) (p : list V) (a : nda) : res nda :=
  match p with
  | [] => Ok a
  | x :: r => a' <- set_thing a i x ;; np_setall_loop (S i) r a'
  end.

Definition np_set_all (o : npp) (p : list V) : res npp :=
  a <- np_setall_loop 0 p (np_a o) ;; Ok (with_a o a).

(** getParams 782-786, getAllParams 788-789, numberOfParams 779-780. *)
Definition np_get_params (o : npp) : list V := keep (np_liquid o) (flat (np_a o)).
Definition np_get_all (o : npp) : list V := flat (np_a o).
Definition np_number (o : npp) : nat := count_true (np_liquid o).

(** getLowerBounds / getUpperBounds / getMaxStep, utils.py:799-806. *)
Definition np_get_lowers (o : npp) : list (option V) := keep (np_liquid o) (np_lowers o).
Definition np_get_uppers (o : npp) : list (option V) := keep (np_liquid o) (np_uppers o).
Definition np_get_maxstep (o : npp) : list (option V) := keep (np_liquid o) (np_maxstep o).

(** copy, utils.py:722-725 and BaseParams.copy 206-207:
    [self.__class__( *self.getAllParams())].  __init__ takes one argument, so
    any other number of values is a TypeError; one value makes an array of no
    axes, which as a table has one row and one column. *)
Definition np_copy (o : npp) : res npp :=
  match np_get_all o with
  | [v] =>
      let o' := np_init (mkNda 1 1 false [v]) in
      Ok (mkNpp (np_a o') (np_liquid o) (np_lowers o') (np_uppers o') (np_maxstep o'))
  | _ => Err TypeError
  end.

(** A group (MultiParams) holding this object and then an ordinary list of
    parameters, both thawed: what its getParams (utils.py:1147-1153) and
    getLowerBounds (1183-1187) return, the concatenation over its members. *)
Definition pair_params (o : npp) (l : plist V) : list V :=
  np_get_params o ++ keep (l_liquid l) (l_vals l).
Definition pair_lowers (o : npp) (l : plist V) : list (option V) :=
  np_get_lowers o ++ keep (l_liquid l) (l_lowers l).

End NpParams.

Arguments mkNda {V} _ _ _ _.
Arguments nr {V} _.
Arguments nc {V} _.
Arguments fortran {V} _.
Arguments buf {V} _.
Arguments entry {V} _ _ _.
Arguments contiguous {V} _.
Arguments flat {V} _.
Arguments mkNpp {V} _ _ _ _ _.
Arguments np_a {V} _.
Arguments np_liquid {V} _.
Arguments np_lowers {V} _.
Arguments np_uppers {V} _.
Arguments np_maxstep {V} _.
Arguments np_init {V} _.
Arguments set_thing {V} _ _ _.
Arguments np_set_loop {V} _ _ _ _ _.
Arguments np_set_params {V} _ _.
Arguments np_set_param {V} _ _ _.
Arguments np_setall_loop {V} _ _ _.
Arguments np_set_all {V} _ _.
Arguments np_get_params {V} _.
Arguments np_get_all {V} _.
Arguments np_number {V} _.
Arguments np_get_lowers {V} _.
Arguments np_get_uppers {V} _.
Arguments np_get_maxstep {V} _.
Arguments np_copy {V} _.
Arguments pair_params {V} _ _.
Arguments pair_lowers {V} _ _.
