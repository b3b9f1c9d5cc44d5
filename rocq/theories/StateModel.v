(** The report of what is frozen: getParamStateRecursive of NamedParams
    (tractor/utils.py:529-536) and MultiParams (1088-1101); the comparisons of
    ScalarParam (307-332).

    Objects as in ParamsModel.  functools.total_ordering (line 20) is modelled
    from its source in Python 3. *)
From Coq Require Import String List Bool ZArith QArith.
From Verif Require Import Base Ext ParamsModel.
Import ListNotations.

Section State.
Context {V : Type}.
(** (name, thawed, thawed with what is around it) *)
Definition row : Type := (list comp * bool * bool)%type.
Definition label (nm : names) (i : nat) : comp := match named_param_name nm i with Some s => CName s | None => CParam i end.

(** NamedParams, utils.py:529-536 *)
Fixpoint list_state (nm : names) (liq : list bool) (j : nat) : list row :=
  match liq with [] => [] | b :: ls => ([label nm j], b, b) :: list_state nm ls (S j) end.
(** The loop of MultiParams, utils.py:1090-1100; [f] gives snames *)
Definition state_walk (nm : names) (f : ptree V -> res (list row)) :=
  fix go (subs : list (ptree V)) (liq : list bool) (i : nat) : res (list row) :=
    match subs, liq with
    | s :: ss, l :: ls =>
        snames <- f s ;;
        rest <- go ss ls (S i) ;;
        Ok (([label nm i], l, true) :: map (fun r => (label nm i :: fst (fst r), snd (fst r), l && snd r)) snames ++ rest)
    | _, _ => Ok []
    end.
(** snames of a member, utils.py:1095-1098: None has neither method *)
Fixpoint state_of (t : ptree V) : res (list row) :=
  match t with
  | PNone => Err AttributeError
  | PFixed => Ok []
  | PScalar s => Ok [([CName (s_cls s)], true, true)]
  | PList l => Ok (list_state (l_names l) (l_liquid l) 0)
  | PMulti nm subs liq => state_walk nm state_of subs liq 0
  end.
(** getParamStateRecursive; scalars and the like have none *)
Definition get_param_state (t : ptree V) : res (list row) :=
  match t with PList _ | PMulti _ _ _ => state_of t | _ => Err AttributeError end.
End State.

(** ** Comparisons, utils.py:307-332.  The other operand is a ScalarParam with
    its value or something without getValue. *)
Inductive operand : Type := Scalar (v : ext) | Thing.
Definition value (o : operand) : res ext := match o with Scalar v => Ok v | Thing => Err AttributeError end.
(** == of floats *)
Definition eeqb (a b : ext) : bool :=
  match a, b with Fin x, Fin y => Qeq_bool x y | PInf, PInf => true | NInf, NInf => true | _, _ => false end.
(** __eq__ and __lt__, utils.py:328-332 *)
Definition eq_ (a : ext) (o : operand) : res bool := b <- value o ;; Ok (eeqb a b).
Definition lt_ (a : ext) (o : operand) : res bool := b <- value o ;; Ok (eltb a b).
(** != is not ==; the others as total_ordering adds them *)
Definition ne_ (a : ext) (o : operand) : res bool := e <- eq_ a o ;; Ok (negb e).
Definition gt_ (a : ext) (o : operand) : res bool := l <- lt_ a o ;; if l then Ok false else ne_ a o.
Definition le_ (a : ext) (o : operand) : res bool := l <- lt_ a o ;; if l then Ok true else eq_ a o.
Definition ge_ (a : ext) (o : operand) : res bool := l <- lt_ a o ;; Ok (negb l).
