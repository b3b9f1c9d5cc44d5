(** The ordered dictionary that comes with the Tractor for old Pythons, used by
    the model cache (tractor/cache.py:47-51): tractor/ordereddict.py:26-129.

    The linked list is kept in a heap of nodes [key, prev, next] addressed by
    numbers; node 0 is the sentinel.  Nodes are never freed.  The underlying
    dict and __map are association lists whose order nothing looks at.  Methods
    mixed in from UserDict.DictMixin of Python 2 (pop, setdefault, update,
    values, items) are modelled from its source.  Iteration has a bound on the
    steps; None: more steps are needed.  The dictionary is not changed while it
    is iterated over. *)
From Coq Require Import List Arith Bool.
From Verif Require Import Base.
Import ListNotations.
Local Open Scope list_scope.

Section Odict.
Context {K V : Type} (K_eq : forall a b : K, {a = b} + {a <> b}) (V_eq : V -> V -> bool).

Record node : Type := mkNode { n_key : option K; n_prev : nat; n_next : nat }.
Record odict : Type := mkOdict { heap : nat -> node; fresh : nat; kmap : list (K * nat); dict : list (K * V) }.

Fixpoint find {A} (k : K) (l : list (K * A)) : option A :=
  match l with [] => None | (k', a) :: l => if K_eq k k' then Some a else find k l end.
Fixpoint del {A} (k : K) (l : list (K * A)) : list (K * A) :=
  match l with [] => [] | (k', a) :: l => if K_eq k k' then del k l else (k', a) :: del k l end.
Definition store {A} (k : K) (a : A) (l : list (K * A)) : list (K * A) := (k, a) :: del k l.

Definition put (h : nat -> node) (a : nat) (n : node) : nat -> node := fun b => if (b =? a)%nat then n else h b.
Definition set_prev (h : nat -> node) (a p : nat) := put h a (mkNode (n_key (h a)) p (n_next (h a))).
Definition set_next (h : nat -> node) (a q : nat) := put h a (mkNode (n_key (h a)) (n_prev (h a)) q).

(** clear, lines 37-41 *)
Definition clear : odict := mkOdict (fun _ => mkNode None 0 0) 1 [] [].
(** __setitem__, lines 43-48 *)
Definition setitem (d : odict) (k : K) (v : V) : odict :=
  match find k (dict d) with
  | Some _ => mkOdict (heap d) (fresh d) (kmap d) (store k v (dict d))
  | None =>
      let curr := n_prev (heap d 0) in
      let new := fresh d in
      let h := put (heap d) new (mkNode (Some k) curr 0) in
      let h := set_next h curr new in
      let h := set_prev h 0 new in
      mkOdict h (S new) (store k new (kmap d)) (store k v (dict d))
  end.
(** __delitem__, lines 50-54 *)
Definition delitem (d : odict) (k : K) : res odict :=
  match find k (dict d) with
  | None => Err KeyError
  | Some _ =>
      match find k (kmap d) with
      | None => Err KeyError
      | Some a =>
          let n := heap d a in
          let h := set_next (heap d) (n_prev n) (n_next n) in
          let h := set_prev h (n_next n) (n_prev n) in
          Ok (mkOdict h (fresh d) (del k (kmap d)) (del k (dict d)))
      end
  end.
Definition getitem (d : odict) (k : K) : res V := match find k (dict d) with Some v => Ok v | None => Err KeyError end.
(** __iter__ and __reversed__, lines 56-68, at node [a] with [fuel] steps left *)
Fixpoint walk (next : nat -> nat) (h : nat -> node) (fuel a : nat) : option (list (option K)) :=
  match fuel with
  | O => None
  | S f => if (a =? 0)%nat then Some [] else match walk next h f (next a) with Some l => Some (n_key (h a) :: l) | None => None end
  end.
Definition forwards (d : odict) (fuel : nat) := walk (fun a => n_next (heap d a)) (heap d) fuel (n_next (heap d 0)).
Definition backwards (d : odict) (fuel : nat) := walk (fun a => n_prev (heap d a)) (heap d) fuel (n_prev (heap d 0)).
(** pop of DictMixin without a default *)
Definition pop (d : odict) (k : K) : res (odict * V) := v <- getitem d k ;; d <- delitem d k ;; Ok (d, v).
(** popitem, lines 70-78; the sentinel has no key of its own *)
Definition popitem (d : odict) (last : bool) : res (odict * (K * V)) :=
  match dict d with
  | [] => Err KeyError
  | _ =>
      let a := if last then n_prev (heap d 0) else n_next (heap d 0) in
      match n_key (heap d a) with
      | None => Err KeyError
      | Some k => '(d, v) <- pop d k ;; Ok (d, (k, v))
      end
  end.
(** setdefault of DictMixin *)
Definition setdefault (d : odict) (k : K) (v : V) : odict * V :=
  match find k (dict d) with Some u => (d, u) | None => (setitem d k v, v) end.
(** update of DictMixin with pairs; __init__ with pairs, lines 28-35; the
    other half of __reduce__, lines 80-88 *)
Definition update (d : odict) (l : list (K * V)) : odict := fold_left (fun d kv => setitem d (fst kv) (snd kv)) l d.
Definition from_pairs (l : list (K * V)) : odict := update clear l.
(** items of DictMixin, lines 80-82 and copy, 111-112: keys in order, with
    their values *)
Fixpoint with_values (d : odict) (ks : list (option K)) : res (list (K * V)) :=
  match ks with
  | [] => Ok []
  | None :: _ => Err KeyError
  | Some k :: ks => v <- getitem d k ;; l <- with_values d ks ;; Ok ((k, v) :: l)
  end.
Definition items (d : odict) (fuel : nat) : option (res (list (K * V))) :=
  match forwards d fuel with Some ks => Some (with_values d ks) | None => None end.
Definition copy (d : odict) (fuel : nat) : option (res odict) :=
  match items d fuel with Some r => Some (l <- r ;; Ok (from_pairs l)) | None => None end.
(** __eq__ of two of these, lines 117-124, given their items *)
Fixpoint eq_items (l m : list (K * V)) : bool :=
  match l, m with
  | (k, v) :: l, (k', v') :: m => if K_eq k k' then (if V_eq v v' then eq_items l m else false) else false
  | _, _ => true
  end.
Definition equal (d e : odict) (fuel : nat) : option (res bool) :=
  if negb (length (dict d) =? length (dict e))%nat then Some (Ok false) else
  match items d fuel, items e fuel with
  | Some a, Some b => Some (l <- a ;; m <- b ;; Ok (eq_items l m))
  | _, _ => None
  end.
End Odict.
