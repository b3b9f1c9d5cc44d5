(** Freeze/thaw calls on one object and list edits of a group
    (tractor/utils.py:556-614, 616-639, 940-957).  Unlike in ParamsModel.v the
    state after an exception is represented. *)
From Coq Require Import String List ZArith Bool Lia.
From Verif Require Import Base ParamsModel.
Import ListNotations.

(** An argument of freezeParam/thawParam: an integer index (utils.py:561) or a
    name.  thawParam's third case, a parameter object (594-596), is not
    modelled. *)
Inductive key : Type := KInt (i : Z) | KName (n : string).

(** State and outcome: the flags after the call and the exception, if any. *)
Definition outcome : Type := option exn.

(** NamedParams.freezeParam / thawParam, utils.py:560-566, 585-598. *)
Definition set_flag (nm : names) (b : bool) (k : key) (liq : list bool)
  : list bool * outcome :=
  match k with
  | KInt i =>
      match py_index (length liq) i with
      | Some j => (upd j b liq, None)
      | None => (liq, Some IndexError)
      end
  | KName n =>
      match named_param_index nm n with
      | None => (liq, Some AssertionError)
      | Some j => if j <? length liq then (upd j b liq, None) else (liq, Some IndexError)
      end
  end.

(** NamedParams.freezeParams / thawParams, utils.py:556-558, 600-602. *)
Fixpoint set_flags (nm : names) (b : bool) (ks : list key) (liq : list bool)
  : list bool * outcome :=
  match ks with
  | [] => (liq, None)
  | k :: r =>
      match set_flag nm b k liq with
      | (liq', None) => set_flags nm b r liq'
      | (liq', Some e) => (liq', Some e)
      end
  end.

Inductive fop : Type :=
| FreezeParams (ks : list key)      (** freezeParam(k), freezeParams(k, ...) *)
| ThawParams (ks : list key)        (** thawParam(k), thawParams(k, ...) *)
| FreezeAllBut (ks : list key)      (** utils.py:568-570 *)
| FreezeAll                         (** utils.py:613-614 *)
| ThawAll.                          (** utils.py:604-605 *)

Definition all_flags (b : bool) (liq : list bool) : list bool := map (fun _ => b) liq.

Definition fstep (nm : names) (liq : list bool) (op : fop) : list bool * outcome :=
  match op with
  | FreezeParams ks => set_flags nm false ks liq
  | ThawParams ks => set_flags nm true ks liq
  | FreezeAllBut ks => set_flags nm true ks (all_flags false liq)
  | FreezeAll => (all_flags false liq, None)
  | ThawAll => (all_flags true liq, None)
  end.

(** A history; exceptions are caught by the caller, who carries on. *)
Definition frun (nm : names) (liq : list bool) (ops : list fop) : list bool :=
  fold_left (fun l op => fst (fstep nm l op)) ops liq.

(** NamedParams.getThawedParamIndices / getFrozenParamIndices,
    utils.py:622-631. *)
Fixpoint indices_where (b : bool) (i : nat) (liq : list bool) : list nat :=
  match liq with
  | [] => []
  | x :: r => if Bool.eqb x b then i :: indices_where b (S i) r else indices_where b (S i) r
  end.
Definition thawed_indices := indices_where true 0.
Definition frozen_indices := indices_where false 0.

(** ** List edits of a group (Catalog, Images): members are identified by an
    arbitrary type with decidable equality, as Python's [list.index] does
    with ==. *)
Section Group.
Context {I : Type} (eqb : I -> I -> bool).

Record group : Type := mkGroup { g_subs : list I; g_liquid : list bool }.

Inductive gop : Type :=
| GAppend (x : I)            (** utils.py:941-943 *)
| GPrepend (x : I)           (** utils.py:945-947 *)
| GExtend (xs : list I)      (** utils.py:949-951 *)
| GRemove (x : I)            (** utils.py:953-957 *)
| GFlag (b : bool) (k : key) (** freezeParam / thawParam *)
| GFlagAll (b : bool).       (** freezeAllParams / thawAllParams *)

(** list.index *)
Fixpoint find_index (x : I) (l : list I) : option nat :=
  match l with
  | [] => None
  | y :: r => if eqb y x then Some 0 else option_map S (find_index x r)
  end.

Definition gstep (nm : names) (g : group) (op : gop) : group * outcome :=
  match op with
  | GAppend x => (mkGroup (g_subs g ++ [x]) (g_liquid g ++ [true]), None)
  | GPrepend x => (mkGroup (x :: g_subs g) (true :: g_liquid g), None)
  | GExtend xs => (mkGroup (g_subs g ++ xs) (g_liquid g ++ map (fun _ => true) xs), None)
  | GRemove x =>
      match find_index x (g_subs g) with
      | None => (g, Some ValueError)
      | Some i => (mkGroup (firstn i (g_subs g) ++ skipn (i + 1) (g_subs g))
                           (firstn i (g_liquid g) ++ skipn (i + 1) (g_liquid g)), None)
      end
  | GFlag b k => let r := set_flag nm b k (g_liquid g) in (mkGroup (g_subs g) (fst r), snd r)
  | GFlagAll b => (mkGroup (g_subs g) (all_flags b (g_liquid g)), None)
  end.

Definition grun (nm : names) (g : group) (ops : list gop) : group :=
  fold_left (fun g op => fst (gstep nm g op)) ops g.
End Group.
Arguments mkGroup {I} _ _.
Arguments g_subs {I} _.
Arguments g_liquid {I} _.
