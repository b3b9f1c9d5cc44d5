(** Model of tractor/cache.py: the LRU cache and the model-caching mixin.

    The OrderedDict is an association list in insertion order (oldest first).
    Entry sizes and per-entry hit counts, which only feed the printing
    methods, are left out. *)
From Coq Require Import List ZArith Bool Lia.
From Verif Require Import Base.
Import ListNotations.

Section Cache.
Context {K V : Type}.
Variable keq : forall a b : K, {a = b} + {a <> b}.

Definition odict := list (K * V).

Fixpoint od_find (k : K) (d : odict) : option V :=
  match d with
  | [] => None
  | (k', v) :: r => if keq k k' then Some v else od_find k r
  end.

Fixpoint od_remove (k : K) (d : odict) : odict :=
  match d with
  | [] => []
  | (k', v) :: r => if keq k k' then r else (k', v) :: od_remove k r
  end.

(** d[k] = v: an existing key keeps its position. *)
Fixpoint od_set (k : K) (v : V) (d : odict) : odict :=
  match d with
  | [] => [(k, v)]
  | (k', v') :: r => if keq k k' then (k', v) :: r else (k', v') :: od_set k v r
  end.

(** The Cache object: dict, hits, misses, maxsize (cache.py:61-91). *)
Record cache : Type := mkCache { cdict : odict; chits : nat; cmisses : nat; cmax : Z }.

(** Cache.__init__ and clear, cache.py:65-68, 75-91. *)
Definition cache_new (maxsize : Z) : cache := mkCache [] 0 0 maxsize.
Definition cache_clear (c : cache) : cache := mkCache [] 0 0 (cmax c).

(** Cache.__setitem__, cache.py:93-107.  dict.popitem(0) is popitem(last=0):
    the oldest entry; on an empty dictionary it raises KeyError. *)
Definition cache_put (c : cache) (k : K) (v : V) : res cache :=
  d <- (if (Z.of_nat (length (cdict c)) >=? cmax c)%Z
        then match cdict c with [] => Err KeyError | _ :: r => Ok r end
        else Ok (cdict c)) ;;
  Ok (mkCache (od_set k v d) (chits c) (cmisses c) (cmax c)).

(** Cache.__getitem__, cache.py:109-122: the result and the new cache (a miss
    changes the miss count before raising). *)
Definition cache_getitem (c : cache) (k : K) : cache * res V :=
  match od_find k (cdict c) with
  | None => (mkCache (cdict c) (chits c) (S (cmisses c)) (cmax c), Err KeyError)
  | Some v => (mkCache (od_set k v (od_remove k (cdict c))) (S (chits c)) (cmisses c) (cmax c), Ok v)
  end.

(** Cache.get(key, default), cache.py:130-139. *)
Definition cache_get (c : cache) (k : K) (dflt : V) : cache * V :=
  match cache_getitem c k with
  | (c', Ok v) => (c', v)
  | (c', Err _) => (c', dflt)
  end.

(** Histories. *)
Inductive cop : Type :=
| CGet (k : K)            (* cache[k], or cache.get(k, default) *)
| CPut (k : K) (v : V)
| CClear.

Definition cstep (c : cache) (o : cop) : cache :=
  match o with
  | CGet k => fst (cache_getitem c k)
  | CPut k v => match cache_put c k v with Ok c' => c' | Err _ => c end
  | CClear => cache_clear c
  end.

Definition crun (n : Z) (h : list cop) : cache := fold_left cstep h (cache_new n).
End Cache.
Arguments cache : clear implicits.
Arguments cop : clear implicits.

(** ** TractorCacheMixin.getModelPatch, cache.py:20-44

    [P] is the state of all parameters, [M] the registered model masks,
    [hk p i s] is hash((img.hashkey(), src.hashkey())), and [base p m i s b]
    is Tractor.getModelPatch(img, src, minsb=b, **kwargs) for fixed kwargs
    ([None] when the source has no model there); [base0] is the same without a
    minsb argument.  [mgt a b] is a > b on surface brightness limits, [zero_sb]
    is 0., [minval p i] is img.modelMinval, [fin] is np.all(np.isfinite(.)). *)
Section Mixin.
Context {K P M I S B D : Type}.
Variable keq : forall a b : K, {a = b} + {a <> b}.
Variable hk : P -> I -> S -> K.
Variable base : P -> M -> I -> S -> B -> option D.
Variable base0 : P -> M -> I -> S -> option D.
Variable mgt : B -> B -> bool.
Variable zero_sb : B.
Variable minval : P -> I -> B.
Variable fin : D -> bool.

Definition mcache := cache K (B * option D).

(** [None] for the cache is the disabled cache (disable_cache, 14-15). *)
Definition mixin_get (p : P) (m : M) (c : option mcache) (i : I) (s : S) (minsb : option B)
  : option mcache * res (option D) :=
  match c with
  | None => (None, Ok (base0 p m i s))
  | Some c =>
      let deps := hk p i s in
      let '(c1, (mv, md)) := cache_get keq c deps (zero_sb, None) in
      let b := match minsb with Some b => b | None => minval p i end in
      let md := if mgt mv b then None else md in
      match md with
      | Some d => (Some c1, if fin d then Ok (Some d) else Err AssertionError)
      | None =>
          let md := base p m i s b in
          match cache_put keq c1 deps (b, md) with
          | Err e => (Some c1, Err e)
          | Ok c2 => (Some c2, match md with
                               | Some d => if fin d then Ok md else Err AssertionError
                               | None => Ok None
                               end)
          end
      end
  end.

(** Histories: requests, parameter changes, mask changes, clearCache. *)
Inductive mop : Type :=
| MRequest (i : I) (s : S) (minsb : option B)
| MParams (p : P)
| MMasks (m : M)
| MClear.

(** The world at a request and its outcome. *)
Record mout : Type := mkOut { op_ : P; om : M; oi : I; os : S; omin : option B; ores : res (option D) }.

Fixpoint mrun (p : P) (m : M) (c : mcache) (h : list mop) : list mout :=
  match h with
  | [] => []
  | MRequest i s b :: r =>
      let '(c', x) := mixin_get p m (Some c) i s b in
      mkOut p m i s b x :: mrun p m (match c' with Some c' => c' | None => c end) r
  | MParams p' :: r => mrun p' m c r
  | MMasks m' :: r => mrun p m' c r
  | MClear :: r => mrun p m (cache_clear c) r
  end.
End Mixin.
