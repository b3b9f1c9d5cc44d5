(** The parameter objects of tractor/utils.py as mutable Python objects in a
    heap, to say what a copy shares with its original.

    Every Python list (vals, liquid, lowers, uppers, maxstep, gpriors, subs) is
    an object of its own, as are ScalarParam, ParamList, MultiParams and
    parameter-less BaseParams instances; an address is an index into the heap,
    allocation appends, nothing is ever freed.  Unlike in ParamsModel.v objects
    may be shared.  The optional attribute 'stepsizes' is an object too.
    Names and class are immutable data of the object.  A method that raises
    yields [Err] without a heap. *)
From Coq Require Import String List ZArith Bool Lia.
From Verif Require Import Base ParamsModel.
Import ListNotations.

Section Heap.
Context {V : Type}.
Variable one : V.

Inductive cell : Type :=
| KFixed
| KScalar (s : scalar V)
| KList (nm : names) (vals liq lo up mx : nat) (steps : option nat) (pri : nat)
| KMulti (nm : names) (subs liq : nat)
| KV (l : list V)
| KB (l : list bool)
| KO (l : list (option V))
| KP (l : list (prior V))
| KS (l : list (option nat)).      (* members of a group; None is Python's None *)

Definition heap := list cell.

(** What an object refers to. *)
Definition ptrs (c : cell) : list nat :=
  match c with
  | KList _ a b c d e f g => [a; b; c; d; e; g] ++ match f with Some x => [x] | None => [] end
  | KMulti _ a b => [a; b]
  | KS l => flat_map (fun o => match o with Some a => [a] | None => [] end) l
  | _ => []
  end.

Definition get_v (h : heap) (a : nat) : option (list V) := match nth_error h a with Some (KV l) => Some l | _ => None end.
Definition get_b (h : heap) (a : nat) : option (list bool) := match nth_error h a with Some (KB l) => Some l | _ => None end.
Definition get_o (h : heap) (a : nat) : option (list (option V)) := match nth_error h a with Some (KO l) => Some l | _ => None end.
Definition get_p (h : heap) (a : nat) : option (list (prior V)) := match nth_error h a with Some (KP l) => Some l | _ => None end.
Definition get_s (h : heap) (a : nat) : option (list (option nat)) := match nth_error h a with Some (KS l) => Some l | _ => None end.

(** The tree of values an object stands for, looking at most [n] levels deep. *)
Definition read_all (f : option nat -> option (ptree V)) :=
  fix go (l : list (option nat)) : option (list (ptree V)) :=
    match l with
    | [] => Some []
    | x :: r => match f x, go r with Some t, Some ts => Some (t :: ts) | _, _ => None end
    end.
Fixpoint read (n : nat) (h : heap) (r : option nat) : option (ptree V) :=
  match n with
  | 0 => None
  | S n' =>
      match r with
      | None => Some PNone
      | Some a =>
          match nth_error h a with
          | Some KFixed => Some PFixed
          | Some (KScalar s) => Some (PScalar s)
          | Some (KList nm v b lo up mx st pr) =>
              match get_v h v, get_b h b, get_o h lo, get_o h up, get_o h mx, get_p h pr,
                    match st with None => Some None | Some x => match get_v h x with Some l => Some (Some l) | None => None end end with
              | Some v', Some b', Some lo', Some up', Some mx', Some pr', Some st' =>
                  Some (PList (mkPlist nm v' b' lo' up' mx' st' pr'))
              | _, _, _, _, _, _, _ => None
              end
          | Some (KMulti nm s b) =>
              match get_s h s, get_b h b with
              | Some ss, Some b' =>
                  match read_all (read n' h) ss with Some ts => Some (PMulti nm ts b') | None => None end
              | _, _ => None
              end
          | _ => None
          end
      end
  end.

(** ** Methods on objects; [n] bounds the depth, [TypeError] stands for an
    object of the wrong kind. *)

(** [s.copy() for s in self.subs], utils.py:936. *)
Definition copy_all (f : heap -> nat -> res (heap * nat)) :=
  fix go (h : heap) (l : list (option nat)) : res (heap * list (option nat)) :=
    match l with
    | [] => Ok (h, [])
    | None :: _ => Err AttributeError
    | Some a :: r =>
        x <- f h a ;;
        y <- go (fst x) r ;;
        Ok (fst y, Some (snd x) :: snd y)
    end.

(** copy: BaseParams utils.py:206-207, ScalarParam 334-335, ParamList 722-725
    (with __init__ 715-720 and 136-144), MultiParams 935-938.  The liquid list
    made by __init__ and dropped at once is not allocated. *)
Fixpoint h_copy (n : nat) (h : heap) (a : nat) : res (heap * nat) :=
  match n with
  | 0 => Err RuntimeError
  | S n' =>
      match nth_error h a with
      | Some KFixed => Ok (h ++ [KFixed], length h)
      | Some (KScalar s) =>
          Ok (h ++ [KScalar (mkScalar (s_cls s) (s_val s) None None None one)], length h)
      | Some (KList nm v b _ _ _ _ _) =>
          match get_v h v, get_b h b with
          | Some vs, Some bs =>
              let k := length h in
              let nones := map (fun _ => None) vs in
              Ok (h ++ [KV vs; KO nones; KO nones; KO nones; KP []; KB bs;
                        KList nm k (k + 5) (k + 1) (k + 2) (k + 3) None (k + 4)], k + 6)
          | _, _ => Err TypeError
          end
      | Some (KMulti nm s b) =>
          match get_s h s, get_b h b with
          | Some ss, Some bs =>
              r <- copy_all (h_copy n') h ss ;;
              let k := length (fst r) in
              Ok (fst r ++ [KS (snd r); KB bs; KMulti nm k (k + 1)], k + 2)
          | _, _ => Err TypeError
          end
      | _ => Err TypeError
      end
  end.

Definition put (h : heap) (a : nat) (c : cell) : heap := upd a c h.

(** The loop of MultiParams.setParams, utils.py:1166-1171. *)
Definition set_all (num : heap -> nat -> nat) (f : heap -> nat -> list V -> res heap) (p : list V) :=
  fix go (h : heap) (subs : list (option nat)) (liq : list bool) (off : nat) : res heap :=
    match subs, liq with
    | Some a :: ss, true :: ls =>
        let k := num h a in
        h1 <- f h a (slice off (off + k) p) ;;
        go h1 ss ls (off + k)
    | _ :: ss, _ :: ls => go h ss ls off
    | _, _ => Ok h
    end.

(** numberOfParams of the object in its present state. *)
Definition h_num (n : nat) (h : heap) (a : nat) : nat :=
  match read n h (Some a) with Some t => number_of_params t | None => 0 end.

(** setParams: ScalarParam utils.py:353-355, ParamList 775-777,
    MultiParams 1166-1171. *)
Fixpoint h_set_params (n : nat) (h : heap) (a : nat) (p : list V) : res heap :=
  match n with
  | 0 => Err RuntimeError
  | S n' =>
      match nth_error h a with
      | Some KFixed => match p with [] => Ok h | _ => Err AssertionError end
      | Some (KScalar s) => match p with [v] => Ok (put h a (KScalar (with_val s v))) | _ => Err AssertionError end
      | Some (KList nm v b _ _ _ _ _) =>
          match get_v h v, get_b h b with
          | Some vs, Some bs =>
              vs' <- plist_set_loop bs vs 0 p ;; Ok (put h v (KV vs'))
          | _, _ => Err TypeError
          end
      | Some (KMulti nm s b) =>
          match get_s h s, get_b h b with
          | Some ss, Some bs => set_all (h_num n') (h_set_params n') p h ss bs 0
          | _, _ => Err TypeError
          end
      | _ => Err TypeError
      end
  end.

(** freezeParam / thawParam of an object by index, utils.py:556-569. *)
Definition h_set_flag (h : heap) (a i : nat) (f : bool) : res heap :=
  match nth_error h a with
  | Some (KList _ _ b _ _ _ _ _) | Some (KMulti _ _ b) =>
      match get_b h b with
      | Some bs => if i <? length bs then Ok (put h b (KB (upd i f bs))) else Err IndexError
      | None => Err TypeError
      end
  | _ => Err AttributeError
  end.

(** MultiParams.append of an existing object, utils.py:941-943. *)
Definition h_append (h : heap) (a x : nat) : res heap :=
  match nth_error h a with
  | Some (KMulti _ s b) =>
      match get_s h s, get_b h b with
      | Some ss, Some bs => Ok (put (put h s (KS (ss ++ [Some x]))) b (KB (bs ++ [true])))
      | _, _ => Err TypeError
      end
  | _ => Err AttributeError
  end.

(** A new scalar object, utils.py:313-320. *)
Definition h_new_scalar (h : heap) (cls : string) (v : V) : heap * nat :=
  (h ++ [KScalar (mkScalar cls v None None None one)], length h).
End Heap.
