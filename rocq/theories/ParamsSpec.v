(** What a tree of parameter objects means, independently of the methods:
    a flat list of slots, each with a flag saying whether it and all groups
    around it are thawed. *)
From Coq Require Import String List ZArith Bool Lia.
From Verif Require Import Base ParamsModel.
Import ListNotations.

Section Spec.
Context {V : Type}.

(** All slots of a tree, in declaration order, with an attribute of each slot
    chosen by [sc] (for scalars) and [pl] (for lists).  The flag is true when
    the slot is free to vary: thawed in its list and in every group above. *)
Section Flat.
  Context {A : Type} (sc : scalar V -> A) (pl : plist V -> list A).
  Definition flat_walk (f : ptree V -> list (bool * A)) :=
    fix go (subs : list (ptree V)) (liq : list bool) : list (bool * A) :=
      match subs, liq with
      | s :: ss, b :: ls => map (fun e => (b && fst e, snd e)) (f s) ++ go ss ls
      | _, _ => []
      end.
  Fixpoint flat (t : ptree V) : list (bool * A) :=
    match t with
    | PNone | PFixed => []
    | PScalar s => [(true, sc s)]
    | PList l => combine (l_liquid l) (pl l)
    | PMulti _ subs liq => flat_walk flat subs liq
    end.
End Flat.

Definition thawed {A} (xs : list (bool * A)) : list A := map snd (filter fst xs).
Definition frozen {A} (xs : list (bool * A)) : list A :=
  map snd (filter (fun e => negb (fst e)) xs).

Definition vals_of := flat s_val l_vals.
Definition lowers_of := flat s_lower l_lowers.
Definition uppers_of := flat s_upper l_uppers.
Definition maxsteps_of := flat s_maxstep l_maxstep.
Definition steps_of (one : V) := flat s_stepsize (plist_all_steps one).

(** Replace the values of the thawed slots, in order, by the entries of [p]. *)
Fixpoint overlay (xs : list (bool * V)) (p : list V) : list (bool * V) :=
  match xs with
  | [] => []
  | (false, v) :: r => (false, v) :: overlay r p
  | (true, v) :: r =>
      match p with
      | [] => (true, v) :: r
      | x :: p' => (true, x) :: overlay r p'
      end
  end.

(** The tree with every parameter value forgotten. *)
Fixpoint blank (v0 : V) (t : ptree V) : ptree V :=
  match t with
  | PNone => PNone
  | PFixed => PFixed
  | PScalar s => PScalar (with_val s v0)
  | PList l => PList (with_vals l (map (fun _ => v0) (l_vals l)))
  | PMulti nm subs liq => PMulti nm (map (blank v0) subs) liq
  end.

(** Well-formed: attribute lists have one entry per parameter and groups have
    one flag per member.  Established by the constructors, kept by all
    methods (proved). *)
Definition wf_plist (l : plist V) : Prop :=
  length (l_liquid l) = length (l_vals l) /\
  length (l_lowers l) = length (l_vals l) /\
  length (l_uppers l) = length (l_vals l) /\
  length (l_maxstep l) = length (l_vals l) /\
  (forall ss, l_steps l = Some ss -> length ss = length (l_vals l)).
Fixpoint wf (t : ptree V) : Prop :=
  match t with
  | PNone | PFixed | PScalar _ => True
  | PList l => wf_plist l
  | PMulti _ subs liq =>
      length liq = length subs /\ fold_right (fun s P => wf s /\ P) True subs
  end.

(** No member is None anywhere. *)
Fixpoint no_none (t : ptree V) : Prop :=
  match t with
  | PNone => False
  | PFixed | PScalar _ | PList _ => True
  | PMulti _ subs _ => fold_right (fun s P => no_none s /\ P) True subs
  end.

(** Nothing is frozen inside any parameter list (groups may be). *)
Fixpoint lists_thawed (t : ptree V) : Prop :=
  match t with
  | PNone | PFixed | PScalar _ => True
  | PList l => Forall (fun b => b = true) (l_liquid l)
  | PMulti _ subs _ => fold_right (fun s P => lists_thawed s /\ P) True subs
  end.

(** No parameter list has its own step sizes yet. *)
Fixpoint no_steps (t : ptree V) : Prop :=
  match t with
  | PNone | PFixed | PScalar _ => True
  | PList l => l_steps l = None
  | PMulti _ subs _ => fold_right (fun s P => no_steps s /\ P) True subs
  end.

(** ** Flags by path: a path is the list of member positions from the root. *)
Fixpoint flag_at (t : ptree V) (path : list nat) : option bool :=
  match t, path with
  | PList l, [i] => nth_error (l_liquid l) i
  | PMulti _ subs liq, i :: rest =>
      match rest with
      | [] => nth_error liq i
      | _ => match nth_error subs i with Some s => flag_at s rest | None => None end
      end
  | _, _ => None
  end.

(** The position at [path] carries one of the names [ns]. *)
Fixpoint requested (ns : list string) (t : ptree V) (path : list nat) : Prop :=
  match t, path with
  | PList l, [i] => exists n, In n ns /\ named_param_index (l_names l) n = Some i
  | PMulti nm subs liq, i :: rest =>
      match rest with
      | [] => i < length subs /\ exists n, In n ns /\ named_param_name nm i = Some n
      | _ => match nth_error subs i with Some s => requested ns s rest | None => False end
      end
  | _, _ => False
  end.

(** Names are declared consistently: each declared name points into the
    object, and the printed name of a position refers back to it. *)
Definition wf_names (nm : names) (n : nat) : Prop :=
  (forall s i, named_param_index nm s = Some i -> i < n) /\
  (forall s i, i < n -> named_param_name nm i = Some s -> named_param_index nm s = Some i).
Fixpoint names_ok (t : ptree V) : Prop :=
  match t with
  | PNone | PFixed | PScalar _ => True
  | PList l => wf_names (l_names l) (length (l_liquid l))
  | PMulti nm subs liq =>
      wf_names nm (length subs) /\ fold_right (fun s P => names_ok s /\ P) True subs
  end.

(** The printed name of each slot, when every list entry has a declared name:
    the dotted path of names (a member without a name prints as param%i). *)
Definition list_comp_names (l : plist V) : list (list comp) :=
  map (fun j => [match named_param_name (l_names l) j with
                 | Some s => CName s | None => CParam j end]) (seq 0 (length (l_liquid l))).
Definition name_walk (nm : names) (f : ptree V -> list (bool * list comp)) :=
  fix go (subs : list (ptree V)) (liq : list bool) (i : nat) : list (bool * list comp) :=
    match subs, liq with
    | s :: ss, b :: ls =>
        map (fun e => (b && fst e,
               (match named_param_name nm i with Some s => CName s | None => CParam i end)
               :: snd e)) (f s) ++ go ss ls (S i)
    | _, _ => []
    end.
Fixpoint names_of (t : ptree V) : list (bool * list comp) :=
  match t with
  | PNone | PFixed => []
  | PScalar s => [(true, [CName (s_cls s)])]
  | PList l => combine (l_liquid l) (list_comp_names l)
  | PMulti nm subs liq => name_walk nm names_of subs liq 0
  end.
Fixpoint lists_named (t : ptree V) : Prop :=
  match t with
  | PNone | PFixed | PScalar _ => True
  | PList l => forall i, i < length (l_liquid l) -> named_param_name (l_names l) i <> None
  | PMulti _ subs _ => fold_right (fun s P => lists_named s /\ P) True subs
  end.

(** Each prior with the value of the parameter it was declared on, over the
    thawed part of the tree (a prior on entry i of a list constrains that
    entry). *)
Fixpoint prior_vals (d : V) (t : ptree V) : list (V * V * V) :=
  match t with
  | PNone | PFixed | PScalar _ => []
  | PList l => map (fun e => (nth (pr_idx e) (l_vals l) d, pr_mu e, pr_sigma e)) (l_priors l)
  | PMulti _ subs liq => concat (active_map (prior_vals d) subs liq)
  end.
Fixpoint priors_ok (t : ptree V) : Prop :=
  match t with
  | PNone | PFixed | PScalar _ => True
  | PList l => Forall (fun e => pr_idx e < length (l_vals l)) (l_priors l)
  | PMulti _ subs _ => fold_right (fun s P => priors_ok s /\ P) True subs
  end.

End Spec.
