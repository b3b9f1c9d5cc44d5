(** Wrapped calibrations as parameter objects: ParamsWrapper
    (tractor/shifted.py:31-60), the base class of ShiftedPsf, ScaledPhotoCal,
    ScaledWcs and ShiftedWcs, with the methods it inherits from BaseParams
    (utils.py:195-304), and groups (MultiParams, for instance an Image) that have
    wrappers among their members.

    Parameter objects are those of ParamsModel; wrappers may be nested. *)
From Coq Require Import String List ZArith Bool.
From Verif Require Import Base ParamsModel.
Import ListNotations.

Section Wrap.
Context {V : Type}.
Variable one : V.
Notation ptree := (ptree V).

(** [own] is the attribute 'stepsizes' of the wrapper itself *)
Inductive obj : Type := Plain (t : ptree) | Wrapper (real : obj) (own : option (list V)).

(** Forwarded, shifted.py:44-60 *)
Fixpoint o_params (o : obj) : list V := match o with Plain t => get_params t | Wrapper r _ => o_params r end.
Fixpoint o_number (o : obj) : nat := match o with Plain t => number_of_params t | Wrapper r _ => o_number r end.
Fixpoint o_names (o : obj) : list (list comp) := match o with Plain t => get_param_names t | Wrapper r _ => o_names r end.
Fixpoint o_steps (o : obj) : list V := match o with Plain t => get_step_sizes one t | Wrapper r _ => o_steps r end.
Fixpoint o_set (o : obj) (p : list V) : res obj :=
  match o with
  | Plain t => t' <- set_params t p ;; Ok (Plain t')
  | Wrapper r own => r' <- o_set r p ;; Ok (Wrapper r' own)
  end.
Fixpoint o_set_one (o : obj) (i : Z) (v : V) : res (obj * V) :=
  match o with
  | Plain t => '(t', old) <- set_param t i v ;; Ok (Plain t', old)
  | Wrapper r own => '(r', old) <- o_set_one r i v ;; Ok (Wrapper r' own, old)
  end.

(** Inherited, utils.py:230-234, 248-249, 264-265, 294-304 *)
Definition o_all_params (o : obj) : list V := match o with Plain t => get_all_params t | Wrapper _ _ => o_params o end.
Definition o_set_all (o : obj) (p : list V) : res obj :=
  match o with Plain t => t' <- set_all_params t p ;; Ok (Plain t') | Wrapper _ _ => o_set o p end.
Definition o_all_steps (o : obj) : res (list V) :=
  match o with Plain t => get_all_step_sizes one t | Wrapper _ _ => Ok (o_steps o) end.
Definition o_set_steps (o : obj) (ss : list V) : res obj :=
  match o with Plain t => t' <- set_step_sizes one t ss ;; Ok (Plain t') | Wrapper r _ => Ok (Wrapper r (Some ss)) end.
Definition o_lowers (o : obj) : list (option V) := match o with Plain t => get_lower_bounds t | Wrapper _ _ => [] end.
Definition o_uppers (o : obj) : list (option V) := match o with Plain t => get_upper_bounds t | Wrapper _ _ => [] end.
Definition o_max_step (o : obj) : list (option V) := match o with Plain t => get_max_step t | Wrapper _ _ => [] end.
(** A group of such members; [g_active] as [active_map] of ParamsModel *)
Record group : Type := mkGroup { g_names : names; g_subs : list obj; g_liquid : list bool }.
Definition o_none (o : obj) : bool := match o with Plain t => is_none t | Wrapper _ _ => false end.
Fixpoint g_active {A} (f : obj -> A) (subs : list obj) (liq : list bool) : list A :=
  match subs, liq with
  | s :: ss, l :: ls => if l && negb (o_none s) then f s :: g_active f ss ls else g_active f ss ls
  | _, _ => []
  end.
(** utils.py:1127-1143, 1183-1199, 1211-1215 *)
Definition g_get {A} (f : obj -> list A) (g : group) : list A := concat (g_active f (g_subs g) (g_liquid g)).
Definition g_params := g_get o_params.
Definition g_steps := g_get o_steps.
Definition g_lowers := g_get o_lowers.
Definition g_uppers := g_get o_uppers.
Definition g_max_step := g_get o_max_step.
Definition g_number (g : group) : nat := list_sum (g_active o_number (g_subs g) (g_liquid g)).
(** MultiParams.getParamNames, utils.py:1107-1125 *)
Fixpoint g_names_walk (nm : names) (subs : list obj) (liq : list bool) (i : nat) : list (list comp) :=
  match subs, liq with
  | s :: ss, l :: ls =>
      if l && negb (o_none s) then sub_names nm i (o_names s) (o_number s) ++ g_names_walk nm ss ls (S i)
      else g_names_walk nm ss ls (S i)
  | _, _ => []
  end.
Definition g_param_names (g : group) : list (list comp) := g_names_walk (g_names g) (g_subs g) (g_liquid g) 0.
(** MultiParams.setParams, utils.py:1166-1171 *)
Fixpoint g_set_walk (p : list V) (subs : list obj) (liq : list bool) (off : nat) : res (list obj) :=
  match subs, liq with
  | s :: ss, l :: ls =>
      if l && negb (o_none s) then
        let n := o_number s in
        s' <- o_set s (slice off (off + n) p) ;;
        ss' <- g_set_walk p ss ls (off + n) ;;
        Ok (s' :: ss')
      else
        ss' <- g_set_walk p ss ls off ;; Ok (s :: ss')
  | ss, _ => Ok ss
  end.
Definition g_set (g : group) (p : list V) : res group :=
  ss <- g_set_walk p (g_subs g) (g_liquid g) 0 ;; Ok (mkGroup (g_names g) ss (g_liquid g)).
(** MultiParams.freezeParamsRecursive, thawParamsRecursive, utils.py:1052-1071,
    on one member: wrappers have no such method *)
Definition o_flag_rec (b : bool) (ns : list string) (o : obj) : res obj :=
  match o with
  | Plain (PList _ as t) | Plain (PMulti _ _ _ as t) => t' <- flag_rec b ns t ;; Ok (Plain t')
  | _ => Ok o
  end.
Fixpoint g_flag_walk (nm : names) (ns : list string) (b : bool) (i : nat) (subs : list obj) (liq : list bool) : res (list obj * list bool) :=
  match subs with
  | [] => Ok ([], liq)
  | s :: ss =>
      s' <- o_flag_rec b ns s ;;
      liq' <- match named_param_name nm i with
              | Some n => if mem_str n ns then flag_name nm n b liq else Ok liq
              | None => Ok liq
              end ;;
      r <- g_flag_walk nm ns b (S i) ss liq' ;; Ok (s' :: fst r, snd r)
  end.
Definition g_flag_rec (b : bool) (ns : list string) (g : group) : res group :=
  r <- g_flag_walk (g_names g) ns b 0 (g_subs g) (g_liquid g) ;;
  Ok (mkGroup (g_names g) (fst r) (if mem_str star ns then map (fun _ => b) (snd r) else snd r)).
End Wrap.
