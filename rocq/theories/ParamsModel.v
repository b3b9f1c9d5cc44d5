(** Model of the parameter containers of tractor/utils.py:
    BaseParams (195-304), ScalarParam (308-379), NamedParams (389-707),
    ParamList (710-836) and MultiParams (923-1269).

    Values are of an arbitrary type [V] ([one] is the default step 1.0), so
    nothing below depends on what floats are.

    Simplifications, for the whole file:
    - objects form a tree: no sub-object occurs twice (sharing is treated in
      LsqShared*.v);
    - a method that raises yields [Err]; the partially updated object that
      Python would leave behind is not represented, except for the
      freeze/thaw calls, where it is;
    - parameter names 'a.b.param0' are lists of components instead of
      strings joined with dots;
    - subclasses that override these methods are not covered here. *)
From Coq Require Import String List ZArith Bool Lia.
From Verif Require Import Base.
Import ListNotations.

(** A component of a printed parameter name: a declared name, the class name
    of a scalar, or the fall-back 'param%i' (utils.py:747, 1112, 1122). *)
Inductive comp : Type := CName (s : string) | CParam (i : nat).

(** NamedParams.namedparams (name -> index) and NamedParams.paramnames
    (index -> name), utils.py:405-411, 462-466; first match wins. *)
Record names : Type := mkNames {
  namedparams : list (string * nat);
  paramnames : list (nat * string)
}.

Fixpoint assoc_name (n : string) (l : list (string * nat)) : option nat :=
  match l with
  | [] => None
  | (m, i) :: r => if String.eqb n m then Some i else assoc_name n r
  end.

Fixpoint assoc_idx (i : nat) (l : list (nat * string)) : option string :=
  match l with
  | [] => None
  | (j, m) :: r => if Nat.eqb i j then Some m else assoc_idx i r
  end.

(** NamedParams.getNamedParamIndex, utils.py:523-524. *)
Definition named_param_index (nm : names) (n : string) : option nat :=
  assoc_name n (namedparams nm).

(** NamedParams.getNamedParamName, utils.py:526-527. *)
Definition named_param_name (nm : names) (i : nat) : option string :=
  assoc_idx i (paramnames nm).

(** NamedParams._addNamedParams(alias=False, **d), utils.py:462-466: the new
    names override older entries.  The property creation (468-496) is not
    modelled. *)
Definition add_named_params (nm : names) (d : list (string * nat)) : names :=
  mkNames (d ++ namedparams nm) (map (fun e => (snd e, fst e)) d ++ paramnames nm).

Section Model.
Variable V : Type.
Variable one : V.

(** ScalarParam instance attributes, utils.py:313, 316-320. *)
Record scalar : Type := mkScalar {
  s_cls : string;
  s_val : V;
  s_lower : option V;
  s_upper : option V;
  s_maxstep : option V;
  s_stepsize : V
}.

(** A Gaussian prior term (name, i, mu, sigma), utils.py:90. *)
Record prior : Type := mkPrior {
  pr_name : string; pr_idx : nat; pr_mu : V; pr_sigma : V }.

(** ParamList instance attributes, utils.py:715-720, 416, 144; [l_steps] is
    the optional attribute 'stepsizes'. *)
Record plist : Type := mkPlist {
  l_names : names;
  l_vals : list V;
  l_liquid : list bool;
  l_lowers : list (option V);
  l_uppers : list (option V);
  l_maxstep : list (option V);
  l_steps : option (list V);
  l_priors : list prior
}.

(** A parameter object.  [PFixed]: a BaseParams without parameters (for
    instance PixelizedPSF, psf.py:68-79, or NullWCS); [PNone]: Python's None
    as a member of a group. *)
Inductive ptree : Type :=
| PNone
| PFixed
| PScalar (s : scalar)
| PList (l : plist)
| PMulti (nm : names) (subs : list ptree) (liquid : list bool).

Definition is_none (t : ptree) : bool :=
  match t with PNone => true | _ => false end.

(** ParamList.__init__, utils.py:715-720 (and 136-144, 413-416). *)
Definition mk_plist (nm : names) (vals : list V) : ptree :=
  PList (mkPlist nm vals (map (fun _ => true) vals) (map (fun _ => None) vals)
           (map (fun _ => None) vals) (map (fun _ => None) vals) None []).

(** MultiParams.__init__, utils.py:928-933. *)
Definition mk_multi (nm : names) (subs : list ptree) : ptree :=
  PMulti nm subs (map (fun _ => true) subs).

(** [for s in self._getActiveSubs(): f(s)], utils.py:1030-1034, 674-677. *)
Definition active_map {A} (f : ptree -> A) :=
  fix go (subs : list ptree) (liq : list bool) : list A :=
    match subs, liq with
    | s :: ss, l :: ls =>
        if l && negb (is_none s) then f s :: go ss ls else go ss ls
    | _, _ => []
    end.

Definition active_subs (subs : list ptree) (liq : list bool) : list ptree :=
  active_map (fun s => s) subs liq.

(** [for s in self.subs: if s is None: continue; f(s)], utils.py:1147-1153. *)
Definition present_map {A} (f : ptree -> A) :=
  fix go (subs : list ptree) : list A :=
    match subs with
    | s :: ss => if is_none s then go ss else f s :: go ss
    | [] => []
    end.

(** getParams: ScalarParam utils.py:350-351, ParamList 782-786 with
    _getLiquidArray 674-677, MultiParams 1133-1143, BaseParams 225-228.  None
    has no such method; every caller skips None, so that case is unused. *)
Fixpoint get_params (t : ptree) : list V :=
  match t with
  | PNone | PFixed => []
  | PScalar s => [s_val s]
  | PList l => keep (l_liquid l) (l_vals l)
  | PMulti _ subs liq => concat (active_map get_params subs liq)
  end.

(** numberOfParams: BaseParams utils.py:220-223, ScalarParam 340-341,
    ParamList 779-780 with _countLiquid 689-690, MultiParams 1127-1131. *)
Fixpoint number_of_params (t : ptree) : nat :=
  match t with
  | PNone | PFixed => 0
  | PScalar _ => 1
  | PList l => count_true (l_liquid l)
  | PMulti _ subs liq => list_sum (active_map number_of_params subs liq)
  end.

(** getAllParams: BaseParams utils.py:230-231, ParamList 788-789,
    MultiParams 1145-1154. *)
Fixpoint get_all_params (t : ptree) : list V :=
  match t with
  | PNone | PFixed => []
  | PScalar s => [s_val s]
  | PList l => l_vals l
  | PMulti _ subs _ => concat (present_map get_all_params subs)
  end.

(** ParamList.setParams, utils.py:775-777, with _indexBoth 701-707: [i] is the
    liquid index, the loop runs over raw positions. *)
Fixpoint plist_set_loop (liq : list bool) (vals : list V) (i : nat) (p : list V)
  : res (list V) :=
  match liq, vals with
  | [], _ => Ok vals
  | true :: ls, _ =>
      x <- py_get p i ;;
      match vals with
      | [] => Err IndexError
      | _ :: vs => vs' <- plist_set_loop ls vs (S i) p ;; Ok (x :: vs')
      end
  | false :: ls, v :: vs => vs' <- plist_set_loop ls vs i p ;; Ok (v :: vs')
  | false :: ls, [] => plist_set_loop ls [] i p
  end.

Definition with_vals (l : plist) (vals : list V) : plist :=
  mkPlist (l_names l) vals (l_liquid l) (l_lowers l) (l_uppers l)
    (l_maxstep l) (l_steps l) (l_priors l).

Definition with_val (s : scalar) (v : V) : scalar :=
  mkScalar (s_cls s) v (s_lower s) (s_upper s) (s_maxstep s) (s_stepsize s).

(** The loop of MultiParams.setParams, utils.py:1166-1171 (and of
    setStepSizes, 1223-1228): [off] is the Python variable i. *)
Definition slice_walk (num : ptree -> nat) (f : ptree -> list V -> res ptree)
    (p : list V) :=
  fix go (subs : list ptree) (liq : list bool) (off : nat) : res (list ptree) :=
    match subs, liq with
    | s :: ss, l :: ls =>
        if l && negb (is_none s) then
          let n := num s in
          s' <- f s (slice off (off + n) p) ;;
          ss' <- go ss ls (off + n) ;;
          Ok (s' :: ss')
        else
          ss' <- go ss ls off ;; Ok (s :: ss')
    | ss, _ => Ok ss
    end.

(** setParams: BaseParams utils.py:251-262 (no parameters, so only the
    assertion matters), ScalarParam 353-355, ParamList 775-777,
    MultiParams 1166-1171. *)
Fixpoint set_params (t : ptree) (p : list V) : res ptree :=
  match t with
  | PNone => Err AttributeError
  | PFixed => match p with [] => Ok PFixed | _ => Err AssertionError end
  | PScalar s => match p with [v] => Ok (PScalar (with_val s v)) | _ => Err AssertionError end
  | PList l =>
      vs <- plist_set_loop (l_liquid l) (l_vals l) 0 p ;; Ok (PList (with_vals l vs))
  | PMulti nm subs liq =>
      subs' <- slice_walk number_of_params set_params p subs liq 0 ;;
      Ok (PMulti nm subs' liq)
  end.

(** NamedParams._indexLiquid, utils.py:692-699: raw index of the j-th thawed
    parameter; j may be negative (never found). *)
Fixpoint index_liquid (liq : list bool) (j : Z) : res nat :=
  match liq with
  | [] => Err IndexError
  | true :: ls =>
      if (j =? 0)%Z then Ok 0 else i <- index_liquid ls (j - 1) ;; Ok (S i)
  | false :: ls => i <- index_liquid ls j ;; Ok (S i)
  end.

(** The loop of MultiParams.setParam, utils.py:1173-1181. *)
Definition setparam_walk (f : ptree -> Z -> res (ptree * V)) (i : Z) :=
  fix go (subs : list ptree) (liq : list bool) (off : nat)
    : res (list ptree * V) :=
    match subs, liq with
    | s :: ss, l :: ls =>
        if l && negb (is_none s) then
          let n := number_of_params s in
          if (i <? Z.of_nat (off + n))%Z then
            r <- f s (i - Z.of_nat off)%Z ;; Ok (fst r :: ss, snd r)
          else
            r <- go ss ls (off + n) ;; Ok (s :: fst r, snd r)
        else
          r <- go ss ls off ;; Ok (s :: fst r, snd r)
    | _, _ => Err RuntimeError
    end.

(** setParam: ScalarParam utils.py:357-361, ParamList 769-773,
    MultiParams 1173-1181, BaseParams 267-282 (list index error on an empty
    list).  Returns the new object and the old value. *)
Fixpoint set_param (t : ptree) (i : Z) (v : V) : res (ptree * V) :=
  match t with
  | PNone => Err AttributeError
  | PFixed => Err IndexError
  | PScalar s =>
      if (i =? 0)%Z then Ok (PScalar (with_val s v), s_val s) else Err AssertionError
  | PList l =>
      ii <- index_liquid (l_liquid l) i ;;
      old <- py_get (l_vals l) ii ;;
      Ok (PList (with_vals l (upd ii v (l_vals l))), old)
  | PMulti nm subs liq =>
      r <- setparam_walk (fun s j => set_param s j v) i subs liq 0 ;;
      Ok (PMulti nm (fst r) liq, snd r)
  end.

(** ParamList.setAllParams, utils.py:795-797. *)
Fixpoint plist_setall_loop (i : nat) (p : list V) (vals : list V) : res (list V) :=
  match p with
  | [] => Ok vals
  | x :: r =>
      if i <? length vals then plist_setall_loop (S i) r (upd i x vals)
      else Err IndexError
  end.

(** The loop of MultiParams.setAllParams, utils.py:1157-1163. *)
Definition setall_walk (f : ptree -> list V -> res ptree) (p : list V) :=
  fix go (subs : list ptree) (off : nat) : res (list ptree * nat) :=
    match subs with
    | [] => Ok ([], off)
    | s :: ss =>
        if is_none s then
          r <- go ss off ;; Ok (s :: fst r, snd r)
        else
          let n := length (get_all_params s) in
          s' <- f s (slice off (off + n) p) ;;
          r <- go ss (off + n) ;; Ok (s' :: fst r, snd r)
    end.

(** setAllParams: BaseParams utils.py:264-265, ParamList 795-797,
    MultiParams 1156-1164 (with its closing assertion). *)
Fixpoint set_all_params (t : ptree) (p : list V) : res ptree :=
  match t with
  | PNone => Err AttributeError
  | PFixed => match p with [] => Ok PFixed | _ => Err AssertionError end
  | PScalar s => match p with [v] => Ok (PScalar (with_val s v)) | _ => Err AssertionError end
  | PList l => vs <- plist_setall_loop 0 p (l_vals l) ;; Ok (PList (with_vals l vs))
  | PMulti nm subs liq =>
      r <- setall_walk set_all_params p subs 0 ;;
      let t' := PMulti nm (fst r) liq in
      if snd r =? length (get_all_params t') then Ok t' else Err AssertionError
  end.

(** getLowerBounds / getUpperBounds / getMaxStep: BaseParams utils.py:294-301,
    ScalarParam 372-379, ParamList 799-806, MultiParams 1183-1199. *)
Fixpoint get_lower_bounds (t : ptree) : list (option V) :=
  match t with
  | PNone | PFixed => []
  | PScalar s => [s_lower s]
  | PList l => keep (l_liquid l) (l_lowers l)
  | PMulti _ subs liq => concat (active_map get_lower_bounds subs liq)
  end.
Fixpoint get_upper_bounds (t : ptree) : list (option V) :=
  match t with
  | PNone | PFixed => []
  | PScalar s => [s_upper s]
  | PList l => keep (l_liquid l) (l_uppers l)
  | PMulti _ subs liq => concat (active_map get_upper_bounds subs liq)
  end.
Fixpoint get_max_step (t : ptree) : list (option V) :=
  match t with
  | PNone | PFixed => []
  | PScalar s => [s_maxstep s]
  | PList l => keep (l_liquid l) (l_maxstep l)
  | PMulti _ subs liq => concat (active_map get_max_step subs liq)
  end.

(** NamedParams.getAllStepSizes, utils.py:434-442. *)
Definition plist_all_steps (l : plist) : list V :=
  match l_steps l with
  | Some ss => ss
  | None => map (fun _ => one) (l_vals l)
  end.

(** getStepSizes: BaseParams utils.py:236-243, ScalarParam 343-344,
    NamedParams 428-432, MultiParams 1211-1215. *)
Fixpoint get_step_sizes (t : ptree) : list V :=
  match t with
  | PNone | PFixed => []
  | PScalar s => [s_stepsize s]
  | PList l => keep (l_liquid l) (plist_all_steps l)
  | PMulti _ subs liq => concat (active_map get_step_sizes subs liq)
  end.

(** getAllStepSizes: as above without the frozen filter; MultiParams
    1217-1221 does not skip None, so a None member raises. *)
Definition all_steps_walk (f : ptree -> res (list V)) :=
  fix go (subs : list ptree) : res (list V) :=
    match subs with
    | [] => Ok []
    | s :: ss => a <- f s ;; r <- go ss ;; Ok (a ++ r)
    end.
Fixpoint get_all_step_sizes (t : ptree) : res (list V) :=
  match t with
  | PNone => Err AttributeError
  | PFixed => Ok []
  | PScalar s => Ok [s_stepsize s]
  | PList l => Ok (plist_all_steps l)
  | PMulti _ subs _ => all_steps_walk get_all_step_sizes subs
  end.

(** NamedParams.setStepSizes, first branch, utils.py:446-454. *)
Fixpoint new_steps (liq : list bool) (j : nat) (ss : list V) : res (list V) :=
  match liq with
  | [] => Ok []
  | true :: ls => x <- py_get ss j ;; r <- new_steps ls (S j) ss ;; Ok (x :: r)
  | false :: ls => r <- new_steps ls j ss ;; Ok (one :: r)
  end.

(** NamedParams.setStepSizes, second branch, utils.py:456-457 with
    _enumerateLiquidArray 684-687: position [i] of the *raw* enumeration is
    used to index [ss]. *)
Fixpoint update_steps (liq : list bool) (i : nat) (ss : list V) (steps : list V)
  : res (list V) :=
  match liq with
  | [] => Ok steps
  | true :: ls =>
      x <- py_get ss i ;;
      if i <? length steps then update_steps ls (S i) ss (upd i x steps)
      else Err IndexError
  | false :: ls => update_steps ls (S i) ss steps
  end.

Definition with_steps (l : plist) (ss : list V) : plist :=
  mkPlist (l_names l) (l_vals l) (l_liquid l) (l_lowers l) (l_uppers l)
    (l_maxstep l) (Some ss) (l_priors l).

Definition plist_set_steps (l : plist) (ss : list V) : res plist :=
  match l_steps l with
  | None => n <- new_steps (l_liquid l) 0 ss ;; Ok (with_steps l n)
  | Some old => n <- update_steps (l_liquid l) 0 ss old ;; Ok (with_steps l n)
  end.

(** setStepSizes: BaseParams utils.py:248-249, ScalarParam 346-347 (ss[0]),
    NamedParams 444-457, MultiParams 1223-1228.  For [PFixed] the stored list
    is kept by Python but never shows (it has no parameters); not stored. *)
Fixpoint set_step_sizes (t : ptree) (ss : list V) : res ptree :=
  match t with
  | PNone => Err AttributeError
  | PFixed => Ok PFixed
  | PScalar s =>
      x <- py_get ss 0 ;;
      Ok (PScalar (mkScalar (s_cls s) (s_val s) (s_lower s) (s_upper s) (s_maxstep s) x))
  | PList l => l' <- plist_set_steps l ss ;; Ok (PList l')
  | PMulti nm subs liq =>
      subs' <- slice_walk number_of_params set_step_sizes ss subs liq 0 ;;
      Ok (PMulti nm subs' liq)
  end.

(** ParamList.getParamNames, utils.py:742-749: fall-back uses the liquid
    index [i]; [j] is the raw index. *)
Fixpoint plist_names (nm : names) (liq : list bool) (i j : nat) : list (list comp) :=
  match liq with
  | [] => []
  | true :: ls =>
      [match named_param_name nm j with Some s => CName s | None => CParam i end]
        :: plist_names nm ls (S i) (S j)
  | false :: ls => plist_names nm ls i (S j)
  end.

(** MultiParams.getParamNames, utils.py:1107-1125 (the list of names of one
    active member, 1110-1123). *)
Definition sub_names (nm : names) (i : nat) (snames : list (list comp)) (n : nat)
  : list (list comp) :=
  let pre := match named_param_name nm i with Some s => CName s | None => CParam i end in
  if length snames =? n then map (fun post => pre :: post) snames
  else map (fun k => [pre; CParam k]) (seq 0 n).

Definition names_walk (nm : names) (f : ptree -> list (list comp)) :=
  fix go (subs : list ptree) (liq : list bool) (i : nat) : list (list comp) :=
    match subs, liq with
    | s :: ss, l :: ls =>
        if l && negb (is_none s)
        then sub_names nm i (f s) (number_of_params s) ++ go ss ls (S i)
        else go ss ls (S i)
    | _, _ => []
    end.

Fixpoint get_param_names (t : ptree) : list (list comp) :=
  match t with
  | PNone | PFixed => []
  | PScalar s => [[CName (s_cls s)]]
  | PList l => plist_names (l_names l) (l_liquid l) 0 0
  | PMulti nm subs liq => names_walk nm get_param_names subs liq 0
  end.

(** copy: ScalarParam utils.py:334-335, ParamList 722-725 (BaseParams.copy
    206-207 rebuilds from getAllParams, then copies the flags), MultiParams
    935-938 (a None member raises).  The class-level constants of a scalar
    (default step) are passed as [one]. *)
Definition copy_walk (f : ptree -> res ptree) :=
  fix go (subs : list ptree) : res (list ptree) :=
    match subs with
    | [] => Ok []
    | s :: ss => s' <- f s ;; ss' <- go ss ;; Ok (s' :: ss')
    end.
Fixpoint copy (t : ptree) : res ptree :=
  match t with
  | PNone => Err AttributeError
  | PFixed => Ok PFixed
  | PScalar s => Ok (PScalar (mkScalar (s_cls s) (s_val s) None None None one))
  | PList l =>
      Ok (PList (mkPlist (l_names l) (l_vals l) (l_liquid l)
                   (map (fun _ => None) (l_vals l)) (map (fun _ => None) (l_vals l))
                   (map (fun _ => None) (l_vals l)) None []))
  | PMulti nm subs liq => subs' <- copy_walk copy subs ;; Ok (PMulti nm subs' liq)
  end.

(** ** Frozen flags *)

(** [self.liquid[i] = b] for the index of a name (utils.py:564-566, 589-595):
    an unknown name fails the assertion, a bad index raises. *)
Definition flag_name (nm : names) (n : string) (b : bool) (liq : list bool)
  : res (list bool) :=
  match named_param_index nm n with
  | None => Err AssertionError
  | Some i => if i <? length liq then Ok (upd i b liq) else Err IndexError
  end.

(** NamedParams.freezeParamsRecursive / thawParamsRecursive, utils.py:538-554:
    unknown names are skipped, '*' means everything. *)
Fixpoint flag_known (nm : names) (b : bool) (ns : list string) (liq : list bool)
  : res (list bool) :=
  match ns with
  | [] => Ok liq
  | n :: r =>
      match named_param_index nm n with
      | None => flag_known nm b r liq
      | Some i => if i <? length liq then flag_known nm b r (upd i b liq)
                  else Err IndexError
      end
  end.

Definition star : string := "*"%string.
Definition mem_str (n : string) (ns : list string) : bool := existsb (String.eqb n) ns.

Definition plist_flag_rec (b : bool) (ns : list string) (l : plist) : res plist :=
  liq <- flag_known (l_names l) b ns (l_liquid l) ;;
  let liq := if mem_str star ns then map (fun _ => b) liq else liq in
  Ok (mkPlist (l_names l) (l_vals l) liq (l_lowers l) (l_uppers l)
        (l_maxstep l) (l_steps l) (l_priors l)).

(** MultiParams.freezeParamsRecursive / thawParamsRecursive, utils.py:1052-1071:
    recurse into members that have the method (lists and groups), then the
    member's own flag if its name is requested. *)
Definition flag_rec_walk (nm : names) (ns : list string) (b : bool)
    (f : ptree -> res ptree) :=
  fix go (i : nat) (subs : list ptree) (liq : list bool)
    : res (list ptree * list bool) :=
    match subs with
    | [] => Ok ([], liq)
    | s :: ss =>
        s' <- match s with PList _ | PMulti _ _ _ => f s | _ => Ok s end ;;
        liq' <- match named_param_name nm i with
                | Some n => if mem_str n ns then flag_name nm n b liq else Ok liq
                | None => Ok liq
                end ;;
        r <- go (S i) ss liq' ;; Ok (s' :: fst r, snd r)
    end.

Fixpoint flag_rec (b : bool) (ns : list string) (t : ptree) : res ptree :=
  match t with
  | PList l => l' <- plist_flag_rec b ns l ;; Ok (PList l')
  | PMulti nm subs liq =>
      r <- flag_rec_walk nm ns b (flag_rec b ns) 0 subs liq ;;
      let liq' := if mem_str star ns then map (fun _ => b) (snd r) else snd r in
      Ok (PMulti nm (fst r) liq')
  | _ => Err AttributeError
  end.

Definition freeze_params_recursive := flag_rec false.
Definition thaw_params_recursive := flag_rec true.

(** thawPathsTo: NamedParams utils.py:572-583, MultiParams 1076-1086. *)
Fixpoint plist_thaw_paths (nm : names) (ns : list string) (liq : list bool)
    (thawed : bool) : res (list bool * bool) :=
  match ns with
  | [] => Ok (liq, thawed)
  | n :: r =>
      match named_param_index nm n with
      | None => plist_thaw_paths nm r liq thawed
      | Some i => if i <? length liq then plist_thaw_paths nm r (upd i true liq) true
                  else Err IndexError
      end
  end.

Definition thaw_walk (nm : names) (ns : list string) (f : ptree -> res (ptree * bool)) :=
  fix go (i : nat) (subs : list ptree) (liq : list bool) (thawed : bool)
    : res (list ptree * list bool * bool) :=
    match subs with
    | [] => Ok ([], liq, thawed)
    | s :: ss =>
        sr <- match s with PList _ | PMulti _ _ _ => f s | _ => Ok (s, false) end ;;
        let '(s', hit) := sr in
        let named := match named_param_name nm i with
                     | Some n => mem_str n ns | None => false end in
        let now := hit || named in
        liq' <- (if now then if i <? length liq then Ok (upd i true liq) else Err IndexError
                 else Ok liq) ;;
        r <- go (S i) ss liq' (thawed || now) ;;
        let '(ss', liq'', th) := r in Ok (s' :: ss', liq'', th)
    end.

Fixpoint thaw_paths_to (ns : list string) (t : ptree) : res (ptree * bool) :=
  match t with
  | PList l =>
      r <- plist_thaw_paths (l_names l) ns (l_liquid l) false ;;
      Ok (PList (mkPlist (l_names l) (l_vals l) (fst r) (l_lowers l) (l_uppers l)
                   (l_maxstep l) (l_steps l) (l_priors l)), snd r)
  | PMulti nm subs liq =>
      r <- thaw_walk nm ns (thaw_paths_to ns) 0 subs liq false ;;
      let '(subs', liq', th) := r in Ok (PMulti nm subs' liq', th)
  | _ => Err AttributeError
  end.

(** NamedParams.getLiquidIndexOfIndex, utils.py:641-649, for 0 <= i. *)
Definition liquid_index_of_index (liq : list bool) (i : nat) : res Z :=
  b <- py_get liq i ;;
  if b then Ok (Z.of_nat (count_true (firstn i liq))) else Ok (-1)%Z.

(** NamedParams.getLiquidIndex, utils.py:651-667. *)
Definition liquid_index (nm : names) (liq : list bool) (n : string) : res Z :=
  match named_param_index nm n with
  | None => Err KeyError
  | Some i => liquid_index_of_index liq i
  end.

(** getGaussianPriors: BaseParams utils.py:303-304, _GaussianPriors 101-102,
    MultiParams 1201-1209. *)
Definition priors_walk (f : ptree -> list (nat * V * V)) :=
  fix go (subs : list ptree) (liq : list bool) (offset : nat) : list (nat * V * V) :=
    match subs, liq with
    | s :: ss, l :: ls =>
        if l && negb (is_none s) then
          map (fun e => (offset + fst (fst e), snd (fst e), snd e)) (f s)
            ++ go ss ls (offset + number_of_params s)
        else go ss ls offset
    | _, _ => []
    end.
Fixpoint get_gaussian_priors (t : ptree) : list (nat * V * V) :=
  match t with
  | PNone | PFixed | PScalar _ => []
  | PList l => map (fun e => (pr_idx e, pr_mu e, pr_sigma e)) (l_priors l)
  | PMulti _ subs liq => priors_walk get_gaussian_priors subs liq 0
  end.

End Model.

Arguments PNone {V}.
Arguments PFixed {V}.
Arguments PScalar {V} _.
Arguments PList {V} _.
Arguments PMulti {V} _ _ _.
Arguments s_cls {V} _.
Arguments s_val {V} _.
Arguments s_lower {V} _.
Arguments s_upper {V} _.
Arguments s_maxstep {V} _.
Arguments s_stepsize {V} _.
Arguments mkScalar {V} _ _ _ _ _ _.
Arguments mkPlist {V} _ _ _ _ _ _ _ _.
Arguments mkPrior {V} _ _ _ _.
Arguments pr_idx {V} _.
Arguments pr_mu {V} _.
Arguments pr_sigma {V} _.
Arguments pr_name {V} _.
Arguments l_names {V} _.
Arguments l_vals {V} _.
Arguments l_liquid {V} _.
Arguments l_lowers {V} _.
Arguments l_uppers {V} _.
Arguments l_maxstep {V} _.
Arguments l_steps {V} _.
Arguments l_priors {V} _.
Arguments is_none {V} _.
Arguments active_map {V A} _ _ _.
Arguments present_map {V A} _ _.
Arguments get_params {V} _.
Arguments number_of_params {V} _.
Arguments get_all_params {V} _.
Arguments set_params {V} _ _.
Arguments plist_set_loop {V} _ _ _ _.
Arguments slice_walk {V} _ _ _ _ _ _.
Arguments with_vals {V} _ _.
Arguments with_val {V} _ _.
Arguments set_param {V} _ _ _.
Arguments setparam_walk {V} _ _ _ _ _.
Arguments plist_setall_loop {V} _ _ _.
Arguments setall_walk {V} _ _ _ _.
Arguments set_all_params {V} _ _.
Arguments get_lower_bounds {V} _.
Arguments get_upper_bounds {V} _.
Arguments get_max_step {V} _.
Arguments plist_all_steps {V} _ _.
Arguments get_step_sizes {V} _ _.
Arguments get_all_step_sizes {V} _ _.
Arguments all_steps_walk {V} _ _.
Arguments new_steps {V} _ _ _ _.
Arguments update_steps {V} _ _ _ _.
Arguments with_steps {V} _ _.
Arguments plist_set_steps {V} _ _ _.
Arguments set_step_sizes {V} _ _ _.
Arguments names_walk {V} _ _ _ _ _.
Arguments get_param_names {V} _.
Arguments copy_walk {V} _ _.
Arguments copy {V} _ _.
Arguments plist_flag_rec {V} _ _ _.
Arguments flag_rec_walk {V} _ _ _ _ _ _ _.
Arguments flag_rec {V} _ _ _.
Arguments freeze_params_recursive {V} _ _.
Arguments thaw_params_recursive {V} _ _.
Arguments thaw_walk {V} _ _ _ _ _ _ _.
Arguments thaw_paths_to {V} _ _.
Arguments priors_walk {V} _ _ _ _.
Arguments get_gaussian_priors {V} _.
Arguments mk_plist {V} _ _.
Arguments mk_multi {V} _ _.
Arguments active_subs {V} _ _.
