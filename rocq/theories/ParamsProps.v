(** Properties C01-C14 of the parameter containers.  Read together with
    ParamsSpec.v ([vals_of], [thawed], [overlay], [blank], [flag_at],
    [requested]) and the first section of FlagsProofs.v ([denotes],
    [touches], [last_touch], [spec_step]). *)
From Coq Require Import String List ZArith Bool Lia.
From Verif Require Import Base ParamsModel ParamsSpec ParamsProofs ParamsProofs2
  FlagsModel FlagsProofs.
Import ListNotations.

(** ** A concrete catalog used to show that hypotheses can be met: one source
    with a position list (y frozen), a frozen two-band flux, a scalar with
    bounds, an absent member and an object without parameters. *)
Definition ex_pos : ptree Z :=
  PList (mkPlist (mkNames [("x"%string, 0); ("y"%string, 1)] [(0, "x"%string); (1, "y"%string)])
    [10; 20]%Z [true; false] [None; Some 0%Z] [None; None] [Some 1%Z; Some 1%Z] None
    [mkPrior "y"%string 1 5%Z 2%Z]).
Definition ex_flux : ptree Z :=
  PList (mkPlist (mkNames [("r"%string, 0); ("z"%string, 1)] [(0, "r"%string); (1, "z"%string)])
    [100; 200]%Z [true; true] [Some 0%Z; Some 0%Z] [None; None] [None; None] (Some [3; 4]%Z)
    [mkPrior "z"%string 1 7%Z 1%Z]).
Definition ex_scalar : ptree Z :=
  PScalar (mkScalar "FracDev"%string 7%Z (Some 0%Z) (Some 9%Z) None 1%Z).
Definition ex_src : ptree Z :=
  PMulti (mkNames [("pos"%string, 0); ("flux"%string, 1); ("frac"%string, 2); ("opt"%string, 3); ("psf"%string, 4)]
                  [(0, "pos"%string); (1, "flux"%string); (2, "frac"%string); (3, "opt"%string); (4, "psf"%string)])
    [ex_pos; ex_flux; ex_scalar; PNone; PFixed] [true; false; true; true; true].
Definition ex_cat : ptree Z := mk_multi (mkNames [] []) [ex_src; ex_flux].

Example ex_cat_wf : wf ex_cat /\ ex_cat <> PNone /\ number_of_params ex_cat = 4.
Proof. split; [|split; [discriminate|reflexivity]].
  simpl; unfold wf_plist; simpl; repeat split; intros ss E; congruence || (injection E; intros; subst; reflexivity). Qed.

Example ex_cat_names_ok : names_ok ex_cat.
Proof.
  simpl. unfold wf_names, named_param_index, named_param_name; simpl.
  repeat match goal with |- _ /\ _ => split end; try exact I; intros s i; try discriminate;
  try (repeat match goal with
     | |- context [String.eqb ?a ?b] => destruct (String.eqb_spec a b)
     end; intros E; try discriminate; injection E; intros; subst; simpl; lia);
  intros Hi; destruct i as [|[|[|[|[|i]]]]]; simpl; intros E; try discriminate; try lia;
  injection E; intros; subst; reflexivity.
Qed.

Section Props.
Context {V : Type}.
Notation ptree := (ptree V).

(** *** C01 *)

(** The parameter vector is the list of values of the free slots, and every
    other view (count, names, step sizes, bounds) has one entry per element. *)
Theorem C01_vector_views_agree (one : V) (t : ptree) : wf t ->
  get_params t = thawed (vals_of t) /\
  number_of_params t = length (get_params t) /\
  length (get_param_names t) = length (get_params t) /\
  length (get_step_sizes one t) = length (get_params t) /\
  length (get_lower_bounds t) = length (get_params t) /\
  length (get_upper_bounds t) = length (get_params t) /\
  length (get_max_step t) = length (get_params t).
Proof.
  intros W. rewrite <- (number_get t W), names_length.
  split; [apply get_params_flat|]. split; auto. split; auto.
  rewrite get_steps_flat, get_lower_flat, get_upper_flat, get_maxstep_flat, number_flat by auto.
  repeat split; apply thawed_length_flags; apply flat_flags; auto using len_vals, len_lowers, len_uppers, len_maxstep, len_steps.
Qed.

(** When list entries have declared names, the printed names are the dotted
    paths of the free slots, in the same order as the values. *)
Theorem C01_names_are_paths (t : ptree) : lists_named t ->
  get_param_names t = thawed (names_of t).
Proof. apply names_named. Qed.

(** *** C02 *)
Theorem C02_set_params_writes_exactly_thawed (v0 : V) (t : ptree) (p : list V) :
  wf t -> t <> PNone -> length p = number_of_params t ->
  exists t', set_params t p = Ok t' /\
    get_params t' = p /\
    vals_of t' = overlay (vals_of t) p /\
    frozen (vals_of t') = frozen (vals_of t) /\
    blank v0 t' = blank v0 t /\ wf t'.
Proof.
  intros W NN HL. destruct (set_params_spec v0 t p W NN HL) as (t' & E & W' & _ & HV & HB).
  exists t'. rewrite get_params_flat, HV. rewrite number_flat in HL by auto.
  rewrite overlay_thawed, overlay_frozen by auto. repeat split; auto.
Qed.

(** A vector that is too short is always refused. *)
Theorem C02_short_vector_raises (t : ptree) (p : list V) :
  length p < number_of_params t -> exists e, set_params t p = Err e.
Proof.
  intros H. destruct (set_params t p) eqn:E; eauto. apply set_params_short in E. lia.
Qed.

(** *** C03 *)
Theorem C03_write_back_identity (t : ptree) : wf t -> t <> PNone ->
  set_params t (get_params t) = Ok t.
Proof. apply set_get_id. Qed.

(** *** C04 *)
Theorem C04_set_one_param (v0 : V) (t : ptree) (i : nat) (v : V) :
  wf t -> t <> PNone -> i < number_of_params t ->
  exists t' old, set_param t (Z.of_nat i) v = Ok (t', old) /\
    nth_error (get_params t) i = Some old /\
    get_params t' = upd i v (get_params t) /\
    frozen (vals_of t') = frozen (vals_of t) /\
    blank v0 t' = blank v0 t /\ wf t' /\
    set_param t' (Z.of_nat i) old = Ok (t, v).
Proof.
  intros W NN HI.
  destruct (set_param_spec v0 t i v W NN HI) as (t' & old & E & HO & W' & NN' & HV & HB).
  assert (HL : length (upd i v (get_params t)) = length (thawed (vals_of t)))
    by (rewrite upd_length, get_params_flat; auto).
  assert (HG : get_params t' = upd i v (get_params t)).
  { rewrite get_params_flat, HV, overlay_thawed; auto. }
  assert (HN : number_of_params t' = number_of_params t).
  { rewrite !number_get, HG, upd_length by auto. auto. }
  exists t', old. repeat (split; [solve [auto]|]).
  split; [rewrite HV, overlay_frozen; auto|]. split; auto. split; auto.
  destruct (set_param_spec v0 t' i old W' NN' ltac:(lia)) as (t2 & o2 & E2 & HO2 & W2 & NN2 & HV2 & HB2).
  rewrite E2. rewrite HG in HO2.
  rewrite nth_error_upd_same in HO2 by (rewrite <- number_get; auto).
  injection HO2; intros; subst o2. do 2 f_equal.
  apply (blank_vals_inj v0); auto; [congruence|].
  rewrite HV2, HG, upd_upd, (upd_self i old) by auto.
  rewrite HV.
  rewrite overlay_overlay; auto.
  - rewrite overlay_self_vals; auto.
  - rewrite get_params_flat; auto.
Qed.

Theorem C04_out_of_range_raises (t : ptree) (i : Z) (v : V) :
  (i < 0 \/ Z.of_nat (number_of_params t) <= i)%Z -> exists e, set_param t i v = Err e.
Proof. apply set_param_out. Qed.

(** *** C05 *)
Theorem C05_all_params_round_trip (v0 : V) (t : ptree) (p : list V) :
  wf t -> t <> PNone -> length p = length (get_all_params t) ->
  get_all_params t = map snd (vals_of t) /\
  exists t', set_all_params t p = Ok t' /\ get_all_params t' = p /\
    blank v0 t' = blank v0 t /\ wf t' /\
    set_all_params t' (get_all_params t) = Ok t.
Proof.
  intros W NN HL. split; [apply get_all_flat; auto|].
  destruct (set_all_spec v0 t p W NN HL) as (t' & E & W' & NN' & HG & HB).
  exists t'; repeat (split; [solve [auto]|]).
  destruct (set_all_spec v0 t' (get_all_params t) W' NN') as (t2 & E2 & W2 & NN2 & HG2 & HB2).
  { rewrite HG; auto. }
  rewrite E2. f_equal. apply (blank_vals_inj v0); auto; [congruence|].
  rewrite <- !get_all_flat; auto.
Qed.

(** *** C06 *)

(** The flags after any history of calls (including ones that raise) are
    decided, entry by entry, by the last call that named the entry. *)
Theorem C06_flags_replay (nm : names) (liq : list bool) (ops : list fop) :
  length (frun nm liq ops) = length liq /\
  forall j f, nth_error liq j = Some f ->
    nth_error (frun nm liq ops) j = Some (last_touch nm (length liq) ops j f).
Proof. apply frun_spec. Qed.

(** The reported thawed and frozen indices are those flags. *)
Theorem C06_reported_indices (liq : list bool) (j : nat) :
  (In j (thawed_indices liq) <-> nth_error liq j = Some true) /\
  (In j (frozen_indices liq) <-> nth_error liq j = Some false).
Proof.
  unfold thawed_indices, frozen_indices. rewrite !indices_where_in, !Nat.sub_0_r.
  split; split; try tauto; intros; split; auto; lia.
Qed.

(** *** C07 *)

(** Recursive freeze ([b] = false) and thaw ([b] = true): exactly the
    positions carrying a requested name change (all of them for '*'), and
    apart from flags the object is untouched. *)
Theorem C07_recursive_flags (b b0 : bool) (ns : list string) (t : ptree) :
  wf t -> names_ok t -> container t ->
  exists t', flag_rec b ns t = Ok t' /\ reflag b0 t' = reflag b0 t /\ wf t' /\
    forall path f, flag_at t path = Some f ->
      ((In star ns \/ requested ns t path) -> flag_at t' path = Some b) /\
      (~ (In star ns \/ requested ns t path) -> flag_at t' path = Some f).
Proof.
  intros W N C. destruct (flag_rec_spec b b0 ns t W N C) as (t' & E & P & R & _ & W' & _).
  exists t'; auto.
Qed.

Theorem C07_freeze_all_recursive (t : ptree) :
  wf t -> names_ok t -> container t ->
  exists t', freeze_params_recursive [star] t = Ok t' /\ get_params t' = [] /\
    get_all_params t' = get_all_params t.
Proof.
  intros W N C. destruct (flag_rec_spec false true [star] t W N C) as (t' & E & P & R & C' & W' & N').
  exists t'; split; auto. split; [|apply (reflag_all true); auto].
  apply all_frozen_empty; auto. intros path f Hf.
  destruct (reflag_some true t t' (eq_sym R) path f Hf) as (g & Hg).
  destruct (P path g Hg) as (P1 & _). rewrite P1 in Hf by (left; simpl; auto). congruence.
Qed.

Theorem C07_thaw_all_recursive (t : ptree) :
  wf t -> names_ok t -> container t ->
  exists t', thaw_params_recursive [star] t = Ok t' /\ get_params t' = get_all_params t.
Proof.
  intros W N C. destruct (flag_rec_spec true true [star] t W N C) as (t' & E & P & R & C' & W' & N').
  exists t'; split; auto. rewrite <- (reflag_all true t t' R).
  apply all_thawed_all; auto. intros path f Hf.
  destruct (reflag_some true t t' (eq_sym R) path f Hf) as (g & Hg).
  destruct (P path g Hg) as (P1 & _). rewrite P1 in Hf by (left; simpl; auto). congruence.
Qed.

(** *** C08 *)
Theorem C08_thaw_paths_to (b0 : bool) (ns : list string) (t : ptree) :
  wf t -> names_ok t -> container t ->
  exists t' hit, thaw_paths_to ns t = Ok (t', hit) /\ reflag b0 t' = reflag b0 t /\
    (hit = true <-> exists q, requested ns t q) /\
    forall path f, flag_at t path = Some f ->
      exists f', flag_at t' path = Some f' /\
        (f' = true <-> f = true \/ exists q, requested ns t (path ++ q)).
Proof.
  intros W N C. destruct (thaw_paths_spec b0 ns t W N C) as (t' & hit & E & (P & H) & R & W').
  exists t', hit; repeat (split; [solve [auto]|]).
  intros path f Hf. destruct (P path f Hf) as (P1 & P2).
  destruct (flag_at t' path) as [f'|]; [|congruence]. exists f'; split; auto.
  rewrite <- P1. split; congruence.
Qed.

(** *** C09 *)
Theorem C09_liquid_index (l : plist V) (n : string) (i : nat) :
  wf_plist l -> named_param_index (l_names l) n = Some i -> i < length (l_vals l) ->
  (nth_error (l_liquid l) i = Some false /\
     liquid_index (l_names l) (l_liquid l) n = Ok (-1)%Z) \/
  (nth_error (l_liquid l) i = Some true /\
     exists j, liquid_index (l_names l) (l_liquid l) n = Ok (Z.of_nat j) /\
       j < number_of_params (PList l) /\
       nth_error (get_params (PList l)) j = nth_error (l_vals l) i /\
       forall v, exists old, set_param (PList l) (Z.of_nat j) v
                 = Ok (PList (with_vals l (upd i v (l_vals l))), old)).
Proof.
  intros W E HI. unfold liquid_index. rewrite E. unfold liquid_index_of_index, py_get.
  pose proof W as (W1 & _).
  destruct (nth_error (l_liquid l) i) as [[|]|] eqn:F; simpl; auto.
  2:{ apply nth_error_None in F. lia. }
  right; split; auto. exists (count_true (firstn i (l_liquid l))).
  pose proof (keep_nth (l_liquid l) (l_vals l) i F W1) as HK.
  assert (HJ : count_true (firstn i (l_liquid l)) < count_true (l_liquid l)).
  { rewrite <- (keep_length (l_liquid l) (l_vals l)) by auto. apply nth_error_Some.
    rewrite HK. apply nth_error_Some; auto. }
  repeat (split; [solve [auto]|]). intros v.
  destruct (index_liquid_ok (l_liquid l) (l_vals l) _ v W1 HJ) as (ii & old & EI & H1 & H2 & H3).
  exists old. rewrite EI; simpl. unfold py_get. rewrite H1; simpl.
  assert (ii = i); [|subst; auto].
  clear -EI F. revert i ii EI F. induction (l_liquid l) as [|b r IH]; intros i ii EI F; [destruct i; discriminate|].
  destruct i.
  - simpl in F. injection F; intros; subst. simpl in EI. congruence.
  - simpl in F. cbn [firstn] in EI. rewrite count_true_cons in EI. destruct b.
    + rewrite index_liquid_true in EI. apply bind_ok in EI. destruct EI as (k & EI & Ek).
      injection Ek; intros; subst. f_equal. eapply IH; eauto.
    + cbn [index_liquid] in EI. apply bind_ok in EI. destruct EI as (k & EI & Ek).
      injection Ek; intros; subst. f_equal. eapply IH; eauto.
Qed.

(** *** C10 (values and flags; independence of the copy is in HeapProps.v) *)
Theorem C10_copy_preserves (one : V) (t : ptree) : wf t -> no_none t ->
  exists t', copy one t = Ok t' /\ wf t' /\
    get_params t' = get_params t /\ get_all_params t' = get_all_params t /\
    get_param_names t' = get_param_names t /\
    (forall path, flag_at t' path = flag_at t path).
Proof.
  intros W NN. destruct (copy_spec one t NN) as (t' & E & HV & HN & _ & _ & HW & HF).
  exists t'. rewrite !get_params_flat, !get_all_flat, HV by auto. auto 10.
Qed.

(** *** C12 *)

(** Setting step sizes works when the lists involved have nothing frozen or
    no step sizes of their own yet. *)
Theorem C12_step_sizes_round_trip (one : V) (t : ptree) (ss : list V) :
  wf t -> t <> PNone -> steppable t -> length ss = number_of_params t ->
  exists t', set_step_sizes one t ss = Ok t' /\ get_step_sizes one t' = ss /\
    frozen (steps_of one t') = frozen (steps_of one t) /\
    get_params t' = get_params t.
Proof.
  intros W NN S HL. destruct (set_steps_spec one t ss W NN S HL) as (t' & E & HG & HV & _).
  exists t'. rewrite get_steps_flat, !get_params_flat, HV, HG, overlay_frozen, overlay_thawed; auto.
  rewrite HL, number_flat by auto.
  apply thawed_length_flags. apply flat_flags; auto using len_vals, len_steps.
Qed.

(** *** C13 *)
Theorem C13_bounds_aligned (t : ptree) : wf t ->
  get_lower_bounds t = thawed (lowers_of t) /\ map fst (lowers_of t) = map fst (vals_of t) /\
  get_upper_bounds t = thawed (uppers_of t) /\ map fst (uppers_of t) = map fst (vals_of t) /\
  get_max_step t = thawed (maxsteps_of t) /\ map fst (maxsteps_of t) = map fst (vals_of t).
Proof.
  intros W. rewrite get_lower_flat, get_upper_flat, get_maxstep_flat.
  repeat split; apply flat_flags; auto using len_vals, len_lowers, len_uppers, len_maxstep.
Qed.

(** *** C14 *)
Theorem C14_prior_indices_when_lists_thawed (d : V) (t : ptree) :
  wf t -> lists_thawed t -> priors_ok t ->
  map (fun e => (nth (fst (fst e)) (get_params t) d, snd (fst e), snd e)) (get_gaussian_priors t)
    = prior_vals d t /\
  Forall (fun e => fst (fst e) < number_of_params t) (get_gaussian_priors t).
Proof. apply priors_spec. Qed.
End Props.

(** *** C11 *)
Theorem C11_flags_follow_members {I : Type} (eqb : I -> I -> bool) (nm : names)
    (g : group) (ops : list gop) :
  length (g_liquid g) = length (g_subs g) ->
  let g' := grun eqb nm g ops in
  length (g_liquid g') = length (g_subs g') /\
  combine (g_subs g') (g_liquid g') =
    fold_left (spec_step eqb nm) ops (combine (g_subs g) (g_liquid g)).
Proof. intros. apply grun_spec; auto. Qed.

(** ** Refutations: what the code does not do *)

(** C12: with a frozen entry and step sizes already present, setting the step
    sizes of the thawed entries raises IndexError (raw positions are used to
    index the vector of thawed steps). *)
Theorem C12_step_sizes_refuted :
  exists (t : ptree Z) ss, wf t /\ t <> PNone /\ length ss = number_of_params t /\
    set_step_sizes 1%Z t ss = Err IndexError /\
    (** the values it refuses are the ones it reports itself *)
    ss = get_step_sizes 1%Z t.
Proof.
  exists (PList (mkPlist (mkNames [] []) [10; 20]%Z [false; true] [None; None] [None; None]
    [None; None] (Some [1; 5]%Z) [])), [5%Z].
  repeat split; try reflexivity; try discriminate. intros ss E; injection E; intros; subst; auto.
Qed.

(** C14: freezing an entry of a list in a group shifts the reported indices:
    the prior on a thawed entry points at a position that does not exist, and
    a prior on a frozen entry points at another parameter. *)
Theorem C14_prior_indices_refuted :
  exists (t : ptree Z) i mu sigma, wf t /\ priors_ok t /\
    In (i, mu, sigma) (get_gaussian_priors t) /\ number_of_params t <= i.
Proof.
  exists (mk_multi (mkNames [] [])
    [PList (mkPlist (mkNames [] []) [10; 20]%Z [false; true] [None; None] [None; None] [None; None]
       None [mkPrior "y"%string 1 5%Z 2%Z])]), 1, 5%Z, 2%Z.
  simpl. unfold wf_plist; simpl. repeat split; auto; intros; discriminate.
Qed.

(** Catalog.getNamedParamName (engine.py:74-75) prints 'source%i' names that
    getNamedParamIndex does not know, so the names of its own members cannot be
    used for recursive freezing: the call raises instead of freezing. *)
Theorem C07_catalog_member_names_refuted :
  exists (t : ptree Z) n, wf t /\
    get_param_names t = [[CName n; CName "r"%string]; [CName n; CName "z"%string]] /\
    freeze_params_recursive [n] t = Err AssertionError.
Proof.
  exists (mk_multi (mkNames [] [(0, "source0"%string)]) [ex_flux]), "source0"%string.
  repeat split; try reflexivity. intros ss E; injection E; intros; subst; auto.
Qed.

(** C10: a copy keeps neither bounds, step sizes, nor priors of a list. *)
Theorem C10_copy_drops_bounds_refuted :
  exists (t t' : ptree Z), wf t /\ copy 1%Z t = Ok t' /\
    get_lower_bounds t' <> get_lower_bounds t /\
    get_step_sizes 1%Z t' <> get_step_sizes 1%Z t /\
    get_gaussian_priors t' <> get_gaussian_priors t.
Proof.
  exists ex_flux. eexists. split; [|split; [reflexivity|]].
  - repeat split; try reflexivity. intros ss E; injection E; intros; subst; auto.
  - repeat split; discriminate.
Qed.

(** C02: a vector that is too long is accepted by lists (and so by groups of
    lists); the extra entries are ignored. *)
Theorem C02_long_vector_refuted :
  exists (t : ptree Z) p t', wf t /\ number_of_params t < length p /\ set_params t p = Ok t'.
Proof.
  exists ex_flux, [1; 2; 3]%Z. eexists. split; [|split; [|reflexivity]].
  - repeat split; try reflexivity. intros ss E; injection E; intros; subst; auto.
  - vm_compute. auto.
Qed.

(** ** Non-vacuity: the theorems' conclusions on the example catalog *)
Example C01_ex : get_params ex_cat = [10; 7; 100; 200]%Z /\
  get_all_params ex_cat = [10; 20; 100; 200; 7; 100; 200]%Z /\
  get_step_sizes 1%Z ex_cat = [1; 1; 3; 4]%Z /\
  get_lower_bounds ex_cat = [None; Some 0; Some 0; Some 0]%Z.
Proof. repeat split. Qed.
Example C01_names_ex : lists_named ex_cat /\
  get_param_names ex_src = [[CName "pos"; CName "x"]; [CName "frac"; CName "FracDev"]]%string.
Proof. split; [|reflexivity]. simpl. repeat split; auto; intros [|[|i]] H; try discriminate; simpl in H; lia. Qed.
Example C02_ex : exists t', set_params ex_cat [1; 2; 3; 4]%Z = Ok t' /\
  get_all_params t' = [1; 20; 100; 200; 2; 3; 4]%Z.
Proof. eexists; split; reflexivity. Qed.
Example C04_ex : exists t', set_param ex_cat 2 55%Z = Ok (t', 100%Z) /\
  get_params t' = [10; 7; 55; 200]%Z.
Proof. eexists; split; reflexivity. Qed.
Example C05_ex : exists t', set_all_params ex_cat [1; 2; 3; 4; 5; 6; 7]%Z = Ok t' /\
  get_all_params t' = [1; 2; 3; 4; 5; 6; 7]%Z /\ get_params t' = [1; 5; 6; 7]%Z.
Proof. eexists; repeat split. Qed.
Example C06_ex :
  frun (mkNames [("a"%string, 0); ("c"%string, 2)] []) [true; false; true; true]
    [FreezeParams [KName "a"%string; KInt (-1)]; ThawParams [KInt 1; KInt 9; KName "a"%string]]
  = [false; true; true; false].
Proof. reflexivity. Qed.
Example C07_ex : exists t', freeze_params_recursive ["x"; "z"]%string ex_cat = Ok t' /\
  get_params t' = [7; 100]%Z.
Proof. eexists; split; reflexivity. Qed.
Example C07_ex_star : exists t', thaw_params_recursive [star] ex_cat = Ok t' /\
  get_params t' = get_all_params ex_cat.
Proof. eexists; split; reflexivity. Qed.
Example C08_ex : exists t', thaw_paths_to ["z"]%string ex_cat = Ok (t', true) /\
  get_params t' = [10; 100; 200; 7; 100; 200]%Z.
Proof. eexists; split; reflexivity. Qed.
Example C09_ex : liquid_index (mkNames [("a"%string, 0); ("c"%string, 2)] []) [true; false; true] "c" = Ok 1%Z.
Proof. reflexivity. Qed.
Example C10_ex : no_none ex_flux /\ exists t', copy 1%Z ex_flux = Ok t' /\ get_params t' = [100; 200]%Z.
Proof. split; [exact I|eexists; split; reflexivity]. Qed.
Example C11_ex :
  let g := grun Nat.eqb (mkNames [] []) (mkGroup [7; 8] [true; false])
             [GPrepend 5; GFlag false (KInt 0); GRemove 7; GExtend [9; 9]] in
  g_subs g = [5; 8; 9; 9] /\ g_liquid g = [false; false; true; true].
Proof. split; reflexivity. Qed.
Example C12_ex : steppable ex_flux /\ exists t', set_step_sizes 1%Z ex_flux [8; 9]%Z = Ok t' /\
  get_step_sizes 1%Z t' = [8; 9]%Z.
Proof. split; [right; simpl; auto|eexists; split; reflexivity]. Qed.
Example C14_ex : lists_thawed ex_flux /\ priors_ok ex_flux /\
  get_gaussian_priors (mk_multi (mkNames [] []) [ex_scalar; ex_flux]) = [(2, 7%Z, 1%Z)].
Proof. simpl; repeat split; auto. Qed.

Print Assumptions C01_vector_views_agree.
Print Assumptions C02_set_params_writes_exactly_thawed.
Print Assumptions C03_write_back_identity.
Print Assumptions C04_set_one_param.
Print Assumptions C05_all_params_round_trip.
Print Assumptions C06_flags_replay.
Print Assumptions C07_recursive_flags.
Print Assumptions C08_thaw_paths_to.
Print Assumptions C09_liquid_index.
Print Assumptions C10_copy_preserves.
Print Assumptions C11_flags_follow_members.
Print Assumptions C12_step_sizes_round_trip.
Print Assumptions C14_prior_indices_when_lists_thawed.
