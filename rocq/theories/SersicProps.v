(** C66: Sersic profiles; C67: the stepped profiles used for derivatives. *)
From Coq Require Import List ZArith QArith Bool Reals Qreals Lra Lia Permutation Sorted.
From Coq Require RMicromega.
From Verif Require Import Base SersicModel.
Import ListNotations.
Open Scope R_scope.

(** ** Specification *)
(** Light of a profile seen through any function of the variance: G is for
    example the density at some radius of a Gaussian of that variance. *)
Fixpoint light (G : R -> R) (p : list (R * R)) : R :=
  match p with [] => 0 | (a, v) :: r => a * G v + light G r end.
Definition total (p : list (R * R)) : R := light (fun _ => 1) p.

Fixpoint strictly_increasing (l : list R) : Prop :=
  match l with x :: ((y :: _) as r) => x < y /\ strictly_increasing r | _ => True end.
(** An interpolating spline of acceptable nodes: continuous, through the nodes. *)
Definition good_spline (spl : nat -> list (R * R) -> R -> R) : Prop :=
  forall k nodes, strictly_increasing (map fst nodes) -> (k < length nodes)%nat ->
    (forall x y, In (x, y) nodes -> spl k nodes x = y) /\ continuity (spl k nodes).
(** Any sorting permutation. *)
Definition good_sort (argsort : list R -> list nat) : Prop :=
  forall l, Permutation (argsort l) (seq 0 (length l)) /\ StronglySorted Rle (map (fun i => nth i l 0) (argsort l)).

(** The index at which tables are read: indices outside [0.29, 6.3] are clamped. *)
Definition clamp (s : R) : R := Rmax (29/100) (Rmin (63/10) s).
(** The amplitudes of the table ranges that reach s do not cancel. *)
Definition no_cancel (m : mixture) (s : R) : Prop :=
  forall f, In f (m_fits m) -> f_lo f <= s <= f_hi f -> rsum (eval (f_amps f) s) <> 0.
(** A row of the table as a profile: amplitudes scaled to total 1 - core, the core
    an unresolved point. *)
Definition row_light (G : R -> R) (core : R) (a v : list Q) : R :=
  (1 - core) * (light G (combine (map Q2R a) (map Q2R v)) / total (combine (map Q2R a) (map Q2R v))) + core * G 0.

(** ** The tables *)
Definition cols : list colfit := match mapM fit_columns fits with Ok l => l | Err _ => [] end.
Opaque cols fits cores.
Lemma cols_ok : mapM fit_columns fits = Ok cols.
Proof. vm_compute. reflexivity. Qed.
Lemma core_nodes : spline_nodes 3 cores = Ok cores.
Proof. vm_compute. reflexivity. Qed.
Lemma built spl : sersic_mixture spl = Ok (mkmix (map (fit_of spl) cols) (spl 3%nat (real_nodes cores))).
Proof. unfold sersic_mixture. rewrite core_nodes, cols_ok. reflexivity. Qed.

Definition qlt (a b : Q) : bool := negb (Qle_bool b a).
Lemma qlt_R a b : qlt a b = true -> Q2R a < Q2R b.
Proof.
  unfold qlt. intros H. apply negb_true_iff in H. apply Qlt_Rlt. apply Qnot_le_lt. intros C.
  apply Qle_bool_iff in C. congruence.
Qed.
Lemma increasing_R l : increasing l = true -> strictly_increasing (map Q2R l).
Proof.
  induction l as [|x [|y r] IH]; try easy. cbn [increasing map strictly_increasing] in *.
  intros H. apply andb_prop in H as (H1 & H2). split; [apply qlt_R; exact H1|apply IH; exact H2].
Qed.

(** What is checked of a range: node lists acceptable, variances positive, as many
    variances as amplitudes, lo < hi, the first node at lo, a node at hi. *)
Definition nodes_check (c : colfit) (n : list (Q * Q)) : bool :=
  increasing (map fst n) && Nat.ltb (c_k c) (length n).
Definition col_check (c : colfit) : bool :=
  forallb (nodes_check c) (c_amp c) && forallb (nodes_check c) (c_var c) &&
  forallb (forallb (fun p => qlt 0 (snd p))) (c_var c) &&
  Nat.eqb (length (c_amp c)) (length (c_var c)) && qlt (c_lo c) (c_hi c).
Lemma cols_check : forallb col_check cols = true.
Proof. vm_compute. reflexivity. Qed.

Lemma map_fst_real n : map fst (real_nodes n) = map Q2R (map fst n).
Proof. unfold real_nodes. rewrite !map_map. reflexivity. Qed.
Lemma map_fst_log n : map fst (log_nodes n) = map Q2R (map fst n).
Proof. unfold log_nodes. rewrite !map_map. reflexivity. Qed.

(** ** Sorting does not matter *)
Lemma light_perm G p q : Permutation p q -> light G p = light G q.
Proof. induction 1 as [|[a v] l l' _ IH|[a v] [b w] l|l l' l'' _ IH1 _ IH2]; cbn [light]; lra. Qed.
Lemma combine_take (a v : list R) ix : combine (take a ix) (take v ix) = map (fun i => (nth i a 0, nth i v 0)) ix.
Proof. induction ix as [|i r IH]; [reflexivity|]. cbn. f_equal. exact IH. Qed.
Lemma combine_all (a v : list R) : length a = length v ->
  map (fun i => (nth i a 0, nth i v 0)) (seq 0 (length v)) = combine a v.
Proof.
  revert v. induction a as [|x a IH]; intros [|y v] H; try discriminate; [reflexivity|].
  cbn [length seq map combine nth]. f_equal. rewrite <- IH by (cbn in H; lia).
  rewrite <- seq_shift, map_map. reflexivity.
Qed.
Lemma sorted_pairs argsort (a v : list R) : good_sort argsort -> length a = length v ->
  Permutation (combine (take a (argsort v)) (take v (argsort v))) (combine a v).
Proof.
  intros GS HL. rewrite combine_take. destruct (GS v) as (HP & _).
  rewrite <- (combine_all a v HL). apply Permutation_map. exact HP.
Qed.
Lemma map_snd_combine {A B} (a : list A) (b : list B) : length a = length b -> map snd (combine a b) = b.
Proof. revert b. induction a as [|x a IH]; intros [|y b] H; try discriminate; [reflexivity|]. cbn. f_equal. apply IH. cbn in H. lia. Qed.
Lemma map_fst_combine {A B} (a : list A) (b : list B) : length a = length b -> map fst (combine a b) = a.
Proof. revert b. induction a as [|x a IH]; intros [|y b] H; try discriminate; [reflexivity|]. cbn. f_equal. apply IH. cbn in H. lia. Qed.

(** ** Which range is used *)
Fixpoint chain (fs : list fit) (a b : R) : Prop :=
  match fs with
  | [] => a = b
  | f :: r => f_lo f = a /\ f_lo f < f_hi f /\ chain r (f_hi f) b
  end.
Lemma chain_le fs a b : chain fs a b -> a <= b.
Proof. revert a. induction fs as [|f r IH]; cbn; intros a; [lra|]. intros (E & H & C). apply IH in C. lra. Qed.
Lemma chain_none fs a b s : chain fs a b -> s < a -> filter (fun f => rle (f_lo f) s && rlt s (f_hi f)) fs = [].
Proof.
  revert a. induction fs as [|f r IH]; intros a; [reflexivity|]. cbn [chain filter]. intros (E & H & C) Hs.
  unfold rle at 1. destruct (Rle_dec (f_lo f) s); [lra|]. cbn [andb]. apply (IH _ C). lra.
Qed.
Lemma chain_one fs a b s : chain fs a b -> a <= s < b ->
  exists f, filter (fun f => rle (f_lo f) s && rlt s (f_hi f)) fs = [f] /\ In f fs /\ f_lo f <= s < f_hi f.
Proof.
  revert a. induction fs as [|f r IH]; intros a; cbn [chain]; [lra|]. intros (E & H & C) Hs.
  cbn [filter]. unfold rle at 1, rlt at 1. destruct (Rle_dec (f_lo f) s) as [H1|H1]; [|lra].
  destruct (Rlt_dec s (f_hi f)) as [H2|H2]; cbn [andb].
  - exists f. rewrite (chain_none _ _ _ s C H2). split; [reflexivity|]. split; [left; reflexivity|lra].
  - destruct (IH _ C ltac:(lra)) as (f' & F & I & R'). exists f'. split; [exact F|]. split; [right; exact I|exact R'].
Qed.

Fixpoint qchain (cs : list colfit) (a b : Q) : bool :=
  match cs with
  | [] => Qeq_bool a b
  | c :: r => Qeq_bool (c_lo c) a && qlt (c_lo c) (c_hi c) && qchain r (c_hi c) b
  end.
Lemma qchain_R spl cs a b : qchain cs a b = true -> chain (map (fit_of spl) cs) (Q2R a) (Q2R b).
Proof.
  revert a. induction cs as [|c r IH]; cbn [qchain map chain]; intros a H.
  - apply Qeq_eqR, Qeq_bool_eq, H.
  - apply andb_prop in H as (H & H3). apply andb_prop in H as (H1 & H2).
    cbn [fit_of f_lo f_hi]. split; [apply Qeq_eqR, Qeq_bool_eq, H1|]. split; [apply qlt_R, H2|apply IH, H3].
Qed.
Lemma cols_chain spl : chain (map (fit_of spl) cols) (29/100) (63/10).
Proof.
  assert (H : qchain cols (29#100) (63#10) = true) by (vm_compute; reflexivity).
  apply (qchain_R spl) in H. replace (29/100) with (Q2R (29#100)) by (unfold Q2R; cbn; lra).
  replace (63/10) with (Q2R (63#10)) by (unfold Q2R; cbn; lra). exact H.
Qed.

(** The first and last fits, and the one used at s. *)
Section Mix.
Variable spl : nat -> list (R * R) -> R -> R.
Let m := mkmix (map (fit_of spl) cols) (spl 3%nat (real_nodes cores)).

Lemma ends : exists f0 fn, py_get (m_fits m) 0 = Ok f0 /\ py_get (m_fits m) (length (m_fits m) - 1) = Ok fn /\
  In f0 (m_fits m) /\ In fn (m_fits m) /\ f_lo f0 = 29/100 /\ f_hi fn = 63/10 /\ f_lo fn < 63/10 /\ 29/100 < f_hi f0.
Proof.
  unfold m. cbn [m_fits].
  assert (HL : length cols = 8%nat) by (vm_compute; reflexivity).
  assert (Q0 : exists c, nth_error cols 0 = Some c /\ Qeq_bool (c_lo c) (29#100) = true /\ qlt (29#100) (c_hi c) = true)
    by (vm_compute; eauto).
  assert (Q8 : exists c, nth_error cols 7 = Some c /\ Qeq_bool (c_hi c) (63#10) = true /\ qlt (c_lo c) (63#10) = true)
    by (vm_compute; eauto).
  destruct Q0 as (c0 & N0 & E0 & L0), Q8 as (c8 & N8 & E8 & L8).
  exists (fit_of spl c0), (fit_of spl c8). rewrite map_length, HL. cbn [Nat.sub]. unfold py_get.
  rewrite !nth_error_map, N0, N8. cbn [option_map].
  apply nth_error_In in N0, N8. apply qlt_R in L0, L8. apply Qeq_bool_eq, Qeq_eqR in E0, E8.
  assert (A : Q2R (29#100) = 29/100) by (unfold Q2R; cbn; lra).
  assert (B : Q2R (63#10) = 63/10) by (unfold Q2R; cbn; lra).
  cbn [fit_of f_lo f_hi]. split; [reflexivity|]. split; [reflexivity|]. split; [apply (in_map (fit_of spl) cols); exact N0|].
  split; [apply (in_map (fit_of spl) cols); exact N8|]. lra.
Qed.
Lemma in_fits f : In f (m_fits m) -> exists c, fit_of spl c = f /\ In c cols.
Proof. intros H. exact (proj1 (in_map_iff (fit_of spl) cols f) H). Qed.

Lemma clamp_cases s : (s <= 29/100 /\ clamp s = 29/100) \/ (63/10 <= s /\ clamp s = 63/10) \/ (29/100 < s < 63/10 /\ clamp s = s).
Proof. unfold clamp, Rmax, Rmin. destruct (Rle_dec (63/10) s), (Rle_dec (29/100) _); lra. Qed.

Lemma selected s : exists f, matches m s = Ok ([f], clamp s) /\ In f (m_fits m) /\ f_lo f <= clamp s <= f_hi f /\
  (clamp s < 63/10 -> clamp s < f_hi f) /\ (s < 29/100 -> f_lo f = 29/100).
Proof.
  destruct ends as (f0 & fn & P0 & PN & I0 & IN & E0 & EN & LN & L0). unfold matches. rewrite P0, PN. cbn [bind].
  unfold rle at 1. destruct (Rle_dec s (f_lo f0)) as [H|H].
  - exists f0. destruct (clamp_cases s) as [[? C]|[[? C]|[? C]]]; try lra. rewrite C, E0. split; [reflexivity|]. split; [exact I0|]. lra.
  - unfold rle at 1. destruct (Rle_dec (f_hi fn) s) as [H'|H'].
    + exists fn. destruct (clamp_cases s) as [[? C]|[[? C]|[? C]]]; try lra. rewrite C, EN. split; [reflexivity|]. split; [exact IN|]. lra.
    + assert (C : clamp s = s) by (destruct (clamp_cases s) as [[? C]|[[? C]|[? C]]]; lra).
      destruct (chain_one _ _ _ s (cols_chain spl) ltac:(lra)) as (f & F & I' & R').
      exists f. rewrite C. change (m_fits m) with (map (fit_of spl) cols). rewrite F. split; [reflexivity|]. split; [exact I'|]. lra.
Qed.

Lemma in_col f : In f (m_fits m) -> exists c, f = fit_of spl c /\ In c cols /\ col_check c = true.
Proof.
  intros H. apply in_fits in H as (c & <- & I'). exists c. split; [reflexivity|]. split; [exact I'|].
  pose proof cols_check as K. rewrite forallb_forall in K. auto.
Qed.
Lemma same_length f s : In f (m_fits m) -> length (eval (f_amps f) s) = length (map exp (eval (f_logvars f) s)).
Proof.
  intros H. destruct (in_col f H) as (c & -> & _ & K). unfold col_check in K. repeat (apply andb_prop in K as (K & ?)).
  unfold eval. cbn [fit_of f_amps f_logvars]. rewrite !map_length. apply Nat.eqb_eq. assumption.
Qed.

(** ** Sums *)
Lemma light_map G c l v : light G (combine (map (fun a => a * c) l) v) = c * light G (combine l v).
Proof.
  revert v. induction l as [|a l IH]; intros v; [cbn; ring|]. destruct v as [|x v]; [cbn; ring|].
  cbn. rewrite IH. ring.
Qed.
Lemma light_app G p q : light G (p ++ q) = light G p + light G q.
Proof. induction p as [|[a v] p IH]; cbn; lra. Qed.
Lemma rsum_map c l : rsum (map (fun a => a * c) l) = rsum l * c.
Proof. induction l as [|a l IH]; unfold rsum in *; cbn; [ring|]. rewrite IH. ring. Qed.
Lemma total_combine a v : length a = length v -> total (combine a v) = rsum a.
Proof.
  unfold total, rsum. revert v. induction a as [|x a IH]; intros [|y v] H; try discriminate; [reflexivity|].
  cbn. rewrite IH by (cbn in H; lia). ring.
Qed.
Lemma normalized_map l : normalized l = map (fun a => a * / rsum l) l.
Proof. reflexivity. Qed.
Lemma rsum_normalized l : rsum l <> 0 -> rsum (normalized l) = 1.
Proof. intros H. rewrite normalized_map, rsum_map. field. exact H. Qed.
Lemma combine_app {A B} (a1 a2 : list A) (b1 b2 : list B) : length a1 = length b1 ->
  combine (a1 ++ a2) (b1 ++ b2) = combine a1 b1 ++ combine a2 b2.
Proof. revert b1. induction a1 as [|x a IH]; intros [|y b] H; try discriminate; [reflexivity|]. cbn. f_equal. apply IH. cbn in H. lia. Qed.

(** The light of one range at s, before the core, and the fraction in the core. *)
Definition fl (G : R -> R) (f : fit) (s : R) : R :=
  light G (combine (eval (f_amps f) s) (map exp (eval (f_logvars f) s))) / rsum (eval (f_amps f) s).
Definition core_at (s : R) : R := if rlt 1 s then m_core m s else 0.

(** The profile as the pair of lists before sorting. *)
Lemma profile_lists argsort s : exists f a v,
  In f (m_fits m) /\ f_lo f <= clamp s <= f_hi f /\ (clamp s < 63/10 -> clamp s < f_hi f) /\ length a = length v /\
  get_profile argsort m s = Ok (combine (take a (argsort v)) (take v (argsort v))) /\
  (a, v) = add_core m (clamp s) (normalized (eval (f_amps f) (clamp s)), map exp (eval (f_logvars f) (clamp s))).
Proof.
  destruct (selected s) as (f & M & I' & R' & R2 & _). unfold get_profile. rewrite M. cbn [bind interpolate].
  destruct (add_core m (clamp s) (normalized (eval (f_amps f) (clamp s)), map exp (eval (f_logvars f) (clamp s)))) as [a v] eqn:E.
  exists f, a, v. split; [exact I'|]. split; [exact R'|]. split; [exact R2|]. split; [|split; [reflexivity|symmetry; exact E]].
  pose proof (same_length f (clamp s) I') as L. unfold add_core in E.
  destruct (rlt 1 (clamp s)); injection E as <- <-; unfold normalized; rewrite ?app_length, ?map_length in *; cbn [length]; lia.
Qed.

Lemma light_of_lists G f s : In f (m_fits m) -> rsum (eval (f_amps f) s) <> 0 ->
  let av := add_core m s (normalized (eval (f_amps f) s), map exp (eval (f_logvars f) s)) in
  light G (combine (fst av) (snd av)) = (1 - core_at s) * fl G f s + core_at s * G 0.
Proof.
  intros I' H. pose proof (same_length f s I') as L. cbn zeta.
  assert (F : light G (combine (normalized (eval (f_amps f) s)) (map exp (eval (f_logvars f) s))) = fl G f s).
  { rewrite normalized_map, light_map. unfold fl. field. exact H. }
  unfold add_core, core_at. destruct (rlt 1 s); cbn [fst snd].
  - rewrite combine_app by (unfold normalized; rewrite !map_length in *; exact L).
    rewrite light_app, light_map, F, rsum_normalized by exact H. cbn. field.
  - rewrite F. ring.
Qed.

Lemma profile_light argsort G s p : good_sort argsort -> no_cancel m (clamp s) -> get_profile argsort m s = Ok p ->
  exists f, In f (m_fits m) /\ f_lo f <= clamp s <= f_hi f /\ (clamp s < 63/10 -> clamp s < f_hi f) /\
  light G p = (1 - core_at (clamp s)) * fl G f (clamp s) + core_at (clamp s) * G 0.
Proof.
  intros GS NC E. destruct (profile_lists argsort s) as (f & a & v & I' & R' & R2 & L & E' & AV).
  rewrite E' in E. injection E as <-. exists f. split; [exact I'|]. split; [exact R'|]. split; [exact R2|].
  rewrite (light_perm _ _ _ (sorted_pairs argsort a v GS L)).
  pose proof (light_of_lists G f (clamp s) I' (NC f I' R')) as H. rewrite <- AV in H. exact H.
Qed.

(** The fit reached at s is unique below its upper end. *)
Lemma chain_unique fs a b f g s : chain fs a b -> In f fs -> In g fs -> f_lo f <= s < f_hi f -> f_lo g <= s < f_hi g -> f = g.
Proof.
  revert a. induction fs as [|h r IH]; intros a C If Ig Rf Rg; [destruct If|]. cbn [chain] in C. destruct C as (E & H & C).
  assert (K : forall k, In k r -> f_hi h <= f_lo k).
  { clear - C. intros k. revert C. generalize (f_hi h). induction r as [|x r IH]; intros z C I'; [destruct I'|].
    cbn in C. destruct C as (E & H & C). destruct I' as [<-|I']; [lra|]. specialize (IH _ C I'). lra. }
  destruct If as [<-|If], Ig as [<-|Ig]; [reflexivity| | |].
  - specialize (K g Ig). lra.
  - specialize (K f If). lra.
  - exact (IH _ C If Ig Rf Rg).
Qed.

(** ** At the nodes *)
Definition lookup (x : Q) (n : list (Q * Q)) : option Q := option_map snd (find (fun p => Qeq_bool x (fst p)) n).
Lemma lookup_in x n y : lookup x n = Some y -> exists x', In (x', y) n /\ Q2R x' = Q2R x.
Proof.
  unfold lookup. destruct (find _ n) as [[x' y']|] eqn:E; [|discriminate]. cbn. intros [= <-].
  apply find_some in E as (I' & E). exists x'. split; [exact I'|]. symmetry. apply Qeq_eqR, Qeq_bool_eq. exact E.
Qed.

Hypothesis GS : good_spline spl.
Lemma amp_nodes c n : col_check c = true -> In n (c_amp c) ->
  strictly_increasing (map fst (real_nodes n)) /\ (c_k c < length (real_nodes n))%nat.
Proof.
  unfold col_check. intros K I'. repeat (apply andb_prop in K as (K & ?)). rewrite forallb_forall in K.
  specialize (K n I'). unfold nodes_check in K. apply andb_prop in K as (K1 & K2). apply Nat.ltb_lt in K2.
  rewrite map_fst_real. split; [apply increasing_R, K1|]. unfold real_nodes. rewrite map_length. exact K2.
Qed.
Lemma var_nodes c n : col_check c = true -> In n (c_var c) ->
  strictly_increasing (map fst (log_nodes n)) /\ (c_k c < length (log_nodes n))%nat /\ (forall x y, In (x, y) n -> 0 < Q2R y).
Proof.
  unfold col_check. intros K I'. repeat (apply andb_prop in K as (K & ?)). rewrite forallb_forall in *.
  assert (K' : nodes_check c n = true) by auto. unfold nodes_check in K'. apply andb_prop in K' as (K1 & K2). apply Nat.ltb_lt in K2.
  rewrite map_fst_log. split; [apply increasing_R, K1|]. unfold log_nodes. rewrite map_length. split; [exact K2|].
  intros x y Ixy. assert (P' : forallb (fun p => qlt 0 (snd p)) n = true) by auto. rewrite forallb_forall in P'.
  specialize (P' _ Ixy). apply qlt_R in P'. cbn [snd] in P'. replace 0 with (Q2R 0) by (unfold Q2R; cbn; lra). exact P'.
Qed.
Lemma amp_value c n x y : col_check c = true -> In n (c_amp c) -> lookup x n = Some y ->
  spl (c_k c) (real_nodes n) (Q2R x) = Q2R y.
Proof.
  intros K I' L. destruct (amp_nodes c n K I') as (S1 & S2). destruct (GS _ _ S1 S2) as (V & _).
  apply lookup_in in L as (x' & L & <-). apply V. apply in_map_iff. exists (x', y). split; [reflexivity|exact L].
Qed.
Lemma var_value c n x y : col_check c = true -> In n (c_var c) -> lookup x n = Some y ->
  exp (spl (c_k c) (log_nodes n) (Q2R x)) = Q2R y.
Proof.
  intros K I' L. destruct (var_nodes c n K I') as (S1 & S2 & P'). destruct (GS _ _ S1 S2) as (V & _).
  apply lookup_in in L as (x' & L & <-). rewrite (V (Q2R x') (ln (Q2R y))); [apply exp_ln, (P' _ _ L)|].
  apply in_map_iff. exists (x', y). split; [reflexivity|exact L].
Qed.
Lemma values_at (g : list (Q * Q) -> R) (ns : list (list (Q * Q))) x vals :
  map (lookup x) ns = map Some vals -> (forall n y, In n ns -> lookup x n = Some y -> g n = Q2R y) ->
  map g ns = map Q2R vals.
Proof.
  revert vals. induction ns as [|n ns IH]; intros [|v vals] E H; try discriminate; [reflexivity|].
  cbn in *. injection E as E1 E2. rewrite (H n v (or_introl eq_refl) E1), (IH vals E2); [reflexivity|].
  intros n' y I' L. apply (H n' y (or_intror I') L).
Qed.
Lemma at_node c x a v : col_check c = true -> map (lookup x) (c_amp c) = map Some a -> map (lookup x) (c_var c) = map Some v ->
  eval (f_amps (fit_of spl c)) (Q2R x) = map Q2R a /\ map exp (eval (f_logvars (fit_of spl c)) (Q2R x)) = map Q2R v.
Proof.
  intros K EA EV. cbn [fit_of f_amps f_logvars]. unfold eval. rewrite !map_map. split.
  - apply (values_at _ _ x); [exact EA|]. intros n y I' L. exact (amp_value c n x y K I' L).
  - apply (values_at _ _ x); [exact EV|]. intros n y I' L. exact (var_value c n x y K I' L).
Qed.

(** Rational sums. *)
Definition qsum (l : list Q) : Q := fold_right Qplus 0%Q l.
Definition qmean (a v : list Q) : Q := Qdiv (qsum (map (fun p => Qmult (fst p) (snd p)) (combine a v))) (qsum a).
Lemma qsum_R l : Q2R (qsum l) = rsum (map Q2R l).
Proof. unfold qsum, rsum. induction l as [|x l IH]; cbn; [unfold Q2R; cbn; lra|]. rewrite Q2R_plus, IH. reflexivity. Qed.
Lemma qlight_R a v : Q2R (qsum (map (fun p => Qmult (fst p) (snd p)) (combine a v))) = light (fun v => v) (combine (map Q2R a) (map Q2R v)).
Proof.
  revert v. induction a as [|x a IH]; intros [|y v]; try (cbn; unfold Q2R; cbn; lra).
  cbn. rewrite Q2R_plus, Q2R_mult. specialize (IH v). unfold qsum in IH. rewrite IH. reflexivity.
Qed.

(** Zero amplitudes do not shine. *)
Definition strip (l : list (Q * Q)) : list (Q * Q) := filter (fun p => negb (Qeq_bool (fst p) 0)) l.
Fixpoint same_pairs (p q : list (Q * Q)) : bool :=
  match p, q with
  | [], [] => true
  | (a, v) :: p', (b, w) :: q' => Qeq_bool a b && Qeq_bool v w && same_pairs p' q'
  | _, _ => false
  end.
Definition rpairs (l : list (Q * Q)) : list (R * R) := map (fun p => (Q2R (fst p), Q2R (snd p))) l.
Lemma rpairs_combine a v : combine (map Q2R a) (map Q2R v) = rpairs (combine a v).
Proof. revert v. induction a as [|x a IH]; intros [|y v]; try reflexivity. cbn. f_equal. apply IH. Qed.
Lemma light_strip G l : light G (rpairs (strip l)) = light G (rpairs l).
Proof.
  induction l as [|[a v] l IH]; [reflexivity|]. cbn [strip filter fst rpairs map light snd].
  destruct (Qeq_bool a 0) eqn:E; cbn [negb].
  - apply Qeq_bool_eq, Qeq_eqR in E. rewrite RMicromega.Q2R_0 in E. unfold strip, rpairs in *. rewrite IH, E. lra.
  - cbn. unfold strip, rpairs in *. rewrite IH. reflexivity.
Qed.
Lemma same_pairs_R p q : same_pairs p q = true -> rpairs p = rpairs q.
Proof.
  revert q. induction p as [|[a v] p IH]; intros [|[b w] q] H; try discriminate; [reflexivity|].
  cbn in H. repeat (apply andb_prop in H as (H & ?)). cbn. f_equal; [|apply IH; assumption].
  f_equal; apply Qeq_eqR, Qeq_bool_eq; assumption.
Qed.

(** Every row of every range is stored in the columns; totals are positive. *)
Definition qsame (a b : Q) : bool := Z.eqb (Qnum a) (Qnum b) && Pos.eqb (Qden a) (Qden b).
Lemma qsame_eq a b : qsame a b = true -> a = b.
Proof.
  unfold qsame. destruct a as [n d], b as [n' d']. cbn. intros H. apply andb_prop in H as (H1 & H2).
  apply Z.eqb_eq in H1. apply Pos.eqb_eq in H2. congruence.
Qed.
Fixpoint stored (s : Q) (ns : list (list (Q * Q))) (a : list Q) : bool :=
  match ns, a with
  | [], [] => true
  | n :: ns', x :: a' => match lookup s n with Some y => qsame y x | None => false end && stored s ns' a'
  | _, _ => false
  end.
Lemma stored_map s ns a : stored s ns a = true -> map (lookup s) ns = map Some a.
Proof.
  revert a. induction ns as [|n ns IH]; intros [|x a] H; try discriminate; [reflexivity|].
  cbn in *. apply andb_prop in H as (H1 & H2). rewrite (IH a H2). f_equal.
  destruct (lookup s n); [|discriminate]. f_equal. apply qsame_eq, H1.
Qed.
Definition row_check (c : colfit) (r : row) : bool :=
  stored (fst (fst r)) (c_amp c) (snd (fst r)) && stored (fst (fst r)) (c_var c) (snd r) && qlt 0 (qsum (snd (fst r))).
Definition range_check (p : range * colfit) : bool :=
  qsame (fst (fst (fst p))) (c_lo (snd p)) && qsame (snd (fst (fst p))) (c_hi (snd p)) && forallb (row_check (snd p)) (snd (fst p)).
Lemma rows_check : forallb range_check (combine fits cols) = true.
Proof. vm_compute. reflexivity. Qed.
Lemma in_combine_l {A B} (l : list A) (l' : list B) x : In x l -> length l = length l' -> exists y, In (x, y) (combine l l').
Proof.
  revert l'. induction l as [|z l IH]; intros [|w l'] I' L; try discriminate; [destruct I'|].
  destruct I' as [<-|I']; [exists w; left; reflexivity|]. destruct (IH l' I') as (y & Iy); [cbn in L; lia|]. exists y. right. exact Iy.
Qed.
Lemma row_at lo hi grid s a v : In ((lo, hi), grid) fits -> In (s, a, v) grid ->
  exists c, In c cols /\ c_lo c = lo /\ c_hi c = hi /\ eval (f_amps (fit_of spl c)) (Q2R s) = map Q2R a /\
    map exp (eval (f_logvars (fit_of spl c)) (Q2R s)) = map Q2R v /\ 0 < rsum (map Q2R a).
Proof.
  intros I1 I2. destruct (in_combine_l fits cols _ I1 ltac:(vm_compute; reflexivity)) as (c & Ic).
  pose proof rows_check as K. rewrite forallb_forall in K. specialize (K _ Ic). unfold range_check in K. cbn [fst snd] in K.
  apply andb_prop in K as (K & K3). apply andb_prop in K as (K1 & K2). rewrite forallb_forall in K3.
  specialize (K3 _ I2). unfold row_check in K3. cbn [fst snd] in K3. apply andb_prop in K3 as (K3 & K5).
  apply andb_prop in K3 as (K3 & K4). apply in_combine_r in Ic. exists c. split; [exact Ic|].
  apply qsame_eq in K1, K2. split; [congruence|]. split; [congruence|].
  pose proof cols_check as CC. rewrite forallb_forall in CC.
  destruct (at_node c s a v (CC c Ic) (stored_map _ _ _ K3) (stored_map _ _ _ K4)) as (E1 & E2).
  split; [exact E1|]. split; [exact E2|]. rewrite <- qsum_R. apply qlt_R in K5. rewrite RMicromega.Q2R_0 in K5. exact K5.
Qed.

(** ** Where ranges meet *)
Definition at_end (x : Q) (c : colfit) : option (list Q * list Q) :=
  match mapM (fun n => match lookup x n with Some y => Ok y | None => Err KeyError end) (c_amp c),
        mapM (fun n => match lookup x n with Some y => Ok y | None => Err KeyError end) (c_var c) with
  | Ok a, Ok v => Some (a, v)
  | _, _ => None
  end.
Lemma mapM_lookup x ns a : mapM (fun n => match lookup x n with Some y => Ok y | None => Err KeyError end) ns = Ok a ->
  map (lookup x) ns = map Some a.
Proof.
  revert a. induction ns as [|n ns IH]; intros a; cbn; [intros [= <-]; reflexivity|].
  destruct (lookup x n); [|discriminate]. cbn. destruct (mapM _ ns) as [l|]; [|discriminate]. cbn. intros [= <-].
  rewrite (IH l eq_refl). reflexivity.
Qed.
Lemma at_end_ok x c a v : In c cols -> at_end x c = Some (a, v) ->
  eval (f_amps (fit_of spl c)) (Q2R x) = map Q2R a /\ map exp (eval (f_logvars (fit_of spl c)) (Q2R x)) = map Q2R v.
Proof.
  intros Ic H. pose proof cols_check as CC. rewrite forallb_forall in CC. unfold at_end in H.
  destruct (mapM _ (c_amp c)) as [a'|] eqn:E1; [|discriminate]. destruct (mapM _ (c_var c)) as [v'|] eqn:E2; [|discriminate].
  injection H as <- <-. apply mapM_lookup in E1, E2. exact (at_node c x a' v' (CC c Ic) E1 E2).
Qed.
(** Both ends have nodes with positive totals; where two ranges meet the rows agree
    but for zero amplitudes, except at 0.51 and 0.57. *)
Definition end_check (x : Q) (c : colfit) : bool :=
  match at_end x c with Some (a, v) => qlt 0 (qsum a) && Nat.eqb (length a) (length v) | None => false end.
Definition meet_check (c c' : colfit) : bool :=
  if Qeq_bool (c_hi c) (c_lo c') then
    Qeq_bool (c_hi c) (51#100) || Qeq_bool (c_hi c) (57#100) ||
    match at_end (c_hi c) c, at_end (c_lo c') c' with
    | Some (a, v), Some (a', v') => same_pairs (strip (combine a v)) (strip (combine a' v'))
    | _, _ => false
    end
  else true.
Lemma ends_check : forallb (fun c => end_check (c_lo c) c && end_check (c_hi c) c) cols = true.
Proof. vm_compute. reflexivity. Qed.
Lemma meets_check : forallb (fun c => forallb (meet_check c) cols) cols = true.
Proof. vm_compute. reflexivity. Qed.

Lemma end_total c x : In c cols -> x = c_lo c \/ x = c_hi c ->
  exists a v, at_end x c = Some (a, v) /\ 0 < rsum (eval (f_amps (fit_of spl c)) (Q2R x)) /\ length a = length v.
Proof.
  intros Ic Hx. pose proof ends_check as K. rewrite forallb_forall in K. specialize (K c Ic).
  apply andb_prop in K as (K1 & K2).
  assert (K : end_check x c = true) by (destruct Hx as [-> | ->]; assumption). unfold end_check in K.
  destruct (at_end x c) as [[a v]|] eqn:E; [|discriminate]. apply andb_prop in K as (K & L).
  exists a, v. split; [reflexivity|]. destruct (at_end_ok x c a v Ic E) as (-> & _). rewrite <- qsum_R.
  apply qlt_R in K. rewrite RMicromega.Q2R_0 in K. split; [exact K|apply Nat.eqb_eq, L].
Qed.
Lemma fl_node G c x a v : In c cols -> at_end x c = Some (a, v) -> length a = length v ->
  fl G (fit_of spl c) (Q2R x) = light G (rpairs (combine a v)) / total (rpairs (combine a v)).
Proof.
  intros Ic E L. destruct (at_end_ok x c a v Ic E) as (E1 & E2). unfold fl. rewrite E1, E2.
  rewrite <- rpairs_combine, total_combine by (rewrite !map_length; exact L). reflexivity.
Qed.
Lemma meet G c c' : In c cols -> In c' cols -> Q2R (c_hi c) = Q2R (c_lo c') ->
  Q2R (c_hi c) <> 51/100 -> Q2R (c_hi c) <> 57/100 ->
  fl G (fit_of spl c) (Q2R (c_hi c)) = fl G (fit_of spl c') (Q2R (c_hi c)).
Proof.
  intros Ic Ic' E N1 N2. pose proof meets_check as K. rewrite forallb_forall in K. specialize (K c Ic).
  rewrite forallb_forall in K. specialize (K c' Ic'). unfold meet_check in K.
  assert (Q : Qeq_bool (c_hi c) (c_lo c') = true) by (apply Qeq_eq_bool, eqR_Qeq, E). rewrite Q in K.
  apply orb_prop in K as [K|K].
  { exfalso. apply orb_prop in K as [K|K]; apply Qeq_bool_eq, Qeq_eqR in K; [apply N1|apply N2]; rewrite K; unfold Q2R; cbn; lra. }
  destruct (end_total c (c_hi c) Ic (or_intror eq_refl)) as (a & v & A & _ & L).
  destruct (end_total c' (c_lo c') Ic' (or_introl eq_refl)) as (a' & v' & A' & _ & L').
  rewrite A, A' in K. rewrite (fl_node G c _ a v Ic A L). rewrite E at 1. rewrite (fl_node G c' _ a' v' Ic' A' L').
  unfold total. rewrite <- !(light_strip _ (combine a v)), (same_pairs_R _ _ K), !light_strip. reflexivity.
Qed.

(** ** Continuity *)
Lemma near_pt (P : R -> Prop) g s0 : continuity_pt g s0 -> (forall y, Rabs (y - g s0) < Rabs (g s0) -> P y) -> g s0 <> 0 ->
  exists d, 0 < d /\ forall s, Rabs (s - s0) < d -> P (g s).
Proof.
  intros C H N. destruct (C (Rabs (g s0)) (Rabs_pos_lt _ N)) as (d & Hd & Q'). exists d. split; [exact Hd|].
  intros s Hs. destruct (Req_dec s s0) as [->|Ne].
  - apply H. rewrite Rminus_eq_0, Rabs_R0. apply Rabs_pos_lt, N.
  - apply H. apply Q'. split; [split; [exact Logic.I|intros Q0; apply Ne; symmetry; exact Q0]|exact Hs].
Qed.
Lemma nonzero_near g s0 : continuity_pt g s0 -> g s0 <> 0 -> exists d, 0 < d /\ forall s, Rabs (s - s0) < d -> g s <> 0.
Proof.
  intros C N. apply (near_pt (fun y => y <> 0) g s0 C); [|exact N]. intros y Hy ->.
  rewrite Rminus_0_l, Rabs_Ropp in Hy. lra.
Qed.
Lemma glue g f1 f2 s0 d : 0 < d -> (forall s, s0 - d < s < s0 -> g s = f1 s) -> (forall s, s0 <= s < s0 + d -> g s = f2 s) ->
  f1 s0 = f2 s0 -> continuity_pt f1 s0 -> continuity_pt f2 s0 -> continuity_pt g s0.
Proof.
  intros Hd H1 H2 E C1 C2 eps He. destruct (C1 eps He) as (d1 & D1 & Q1). destruct (C2 eps He) as (d2 & D2 & Q2).
  exists (Rmin d (Rmin d1 d2)). split; [repeat apply Rmin_glb_lt; assumption|].
  intros s (Hs1 & Hs2). cbn in Hs2 |- *. unfold R_dist in *.
  pose proof (Rmin_l d (Rmin d1 d2)) as M1. pose proof (Rmin_r d (Rmin d1 d2)) as M2.
  pose proof (Rmin_l d1 d2) as M3. pose proof (Rmin_r d1 d2) as M4.
  assert (HA : Rabs (s - s0) < d) by lra. apply Rabs_def2 in HA.
  rewrite (H2 s0) by lra. destruct (Rlt_le_dec s s0) as [L|L].
  - rewrite H1 by lra. rewrite <- E. apply (Q1 s). split; [exact Hs1|cbn; unfold R_dist; lra].
  - rewrite H2 by lra. apply (Q2 s). split; [exact Hs1|cbn; unfold R_dist; lra].
Qed.
Lemma cont_ext g f s0 : (forall s, g s = f s) -> continuity_pt f s0 -> continuity_pt g s0.
Proof. intros E C. apply (glue g f f s0 1); auto; try lra. Qed.
Lemma cont_const (c s0 : R) : continuity_pt (fun _ => c) s0.
Proof. apply continuity_pt_const. intros x y. reflexivity. Qed.

Lemma amps_cont c s0 : In c cols -> Forall (fun f => continuity_pt f s0) (f_amps (fit_of spl c)).
Proof.
  intros Ic. pose proof cols_check as CC. rewrite forallb_forall in CC. apply Forall_forall. intros f If. cbn [fit_of f_amps] in If.
  apply in_map_iff in If as (n & <- & In'). destruct (amp_nodes c n (CC c Ic) In') as (S1 & S2).
  destruct (GS _ _ S1 S2) as (_ & C). apply C.
Qed.
Lemma vars_cont c s0 : In c cols -> Forall (fun f => continuity_pt f s0) (f_logvars (fit_of spl c)).
Proof.
  intros Ic. pose proof cols_check as CC. rewrite forallb_forall in CC. apply Forall_forall. intros f If. cbn [fit_of f_logvars] in If.
  apply in_map_iff in If as (n & <- & In'). destruct (var_nodes c n (CC c Ic) In') as (S1 & S2 & _).
  destruct (GS _ _ S1 S2) as (_ & C). apply C.
Qed.
Lemma sum_cont fs s0 : Forall (fun f => continuity_pt f s0) fs -> continuity_pt (fun s => rsum (eval fs s)) s0.
Proof.
  induction 1 as [|f fs C _ IH]; cbn; [apply cont_const|]. apply (continuity_pt_plus f (fun s => rsum (eval fs s))); assumption.
Qed.
Lemma light_cont G fs gs s0 : (forall v, 0 < v -> continuity_pt G v) ->
  Forall (fun f => continuity_pt f s0) fs -> Forall (fun f => continuity_pt f s0) gs ->
  continuity_pt (fun s => light G (combine (eval fs s) (map exp (eval gs s)))) s0.
Proof.
  intros CG CF. revert gs. induction CF as [|f fs C _ IH]; intros gs CGs; cbn; [apply cont_const|].
  destruct CGs as [|g gs Cg CGs]; cbn; [apply cont_const|].
  apply (continuity_pt_plus (fun s => f s * G (exp (g s))) (fun s => light G (combine (eval fs s) (map exp (eval gs s))))); [|apply IH, CGs].
  apply (continuity_pt_mult f (fun s => G (exp (g s)))); [exact C|].
  apply (continuity_pt_comp (fun s => exp (g s)) G); [|apply CG, exp_pos].
  apply (continuity_pt_comp g exp); [exact Cg|]. apply derivable_continuous_pt, derivable_pt_exp.
Qed.
Lemma fl_cont G c s0 : (forall v, 0 < v -> continuity_pt G v) -> In c cols ->
  rsum (eval (f_amps (fit_of spl c)) s0) <> 0 -> continuity_pt (fl G (fit_of spl c)) s0.
Proof.
  intros CG Ic N. unfold fl.
  apply (continuity_pt_div (fun s => light G (combine (eval (f_amps (fit_of spl c)) s) (map exp (eval (f_logvars (fit_of spl c)) s))))
    (fun s => rsum (eval (f_amps (fit_of spl c)) s))); [|apply sum_cont, amps_cont, Ic|exact N].
  apply light_cont; [exact CG|apply amps_cont, Ic|apply vars_cont, Ic].
Qed.

Lemma core_good : strictly_increasing (map fst (real_nodes cores)) /\ (3 < length (real_nodes cores))%nat.
Proof.
  pose proof core_nodes as E. unfold spline_nodes in E. destruct (increasing (map fst cores) && Nat.ltb 3 (length cores)) eqn:K; [|discriminate].
  apply andb_prop in K as (K1 & K2). rewrite map_fst_real. split; [apply increasing_R, K1|]. unfold real_nodes. rewrite map_length. apply Nat.ltb_lt, K2.
Qed.
Lemma core_value s c : In (s, c) cores -> m_core m (Q2R s) = Q2R c.
Proof.
  intros I'. destruct core_good as (S1 & S2). destruct (GS _ _ S1 S2) as (V & _). apply V.
  apply in_map_iff. exists (s, c). split; [reflexivity|exact I'].
Qed.
Lemma core_one : m_core m 1 = 0.
Proof.
  assert (I' : In ((100#100)%Q, (0#1000000)%Q) cores) by (vm_compute; left; reflexivity).
  apply core_value in I'. replace 1 with (Q2R (100#100)) by (unfold Q2R; cbn; lra). rewrite I'. unfold Q2R. cbn. lra.
Qed.
Lemma core_cont s0 : continuity_pt core_at s0.
Proof.
  destruct core_good as (S1 & S2). destruct (GS _ _ S1 S2) as (_ & C). specialize (C s0).
  change (spl 3%nat (real_nodes cores)) with (m_core m) in C.
  assert (A : forall s, s <= 1 -> core_at s = 0) by (intros s H; unfold core_at, rlt; destruct (Rlt_dec 1 s); [lra|reflexivity]).
  assert (B : forall s, 1 <= s -> core_at s = m_core m s).
  { intros s H. destruct (Req_dec s 1) as [->|N]; [rewrite A, core_one; lra|]. unfold core_at, rlt. destruct (Rlt_dec 1 s); [reflexivity|lra]. }
  destruct (Rtotal_order s0 1) as [L|[E|L]].
  - apply (glue _ (fun _ => 0) (fun _ => 0) s0 (1 - s0)); [lra| | |reflexivity|apply cont_const|apply cont_const]; intros s Hs; apply A; lra.
  - subst s0. apply (glue _ (fun _ => 0) (m_core m) 1 1); [lra| | |symmetry; apply core_one|apply cont_const|exact C]; intros s Hs; [apply A|apply B]; lra.
  - apply (glue _ (m_core m) (m_core m) s0 (s0 - 1)); [lra| | |reflexivity|exact C|exact C]; intros s Hs; apply B; lra.
Qed.

(** The light of a range with the core. *)
Definition hl (G : R -> R) (c : colfit) (s : R) : R := (1 - core_at s) * fl G (fit_of spl c) s + core_at s * G 0.
Lemma hl_cont G c s0 : (forall v, 0 < v -> continuity_pt G v) -> In c cols ->
  rsum (eval (f_amps (fit_of spl c)) s0) <> 0 -> continuity_pt (hl G c) s0.
Proof.
  intros CG Ic N. unfold hl. apply (continuity_pt_plus (fun s => (1 - core_at s) * fl G (fit_of spl c) s) (fun s => core_at s * G 0)).
  - apply (continuity_pt_mult (fun s => 1 - core_at s) (fl G (fit_of spl c))); [|apply fl_cont; assumption].
    apply (continuity_pt_minus (fun _ => 1) core_at); [apply cont_const|apply core_cont].
  - apply (continuity_pt_mult core_at (fun _ => G 0)); [apply core_cont|apply cont_const].
Qed.

Variable argsort : list R -> list nat.
Hypothesis SO : good_sort argsort.
Definition shown (G : R -> R) (s : R) : R := light G (match get_profile argsort m s with Ok p => p | Err _ => [] end).

Lemma shown_at G s f : In f (m_fits m) -> f_lo f <= clamp s <= f_hi f -> (clamp s < 63/10 -> clamp s < f_hi f) ->
  rsum (eval (f_amps f) (clamp s)) <> 0 -> (clamp s = 63/10 -> f_lo f < 63/10) ->
  shown G s = (1 - core_at (clamp s)) * fl G f (clamp s) + core_at (clamp s) * G 0.
Proof.
  intros If R1 R2 N R3. destruct (profile_lists argsort s) as (f' & a & v & I' & R1' & R2' & L & E' & AV).
  assert (C : clamp s <= 63/10) by (destruct (clamp_cases s) as [[? C]|[[? C]|[? C]]]; lra).
  assert (f' = f) as ->.
  { destruct (Req_dec (clamp s) (63/10)) as [E|NE].
    - (* the last range *)
      assert (K : forall fs x b g, chain fs x b -> In g fs -> f_hi g <= b).
      { clear. induction fs as [|h r IH]; intros x b g Ch I'; [destruct I'|]. cbn in Ch. destruct Ch as (_ & _ & Ch).
        destruct I' as [<-|I']; [exact (chain_le _ _ _ Ch)|exact (IH _ _ _ Ch I')]. }
      pose proof (K _ _ _ f (cols_chain spl) If) as K1. pose proof (K _ _ _ f' (cols_chain spl) I') as K2.
      destruct (in_col f' I') as (c' & -> & Ic' & CC). unfold col_check in CC. repeat (apply andb_prop in CC as (CC & ?)).
      assert (LT : f_lo (fit_of spl c') < f_hi (fit_of spl c')) by (apply qlt_R; assumption).
      specialize (R3 E).
      apply (chain_unique _ _ _ _ _ ((Rmax (f_lo (fit_of spl c')) (f_lo f) + 63/10) / 2) (cols_chain spl) I' If);
        (unfold Rmax; destruct (Rle_dec _ _); lra).
    - apply (chain_unique _ _ _ _ _ (clamp s) (cols_chain spl) I' If); lra. }
  unfold shown. rewrite E'. rewrite (light_perm _ _ _ (sorted_pairs argsort a v SO L)).
  pose proof (light_of_lists G f (clamp s) If N) as H. rewrite <- AV in H. exact H.
Qed.
Lemma shown_in G c s : In c cols -> Q2R (c_lo c) <= s < Q2R (c_hi c) \/ s = 63/10 /\ Q2R (c_lo c) < s <= Q2R (c_hi c) ->
  rsum (eval (f_amps (fit_of spl c)) s) <> 0 -> shown G s = hl G c s.
Proof.
  intros Ic Hs N. assert (If : In (fit_of spl c) (m_fits m)) by (apply in_map; exact Ic).
  assert (Bd : 29/100 <= Q2R (c_lo c) /\ Q2R (c_hi c) <= 63/10).
  { assert (K : forall fs x b g, chain fs x b -> In g fs -> x <= f_lo g /\ f_hi g <= b).
    { clear. induction fs as [|h r IH]; intros x b g Ch I'; [destruct I'|]. cbn in Ch. destruct Ch as (E & L & Ch).
      destruct I' as [<-|I']; [split; [lra|exact (chain_le _ _ _ Ch)]|]. destruct (IH _ _ _ Ch I'). lra. }
    exact (K _ _ _ _ (cols_chain spl) If). }
  assert (C : clamp s = s) by (destruct (clamp_cases s) as [[? C]|[[? C]|[? C]]]; lra).
  rewrite (shown_at G s (fit_of spl c) If); rewrite ?C; cbn [fit_of f_lo f_hi]; try reflexivity; try exact N; lra.
Qed.
Lemma shown_clamp G s : shown G s = shown G (clamp s).
Proof.
  assert (E : get_profile argsort m s = get_profile argsort m (clamp s)); [|unfold shown; rewrite E; reflexivity].
  unfold get_profile. f_equal. destruct ends as (f0 & fn & P0 & PN & I0 & IN & E0 & EN & LN & L0).
  unfold matches. rewrite P0, PN. cbn [bind]. unfold rle.
  destruct (clamp_cases s) as [[? C]|[[? C]|[? C]]]; rewrite C.
  - destruct (Rle_dec s (f_lo f0)), (Rle_dec (29/100) (f_lo f0)); try lra. reflexivity.
  - destruct (Rle_dec s (f_lo f0)), (Rle_dec (63/10) (f_lo f0)); try lra.
    destruct (Rle_dec (f_hi fn) s), (Rle_dec (f_hi fn) (63/10)); try lra. reflexivity.
  - reflexivity.
Qed.
Lemma chain_pred fs a b f : chain fs a b -> In f fs -> f_lo f = a \/ exists g, In g fs /\ f_hi g = f_lo f.
Proof.
  revert a. induction fs as [|h r IH]; intros a C I'; [destruct I'|]. cbn in C. destruct C as (E & L & C).
  destruct I' as [<-|I']; [left; exact E|]. right. destruct (IH _ C I') as [E'|(g & Ig & Eg)].
  - exists h. split; [left; reflexivity|lra].
  - exists g. split; [right; exact Ig|exact Eg].
Qed.
Lemma col_of s : 29/100 <= s < 63/10 -> exists c, In c cols /\ Q2R (c_lo c) <= s < Q2R (c_hi c).
Proof.
  intros H. destruct (chain_one _ _ _ s (cols_chain spl) H) as (f & _ & If & Rf). apply in_fits in If as (c & <- & Ic).
  exists c. split; [exact Ic|exact Rf].
Qed.
Lemma tot_near c s0 : In c cols -> rsum (eval (f_amps (fit_of spl c)) s0) <> 0 ->
  exists d, 0 < d /\ forall s, Rabs (s - s0) < d -> rsum (eval (f_amps (fit_of spl c)) s) <> 0.
Proof. intros Ic N. exact (nonzero_near (fun s => rsum (eval (f_amps (fit_of spl c)) s)) s0 (sum_cont _ s0 (amps_cont c s0 Ic)) N). Qed.
(** To the left of the upper end, and around a point of a range. *)
Lemma shown_left G c : In c cols -> exists d, 0 < d /\ forall s, Q2R (c_hi c) - d < s < Q2R (c_hi c) -> shown G s = hl G c s.
Proof.
  intros Ic. destruct (end_total c (c_hi c) Ic (or_intror eq_refl)) as (_ & _ & _ & P' & _).
  destruct (tot_near c (Q2R (c_hi c)) Ic ltac:(lra)) as (d & Hd & N).
  pose proof cols_check as CC. rewrite forallb_forall in CC. specialize (CC c Ic). unfold col_check in CC.
  apply andb_prop in CC as (_ & LT). apply qlt_R in LT.
  exists (Rmin d (Q2R (c_hi c) - Q2R (c_lo c))). split; [apply Rmin_glb_lt; lra|]. intros s Hs.
  pose proof (Rmin_l d (Q2R (c_hi c) - Q2R (c_lo c))). pose proof (Rmin_r d (Q2R (c_hi c) - Q2R (c_lo c))).
  apply shown_in; [exact Ic|left; lra|]. apply N. apply Rabs_def1; lra.
Qed.
Lemma shown_right G c s0 : In c cols -> Q2R (c_lo c) <= s0 < Q2R (c_hi c) -> rsum (eval (f_amps (fit_of spl c)) s0) <> 0 ->
  exists d, 0 < d /\ forall s, s0 - d < s < s0 + d -> Q2R (c_lo c) <= s -> shown G s = hl G c s.
Proof.
  intros Ic H0 N0. destruct (tot_near c s0 Ic N0) as (d & Hd & N).
  exists (Rmin d (Q2R (c_hi c) - s0)). split; [apply Rmin_glb_lt; lra|]. intros s Hs Hs'.
  pose proof (Rmin_l d (Q2R (c_hi c) - s0)). pose proof (Rmin_r d (Q2R (c_hi c) - s0)).
  apply shown_in; [exact Ic|left; lra|]. apply N. apply Rabs_def1; lra.
Qed.

Lemma shown_cont G s0 : (forall v, 0 < v -> continuity_pt G v) -> no_cancel m (clamp s0) -> s0 <> 51/100 -> s0 <> 57/100 ->
  continuity_pt (shown G) s0.
Proof.
  intros CG NC N1 N2.
  assert (CL : forall s, s <= 29/100 -> shown G s = shown G (29/100)).
  { intros s H. rewrite shown_clamp. f_equal. destruct (clamp_cases s) as [[? C]|[[? C]|[? C]]]; lra. }
  assert (CR : forall s, 63/10 <= s -> shown G s = shown G (63/10)).
  { intros s H. rewrite shown_clamp. f_equal. destruct (clamp_cases s) as [[? C]|[[? C]|[? C]]]; lra. }
  destruct (Rlt_le_dec s0 (29/100)) as [A|A].
  { apply (glue _ (fun _ => shown G (29/100)) (fun _ => shown G (29/100)) s0 (29/100 - s0));
      [lra| | |reflexivity|apply cont_const|apply cont_const]; intros s Hs; apply CL; lra. }
  destruct (Rlt_le_dec (63/10) s0) as [B|B].
  { apply (glue _ (fun _ => shown G (63/10)) (fun _ => shown G (63/10)) s0 (s0 - 63/10));
      [lra| | |reflexivity|apply cont_const|apply cont_const]; intros s Hs; apply CR; lra. }
  assert (C0 : clamp s0 = s0) by (destruct (clamp_cases s0) as [[? C]|[[? C]|[? C]]]; lra). rewrite C0 in NC.
  destruct (Req_dec s0 (63/10)) as [E|NE].
  { subst s0. destruct ends as (f0 & fn & _ & _ & _ & IN & _ & EN & LN & _).
    apply in_fits in IN as (c & <- & Ic). cbn [fit_of f_hi f_lo] in EN, LN.
    destruct (end_total c (c_hi c) Ic (or_intror eq_refl)) as (_ & _ & _ & P' & _). rewrite EN in P'.
    destruct (shown_left G c Ic) as (d & Hd & L). rewrite EN in L.
    apply (glue _ (hl G c) (fun _ => shown G (63/10)) _ d); [exact Hd|exact L|intros s Hs; apply CR; lra| |apply hl_cont; [exact CG|exact Ic|lra]|apply cont_const].
    symmetry. apply shown_in; [exact Ic|right; lra|lra]. }
  destruct (col_of s0 ltac:(lra)) as (c & Ic & Rc).
  assert (NN : rsum (eval (f_amps (fit_of spl c)) s0) <> 0).
  { apply NC; [apply in_map, Ic|cbn [fit_of f_lo f_hi]; lra]. }
  destruct (shown_right G c s0 Ic Rc NN) as (d & Hd & RR).
  destruct (Req_dec s0 (Q2R (c_lo c))) as [E|NEc].
  - assert (ES : shown G s0 = hl G c s0) by (apply RR; lra).
    destruct (chain_pred _ _ _ (fit_of spl c) (cols_chain spl) (in_map _ _ _ Ic)) as [E'|(g & Ig & Eg)].
    + cbn [fit_of f_lo] in E'. apply (glue _ (fun _ => shown G (29/100)) (hl G c) s0 d); [exact Hd| | | |apply cont_const|apply hl_cont; assumption].
      * intros s Hs. apply CL. lra.
      * intros s Hs. apply RR; lra.
      * rewrite <- ES. f_equal. lra.
    + apply in_fits in Ig as (c' & <- & Ic'). cbn [fit_of f_lo f_hi] in Eg.
      destruct (shown_left G c' Ic') as (d' & Hd' & L). destruct (end_total c' (c_hi c') Ic' (or_intror eq_refl)) as (_ & _ & _ & P' & _).
      rewrite Eg, <- E in L, P'.
      apply (glue _ (hl G c') (hl G c) s0 (Rmin d d')); [apply Rmin_glb_lt; assumption| | | |apply hl_cont; [exact CG|exact Ic'|lra]|apply hl_cont; assumption].
      * intros s Hs. pose proof (Rmin_r d d'). apply L. lra.
      * intros s Hs. pose proof (Rmin_l d d'). apply RR; lra.
      * unfold hl. f_equal. f_equal. pose proof (meet G c' c Ic' Ic Eg) as MM. rewrite Eg, <- E in MM. apply MM; assumption.
  - apply (glue _ (hl G c) (hl G c) s0 (Rmin d (s0 - Q2R (c_lo c)))); [apply Rmin_glb_lt; lra| | |reflexivity|apply hl_cont; assumption|apply hl_cont; assumption];
      intros s Hs; pose proof (Rmin_l d (s0 - Q2R (c_lo c))); pose proof (Rmin_r d (s0 - Q2R (c_lo c))); apply RR; lra.
Qed.

(** ** Jumps *)
Lemma mean_node c x a v : In c cols -> at_end x c = Some (a, v) -> length a = length v -> 0 < rsum (map Q2R a) ->
  fl (fun v => v) (fit_of spl c) (Q2R x) = Q2R (qmean a v).
Proof.
  intros Ic E L P'. rewrite (fl_node _ c x a v Ic E L), <- rpairs_combine. rewrite total_combine by (rewrite !map_length; exact L).
  unfold qmean. rewrite Q2R_div, qlight_R, qsum_R; [reflexivity|].
  intros Z'. apply Qeq_eqR in Z'. rewrite qsum_R, RMicromega.Q2R_0 in Z'. lra.
Qed.
Lemma jump i x y a v a' v' eps : nth_error cols i = Some x -> nth_error cols (S i) = Some y ->
  Qeq_bool (c_hi x) (c_lo y) = true -> Qle_bool (c_hi x) 1 = true ->
  at_end (c_hi x) x = Some (a, v) -> at_end (c_lo y) y = Some (a', v') -> 0 < eps ->
  exists d, 0 < d /\ forall s, Q2R (c_hi x) - d < s < Q2R (c_hi x) ->
    Rabs (shown (fun v => v) s - shown (fun v => v) (Q2R (c_hi x)) - (Q2R (qmean a v) - Q2R (qmean a' v'))) < eps.
Proof.
  intros Nx Ny EQ LE A A' EP. apply nth_error_In in Nx, Ny.
  apply Qeq_bool_eq, Qeq_eqR in EQ. apply Qle_bool_imp_le, Qle_Rle in LE. rewrite RMicromega.Q2R_1 in LE.
  destruct (end_total x (c_hi x) Nx (or_intror eq_refl)) as (a1 & v1 & B1 & P1 & L1). rewrite A in B1. injection B1 as <- <-.
  destruct (end_total y (c_lo y) Ny (or_introl eq_refl)) as (a2 & v2 & B2 & P2 & L2). rewrite A' in B2. injection B2 as <- <-.
  destruct (at_end_ok _ _ _ _ Nx A) as (E1 & _). destruct (at_end_ok _ _ _ _ Ny A') as (E2 & _).
  assert (M1 := mean_node x _ a v Nx A L1 ltac:(rewrite <- E1; exact P1)).
  assert (M2 := mean_node y _ a' v' Ny A' L2 ltac:(rewrite <- E2; exact P2)).
  set (b := Q2R (c_hi x)) in *.
  assert (CI : forall v, 0 < v -> continuity_pt (fun v => v) v) by (intros w _; apply derivable_continuous_pt, derivable_pt_id).
  assert (LTy : Q2R (c_lo y) < Q2R (c_hi y)).
  { pose proof cols_check as CC. rewrite forallb_forall in CC. specialize (CC y Ny). unfold col_check in CC.
    apply andb_prop in CC as (_ & LT). apply qlt_R in LT. exact LT. }
  assert (CO : core_at b = 0) by (unfold core_at, rlt; destruct (Rlt_dec 1 b); [lra|reflexivity]).
  assert (SB : shown (fun v => v) b = Q2R (qmean a' v')).
  { rewrite (shown_in _ y); [|exact Ny|left; lra|rewrite EQ; lra]. unfold hl. rewrite CO, EQ, M2. ring. }
  assert (HB : hl (fun v => v) x b = Q2R (qmean a v)).
  { unfold hl. rewrite CO, M1. ring. }
  assert (HC : continuity_pt (hl (fun v => v) x) b) by (apply hl_cont; [exact CI|exact Nx|lra]).
  destruct (HC eps EP) as (d1 & D1 & Q1).
  destruct (shown_left (fun v => v) x Nx) as (d2 & D2 & S2). fold b in S2.
  exists (Rmin d1 d2). split; [apply Rmin_glb_lt; assumption|]. intros s Hs.
  pose proof (Rmin_l d1 d2). pose proof (Rmin_r d1 d2). rewrite S2 by lra.
  assert (Dd : Rabs (hl (fun v => v) x s - hl (fun v => v) x b) < eps).
  { apply Q1. split; [split; [exact Logic.I|lra]|cbn; unfold R_dist; apply Rabs_def1; lra]. }
  rewrite HB in Dd. rewrite SB. replace (_ - _ - _) with (hl (fun v => v) x s - Q2R (qmean a v)) by ring. exact Dd.
Qed.
End Mix.

(** ** Theorems *)
(** The tables are accepted whatever the spline, and every index has a profile:
    sorted by variance, no negative variance, total 1 unless the interpolated
    amplitudes cancel. *)
Theorem C66_profile : forall spl argsort, good_sort argsort ->
  exists m, sersic_mixture spl = Ok m /\
  forall s, exists p, get_profile argsort m s = Ok p /\ p <> [] /\
    StronglySorted Rle (map snd p) /\ Forall (fun av => 0 <= snd av) p /\
    (no_cancel m (clamp s) -> total p = 1) /\
    (s <= 1 -> Forall (fun av => 0 < snd av) p).
Proof.
  intros spl argsort SO. eexists. split; [apply built|]. intros s.
  destruct (profile_lists spl argsort s) as (f & a & v & If & R1 & R2 & L & E & AV).
  eexists. split; [exact E|]. pose proof (sorted_pairs argsort a v SO L) as PM.
  pose proof (same_length spl f (clamp s) If) as SL.
  assert (AVc : (a, v) = (normalized (eval (f_amps f) (clamp s)), map exp (eval (f_logvars f) (clamp s))) /\ ~ 1 < clamp s \/
    exists a1 c, a = a1 ++ [c] /\ v = map exp (eval (f_logvars f) (clamp s)) ++ [0] /\ 1 < clamp s).
  { unfold add_core in AV. unfold rlt in AV. destruct (Rlt_dec 1 (clamp s)) as [H|H]; [right|left; split; [exact AV|exact H]].
    injection AV as -> ->. eexists _, _. split; [reflexivity|]. split; [reflexivity|exact H]. }
  assert (LC : (s <= 1 -> ~ 1 < clamp s)) by (intros; destruct (clamp_cases s) as [[? C]|[[? C]|[? C]]]; lra).
  assert (POS : Forall (fun x => 0 < x) (map exp (eval (f_logvars f) (clamp s)))).
  { apply Forall_forall. intros x Hx. apply in_map_iff in Hx as (y & <- & _). apply exp_pos. }
  assert (NV : v <> []).
  { destruct AVc as [[AVc _]|(a1 & c & _ & -> & _)]; [|intros Z'; destruct (map exp _); discriminate].
    injection AVc as _ ->. destruct (in_col spl f If) as (c & -> & Ic & _).
    assert (K : forallb (fun c => negb (Nat.eqb (length (c_var c)) 0)) cols = true) by (vm_compute; reflexivity).
    rewrite forallb_forall in K. specialize (K c Ic). cbn [fit_of f_logvars]. unfold eval.
    destruct (c_var c); [discriminate|cbn; discriminate]. }
  split.
  { intros Z'. rewrite Z' in PM. apply Permutation_nil in PM. apply (f_equal (@length _)) in PM. rewrite combine_length, L, Nat.min_id in PM.
    apply length_zero_iff_nil in PM. exact (NV PM). }
  split. { rewrite map_snd_combine by (unfold take; rewrite !map_length; reflexivity). apply SO. }
  assert (FV : forall P : R -> Prop, Forall P v -> Forall (fun av => P (snd av)) (combine (take a (argsort v)) (take v (argsort v)))).
  { intros P HP. apply (Permutation_Forall (Permutation_sym PM)). rewrite <- (map_snd_combine a v L) in HP.
    exact (proj1 (Forall_map snd P (combine a v)) HP). }
  split. { apply (FV (fun x => 0 <= x)). destruct AVc as [[AVc _]|(a1 & c & _ & -> & _)].
    - injection AVc as _ ->. eapply Forall_impl; [|exact POS]. intros x Hx; cbn in Hx; lra.
    - apply Forall_app. split; [eapply Forall_impl; [|exact POS]; intros x Hx; cbn in Hx; lra|]. constructor; [lra|constructor]. }
  split.
  - intros NC. unfold total. destruct (profile_light spl argsort (fun _ => 1) s _ SO NC E) as (g & Ig & Rg & _ & ->).
    assert (N : rsum (eval (f_amps g) (clamp s)) <> 0) by (apply NC; assumption). unfold fl.
    pose proof (total_combine _ _ (same_length spl g (clamp s) Ig)) as T. unfold total in T. rewrite T. field. exact N.
  - intros H1. apply (FV (fun x => 0 < x)). destruct AVc as [[AVc _]|(a1 & c & _ & _ & H)]; [|exfalso; exact (LC H1 H)].
    injection AVc as _ ->. exact POS.
Qed.

(** Indices below 0.29 and above 6.3 give the profiles of 0.29 and 6.3. *)
Theorem C66_clamped : forall spl argsort m s, sersic_mixture spl = Ok m ->
  (s <= 29/100 -> get_profile argsort m s = get_profile argsort m (29/100)) /\
  (63/10 <= s -> get_profile argsort m s = get_profile argsort m (63/10)).
Proof.
  intros spl argsort m s E. rewrite built in E. injection E as <-.
  destruct (ends spl) as (f0 & fn & P0 & PN & I0 & IN & E0 & EN & LN & L0).
  unfold get_profile, matches. rewrite P0, PN. cbn [bind]. unfold rle.
  split; intros H.
  - destruct (Rle_dec s (f_lo f0)), (Rle_dec (29/100) (f_lo f0)); try lra. reflexivity.
  - destruct (Rle_dec s (f_lo f0)), (Rle_dec (63/10) (f_lo f0)); try lra.
    destruct (Rle_dec (f_hi fn) s), (Rle_dec (f_hi fn) (63/10)); try lra. reflexivity.
Qed.

(** At a tabulated index the profile is the tabulated row: amplitudes in
    proportion, the tabulated variances, and above index 1 the tabulated core. *)
Theorem C66_rows : forall spl argsort m lo hi grid s a v, good_spline spl -> good_sort argsort -> sersic_mixture spl = Ok m ->
  In ((lo, hi), grid) fits -> In (s, a, v) grid -> Q2R lo <= Q2R s < Q2R hi \/ Q2R s = 63/10 ->
  exists p core, get_profile argsort m (Q2R s) = Ok p /\ (Q2R s <= 1 -> core = 0) /\
    (1 < Q2R s -> core = m_core m (Q2R s)) /\
    (forall s' c, In (s', c) cores -> Q2R s' = Q2R s -> core = Q2R c) /\
    forall G, light G p = row_light G core a v.
Proof.
  intros spl argsort m lo hi grid s a v GS SO E I1 I2 R'. rewrite built in E. injection E as <-.
  destruct (row_at spl GS lo hi grid s a v I1 I2) as (c & Ic & <- & <- & EA & EV & P').
  destruct (profile_lists spl argsort (Q2R s)) as (f & a' & v' & _ & _ & _ & _ & EP & _).
  eexists _, (core_at spl (Q2R s)). split; [exact EP|]. split.
  { intros H. unfold core_at, rlt. destruct (Rlt_dec 1 (Q2R s)); [lra|reflexivity]. }
  split.
  { intros H. unfold core_at, rlt. destruct (Rlt_dec 1 (Q2R s)); [reflexivity|lra]. }
  split.
  { intros s' k Ik ES. pose proof (core_value spl GS s' k Ik) as CV. rewrite ES in CV. unfold core_at, rlt. destruct (Rlt_dec 1 (Q2R s)) as [H|H]; [exact CV|].
    assert (K : forallb (fun p => Qle_bool 1 (fst p) && (qlt 1 (fst p) || Qeq_bool (snd p) 0)) cores = true) by (vm_compute; reflexivity).
    rewrite forallb_forall in K. specialize (K _ Ik). cbn [fst snd] in K. apply andb_prop in K as (_ & K).
    apply orb_prop in K as [K|K]; [apply qlt_R in K; rewrite RMicromega.Q2R_1, ES in K; lra|].
    apply Qeq_bool_eq, Qeq_eqR in K. rewrite K, RMicromega.Q2R_0. reflexivity. }
  intros G.
  assert (SH : shown spl argsort G (Q2R s) = hl spl G c (Q2R s)).
  { apply shown_in; [exact SO|exact Ic| |rewrite EA; lra]. destruct R' as [R'|R']; [left; exact R'|].
    (* a row at 6.3 is in the last range *)
    assert (K : forallb (fun p => forallb (fun r => negb (Qeq_bool (fst (fst r)) (63#10)) ||
      (qlt (fst (fst p)) (63#10) && Qle_bool (63#10) (snd (fst p)))) (snd p)) fits = true) by (vm_compute; reflexivity).
    rewrite forallb_forall in K. specialize (K _ I1). rewrite forallb_forall in K. specialize (K _ I2). cbn [fst snd] in K.
    assert (B : Q2R (63#10) = 63/10) by (unfold Q2R; cbn; lra).
    apply orb_prop in K as [K|K].
    { exfalso. apply negb_true_iff in K. rewrite <- B in R'. apply eqR_Qeq in R'. apply Qeq_eq_bool in R'. congruence. }
    apply andb_prop in K as (K1 & K2). apply qlt_R in K1. apply Qle_bool_imp_le, Qle_Rle in K2. right. lra. }
  unfold shown in SH. rewrite EP in SH. rewrite SH. unfold hl, fl, row_light. rewrite EA, EV. f_equal. f_equal. f_equal.
  pose proof (same_length spl (fit_of spl c) (Q2R s) (in_map _ _ _ Ic)) as SL. rewrite EA, EV in SL.
  symmetry. apply total_combine. exact SL.
Qed.

(** The profile varies continuously with the index, through all range ends and
    through index 1 where the core begins, except at 0.51 and 0.57. *)
Theorem C66_continuous : forall spl argsort m G s0, good_spline spl -> good_sort argsort -> sersic_mixture spl = Ok m ->
  (forall v, 0 < v -> continuity_pt G v) -> no_cancel m (clamp s0) -> s0 <> 51/100 -> s0 <> 57/100 ->
  continuity_pt (fun s => light G (match get_profile argsort m s with Ok p => p | Err _ => [] end)) s0.
Proof.
  intros spl argsort m G s0 GS SO E CG NC N1 N2. rewrite built in E. injection E as <-.
  exact (shown_cont spl GS argsort SO G s0 CG NC N1 N2).
Qed.
(** The amplitudes do not cancel at the tabulated indices, so in particular not
    at the ends of ranges. *)
Theorem C66_no_cancel_at_ends : forall spl m f, good_spline spl -> sersic_mixture spl = Ok m -> In f (m_fits m) ->
  0 < rsum (eval (f_amps f) (f_lo f)) /\ 0 < rsum (eval (f_amps f) (f_hi f)).
Proof.
  intros spl m f GS E If. rewrite built in E. injection E as <-. apply (in_fits spl) in If as (c & <- & Ic). cbn [fit_of f_lo f_hi].
  destruct (end_total spl GS c _ Ic (or_introl eq_refl)) as (_ & _ & _ & P1 & _).
  destruct (end_total spl GS c _ Ic (or_intror eq_refl)) as (_ & _ & _ & P2 & _). split; assumption.
Qed.

(** At 0.57 the mean variance of the profile drops by more than 0.0013, against
    the trend; at 0.51 it rises by 0.0000004. *)
Theorem C66_jump_refuted : forall spl argsort m, good_spline spl -> good_sort argsort -> sersic_mixture spl = Ok m ->
  let mean s := light (fun v => v) (match get_profile argsort m s with Ok p => p | Err _ => [] end) in
  (exists d, 0 < d /\ forall s, 57/100 - d < s < 57/100 -> mean (57/100) < mean s - 13/10000) /\
  (exists d, 0 < d /\ forall s, 51/100 - d < s < 51/100 -> mean s + 4/10000000 < mean (51/100)).
Proof.
  intros spl argsort m GS SO E. rewrite built in E. injection E as <-. intros mean.
  assert (X : forall i b q1 q2 eps, 0 < eps ->
    (exists x y a v a' v', nth_error cols i = Some x /\ nth_error cols (S i) = Some y /\ qsame (c_hi x) b = true /\
      Qeq_bool (c_hi x) (c_lo y) = true /\ Qle_bool (c_hi x) 1 = true /\ at_end (c_hi x) x = Some (a, v) /\
      at_end (c_lo y) y = Some (a', v') /\ qlt q1 (Qminus (qmean a v) (qmean a' v')) = true /\ qlt (Qminus (qmean a v) (qmean a' v')) q2 = true) ->
    exists d, 0 < d /\ forall s, Q2R b - d < s < Q2R b -> Q2R q1 - eps < mean s - mean (Q2R b) < Q2R q2 + eps).
  { intros i b q1 q2 eps HE (x & y & a & v & a' & v' & A1 & A2 & A3 & A4 & A5 & A6 & A7 & A8 & A9).
    destruct (jump spl GS argsort SO i x y a v a' v' eps A1 A2 A4 A5 A6 A7 HE) as (d & Hd & J).
    apply qsame_eq in A3. rewrite A3 in J. exists d. split; [exact Hd|]. intros s Hs. specialize (J s Hs).
    apply qlt_R in A8, A9. rewrite Q2R_minus in A8, A9. apply Rabs_def2 in J.
    change (shown spl argsort (fun v => v)) with mean in J. lra. }
  split.
  - destruct (X 2%nat 0.57%Q (135#100000) (14#10000) (1/100000) ltac:(lra)) as (d & Hd & J).
    { do 6 eexists. repeat split; vm_compute; reflexivity. }
    exists d. split; [exact Hd|]. intros s Hs. assert (B : Q2R 0.57 = 57/100) by (unfold Q2R; cbn; lra). rewrite B in J.
    specialize (J s Hs). assert (C : Q2R (135#100000) = 135/100000) by (unfold Q2R; cbn; lra). lra.
  - destruct (X 1%nat 0.51%Q (-1#100000) (-46#100000000) (1/100000000) ltac:(lra)) as (d & Hd & J).
    { do 6 eexists. repeat split; vm_compute; reflexivity. }
    exists d. split; [exact Hd|]. intros s Hs. assert (B : Q2R 0.51 = 51/100) by (unfold Q2R; cbn; lra). rewrite B in J.
    specialize (J s Hs). assert (C : Q2R (-46#100000000) = -46/100000000) by (unfold Q2R; cbn; lra). lra.
Qed.
