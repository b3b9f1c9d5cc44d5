(** Property C15: the sparse system for Gaussian priors reproduces the log
    prior exactly. *)
From Coq Require Import String List ZArith QArith Bool Lia Lqa.
From Coq Require Import Setoid Morphisms.
From Verif Require Import Base ParamsModel ParamsSpec ParamsProofs PriorModel.
Import ListNotations.
Open Scope nat_scope.

(** ** Specification *)

(** The (row, column, value) entries of a sparse system. *)
Definition entries (x : psys) : list (nat * nat * Q) :=
  concat (map (fun e => let '(rs, c, vs) := e in map (fun rv => (fst rv, c, snd rv)) (combine rs vs))
    (combine (combine (ps_rows x) (ps_cols x)) (ps_vals x))).

(** Row [r] of A times d. *)
Definition row_dot (es : list (nat * nat * Q)) (d : list Q) (r : nat) : Q :=
  qsum (map (fun e => let '(r', c, v) := e in if r' =? r then (v * nth c d 0)%Q else 0%Q) es).

(** |A d - b|^2, where b lists the right-hand sides in row order. *)
Definition misfit (x : psys) (d : list Q) : Q :=
  qsum (map (fun r => qsq (row_dot (entries x) d r - nth r (concat (ps_b x)) 0%Q)%Q)
            (seq 0 (length (concat (ps_b x))))).

(** Every prior refers to an existing parameter of its list and has a non-zero
    width. *)
Fixpoint priors_ok (t : tree) : Prop :=
  match t with
  | PNone | PFixed | PScalar _ => True
  | PList l => Forall (fun p => pr_idx p < length (l_vals l) /\ ~ (pr_sigma p == 0)%Q) (l_priors l)
  | PMulti _ subs _ => fold_right (fun s P => priors_ok s /\ P) True subs
  end.

(** The number of prior terms on each parameter, and their total over the free
    parameters. *)
Definition terms_on (l : plist Q) : list nat :=
  map (fun i => length (filter (fun p => pr_idx p =? i) (l_priors l))) (seq 0 (length (l_vals l))).
Definition free_terms (t : tree) : nat := list_sum (thawed (flat (fun _ => 0) terms_on t)).

Definition step_by (p d : list Q) : list Q := map (fun e => (fst e + snd e)%Q) (combine p d).

(** ** Proof *)

(** Terms on free parameters: position in the vector, mean, width. *)
Notation term := (nat * Q * Q)%type.
Definition lterms (liq : list bool) (ps : list (prior Q)) : list term :=
  flat_map (fun p => match nth_error liq (pr_idx p) with
                     | Some true => [(count_true (firstn (pr_idx p) liq), pr_mu p, pr_sigma p)]
                     | _ => [] end) ps.
Definition shift (k : nat) (t : term) : term := let '(c, m, s) := t in (c + k, m, s).
Definition terms_walk (f : tree -> list term) :=
  fix go (subs : list tree) (liq : list bool) (c0 : nat) : list term :=
    match subs, liq with
    | s :: ss, l :: ls =>
        if l && negb (is_none s) then map (shift c0) (f s) ++ go ss ls (c0 + number_of_params s)
        else go ss ls c0
    | _, _ => []
    end.
Fixpoint terms (t : tree) : list term :=
  match t with
  | PNone | PFixed | PScalar _ => []
  | PList l => lterms (l_liquid l) (l_priors l)
  | PMulti _ subs liq => terms_walk terms subs liq 0
  end.

Definition chi_term (p : list Q) (t : term) : Q :=
  let '(c, m, s) := t in (qsq (nth c p 0 - m) / qsq s)%Q.
Definition chi_terms (ts : list term) (p : list Q) : Q := qsum (map (chi_term p) ts).

Definition sys (r0 : nat) (ts : list term) (p : list Q) : psys :=
  mkPsys (map (fun k => [k]) (seq r0 (length ts))) (map (fun t => fst (fst t)) ts)
    (map (fun t => [1 / snd t]%Q) ts)
    (map (fun t => [- (nth (fst (fst t)) p 0 - snd (fst t)) / snd t]%Q) ts)
    (map (fun t => [snd (fst t)]) ts).

#[export] Instance qsq_comp : Morphisms.Proper (Qeq ==> Qeq)%signature qsq.
Proof. intros x y H. unfold qsq. rewrite H. reflexivity. Qed.
Lemma qsum_app a b : (qsum (a ++ b) == qsum a + qsum b)%Q.
Proof. induction a as [|x a IH]; simpl; [ring|]. rewrite IH. ring. Qed.
Lemma qsum_ext {A} (f g : A -> Q) l : (forall x, In x l -> (f x == g x)%Q) -> (qsum (map f l) == qsum (map g l))%Q.
Proof. induction l as [|x l IH]; simpl; intros H; [reflexivity|]. rewrite H, IH; auto. reflexivity. Qed.

Lemma nth_keep : forall liq (v : list Q) i, length liq = length v -> nth_error liq i = Some true ->
  nth_error (keep liq v) (count_true (firstn i liq)) = nth_error v i.
Proof.
  induction liq as [|b liq IH]; intros [|x v] i L H; simpl in *; try discriminate.
  - destruct i; discriminate.
  - destruct i as [|i]; simpl in *; [injection H as ->; reflexivity|].
    destruct b; rewrite count_true_cons; simpl; apply IH; auto.
Qed.

Lemma count_lt : forall liq i, nth_error liq i = Some true -> count_true (firstn i liq) < count_true liq.
Proof.
  induction liq as [|b liq IH]; intros [|i] H; simpl in *; try discriminate; rewrite ?count_true_cons.
  - injection H as ->. change (count_true []) with 0. lia.
  - specialize (IH i H). lia.
Qed.

Lemma gp_derivs_spec liq v : length liq = length v -> forall ps r0,
  Forall (fun p => pr_idx p < length v /\ ~ (pr_sigma p == 0)%Q) ps ->
  gp_derivs liq (keep liq v) ps r0 = Ok (sys r0 (lterms liq ps) (keep liq v)).
Proof.
  intros L. induction ps as [|p ps IH]; intros r0 H; simpl; [reflexivity|].
  inversion H as [|? ? (H1 & _) H2]; subst. unfold liquid_index_of_index, py_get at 1.
  destruct (nth_error liq (pr_idx p)) as [b|] eqn:E; [|apply nth_error_None in E; lia].
  simpl. destruct b; simpl.
  - destruct (Z.of_nat (count_true (firstn (pr_idx p) liq)) =? -1)%Z eqn:EZ; [apply Z.eqb_eq in EZ; lia|].
    rewrite Nat2Z.id. unfold py_get.
    rewrite nth_keep by auto. destruct (nth_error v (pr_idx p)) as [x|] eqn:EV; [|apply nth_error_None in EV; lia].
    simpl. rewrite IH by auto. simpl. unfold psys_app, sys. simpl. repeat f_equal.
    rewrite <- (nth_keep liq v) in EV by auto. symmetry. apply nth_error_nth. auto.
  - apply IH; auto.
Qed.

Lemma listmax1_sys r0 ts p : listmax1 (ps_rows (sys r0 ts p)) = if length ts =? 0 then 0 else r0 + length ts.
Proof.
  unfold listmax1, sys; simpl. generalize (length ts) as n. clear. intros n. revert r0.
  induction n as [|n IH]; intros r0; simpl; auto. rewrite IH. destruct n; simpl; lia.
Qed.
Lemma listmax1_sys0 ts p : listmax1 (ps_rows (sys 0 ts p)) = length ts.
Proof. rewrite listmax1_sys. destruct (Nat.eqb_spec (length ts) 0); lia. Qed.

Lemma sys_app r0 a b p : sys r0 (a ++ b) p = psys_app (sys r0 a p) (sys (r0 + length a) b p).
Proof. unfold sys, psys_app; simpl. rewrite app_length, seq_app, !map_app. reflexivity. Qed.

Lemma nth_shift (c0 n c : nat) (p : list Q) : c < n -> nth c (slice c0 (c0 + n) p) 0%Q = nth (c + c0) p 0%Q.
Proof.
  intros H. unfold slice. replace (c0 + n - c0) with n by lia.
  rewrite Nat.add_comm. revert c0 c n H.
  assert (F : forall (l : list Q) c n, c < n -> nth c (firstn n l) 0%Q = nth c l 0%Q).
  { induction l as [|x l IH]; intros [|c] [|n] H; simpl; auto; try lia. apply IH. lia. }
  intros. rewrite F by auto. revert c0. induction p as [|x p IH]; intros [|c0]; simpl; auto.
  destruct c; auto.
Qed.

Lemma sys_shift r0 c0 ts (q p : list Q) :
  (forall t, In t ts -> nth (fst (fst t)) q 0%Q = nth (fst (fst t) + c0) p 0%Q) ->
  mkPsys (map (map (fun rij => rij + r0)) (ps_rows (sys 0 ts q))) (map (fun ci => ci + c0) (ps_cols (sys 0 ts q)))
    (ps_vals (sys 0 ts q)) (ps_b (sys 0 ts q)) (ps_mu (sys 0 ts q)) = sys r0 (map (shift c0) ts) p.
Proof.
  intros H. unfold sys; simpl. rewrite !map_map, map_length. f_equal.
  - simpl. clear.
    assert (E : forall n k, map (fun x => [x + r0]) (seq k n) = map (fun x => [x]) (seq (k + r0) n)).
    { induction n as [|n IH]; intros k'; simpl; auto. rewrite IH. simpl. reflexivity. }
    apply (E (length ts) 0).
  - apply map_ext. intros [[c m] s]; reflexivity.
  - apply map_ext. intros [[c m] s]; reflexivity.
  - apply map_ext_in. intros [[c m] s] I. specialize (H _ I). simpl in *. rewrite H. reflexivity.
  - apply map_ext. intros [[c m] s]; reflexivity.
Qed.

Definition in_range (n : nat) (t : term) : Prop := fst (fst t) < n /\ ~ (snd t == 0)%Q.

Lemma terms_range : forall t : tree, wf t -> priors_ok t -> Forall (in_range (number_of_params t)) (terms t).
Proof.
  induction t as [| | |l|nm subs liq IH] using ptree_ind'; simpl; auto; intros W O.
  - destruct W as (W & _). unfold lterms. apply Forall_forall. intros t I.
    apply in_flat_map in I as (p & I & J). rewrite Forall_forall in O. specialize (O p I) as (O1 & O2).
    destruct (nth_error (l_liquid l) (pr_idx p)) as [[|]|] eqn:E; simpl in J; try contradiction.
    destruct J as [<-|[]]. split; auto. simpl. apply count_lt; auto.
  - destruct W as (HL & W). rewrite fold_and_Forall in W, O.
    assert (G : forall c0, Forall (in_range (c0 + list_sum (active_map number_of_params subs liq)))
                            (terms_walk terms subs liq c0)).
    { revert liq HL W O. induction IH as [|s ss Hs Hss IHs]; intros [|b ls] HL W O c0; simpl in *; try lia; auto.
      inversion W as [|? ? W1 W2]; subst. inversion O as [|? ? O1 O2]; subst.
      destruct (b && negb (is_none s)); [|apply IHs; auto; lia]. simpl.
      apply Forall_app. split.
      - apply Forall_map. eapply Forall_impl; [|apply Hs; auto].
        intros [[c m] s'] (R1 & R2). split; auto. simpl in *. lia.
      - eapply Forall_impl; [|apply (IHs ls ltac:(lia) W2 O2 (c0 + number_of_params s))].
        intros t (R1 & R2). split; auto. lia. }
    apply (G 0).
Qed.

(** The system is [sys] of the terms. *)
Lemma prior_derivs_spec : forall t : tree, wf t -> priors_ok t -> t <> PNone ->
  prior_derivs t = Ok (Some (sys 0 (terms t) (get_params t))) \/
  (prior_derivs t = Ok None /\ terms t = []).
Proof.
  induction t as [| | |l|nm subs liq IH] using ptree_ind'; simpl; auto; intros W O NN.
  - congruence.
  - destruct W as (W & _). rewrite gp_derivs_spec by auto. simpl. auto.
  - destruct W as (HL & W). rewrite fold_and_Forall in W, O.
    assert (G : forall r0 c0 pre, length pre = c0 ->
      prior_walk prior_derivs subs liq r0 c0 =
      Ok (sys r0 (terms_walk terms subs liq c0) (pre ++ concat (active_map get_params subs liq)))).
    { clear NN. revert liq HL W O. induction IH as [|s ss Hs Hss IHs]; intros [|b ls] HL W O r0 c0 pre HP; simpl in *; try lia; auto.
      inversion W as [|? ? W1 W2]; subst. inversion O as [|? ? O1 O2]; subst.
      destruct (b && negb (is_none s)) eqn:EB; [|apply IHs; auto; lia].
      assert (NS : s <> PNone) by (apply andb_true_iff in EB as (_ & EB); destruct s; simpl in *; congruence).
      simpl. pose proof (number_get s W1) as NG.
      assert (PRE : length (pre ++ get_params s) = length pre + number_of_params s) by (rewrite app_length; lia).
      destruct (Hs W1 O1 NS) as [E|(E & ET)]; rewrite E; cbn [bind].
      - rewrite listmax1_sys0.
        rewrite (IHs ls ltac:(lia) W2 O2 (r0 + length (terms s)) _ (pre ++ get_params s) PRE). simpl.
        rewrite <- app_assoc. rewrite sys_app, map_length. do 2 f_equal.
        apply sys_shift. intros t I.
        pose proof (terms_range s W1 O1) as R. rewrite Forall_forall in R. destruct (R t I) as (R1 & _).
        rewrite Nat.add_comm. rewrite app_nth2_plus, app_nth1 by lia. reflexivity.
      - rewrite ET. simpl.
        rewrite (IHs ls ltac:(lia) W2 O2 r0 _ (pre ++ get_params s) PRE). rewrite <- app_assoc. reflexivity. }
    rewrite (G 0 0 [] eq_refl). simpl. destruct (terms_walk terms subs liq 0); simpl; auto.
Qed.

(** The log prior after setting the thawed parameters. *)
Lemma prior_chisq_acc ps p : forall acc, exists r,
  prior_chisq ps p acc = r /\
  (Forall (fun t => pr_idx t < length p) ps ->
   exists q, r = Ok q /\ (q == acc + qsum (map (fun t => qsq (nth (pr_idx t) p 0 - pr_mu t) / qsq (pr_sigma t)) ps))%Q).
Proof.
  induction ps as [|t ps IH]; intros acc; simpl.
  - eexists; split; [reflexivity|]. intros _. eexists; split; [reflexivity|]. ring.
  - destruct (py_get p (pr_idx t)) as [x|e] eqn:E; simpl.
    + destruct (IH (acc + qsq (x - pr_mu t) / qsq (pr_sigma t))%Q) as (r & Er & H).
      exists r. split; auto. intros F. inversion F as [|? ? F1 F2]; subst.
      destruct (H F2) as (q & -> & Eq). eexists; split; [reflexivity|]. rewrite Eq.
      unfold py_get in E. destruct (nth_error p (pr_idx t)) eqn:EN; [|discriminate]. injection E as ->.
      rewrite (nth_error_nth p (pr_idx t) 0%Q EN). ring.
    + eexists; split; [reflexivity|]. intros F. inversion F as [|? ? F1 F2]; subst.
      unfold py_get in E. destruct (nth_error p (pr_idx t)) eqn:EN; [discriminate|].
      apply nth_error_None in EN. lia.
Qed.

Lemma set_loop_nth : forall liq (vals : list Q) i p vs, length liq = length vals ->
  plist_set_loop liq vals i p = Ok vs -> i + count_true liq = length p ->
  length vs = length vals /\ keep liq vs = skipn i p /\
  forall k, nth_error liq k = Some false -> nth k vs 0%Q = nth k vals 0%Q.
Proof.
  induction liq as [|b liq IH]; intros [|v vals] i p vs L H HP; simpl in *; try discriminate.
  - injection H as <-. split; auto. split; [|intros [|k]; discriminate].
    unfold count_true in HP; simpl in HP. symmetry. apply skipn_all2. lia.
  - rewrite count_true_cons in HP. destruct b.
    + apply bind_ok in H as (x & Hx & H). apply bind_ok in H as (vs' & Hvs & H). injection H as <-.
      destruct (IH vals (S i) p vs' ltac:(lia) Hvs ltac:(lia)) as (A & B & C).
      simpl. split; [lia|]. split.
      * unfold py_get in Hx. destruct (nth_error p i) eqn:EN; [|discriminate]. injection Hx as ->.
        rewrite B. symmetry. apply skipn_nth_cons; auto.
      * intros [|k] Hk; simpl in *; [discriminate|]. auto.
    + apply bind_ok in H as (vs' & Hvs & H). injection H as <-.
      destruct (IH vals i p vs' ltac:(lia) Hvs ltac:(lia)) as (A & B & C).
      simpl. split; [lia|]. split; auto. intros [|k] Hk; simpl in *; auto.
Qed.

Lemma log_prior_set : forall t : tree, wf t -> priors_ok t -> t <> PNone ->
  exists K, forall p t', length p = number_of_params t -> set_params t p = Ok t' ->
    exists L, log_prior t' = Ok L /\ (L == (-1 # 2) * (K + chi_terms (terms t) p))%Q.
Proof.
  induction t as [| | |l|nm subs liq IH] using ptree_ind'; intros W O NN.
  - congruence.
  - exists 0%Q. intros p t' _ H. simpl in H. destruct p; [|discriminate]. injection H as <-.
    simpl. eexists; split; [reflexivity|]. unfold chi_terms; simpl. ring.
  - exists 0%Q. intros p t' _ H. simpl in H. destruct p as [|x [|y p]]; try discriminate. injection H as <-.
    simpl. eexists; split; [reflexivity|]. unfold chi_terms; simpl. ring.
  - simpl in W, O. destruct W as (W & _).
    exists (qsum (map (fun t => match nth_error (l_liquid l) (pr_idx t) with
              | Some true => 0%Q
              | _ => (qsq (nth (pr_idx t) (l_vals l) 0 - pr_mu t) / qsq (pr_sigma t))%Q end) (l_priors l))).
    intros p t' HL H. simpl in H, HL. apply bind_ok in H as (vs & Hvs & H). injection H as <-. simpl.
    destruct (set_loop_nth (l_liquid l) (l_vals l) 0 p vs W Hvs ltac:(lia)) as (A & B & C). simpl in B.
    destruct (prior_chisq_acc (l_priors l) vs 0%Q) as (r & -> & HR).
    assert (F : Forall (fun t => pr_idx t < length vs) (l_priors l)).
    { eapply Forall_impl; [|apply O]. intros q (Hq & _). simpl. lia. }
    destruct (HR F) as (q & -> & Eq). simpl. eexists; split; [reflexivity|]. rewrite Eq.
    apply Qmult_comp; [reflexivity|].
    assert (WV : length (l_liquid l) = length vs) by lia.
    clear HR Eq Hvs O HL. induction (l_priors l) as [|t ps IHp]; [reflexivity|].
    inversion F as [|? ? F1 F2]; subst. simpl.
    unfold chi_terms in *. simpl. rewrite map_app, qsum_app.
    transitivity (qsq (nth (pr_idx t) vs 0 - pr_mu t) / qsq (pr_sigma t) +
       (0 + qsum (map (fun t => qsq (nth (pr_idx t) vs 0 - pr_mu t) / qsq (pr_sigma t)) ps)))%Q; [ring|].
    rewrite (IHp F2).
    destruct (nth_error (l_liquid l) (pr_idx t)) as [[|]|] eqn:E.
    + simpl. assert (EN : nth (count_true (firstn (pr_idx t) (l_liquid l))) (keep (l_liquid l) vs) 0%Q = nth (pr_idx t) vs 0%Q).
      { pose proof (nth_keep (l_liquid l) vs (pr_idx t) WV E) as NK.
        destruct (nth_error vs (pr_idx t)) as [x|] eqn:EV; [|apply nth_error_None in EV; lia].
        rewrite (nth_error_nth vs _ 0%Q EV). apply nth_error_nth. auto. }
      rewrite EN. match goal with |- (?u + (?a + ?b) == 0 + ?a' + (?u' + 0 + ?b'))%Q =>
        change u' with u; change a' with a; change b' with b; generalize u a b; intros; ring end.
    + simpl. rewrite (C _ E). match goal with |- (?u + (?a + ?b) == ?u' + ?a' + (0 + ?b'))%Q =>
        change u' with u; change a' with a; change b' with b; generalize u a b; intros; ring end.
    + apply nth_error_None in E. lia.
  - simpl in W, O. destruct W as (HL & W). rewrite fold_and_Forall in W, O.
    assert (G : exists K, forall p c0 subs' lnp,
      c0 + list_sum (active_map number_of_params subs liq) <= length p ->
      slice_walk number_of_params set_params p subs liq c0 = Ok subs' ->
      exists L, log_prior_walk log_prior subs' liq lnp = Ok L /\
        (L == lnp + (-1 # 2) * (K + chi_terms (terms_walk terms subs liq c0) p))%Q).
    { clear NN. revert liq HL W O. induction IH as [|s ss Hs Hss IHs]; intros [|b ls] HL W O; simpl in *; try lia.
      - exists 0%Q. intros p c0 subs' lnp _ H. injection H as <-. simpl. eexists; split; [reflexivity|].
        unfold chi_terms; simpl; ring.
      - inversion W as [|? ? W1 W2]; subst. inversion O as [|? ? O1 O2]; subst.
        destruct (IHs ls ltac:(lia) W2 O2) as (K' & HK').
        destruct (b && negb (is_none s)) eqn:EB; simpl.
        + assert (NS : s <> PNone) by (apply andb_true_iff in EB as (_ & EB); destruct s; simpl in *; congruence).
          destruct (Hs W1 O1 NS) as (K & HK).
          exists (K + K')%Q. intros p c0 subs' lnp HP H.
          apply bind_ok in H as (s' & Es & H). apply bind_ok in H as (ss' & Ess & H). injection H as <-.
          assert (EB' : b && negb (is_none s') = true).
          { apply andb_true_iff in EB as (-> & _). simpl.
            destruct s; simpl in Es; try congruence; try (destruct (slice _ _ _) as [|? [|? ?]]; try discriminate; injection Es as <-; reflexivity);
            apply bind_ok in Es as (? & _ & Es); injection Es as <-; reflexivity. }
          simpl. rewrite EB'.
          assert (LS : length (slice c0 (c0 + number_of_params s) p) = number_of_params s)
            by (rewrite slice_length; lia).
          destruct (HK _ _ LS Es) as (L & -> & EL). simpl.
          destruct (HK' p (c0 + number_of_params s) ss' (lnp + L)%Q ltac:(lia) Ess) as (L' & -> & EL').
          eexists; split; [reflexivity|]. rewrite EL', EL. unfold chi_terms. rewrite map_app, qsum_app, map_map.
          assert (ES : (qsum (map (fun x => chi_term p (shift c0 x)) (terms s)) ==
                        qsum (map (chi_term (slice c0 (c0 + number_of_params s) p)) (terms s)))%Q).
          { apply qsum_ext. intros [[c m] sg] I. pose proof (terms_range s W1 O1) as R.
            rewrite Forall_forall in R. destruct (R _ I) as (R1 & _). simpl in *. rewrite nth_shift by auto. reflexivity. }
          rewrite ES. ring.
        + exists K'. intros p c0 subs' lnp HP H. apply bind_ok in H as (ss' & Ess & H). injection H as <-.
          simpl. rewrite EB. apply HK'; auto. }
    destruct G as (K & HK). exists K. intros p t' LP H. simpl in H, LP.
    apply bind_ok in H as (subs' & Es & H). injection H as <-. simpl.
    destruct (HK p 0 subs' 0%Q ltac:(lia) Es) as (L & -> & EL). eexists; split; [reflexivity|]. rewrite EL. ring.
Qed.

(** |A d - b|^2 of the terms' system. *)
Lemma concat_single {A B} (f : A -> B) l : concat (map (fun x => [f x]) l) = map f l.
Proof. induction l; simpl; congruence. Qed.

Lemma entries_sys r0 ts p :
  entries (sys r0 ts p) = map (fun e => (fst e, fst (fst (snd e)), (1 / snd (snd e))%Q)) (combine (seq r0 (length ts)) ts).
Proof.
  unfold entries, sys; simpl. revert r0. induction ts as [|[[c m] s] ts IH]; intros r0; simpl; auto.
  rewrite IH. reflexivity.
Qed.

Lemma row_dot_sys : forall ts r0 p d k, k < length ts ->
  (row_dot (entries (sys r0 ts p)) d (r0 + k) ==
   let t := nth k ts (0%nat, 0%Q, 0%Q) in 1 / snd t * nth (fst (fst t)) d 0)%Q.
Proof.
  intros ts r0 p d k Hk. rewrite entries_sys. unfold row_dot. rewrite map_map.
  assert (Z : forall ts r1 r, r < r1 ->
    (qsum (map (fun x : nat * term => let '(r', c, v) := (fst x, fst (fst (snd x)), (1 / snd (snd x))%Q) in
        if r' =? r then (v * nth c d 0)%Q else 0%Q) (combine (seq r1 (length ts)) ts)) == 0)%Q).
  { clear. induction ts as [|t ts IH]; intros r1 r H; simpl; [reflexivity|].
    destruct (Nat.eqb_spec r1 r); [lia|]. rewrite IH by lia. ring. }
  revert r0 k Hk. induction ts as [|t ts IH]; intros r0 k Hk; simpl in Hk; [lia|].
  destruct k as [|k]; simpl.
  - rewrite Nat.add_0_r, Nat.eqb_refl. rewrite Z by lia. ring.
  - destruct (Nat.eqb_spec r0 (r0 + S k)); [lia|].
    specialize (IH (S r0) k ltac:(lia)). replace (r0 + S k) with (S r0 + k) by lia. simpl in IH |- *. rewrite IH. ring.
Qed.

Lemma misfit_sys ts p d n : Forall (in_range n) ts -> length p = n -> length d = n ->
  (misfit (sys 0 ts p) d == chi_terms ts (step_by p d))%Q.
Proof.
  intros R LP LD. unfold misfit.
  assert (EB : concat (ps_b (sys 0 ts p)) = map (fun t => (- (nth (fst (fst t)) p 0 - snd (fst t)) / snd t)%Q) ts)
    by (simpl; apply concat_single).
  rewrite EB, map_length. unfold chi_terms.
  assert (ST : forall c, c < n -> (nth c (step_by p d) 0 == nth c p 0 + nth c d 0)%Q).
  { unfold step_by. clear - LP LD. subst n. intros c.
    revert d c LD. induction p as [|x p IH]; intros [|y d] [|c] L H; simpl in *; try lia; try discriminate.
    - reflexivity.
    - apply IH; lia. }
  transitivity (qsum (map (fun k => chi_term (step_by p d) (nth k ts (0%nat, 0%Q, 0%Q))) (seq 0 (length ts)))).
  - apply qsum_ext. intros k Hk. apply in_seq in Hk.
    pose proof (row_dot_sys ts 0 p d k ltac:(lia)) as RD. simpl in RD. cbv beta. rewrite RD.
    assert (IN : In (nth k ts (0%nat, 0%Q, 0%Q)) ts) by (apply nth_In; lia).
    rewrite Forall_forall in R. destruct (R _ IN) as (R1 & R2).
    assert (NB : nth k (map (fun t : term => (- (nth (fst (fst t)) p 0 - snd (fst t)) / snd t)%Q) ts) 0%Q =
      (fun t : term => (- (nth (fst (fst t)) p 0 - snd (fst t)) / snd t)%Q) (nth k ts (0%nat, 0%Q, 0%Q))).
    { rewrite <- (map_nth (fun t : term => (- (nth (fst (fst t)) p 0 - snd (fst t)) / snd t)%Q)).
      apply nth_indep. rewrite map_length; lia. }
    rewrite NB. destruct (nth k ts (0%nat, 0%Q, 0%Q)) as [[c m] s]. simpl in *.
    rewrite (ST c R1). unfold qsq. field. auto.
  - assert (E : forall (l : list term) k0, map (fun k => chi_term (step_by p d) (nth (k - k0) l (0%nat, 0%Q, 0%Q))) (seq k0 (length l))
        = map (chi_term (step_by p d)) l).
    { induction l as [|t l IH]; intros k0; simpl; auto. rewrite Nat.sub_diag. f_equal.
      rewrite <- (IH (S k0)). apply map_ext_in. intros k Hk. apply in_seq in Hk.
      replace (k - k0) with (S (k - S k0)) by lia. reflexivity. }
    rewrite <- (E ts 0). apply qsum_ext. intros. rewrite Nat.sub_0_r. reflexivity.
Qed.

Lemma terms_count : forall t : tree, wf t -> priors_ok t -> length (terms t) = free_terms t.
Proof.
  unfold free_terms. induction t as [| | |l|nm subs liq IH] using ptree_ind'; intros W O; try reflexivity.
  - simpl in *. destruct W as (W & _). rewrite thawed_combine. unfold terms_on. rewrite <- W.
    assert (F : Forall (fun p => pr_idx p < length (l_liquid l)) (l_priors l)).
    { eapply Forall_impl; [|apply O]. intros p (H & _). simpl in H. lia. }
    clear W O. unfold lterms.
    assert (Z : list_sum (keep (l_liquid l) (map (fun i => length (filter (fun p : prior Q => pr_idx p =? i) [])) (seq 0 (length (l_liquid l))))) = 0).
    { clear F. simpl.
      assert (G : forall q k, list_sum (keep q (map (fun _ : nat => 0) (seq k (length q)))) = 0).
      { induction q as [|b r IHr]; intros k; simpl; auto. destruct b; simpl; apply IHr. }
      apply G. }
    induction (l_priors l) as [|p ps IHp]; simpl; [symmetry; auto|].
    inversion F as [|? ? F1 F2]; subst. rewrite app_length, (IHp F2).
    assert (S1 : forall liq k (g : nat -> nat) j, k <= j -> j < k + length liq ->
      list_sum (keep liq (map (fun i => if j =? i then S (g i) else g i) (seq k (length liq)))) =
      (if match nth_error liq (j - k) with Some true => true | _ => false end then 1 else 0) +
      list_sum (keep liq (map g (seq k (length liq))))).
    { clear. induction liq as [|b liq IH]; intros k g j H1 H2; simpl in *; [lia|].
      destruct (Nat.eqb_spec j k) as [->|N].
      - rewrite Nat.sub_diag. simpl.
        assert (E : map (fun i => if k =? i then S (g i) else g i) (seq (S k) (length liq)) = map g (seq (S k) (length liq))).
        { apply map_ext_in. intros i Hi. apply in_seq in Hi. destruct (Nat.eqb_spec k i); [lia|reflexivity]. }
        rewrite E. destruct b; simpl; lia.
      - replace (j - k) with (S (j - S k)) by lia. simpl. specialize (IH (S k) g j ltac:(lia) ltac:(lia)).
        destruct b; simpl; rewrite IH; lia. }
    specialize (S1 (l_liquid l) 0 (fun i => length (filter (fun p0 : prior Q => pr_idx p0 =? i) ps)) (pr_idx p) ltac:(lia) ltac:(lia)).
    rewrite Nat.sub_0_r in S1.
    rewrite (map_ext (fun i => length (if pr_idx p =? i then p :: filter (fun p0 : prior Q => pr_idx p0 =? i) ps
                                       else filter (fun p0 : prior Q => pr_idx p0 =? i) ps)) (fun i => if pr_idx p =? i then S (length (filter (fun p0 : prior Q => pr_idx p0 =? i) ps))
                                 else length (filter (fun p0 : prior Q => pr_idx p0 =? i) ps)))
      by (intros i; destruct (pr_idx p =? i); reflexivity).
    rewrite S1. f_equal. destruct (nth_error (l_liquid l) (pr_idx p)) as [[|]|]; reflexivity.
  - simpl in *. destruct W as (HL & W). rewrite fold_and_Forall in W, O.
    generalize 0 at 1 as c0. revert liq HL W O.
    induction IH as [|s ss Hs Hss IHs]; intros [|b ls] HL W O c0; simpl in *; try lia; auto.
    inversion W as [|? ? W1 W2]; subst. inversion O as [|? ? O1 O2]; subst.
    rewrite thawed_app, thawed_gate, list_sum_app.
    destruct b; simpl; [|apply (IHs ls); auto; lia].
    destruct (is_none s) eqn:EN; simpl.
    + rewrite (flat_none (fun _ => 0) terms_on s EN). apply (IHs ls); auto.
    + rewrite app_length, map_length, (Hs W1 O1). f_equal. apply (IHs ls); auto.
Qed.

(** ** C15 *)

(** The system has exactly one row per prior term on a free parameter (rows
    are numbered 0, 1, ... and each has one entry and one right-hand side),
    all columns are positions of the parameter vector, and for every step d the
    log prior changes by exactly the change of -|A d - b|^2 / 2.  [None] is
    reported only when there is no such term. *)
Theorem C15_prior_rows : forall t : tree, wf t -> priors_ok t -> t <> PNone ->
  exists ox, prior_derivs t = Ok ox /\
  match ox with
  | None => free_terms t = 0
  | Some x =>
      concat (ps_rows x) = seq 0 (free_terms t) /\
      length (entries x) = free_terms t /\
      length (concat (ps_b x)) = free_terms t /\
      Forall (fun c => c < number_of_params t) (ps_cols x)
  end /\
  forall d t', length d = number_of_params t -> set_params t (step_by (get_params t) d) = Ok t' ->
  exists L L', log_prior t = Ok L /\ log_prior t' = Ok L' /\
    (L' - L == match ox with
               | None => 0
               | Some x => (-1 # 2) * (misfit x d - misfit x (repeat 0 (number_of_params t)))
               end)%Q.
Proof.
  intros t W O NN.
  pose proof (terms_range t W O) as R. pose proof (terms_count t W O) as TC.
  pose proof (number_get t W) as NG.
  destruct (log_prior_set t W O NN) as (K & HK).
  assert (LEN : forall d, length d = number_of_params t -> length (step_by (get_params t) d) = number_of_params t).
  { intros d LD. unfold step_by. rewrite map_length, combine_length. lia. }
  assert (C0 : forall d t', length d = number_of_params t -> set_params t (step_by (get_params t) d) = Ok t' ->
    exists L L', log_prior t = Ok L /\ log_prior t' = Ok L' /\
      (L' - L == (-1 # 2) * (chi_terms (terms t) (step_by (get_params t) d) - chi_terms (terms t) (get_params t)))%Q).
  { intros d t' LD E. destruct (HK _ _ (LEN d LD) E) as (L' & E' & EL').
    destruct (HK _ _ (eq_sym NG) (set_get_id t W NN)) as (L & E0 & EL).
    exists L, L'. split; auto. split; auto. rewrite EL, EL'. ring. }
  assert (CZ : (chi_terms (terms t) (step_by (get_params t) (repeat 0%Q (number_of_params t))) == chi_terms (terms t) (get_params t))%Q).
  { apply qsum_ext. intros [[c m] s] _. simpl. unfold qsq.
    assert (E : (nth c (step_by (get_params t) (repeat 0%Q (number_of_params t))) 0 == nth c (get_params t) 0)%Q).
    { rewrite NG. generalize (get_params t). clear. intros l. revert c.
      induction l as [|x l IH]; intros [|c]; simpl; try reflexivity; [ring|apply IH]. }
    rewrite E. reflexivity. }
  destruct (prior_derivs_spec t W O NN) as [E|(E & ET)].
  - exists (Some (sys 0 (terms t) (get_params t))). split; auto. split.
    + rewrite <- TC. split; [simpl; rewrite concat_single, map_id; reflexivity|].
      split; [rewrite entries_sys, map_length, combine_length, seq_length; lia|].
      split; [simpl; rewrite concat_single, map_length; reflexivity|].
      simpl. apply Forall_map. eapply Forall_impl; [|apply R]. intros x (Hx & _); auto.
    + intros d t' LD ES. destruct (C0 d t' LD ES) as (L & L' & E1 & E2 & E3).
      exists L, L'. split; auto. split; auto. rewrite E3.
      rewrite (misfit_sys _ _ d _ R (eq_sym NG) LD).
      rewrite (misfit_sys _ _ _ _ R (eq_sym NG) (repeat_length 0%Q (number_of_params t))).
      rewrite CZ. reflexivity.
  - exists None. split; auto. split; [rewrite <- TC, ET; reflexivity|].
    intros d t' LD ES. destruct (C0 d t' LD ES) as (L & L' & E1 & E2 & E3).
    exists L, L'. split; auto. split; auto. rewrite E3, ET. unfold chi_terms; simpl. ring.
Qed.

(** addGaussianPrior puts the prior on the parameter of that name, for a name
    that denotes a parameter. *)
Theorem C15_add_prior : forall l name i mu sigma,
  named_param_index (l_names l) name = Some i -> i < length (l_vals l) -> ~ (sigma == 0)%Q ->
  priors_ok (PList l) ->
  exists l', add_gaussian_prior l name mu sigma = Ok l' /\ priors_ok (PList l') /\
    l_vals l' = l_vals l /\ l_liquid l' = l_liquid l /\
    l_priors l' = l_priors l ++ [mkPrior name i mu sigma].
Proof.
  intros l name i mu sigma E H S O. unfold add_gaussian_prior. rewrite E.
  eexists; split; [reflexivity|]. simpl in *. repeat split; auto.
  apply Forall_app. split; auto.
Qed.

(** A group of a list (first parameter frozen, priors on both) and another list:
    one row for each of the two terms on free parameters. *)
Definition ex_l1 : plist Q := mkPlist (mkNames [] []) [1; 5]%Q [false; true] [None; None] [None; None] [None; None] None
  [mkPrior "a" 0 0 1; mkPrior "b" 1 3 2]%Q.
Definition ex_l2 : plist Q := mkPlist (mkNames [] []) [7%Q] [true] [None] [None] [None] None [mkPrior "c" 0 6 1]%Q.
Definition ex_t : tree := PMulti (mkNames [] []) [PList ex_l1; PNone; PList ex_l2] [true; true; true].

Example C15_ex : wf ex_t /\ priors_ok ex_t /\ free_terms ex_t = 2 /\
  match prior_derivs ex_t with
  | Ok (Some x) => ps_rows x = [[0]; [1]] /\ ps_cols x = [0; 1]
  | _ => False end /\
  match log_prior ex_t with Ok q => (q == - (3 # 2))%Q | _ => False end.
Proof.
  split; [simpl; unfold wf_plist; simpl; repeat split; auto; discriminate|].
  split; [simpl; repeat split; repeat constructor; simpl; try lia; intros H; discriminate H|].
  vm_compute. auto.
Qed.

Print Assumptions C15_prior_rows.
Print Assumptions C15_add_prior.
