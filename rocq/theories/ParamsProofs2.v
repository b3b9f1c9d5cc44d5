(** Proofs about the parameter containers, continued: single entries, all
    parameters, step sizes, copies, priors. *)
From Coq Require Import String List ZArith Bool Lia.
From Verif Require Import Base ParamsModel ParamsSpec ParamsProofs.
Import ListNotations.

Section Proofs.
Context {V : Type}.
Notation ptree := (ptree V).

Lemma upd_app_l {A} i (x : A) a b : i < length a -> upd i x (a ++ b) = upd i x a ++ b.
Proof. revert i; induction a; destruct i; simpl; intros; try lia; auto. rewrite IHa; auto; lia. Qed.
Lemma upd_app_r {A} i (x : A) a b : upd (length a + i) x (a ++ b) = a ++ upd i x b.
Proof. induction a; simpl; auto. rewrite IHa; auto. Qed.

Lemma nth_error_app_l {A} i (a b : list A) : i < length a -> nth_error (a ++ b) i = nth_error a i.
Proof. intros; apply nth_error_app1; auto. Qed.

Lemma index_liquid_true ls j : index_liquid (true :: ls) (Z.of_nat (S j)) =
  (i <- index_liquid ls (Z.of_nat j) ;; Ok (S i)).
Proof. cbn [index_liquid].
  replace (Z.of_nat (S j) =? 0)%Z with false by (symmetry; apply Z.eqb_neq; lia).
  replace (Z.of_nat (S j) - 1)%Z with (Z.of_nat j) by lia. auto. Qed.

Lemma index_liquid_ok (liq : list bool) (vals : list V) j v :
  length liq = length vals -> j < count_true liq ->
  exists ii old, index_liquid liq (Z.of_nat j) = Ok ii /\ nth_error vals ii = Some old /\
    nth_error (keep liq vals) j = Some old /\
    combine liq (upd ii v vals) = overlay (combine liq vals) (upd j v (keep liq vals)).
Proof.
  revert vals j. induction liq as [|b r]; destruct vals as [|x vs]; intros; simpl in H; try lia;
    unfold count_true in *; simpl in H0; try lia.
  destruct b; simpl in H0.
  - destruct j.
    + exists 0, x. simpl. repeat split; auto. rewrite <- thawed_combine, overlay_thawed_self; auto.
    + destruct (IHr vs j ltac:(lia) ltac:(lia)) as (ii & old & E & H1 & H2 & H3).
      rewrite index_liquid_true, E. exists (S ii), old; simpl; repeat split; auto. rewrite H3; auto.
  - destruct (IHr vs j ltac:(lia) ltac:(lia)) as (ii & old & E & H1 & H2 & H3).
    exists (S ii), old; simpl; rewrite E; repeat split; auto. rewrite H3; auto.
Qed.

Lemma index_liquid_neg liq j : (j < 0)%Z -> exists e, index_liquid liq j = Err e.
Proof. revert j; induction liq as [|b r]; simpl; intros; eauto. destruct b.
  - replace (j =? 0)%Z with false by (symmetry; apply Z.eqb_neq; lia).
    destruct (IHr (j - 1)%Z ltac:(lia)) as (e & ->); simpl; eauto.
  - destruct (IHr j H) as (e & ->); simpl; eauto. Qed.

Lemma index_liquid_big liq j : (Z.of_nat (count_true liq) <= j)%Z ->
  exists e, index_liquid liq j = Err e.
Proof. revert j; induction liq as [|b r]; simpl; intros; eauto.
  rewrite count_true_cons in H. destruct b; simpl in H.
  - replace (j =? 0)%Z with false by (symmetry; apply Z.eqb_neq; lia).
    destruct (IHr (j - 1)%Z ltac:(lia)) as (e & ->); simpl; eauto.
  - destruct (IHr j H) as (e & ->); simpl; eauto. Qed.

Lemma set_param_spec v0 (t : ptree) i v :
  wf t -> t <> PNone -> i < number_of_params t ->
  exists t' old, set_param t (Z.of_nat i) v = Ok (t', old) /\
    nth_error (get_params t) i = Some old /\ wf t' /\ t' <> PNone /\
    vals_of t' = overlay (vals_of t) (upd i v (get_params t)) /\ blank v0 t' = blank v0 t.
Proof.
  revert i. unfold vals_of. induction t using ptree_ind'; simpl; intros i W NN HL; try lia; try congruence.
  - destruct i; try lia. simpl. do 2 eexists; repeat split; auto; try reflexivity; congruence.
  - destruct W as (W1 & W2 & W3 & W4 & W5).
    destruct (index_liquid_ok (l_liquid l) (l_vals l) i v) as (ii & old & -> & H1 & H2 & H3); auto.
    simpl. unfold py_get. rewrite H1; simpl.
    do 2 eexists; repeat split; eauto; simpl; rewrite ?upd_length; auto; try congruence.
    f_equal. unfold with_vals; simpl. f_equal.
    assert (ii < length (l_vals l)) as HI by (apply nth_error_Some; congruence).
    clear -HI. revert ii HI. induction (l_vals l) as [|x r IHr]; destruct ii; simpl; intros; auto.
    rewrite IHr; auto; lia.
  - apply proj1 in W as HLs. apply proj2 in W. rewrite fold_and_Forall in W.
    assert (exists subs' old, setparam_walk (fun s j => set_param s j v) (Z.of_nat (0 + i)) subs liq 0 = Ok (subs', old) /\
              nth_error (concat (active_map get_params subs liq)) i = Some old /\
              length subs' = length subs /\ Forall wf subs' /\
              flat_walk (flat s_val l_vals) subs' liq =
                overlay (flat_walk (flat s_val l_vals) subs liq)
                   (upd i v (concat (active_map get_params subs liq))) /\
              map (blank v0) subs' = map (blank v0) subs) as (subs' & old & E & HO & HL' & HW' & HF & HB).
    { clear NN. generalize 0. revert liq HLs W i HL.
      induction H as [|s ss Hs Hss IH]; intros liq HLs W i HL off; destruct liq as [|b ls]; simpl in *; try lia.
      inversion W as [|? ? W1 W2]; subst.
      destruct b; [destruct (is_none s) eqn:EN|]; simpl in *.
      + destruct (IH ls ltac:(lia) W2 i HL off) as (ss' & old & -> & H0 & H1 & H2 & H3 & H4). simpl.
        exists (s :: ss'), old; simpl; repeat split; auto; try congruence.
        rewrite H3. rewrite (flat_none s_val l_vals s EN); auto.
      + assert (NNs : s <> PNone) by (destruct s; simpl in *; congruence).
        pose proof (number_get s W1) as HN.
        destruct (Nat.lt_ge_cases i (number_of_params s)) as [Hi|Hi].
        * destruct (Hs i W1 NNs Hi) as (s' & old & E & HO & Ws' & NN' & HF & HB).
          replace (Z.of_nat (off + i) <? Z.of_nat (off + number_of_params s))%Z with true
            by (symmetry; apply Z.ltb_lt; lia).
          replace (Z.of_nat (off + i) - Z.of_nat off)%Z with (Z.of_nat i) by lia.
          rewrite E; simpl. exists (s' :: ss), old; simpl.
          repeat split; auto; try congruence.
          -- rewrite nth_error_app_l; auto; lia.
          -- rewrite upd_app_l by lia. rewrite overlay_app.
             ++ rewrite HF, !map_id_gate. f_equal.
                rewrite <- overlay_thawed_self at 1. f_equal.
                symmetry. apply (get_params_flat (PMulti (mkNames [] []) ss ls)).
             ++ rewrite upd_length, map_id_gate. rewrite <- HN. apply number_flat; auto.
        * destruct (IH ls ltac:(lia) W2 (i - number_of_params s) ltac:(lia) (off + number_of_params s))
            as (ss' & old & E & H0 & H1 & H2 & H3 & H4).
          replace (Z.of_nat (off + i) <? Z.of_nat (off + number_of_params s))%Z with false
            by (symmetry; apply Z.ltb_ge; lia).
          replace (off + i) with (off + number_of_params s + (i - number_of_params s)) by lia.
          rewrite E; simpl. exists (s :: ss'), old; simpl. repeat split; auto; try congruence.
          -- rewrite nth_error_app2 by lia. rewrite <- HN; auto.
          -- replace i with (length (get_params s) + (i - number_of_params s)) at 1 by lia.
             rewrite upd_app_r, overlay_app.
             ++ rewrite !map_id_gate, get_params_flat, H3. f_equal.
                rewrite overlay_thawed_self; auto.
             ++ rewrite map_id_gate, <- HN. apply number_flat; auto.
      + destruct (IH ls ltac:(lia) W2 i HL off) as (ss' & old & -> & H0 & H1 & H2 & H3 & H4). simpl.
        exists (s :: ss'), old; simpl; repeat split; auto; try congruence.
        rewrite H3. clear. induction (flat s_val l_vals s) as [|e r]; simpl; auto.
        rewrite <- IHr; auto. }
    simpl in E. rewrite E; simpl. do 2 eexists; split; [reflexivity|]. simpl.
    rewrite fold_and_Forall. repeat split; auto; try congruence; try lia.
Qed.

Lemma set_param_out (t : ptree) i v :
  (i < 0 \/ Z.of_nat (number_of_params t) <= i)%Z -> exists e, set_param t i v = Err e.
Proof.
  revert i. induction t using ptree_ind'; simpl; intros i HI; eauto.
  - replace (i =? 0)%Z with false by (symmetry; apply Z.eqb_neq; lia). eauto.
  - assert (exists e, index_liquid (l_liquid l) i = Err e) as (e & ->).
    { destruct HI; [apply index_liquid_neg|apply index_liquid_big]; auto. }
    simpl; eauto.
  - assert (exists e, setparam_walk (fun s j => set_param s j v) i subs liq 0 = Err e) as (e & ->);
      simpl; eauto.
    assert (i < 0 \/ Z.of_nat (0 + list_sum (active_map number_of_params subs liq)) <= i)%Z as HI'
      by (simpl; lia).
    clear HI. revert HI'. generalize 0. revert liq.
    induction H as [|s ss Hs Hss IH]; intros liq off HI; destruct liq as [|b ls]; simpl in *; eauto.
    destruct (b && negb (is_none s)); simpl in *.
    + destruct (Z.ltb_spec i (Z.of_nat (off + number_of_params s))).
      * destruct (Hs (i - Z.of_nat off)%Z) as (e & ->); [lia|]. simpl; eauto.
      * destruct (IH ls (off + number_of_params s)) as (e & ->); [lia|]. simpl; eauto.
    + destruct (IH ls off) as (e & ->); [lia|]. simpl; eauto.
Qed.

(** ** setAllParams *)
Lemma firstn_S_upd {A} i (x : A) l : i < length l ->
  firstn (S i) (upd i x l) = firstn i l ++ [x].
Proof. revert i; induction l; destruct i; intros; simpl in H; try lia; auto.
  cbn [upd]. rewrite !firstn_cons. rewrite IHl by lia. auto. Qed.

Lemma plist_setall_ok p : forall i (vals : list V), i + length p = length vals ->
  plist_setall_loop i p vals = Ok (firstn i vals ++ p).
Proof.
  induction p; simpl; intros i vals HL.
  - rewrite app_nil_r, firstn_all2; auto; lia.
  - replace (i <? length vals) with true by (symmetry; apply Nat.ltb_lt; lia).
    rewrite IHp by (rewrite upd_length; lia). f_equal.
    rewrite firstn_S_upd by lia. rewrite <- app_assoc; auto.
Qed.

Lemma set_all_spec v0 (t : ptree) p :
  wf t -> t <> PNone -> length p = length (get_all_params t) ->
  exists t', set_all_params t p = Ok t' /\ wf t' /\ t' <> PNone /\
    get_all_params t' = p /\ blank v0 t' = blank v0 t.
Proof.
  revert p. induction t using ptree_ind'; simpl; intros p W NN HL; try congruence.
  - destruct p; simpl in *; try lia. exists PFixed; simpl; auto.
  - destruct p as [|x [|y p]]; simpl in *; try lia.
    exists (PScalar (with_val s x)); repeat split; auto; congruence.
  - destruct W as (W1 & W2 & W3 & W4 & W5).
    rewrite (plist_setall_ok p 0) by (simpl; lia). simpl.
    eexists; split; [reflexivity|]. simpl. unfold wf_plist; simpl. rewrite HL.
    repeat split; auto; try congruence.
    unfold with_vals; simpl. do 2 f_equal.
    clear -HL. revert HL. generalize (l_vals l). induction p; destruct l0; simpl; intros; try lia; auto.
    f_equal; apply IHp; lia.
  - apply proj1 in W as HLs. apply proj2 in W. rewrite fold_and_Forall in W.
    assert (exists subs', setall_walk set_all_params p subs 0 = Ok (subs', length p) /\
              length subs' = length subs /\ Forall wf subs' /\
              concat (present_map get_all_params subs') = skipn 0 p /\
              map (blank v0) subs' = map (blank v0) subs) as (subs' & E & HL' & HW' & HF & HB).
    { assert (0 + length (concat (present_map get_all_params subs)) = length p) as HP by (simpl; lia).
      clear HL NN HLs. revert HP. generalize 0. revert W.
      induction H as [|s ss Hs Hss IH]; intros W off HP; simpl in *.
      - exists []; repeat split; auto.
        + replace off with (length p) by lia; auto.
        + rewrite skipn_all2; auto; lia.
      - inversion W as [|? ? W1 W2]; subst.
        destruct (is_none s) eqn:EN; simpl in *.
        + destruct (IH W2 off HP) as (ss' & -> & H1 & H2 & H3 & H4). simpl.
          exists (s :: ss'); simpl; rewrite EN; repeat split; auto; try lia; try congruence.
        + assert (NNs : s <> PNone) by (destruct s; simpl in *; congruence).
          rewrite app_length in HP.
          assert (HLs' : length (slice off (off + length (get_all_params s)) p) = length (get_all_params s)).
          { rewrite slice_length; lia. }
          destruct (Hs _ W1 NNs HLs') as (s' & -> & Ws' & NN' & HF & HB). simpl.
          destruct (IH W2 (off + length (get_all_params s)) ltac:(lia))
            as (ss' & -> & H1 & H2 & H3 & H4). simpl.
          assert (is_none s' = false) as EN' by (destruct s'; simpl in *; congruence).
          exists (s' :: ss'); simpl; rewrite EN'; repeat split; auto; try lia; try congruence.
          simpl. rewrite H3, HF. symmetry; apply firstn_slice_split. }
    rewrite E; simpl. rewrite HF. simpl. rewrite Nat.eqb_refl.
    eexists; split; [reflexivity|]. simpl.
    rewrite fold_and_Forall. repeat split; auto; try congruence; try lia.
Qed.

(** ** Step sizes *)
Lemma new_steps_ok one (ss : list V) liq : forall j, j + count_true liq <= length ss ->
  exists n, new_steps one liq j ss = Ok n /\ length n = length liq /\
    keep liq n = firstn (count_true liq) (skipn j ss).
Proof.
  induction liq as [|b r]; simpl; intros j HL.
  - exists []; auto.
  - rewrite count_true_cons in *. destruct b; simpl in *.
    + destruct (nth_error ss j) eqn:E.
      2:{ apply nth_error_None in E; lia. }
      unfold py_get; rewrite E; simpl.
      destruct (IHr (S j) ltac:(lia)) as (n & -> & H1 & H2); simpl.
      exists (v :: n); simpl; repeat split; auto.
      rewrite (skipn_nth_cons _ _ _ E). simpl. rewrite H2; auto.
    + destruct (IHr j ltac:(lia)) as (n & -> & H1 & H2); simpl.
      exists (one :: n); simpl; auto.
Qed.

Lemma update_steps_ok (ss : list V) liq : Forall (fun b => b = true) liq ->
  forall i steps, i + length liq = length steps -> length ss = length steps ->
  update_steps liq i ss steps = Ok (firstn i steps ++ skipn i ss).
Proof.
  induction 1; simpl; intros i steps HL HS.
  - rewrite firstn_all2, skipn_all2 by lia. rewrite app_nil_r; auto.
  - subst x. destruct (nth_error ss i) eqn:E.
    2:{ apply nth_error_None in E; lia. }
    unfold py_get; rewrite E; simpl.
    replace (i <? length steps) with true by (symmetry; apply Nat.ltb_lt; lia).
    rewrite IHForall by (rewrite upd_length; lia). f_equal.
    rewrite (skipn_nth_cons _ _ _ E).
    rewrite firstn_S_upd by lia. rewrite <- app_assoc; auto.
Qed.

Lemma all_true_count liq : Forall (fun b => b = true) liq -> count_true liq = length liq.
Proof. induction 1; simpl; auto. subst. rewrite count_true_cons; simpl; congruence. Qed.

Lemma keep_all {A} liq (l : list A) : Forall (fun b => b = true) liq -> length liq = length l -> keep liq l = l.
Proof. intros H; revert l; induction H as [|b m Hb Hm IHm]; intros [|y ys]; simpl; intros; try lia; auto. rewrite Hb. f_equal; auto. Qed.

(** Frozen lists without steps of their own, or lists with nothing frozen. *)
Definition plist_steppable (l : plist V) : Prop :=
  l_steps l = None \/ Forall (fun b => b = true) (l_liquid l).
Fixpoint steppable (t : ptree) : Prop :=
  match t with
  | PNone | PFixed | PScalar _ => True
  | PList l => plist_steppable l
  | PMulti _ subs liq =>
      fold_right (fun s P => steppable s /\ P) True subs
  end.

Lemma new_steps_overlay one (ss : list V) liq : forall j n,
  new_steps one liq j ss = Ok n -> j + count_true liq <= length ss ->
  combine liq n = overlay (combine liq (map (fun _ => one) liq)) (skipn j ss).
Proof.
  induction liq as [|b r IH]; simpl; intros j n E HL; auto.
  rewrite count_true_cons in HL. destruct b; simpl in *.
  - unfold py_get in E. destruct (nth_error ss j) eqn:EN; simpl in E; [|discriminate].
    apply bind_ok in E. destruct E as (m & E & F). injection F; intros; subst.
    simpl. rewrite (skipn_nth_cons _ _ _ EN). rewrite (IH _ _ E) by lia. auto.
  - apply bind_ok in E. destruct E as (m & E & F). injection F; intros; subst.
    simpl. rewrite (IH _ _ E) by lia. auto.
Qed.

Lemma overlay_all_thawed liq : forall (old ss : list V), Forall (fun b => b = true) liq ->
  length old = length liq -> length ss = length liq -> overlay (combine liq old) ss = combine liq ss.
Proof.
  induction liq as [|b r IH]; intros [|o old] [|x ss] HF H1 H2; simpl in *; try lia; auto.
  inversion HF; subst. rewrite IH; auto.
Qed.

Lemma set_steps_spec one (t : ptree) ss :
  wf t -> t <> PNone -> steppable t -> length ss = number_of_params t ->
  exists t', set_step_sizes one t ss = Ok t' /\
    steps_of one t' = overlay (steps_of one t) ss /\
    vals_of t' = vals_of t /\ number_of_params t' = number_of_params t /\
    is_none t' = is_none t /\ wf t'.
Proof.
  revert ss. unfold vals_of, steps_of. induction t using ptree_ind'; simpl; intros ss W NN HS HL; try congruence.
  - destruct ss; simpl in *; try lia. exists PFixed; simpl; repeat split; auto.
  - destruct ss as [|x [|y p]]; simpl in *; try lia.
    eexists; repeat split; auto; congruence.
  - destruct W as (W1 & W2 & W3 & W4 & W5). unfold plist_set_steps.
    destruct (l_steps l) as [old|] eqn:ES.
    + destruct HS as [HS|HS]; [congruence|].
      specialize (W5 old eq_refl). pose proof (all_true_count _ HS) as HC.
      rewrite (update_steps_ok ss _ HS 0 old) by lia. simpl.
      eexists; split; [reflexivity|]. split; [|repeat split; auto; simpl].
      * unfold plist_all_steps. rewrite ES. simpl. symmetry. apply overlay_all_thawed; auto; lia.
      * intros s E; injection E; intros; subst; lia.
    + destruct (new_steps_ok one ss (l_liquid l) 0) as (n & E & H1 & H2); [simpl; lia|].
      rewrite E. simpl. eexists; split; [reflexivity|]. split; [|repeat split; auto; simpl].
      * unfold plist_all_steps. rewrite ES. simpl.
        rewrite (new_steps_overlay one ss _ 0 n E) by lia. simpl. f_equal. f_equal.
        clear -W1. revert W1. generalize (l_vals l). generalize (l_liquid l).
        induction l0 as [|b m IH]; intros [|v vs] H; simpl in *; try lia; auto. f_equal; auto.
      * intros s Es; injection Es; intros; subst; lia.
  - apply proj1 in W as HLs. apply proj2 in W. rewrite fold_and_Forall in W, HS.
    assert (exists subs', slice_walk number_of_params (set_step_sizes one) ss subs liq 0 = Ok subs' /\
              length subs' = length subs /\ Forall wf subs' /\
              flat_walk (flat s_stepsize (plist_all_steps one)) subs' liq
                = overlay (flat_walk (flat s_stepsize (plist_all_steps one)) subs liq) (skipn 0 ss) /\
              flat_walk (flat s_val l_vals) subs' liq = flat_walk (flat s_val l_vals) subs liq /\
              active_map number_of_params subs' liq = active_map number_of_params subs liq)
       as (subs' & E & HL' & HW' & HF & HV & HN).
    { assert (0 + list_sum (active_map number_of_params subs liq) = length ss) as HP by (simpl; lia).
      clear HL NN. revert HP. generalize 0. revert liq HLs W HS.
      induction H as [|s xs Hs Hss IH]; intros liq HLs W HS off HP; destruct liq as [|b ls]; simpl in *; try lia.
      - exists []; simpl; repeat split; auto.
      - inversion W as [|? ? W1 W2]; subst. inversion HS as [|? ? S1 S2]; subst.
        destruct b; [destruct (is_none s) eqn:EN|]; simpl in *.
        + destruct (IH ls ltac:(lia) W2 S2 off ltac:(lia)) as (ss' & -> & H1 & H2 & H3 & H4 & H5). simpl.
          exists (s :: ss'); simpl; rewrite EN; simpl; repeat split; auto; try lia; try congruence.
          rewrite H3, (flat_none s_stepsize (plist_all_steps one) s EN); auto.
        + assert (NNs : s <> PNone) by (destruct s; simpl in *; congruence).
          assert (HLs' : length (slice off (off + number_of_params s) ss) = number_of_params s).
          { rewrite slice_length; lia. }
          destruct (Hs _ W1 NNs S1 HLs') as (s' & -> & G1 & G2 & G3 & G4 & G5). simpl.
          destruct (IH ls ltac:(lia) W2 S2 (off + number_of_params s) ltac:(lia))
            as (ss' & -> & H1 & H2 & H3 & H4 & H5). simpl.
          try rewrite EN in G4.
          exists (s' :: ss'); simpl; rewrite G4; simpl; repeat split; auto; try lia; try congruence.
          rewrite H3, G1. rewrite (firstn_slice_split ss off (number_of_params s)).
          rewrite !map_id_gate. rewrite overlay_app; auto.
          rewrite HLs'. rewrite (number_flat s W1).
          apply thawed_length_flags. apply flat_flags; auto using len_vals, len_steps.
        + destruct (IH ls ltac:(lia) W2 S2 off ltac:(lia)) as (ss' & -> & H1 & H2 & H3 & H4 & H5). simpl.
          exists (s :: ss'); simpl; repeat split; auto; try lia; try congruence.
          rewrite H3. clear. induction (flat s_stepsize (plist_all_steps one) s) as [|e r]; simpl; auto.
          rewrite <- IHr; auto. }
    rewrite E; simpl. eexists; split; [reflexivity|]. simpl.
    rewrite fold_and_Forall. repeat split; auto; try congruence; try lia.
Qed.

(** ** copy *)
Lemma copy_spec one (t : ptree) : no_none t ->
  exists t', copy one t = Ok t' /\ vals_of t' = vals_of t /\
    get_param_names t' = get_param_names t /\ number_of_params t' = number_of_params t /\
    is_none t' = is_none t /\ (wf t -> wf t') /\
    (forall path, flag_at t' path = flag_at t path).
Proof.
  unfold vals_of. induction t using ptree_ind'; simpl; intros HN; try tauto.
  - exists PFixed; repeat split; auto.
  - eexists; repeat split; auto; intros [|? [|]]; auto.
  - eexists; split; [reflexivity|]; simpl; repeat split; auto; simpl.
    all: try (destruct H as (?&?&?&?&?)); try apply map_length; try congruence; auto. intros [|? [|]]; auto.
  - rewrite fold_and_Forall in HN.
    assert (exists subs', copy_walk (copy one) subs = Ok subs' /\ length subs' = length subs /\
       (forall liq, flat_walk (flat s_val l_vals) subs' liq = flat_walk (flat s_val l_vals) subs liq) /\
       (forall i liq, names_walk nm get_param_names subs' liq i = names_walk nm get_param_names subs liq i) /\
       (forall liq, active_map number_of_params subs' liq = active_map number_of_params subs liq) /\
       (Forall wf subs -> Forall wf subs') /\
       (forall i path, match nth_error subs' i with Some s => flag_at s path | None => None end
                  = match nth_error subs i with Some s => flag_at s path | None => None end))
      as (subs' & -> & G0 & G1 & G2 & G3 & G4 & G5).
    { clear liq. induction H as [|s ss Hs Hss IH]; simpl.
      - exists []; repeat split; auto.
      - inversion HN as [|? ? N1 N2]; subst.
        destruct (Hs N1) as (s' & -> & A1 & A2 & A3 & A4 & A5 & A6).
        destruct (IH N2) as (ss' & -> & B0 & B1 & B2 & B3 & B4 & B5). simpl.
        exists (s' :: ss'); split; [reflexivity|]. repeat split.
        + simpl; auto.
        + intros [|b ls]; simpl; auto. rewrite A1, B1; auto.
        + intros i [|b ls]; simpl; auto. rewrite A4, A2, A3, B2; auto.
        + intros [|b ls]; simpl; auto. rewrite A4, A3, B3; auto.
        + intros W; inversion W; subst; auto.
        + intros [|i] path; simpl; auto. }
    simpl. eexists; split; [reflexivity|]. simpl. rewrite !fold_and_Forall.
    split; [apply G1|]. split; [apply G2|]. split; [rewrite G3; auto|]. split; [auto|].
    split; [intros (? & ?); split; auto; congruence|].
    intros [|i [|j r]]; auto. apply (G5 i (j :: r)).
Qed.

(** ** getLiquidIndex *)
Lemma keep_nth {A} liq (vals : list A) i :
  nth_error liq i = Some true -> length liq = length vals ->
  nth_error (keep liq vals) (count_true (firstn i liq)) = nth_error vals i.
Proof.
  revert vals i. induction liq as [|b r]; destruct vals, i; simpl; intros; try discriminate; auto.
  - injection H; intros; subst; simpl; auto.
  - rewrite count_true_cons. destruct b; simpl; apply IHr; auto.
Qed.

Lemma keep_upd {A} liq (vals : list A) i x :
  nth_error liq i = Some true -> length liq = length vals ->
  keep liq (upd i x vals) = upd (count_true (firstn i liq)) x (keep liq vals).
Proof.
  revert vals i. induction liq as [|b r]; destruct vals, i; simpl; intros; try discriminate; auto.
  - injection H; intros; subst; simpl; auto.
  - rewrite count_true_cons. destruct b; simpl; rewrite IHr; auto.
Qed.

(** ** Priors *)
Lemma keep_all_nth {A} liq (l : list A) d i : Forall (fun b => b = true) liq -> length liq = length l ->
  nth i (keep liq l) d = nth i l d.
Proof. intros; rewrite keep_all; auto. Qed.

Lemma priors_spec d (t : ptree) :
  wf t -> lists_thawed t -> priors_ok t ->
  map (fun e => (nth (fst (fst e)) (get_params t) d, snd (fst e), snd e)) (get_gaussian_priors t)
  = prior_vals d t /\
  Forall (fun e => fst (fst e) < number_of_params t) (get_gaussian_priors t).
Proof.
  induction t using ptree_ind'; simpl; auto.
  - intros W L P. rewrite map_map. simpl. destruct W as (W1 & _). split.
    + apply map_ext. intros. rewrite keep_all; auto.
    + rewrite all_true_count by auto. rewrite W1.
      clear -P. induction P; simpl; constructor; auto.
  - rewrite !fold_and_Forall. intros (HLs & W) L P.
    assert (G : forall pre, length pre = 0 + length pre ->
      map (fun e => (nth (fst (fst e)) (pre ++ concat (active_map get_params subs liq)) d, snd (fst e), snd e))
        (priors_walk get_gaussian_priors subs liq (length pre)) = concat (active_map (prior_vals d) subs liq) /\
      Forall (fun e => fst (fst e) < length pre + list_sum (active_map number_of_params subs liq))
        (priors_walk get_gaussian_priors subs liq (length pre))).
    { revert liq HLs W L P. induction H as [|s ss Hs Hss IH]; intros liq HLs W L P pre _;
        destruct liq as [|b ls]; simpl in *; try lia; auto.
      inversion W; inversion L; inversion P; subst.
      destruct (b && negb (is_none s)) eqn:B; simpl.
      - destruct Hs as (Hs1 & Hs2); auto.
        pose proof (number_get s ltac:(auto)) as HN.
        destruct (IH ls ltac:(lia) ltac:(auto) ltac:(auto) ltac:(auto) (pre ++ get_params s)) as (I1 & I2);
          [simpl; lia|].
        rewrite app_length, <- HN in I1, I2. rewrite <- app_assoc in I1.
        split.
        + rewrite map_app, I1. f_equal. rewrite map_map, <- Hs1. simpl.
          clear - Hs2 HN. induction Hs2; simpl; auto. f_equal; auto.
          f_equal. f_equal. rewrite app_nth2 by lia.
          replace (length pre + fst (fst x) - length pre) with (fst (fst x)) by lia.
          rewrite app_nth1 by lia. auto.
        + apply Forall_app; split.
          * clear - Hs2. induction Hs2; simpl; constructor; auto. simpl. lia.
          * eapply Forall_impl; [|exact I2]. simpl; intros; lia.
      - apply IH; auto. }
    destruct (G [] eq_refl) as (G1 & G2). simpl in *. auto.
Qed.

End Proofs.

Lemma overlay_overlay {V} (xs : list (bool * V)) : forall p q,
  length p = length (thawed xs) -> length q = length (thawed xs) ->
  overlay (overlay xs p) q = overlay xs q.
Proof.
  induction xs as [|[f x] r IH]; simpl; intros p q HP HQ; auto.
  unfold thawed in *; destruct f; simpl in *.
  - destruct p, q; simpl in *; try lia. rewrite IH; auto.
  - rewrite IH; auto.
Qed.

Section Short.
Context {V : Type}.
Notation ptree := (ptree V).

Lemma plist_set_short liq : forall (vals : list V) i p vs,
  plist_set_loop liq vals i p = Ok vs -> count_true liq = 0 \/ i + count_true liq <= length p.
Proof.
  induction liq as [|b r IH]; simpl; intros vals i p vs E; auto.
  rewrite count_true_cons. destruct b; simpl.
  - unfold py_get in E. destruct (nth_error p i) eqn:EN; simpl in E; [|destruct vals; discriminate].
    assert (i < length p) by (apply nth_error_Some; congruence).
    destruct vals; try discriminate. apply bind_ok in E. destruct E as (a & E & _).
    apply IH in E. right. lia.
  - destruct vals.
    + apply IH in E; auto.
    + apply bind_ok in E. destruct E as (a & E & _). apply IH in E; auto.
Qed.

Lemma set_params_short (t : ptree) : forall p t', set_params t p = Ok t' ->
  number_of_params t <= length p.
Proof.
  induction t using ptree_ind'; simpl; intros p t' E; try lia.
  - destruct p as [|x [|]]; try discriminate; simpl; auto.
  - apply bind_ok in E. destruct E as (vs & E & _). apply plist_set_short in E. lia.
  - apply bind_ok in E. destruct E as (vs & E & _).
    assert (G : forall off vs, slice_walk number_of_params set_params p subs liq off = Ok vs ->
            list_sum (active_map number_of_params subs liq) = 0 \/
            off + list_sum (active_map number_of_params subs liq) <= length p);
      [|apply G in E; lia].
    clear E vs. revert liq. induction H as [|s ss Hs Hss IH];
      intros [|b ls] off vs E; try (left; reflexivity). simpl in *.
    destruct (b && negb (is_none s)); simpl.
    + apply bind_ok in E. destruct E as (s' & E1 & E). apply bind_ok in E. destruct E as (ss' & E2 & _).
      apply IH in E2. apply Hs in E1.
      assert (number_of_params s = 0 \/ off + number_of_params s <= length p).
      { unfold slice in E1. rewrite firstn_length, skipn_length in E1. lia. }
      lia.
    + apply bind_ok in E. destruct E as (ss' & E2 & _). apply IH in E2. auto.
Qed.
End Short.
