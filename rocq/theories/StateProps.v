(** C106: the report of what is frozen.  C107: comparing scalars. *)
From Coq Require Import String List Bool ZArith QArith Lia.
From Verif Require Import Base Ext ParamsModel ParamsSpec ParamsProofs StateModel.
Import ListNotations.
Open Scope nat_scope.

(** ** Specification *)
Section Spec.
Context {V : Type}.
Notation ptree := (ptree V).
Notation member subs i := (nth i subs PNone).

(** The places of a tree from top to bottom, a group before its contents: the
    indices that lead there from the top.  A scalar holds one place. *)
Fixpoint places (t : ptree) : list (list nat) :=
  match t with
  | PNone | PFixed => []
  | PScalar _ => [[0]]
  | PList l => map (fun i => [i]) (seq 0 (length (l_liquid l)))
  | PMulti _ subs _ =>
      (fix go (ss : list ptree) (i : nat) : list (list nat) :=
         match ss with [] => [] | s :: r => [i] :: map (cons i) (places s) ++ go r (S i) end) subs 0
  end.
(** The declared name of entry i, or param%i *)
Definition shown (nm : names) (i : nat) : comp := match named_param_name nm i with Some s => CName s | None => CParam i end.
(** Its dotted name *)
Fixpoint name_at (t : ptree) (p : list nat) : list comp :=
  match t, p with
  | PScalar s, [_] => [CName (s_cls s)]
  | PList l, [i] => [shown (l_names l) i]
  | PMulti nm subs _, i :: q => shown nm i :: name_at (member subs i) q
  | _, _ => []
  end.
(** Is it thawed itself?  What a scalar holds always is. *)
Definition thawed_at (t : ptree) (p : list nat) : bool := match flag_at t p with Some b => b | None => true end.
(** Is everything around it thawed? *)
Definition open_at (t : ptree) (p : list nat) : Prop :=
  forall k, 0 < k < length p -> thawed_at t (firstn k p) = true.
(** Is it a member of a group (rather than a parameter)? *)
Fixpoint is_member (t : ptree) (p : list nat) : bool :=
  match t, p with
  | PMulti _ subs _, i :: q => match q with [] => true | _ => is_member (member subs i) q end
  | _, _ => false
  end.
End Spec.

(** ** Proofs *)
Section Proofs.
Context {V : Type}.
Notation ptree := (ptree V).

Lemma combine_app_len {A B} (a b : list A) (c d : list B) :
  length a = length c -> combine (a ++ b) (c ++ d) = combine a c ++ combine b d.
Proof. revert c. induction a; intros [|x c] H; simpl in *; try discriminate; auto. rewrite IHa by congruence. auto. Qed.

Lemma Forall2_len {A B} (P : A -> B -> Prop) a b : Forall2 P a b -> length a = length b.
Proof. induction 1; simpl; congruence. Qed.

Definition row_ok (t : ptree) (p : list nat) (r : row) : Prop :=
  fst (fst r) = name_at t p /\ snd (fst r) = thawed_at t p /\
  (snd r = true <-> open_at t p /\ (is_member t p = false -> thawed_at t p = true)).

Lemma places_nonempty (t : ptree) p : In p (places t) -> p <> [].
Proof.
  destruct t as [| |s|l|nm subs liq]; simpl; try tauto.
  - intros [<-|[]]; discriminate.
  - rewrite in_map_iff. intros (i & <- & _); discriminate.
  - generalize 0. induction subs as [|s ss IH]; simpl; [tauto|]. intros n [<-|H]; [discriminate|].
    apply in_app_or in H as [H|H]; [|eauto]. apply in_map_iff in H as (q & <- & _). discriminate.
Qed.

Lemma list_state_rows nm (l : plist V) liq j :
  l_names l = nm -> (forall k, nth_error (l_liquid l) (j + k) = nth_error liq k) ->
  Forall2 (row_ok (PList l)) (map (fun i => [i]) (seq j (length liq))) (list_state nm liq j).
Proof.
  intros Hn. revert j. induction liq as [|b r IH]; intros j H; simpl; constructor.
  - unfold row_ok, thawed_at, open_at; simpl. pose proof (H 0) as H0. rewrite Nat.add_0_r in H0. simpl in H0.
    rewrite Hn. unfold flag_at. rewrite H0. repeat split; auto; simpl; [lia|]. intros [_ E]; auto.
  - apply IH. intros k. specialize (H (S k)). simpl in H. rewrite <- H. f_equal. lia.
Qed.

Lemma flag_below nm (subs : list ptree) liq i q :
  q <> [] -> thawed_at (PMulti nm subs liq) (i :: q) = thawed_at (nth i subs PNone) q.
Proof.
  intros Hq. unfold thawed_at. destruct q as [|j q]; [congruence|]. simpl.
  destruct (nth_error subs i) as [s|] eqn:E.
  - rewrite (nth_error_nth _ _ _ E). reflexivity.
  - rewrite nth_overflow by (apply nth_error_None; auto). reflexivity.
Qed.

Lemma state_rows (t : ptree) rows : wf t -> state_of t = Ok rows -> Forall2 (row_ok t) (places t) rows.
Proof.
  revert rows. induction t as [| |s|l|nm subs liq HF] using ptree_ind'; intros rows W; simpl.
  - discriminate.
  - intros [= <-]. constructor.
  - intros [= <-]. repeat constructor; simpl; auto; intros k Hk; simpl in Hk; lia.
  - intros [= <-]. apply list_state_rows; auto.
  - simpl in W. destruct W as [WL W]. apply fold_and_Forall in W.
    assert (G : forall ss ls i rows, Forall (fun t => forall rows, wf t -> state_of t = Ok rows -> Forall2 (row_ok t) (places t) rows) ss ->
        Forall wf ss -> length ss = length ls ->
        (forall k, nth_error subs (i + k) = nth_error ss k) -> (forall k, nth_error liq (i + k) = nth_error ls k) ->
        state_walk nm state_of ss ls i = Ok rows ->
        Forall2 (row_ok (PMulti nm subs liq))
          ((fix go (ss : list ptree) (i : nat) : list (list nat) :=
             match ss with [] => [] | s :: r => [i] :: map (cons i) (places s) ++ go r (S i) end) ss i) rows).
    { clear HF WL W rows. induction ss as [|s ss IH]; intros [|b ls] i rows HF HW HL Hs Hl; simpl in *; try discriminate.
      - intros [= <-]. constructor.
      - destruct (state_of s) as [sn|] eqn:E; simpl; [|discriminate].
        destruct (state_walk nm state_of ss ls (S i)) as [rest|] eqn:E2; simpl; [|discriminate].
        intros [= <-]. inversion HF; inversion HW; subst.
        pose proof (Hs 0) as Hs0. pose proof (Hl 0) as Hl0. rewrite Nat.add_0_r in Hs0, Hl0. simpl in Hs0, Hl0.
        assert (Hn : nth i subs PNone = s) by (apply nth_error_nth; auto).
        assert (Ht : thawed_at (PMulti nm subs liq) [i] = b) by (unfold thawed_at; simpl; rewrite Hl0; auto).
        constructor; [|apply Forall2_app].
        + unfold row_ok; simpl. rewrite Ht. split; [|split; [auto|split; [intros _; split|auto]]].
          * rewrite Hn. destruct s; reflexivity.
          * intros k Hk; simpl in Hk; lia.
          * intros; discriminate.
        + assert (F : Forall2 (row_ok s) (places s) sn) by auto.
          pose proof (places_nonempty s) as NE.
          clear - F Hn Ht NE. induction F as [|p r ps rs Hr F IH]; simpl; constructor.
          * destruct Hr as (A & B & C). assert (Hp : p <> []) by (apply NE; left; auto).
            unfold row_ok; simpl. rewrite flag_below by auto. rewrite Hn. repeat split; try congruence.
            -- rewrite A. reflexivity.
            -- intros k Hk. apply andb_prop in H as [Hb H2]. apply C in H2 as [O _].
               destruct k as [|[|k]]; [lia| |]; simpl.
               ++ rewrite Ht. auto.
               ++ change (i :: match p with [] => [] | a :: l => a :: firstn k l end) with (i :: firstn (S k) p).
                  rewrite flag_below by (destruct p; simpl; congruence). rewrite Hn. apply O. simpl in Hk. lia.
            -- intros M. apply andb_prop in H as [Hb H2]. apply C in H2 as [_ O]. apply O.
               destruct p; [congruence|]; auto.
            -- intros [O M]. apply andb_true_intro. split.
               ++ rewrite <- Ht. apply (O 1). destruct p; [congruence|]. simpl. lia.
               ++ apply C. split.
                  ** intros k Hk. specialize (O (S k)). simpl in O. rewrite flag_below in O.
                     --- rewrite Hn in O. apply O. lia.
                     --- destruct p; [congruence|]. destruct k; simpl; [lia|congruence].
                  ** intros M'. apply M. destruct p; [congruence|]; auto.
          * apply IH. intros; apply NE; right; auto.
        + apply (IH ls); auto; intros k; [specialize (Hs (S k)); simpl in Hs; rewrite <- Hs|specialize (Hl (S k)); simpl in Hl; rewrite <- Hl]; f_equal; lia. }
    intros E. apply (G subs liq 0); auto.
Qed.

Lemma state_none (t : ptree) : wf t ->
  match state_of t with Ok _ => no_none t | Err e => e = AttributeError /\ ~ no_none t end.
Proof.
  induction t as [| |s|l|nm subs liq HF] using ptree_ind'; intros W; simpl; auto.
  simpl in W. destruct W as [WL W]. rewrite fold_and_Forall in *. revert liq WL. generalize 0.
  induction HF as [|s ss Hs HF IH]; intros i [|b ls] WL; simpl in *; try discriminate; auto.
  inversion W as [|? ? W1 W2]; subst. specialize (Hs W1).
  specialize (IH W2 (S i) ls ltac:(congruence)).
  destruct (state_of s) as [sn|x]; simpl.
  - destruct (state_walk nm state_of ss ls (S i)) as [r|x]; simpl; [constructor; auto|].
    destruct IH as [-> N]. split; auto. intros F; inversion F; auto.
  - destruct Hs as [-> N]. split; auto. intros F; inversion F; auto.
Qed.

(** The parameters among the rows *)
Definition leaves (t : ptree) (rows : list row) : list (list nat * row) :=
  filter (fun e => negb (is_member t (fst e))) (combine (places t) rows).
Definition gist (e : list nat * row) : bool * list comp := (snd (snd e), fst (fst (snd e))).

Lemma list_leaves nm (l : plist V) liq j :
  map gist (filter (fun e => negb (is_member (PList l) (fst e)))
    (combine (map (fun i => [i]) (seq j (length liq))) (list_state nm liq j)))
  = combine liq (map (fun j => [match named_param_name nm j with Some s => CName s | None => CParam j end]) (seq j (length liq))).
Proof. revert j. induction liq as [|b r IH]; intros j; simpl; auto. rewrite IH. reflexivity. Qed.

Lemma state_leaves (t : ptree) rows : wf t -> state_of t = Ok rows -> map gist (leaves t rows) = names_of t.
Proof.
  revert rows. induction t as [| |s|l|nm subs liq HF] using ptree_ind'; intros rows W; unfold leaves; simpl.
  - discriminate.
  - intros [= <-]. reflexivity.
  - intros [= <-]. reflexivity.
  - intros [= <-]. apply (list_leaves (l_names l) l).
  - pose proof W as W0. simpl in W. destruct W as [WL W]. apply fold_and_Forall in W.
    set (T := PMulti nm subs liq) in *.
    assert (G : forall ss ls i rows, Forall (fun t => forall rows, wf t -> state_of t = Ok rows -> map gist (leaves t rows) = names_of t) ss ->
        Forall wf ss -> length ss = length ls ->
        (forall k, nth_error subs (i + k) = nth_error ss k) ->
        state_walk nm state_of ss ls i = Ok rows ->
        map gist (filter (fun e => negb (is_member T (fst e))) (combine
          ((fix go (ss : list ptree) (i : nat) : list (list nat) :=
             match ss with [] => [] | s :: r => [i] :: map (cons i) (places s) ++ go r (S i) end) ss i) rows))
        = name_walk nm names_of ss ls i).
    { clear HF WL W rows. induction ss as [|s ss IH]; intros [|b ls] i rows HF HW HL Hs; simpl in *; try discriminate.
      - intros [= <-]. reflexivity.
      - destruct (state_of s) as [sn|] eqn:E; simpl; [|discriminate].
        destruct (state_walk nm state_of ss ls (S i)) as [rest|] eqn:E2; simpl; [|discriminate].
        intros [= <-]. inversion HF as [|? ? HF1 HF2]; inversion HW as [|? ? HW1 HW2]; subst.
        pose proof (Hs 0) as Hs0. rewrite Nat.add_0_r in Hs0. simpl in Hs0.
        assert (Hn : nth i subs PNone = s) by (apply nth_error_nth; auto).
        simpl. pose proof (state_rows s sn HW1 E) as F2.
        rewrite combine_app_len by (rewrite !map_length; eapply Forall2_len; eauto).
        rewrite filter_app, map_app. f_equal.
        + rewrite <- (HF1 sn HW1 E). unfold leaves.
          pose proof (places_nonempty s) as NE. clear - F2 NE Hn.
          induction F2 as [|p r ps rs Hr F IH]; [reflexivity|].
          assert (Hp : p <> []) by (apply NE; left; auto).
          assert (M : is_member T (i :: p) = is_member s p).
          { simpl. rewrite Hn. destruct p; congruence. }
          cbn [map combine filter fst]. rewrite M.
          specialize (IH ltac:(intros; apply NE; right; auto)).
          destruct (is_member s p); cbn [negb map]; rewrite IH; reflexivity.
        + apply IH; auto. intros k. specialize (Hs (S k)). simpl in Hs. rewrite <- Hs. f_equal. lia. }
    intros E. apply G; auto.
Qed.
End Proofs.

(** ** C106: the report of getParamStateRecursive *)
Section C106.
Context {V : Type}.
Notation ptree := (ptree V).

(** One row per place, in order; the first flag says whether the place itself
    is thawed; the second, of a member of a group, whether all groups around it
    are; of a parameter, whether it and all groups around it are. *)
Theorem C106_rows (t : ptree) rows : wf t -> get_param_state t = Ok rows ->
  Forall2 (fun p r =>
    fst (fst r) = name_at t p /\ snd (fst r) = thawed_at t p /\
    (snd r = true <-> open_at t p /\ (is_member t p = false -> thawed_at t p = true))) (places t) rows.
Proof. intros W E. apply (state_rows t rows W). destruct t; try discriminate; exact E. Qed.

(** The parameters whose last flag is set are those getParamNames lists. *)
Theorem C106_free (t : ptree) rows : wf t -> lists_named t -> get_param_state t = Ok rows ->
  map (fun e => fst (fst (snd e)))
    (filter (fun e => negb (is_member t (fst e)) && snd (snd e)) (combine (places t) rows)) = get_param_names t.
Proof.
  intros W L E. assert (E' : state_of t = Ok rows) by (destruct t; try discriminate; exact E).
  rewrite (names_named t L), <- (state_leaves t rows W E'). unfold leaves, thawed.
  induction (combine (places t) rows) as [|[p r] l IH]; simpl; auto.
  destruct (is_member t p); simpl; auto. destruct (snd r); simpl; rewrite IH; auto.
Qed.

(** It is made unless a member, at any depth, is None, frozen or not. *)
Theorem C106_none_refuted (t : ptree) : wf t -> (forall s, t <> PScalar s) -> t <> PFixed ->
  (no_none t -> exists rows, get_param_state t = Ok rows) /\
  (~ no_none t -> get_param_state t = Err AttributeError).
Proof.
  intros W HS HF. pose proof (state_none t W) as S.
  destruct t as [| |s|l|nm subs liq]; [|congruence|edestruct HS; reflexivity| |]; simpl in *; try tauto; [split; [eauto|tauto]|].
  destruct (state_walk nm state_of subs liq 0) as [r|e]; [split; [eauto|tauto]|]. destruct S as [-> N]. split; tauto.
Qed.
End C106.

(** ** Cases *)
Definition two (l : list bool) : ptree Z := PList (mkPlist (mkNames [("x"%string, 0); ("y"%string, 1)] [(0, "x"%string); (1, "y"%string)]) [1%Z; 2%Z] l
  [None; None] [None; None] [None; None] None []).
Definition bright : ptree Z := PScalar (mkScalar "Flux"%string 7%Z None None None 1%Z).
Definition srcn : names := mkNames [("pos"%string, 0); ("brightness"%string, 1)] [(0, "pos"%string); (1, "brightness"%string)].
(** A source with y and the brightness frozen *)
Definition src : ptree Z := PMulti srcn [two [true; false]; bright] [true; false].
Example C106_ex : get_param_state src = Ok
  [([CName "pos"], true, true); ([CName "pos"; CName "x"], true, true); ([CName "pos"; CName "y"], false, false);
   ([CName "brightness"], false, true); ([CName "brightness"; CName "Flux"], true, false)]%string /\ wf src /\ lists_named src.
Proof.
  split; [reflexivity|]. split.
  - simpl. unfold wf_plist; simpl. intuition discriminate.
  - simpl. split; auto. intros i Hi. destruct i as [|[|]]; simpl; [discriminate..|lia].
Qed.

(** The documentation calls the last flag 'Thawed(parent)': of a frozen entry of
    a list it is False though everything around it is thawed. *)
Theorem C106_parent_refuted : exists rows r, get_param_state src = Ok rows /\
  nth_error (places src) 2 = Some [0; 1] /\ nth_error rows 2 = Some r /\ open_at src [0; 1] /\ snd r = false.
Proof.
  do 2 eexists. split; [reflexivity|]. split; [reflexivity|]. split; [reflexivity|]. split; [|reflexivity].
  intros k Hk. simpl in Hk. assert (k = 1) as -> by lia. reflexivity.
Qed.

(** An entry without a declared name is param%i with its index here, and with
    its index among the thawed ones in getParamNames. *)
Definition anon : ptree Z := PList (mkPlist (mkNames [] []) [1%Z; 2%Z] [false; true] [None; None] [None; None] [None; None] None []).
Theorem C106_unnamed_refuted : wf anon /\
  get_param_state anon = Ok [([CParam 0], false, false); ([CParam 1], true, true)] /\ get_param_names anon = [[CParam 0]].
Proof. split; [|split; reflexivity]. simpl. unfold wf_plist; simpl. intuition discriminate. Qed.

(** ** C107: comparing scalars *)
(** The order of the extended numbers *)
Inductive below : ext -> ext -> Prop :=
| b_fin x y : (x < y)%Q -> below (Fin x) (Fin y)
| b_ninf x : below NInf (Fin x)
| b_pinf x : below (Fin x) PInf
| b_inf : below NInf PInf.

Lemma eltb_below a b : eltb a b = true <-> below a b.
Proof.
  destruct a as [x| | |], b as [y| | |]; simpl; try rewrite qltb_lt;
    (split; [intros H; try discriminate; constructor; auto|intros H; inversion H; subst; auto]).
Qed.
Lemma eeqb_eeq a b : a <> NaN -> (eeqb a b = true <-> eeq a b).
Proof.
  intros N. destruct a as [x| | |], b as [y| | |]; simpl; try congruence; try rewrite Qeq_bool_iff;
    split; auto; try discriminate; contradiction.
Qed.
Lemma three a b : a <> NaN -> b <> NaN -> below a b \/ eeq a b \/ below b a.
Proof.
  intros Na Nb. destruct a as [x| | |], b as [y| | |]; simpl; try congruence; auto 6 using below.
  destruct (Q_dec x y) as [[H|H]|H]; auto using below.
Qed.
Lemma below_not a b : below a b -> ~ eeq a b /\ ~ below b a.
Proof.
  intros H. inversion H; subst; simpl; split; auto; intros K; try (inversion K; fail).
  - rewrite K in H0. apply (Qlt_irrefl _ H0).
  - inversion K; subst. apply (Qlt_irrefl x). eapply Qlt_trans; eauto.
Qed.

(** Without NaN the six comparisons are those of the values. *)
Theorem C107_values a b : a <> NaN -> b <> NaN -> exists l g le ge e n,
  lt_ a (Scalar b) = Ok l /\ gt_ a (Scalar b) = Ok g /\ le_ a (Scalar b) = Ok le /\
  ge_ a (Scalar b) = Ok ge /\ eq_ a (Scalar b) = Ok e /\ ne_ a (Scalar b) = Ok n /\
  (l = true <-> below a b) /\ (g = true <-> below b a) /\
  (le = true <-> below a b \/ eeq a b) /\ (ge = true <-> below b a \/ eeq a b) /\
  (e = true <-> eeq a b) /\ (n = true <-> ~ eeq a b).
Proof.
  intros Na Nb. unfold lt_, gt_, le_, ge_, ne_, eq_; simpl.
  pose proof (eltb_below a b) as L. pose proof (eeqb_eeq a b Na) as E. pose proof (three a b Na Nb) as T.
  pose proof (below_not a b) as X. pose proof (below_not b a) as Y.
  assert (Sy : eeq b a -> eeq a b) by (destruct a, b; simpl; auto; intros; symmetry; auto).
  assert (Sy2 : eeq a b -> eeq b a) by (destruct a, b; simpl; auto; intros; symmetry; auto).
  destruct (eltb a b), (eeqb a b); simpl; do 6 eexists; repeat (split; [reflexivity|]); simpl;
    intuition (try discriminate).
Qed.

(** With a NaN all are false but !=, > and >=, both ways round. *)
Theorem C107_nan_refuted b :
  lt_ NaN (Scalar b) = Ok false /\ lt_ b (Scalar NaN) = Ok false /\
  eq_ NaN (Scalar b) = Ok false /\ eq_ b (Scalar NaN) = Ok false /\
  gt_ NaN (Scalar b) = Ok true /\ gt_ b (Scalar NaN) = Ok true /\
  ge_ NaN (Scalar b) = Ok true /\ ge_ b (Scalar NaN) = Ok true /\
  le_ NaN (Scalar b) = Ok false /\ le_ b (Scalar NaN) = Ok false.
Proof. destruct b; repeat split. Qed.

(** Compared to anything without getValue all six raise AttributeError, == and
    != too. *)
Theorem C107_thing_refuted a : lt_ a Thing = Err AttributeError /\ gt_ a Thing = Err AttributeError /\
  le_ a Thing = Err AttributeError /\ ge_ a Thing = Err AttributeError /\
  eq_ a Thing = Err AttributeError /\ ne_ a Thing = Err AttributeError.
Proof. repeat split. Qed.

Example C107_ex : gt_ PInf (Scalar (Fin 3)) = Ok true /\ le_ (Fin (1 # 2)) (Scalar (Fin (2 # 4))) = Ok true /\
  ge_ (Fin 1) (Scalar (Fin 2)) = Ok false.
Proof. repeat split. Qed.

Print Assumptions C106_rows.
Print Assumptions C106_free.
Print Assumptions C106_none_refuted.
Print Assumptions C106_parent_refuted.
Print Assumptions C106_unnamed_refuted.
Print Assumptions C107_values.
Print Assumptions C107_nan_refuted.
Print Assumptions C107_thing_refuted.
