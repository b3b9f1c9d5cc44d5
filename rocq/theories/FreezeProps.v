(** C123: freezing parameters is fitting the others with these held. *)
From Coq Require Import String List ZArith QArith Qabs Bool Lia Lqa Permutation.
From Verif Require Import Base Ext ParamsModel ParamsSpec ParamsProofs ParamsProps PatchModel PatchSpec PriorModel PriorProps LsqModel LsqSpec LsqProps.
From Verif Require Import EngineModel OptimModel MaskedProps OrderProps.
Import ListNotations.

(** ** What is claimed *)
Definition no_more (b' b : bool) : Prop := b' = true -> b = true.
Definition with_liquid (l : plist Q) (liq : list bool) : plist Q :=
  mkPlist (l_names l) (l_vals l) liq (l_lowers l) (l_uppers l) (l_maxstep l) (l_steps l) (l_priors l).
(** The flags m' stand for the elements that the flags m leave. *)
Fixpoint fill (m m' : list bool) : list bool :=
  match m, m' with
  | true :: m, b :: m' => b :: fill m m'
  | true :: m, [] => false :: fill m []
  | false :: m, m' => false :: fill m m'
  | [], _ => []
  end.
(** [freezes t u m]: u is t with some parameters or members frozen, at any depth;
    m says for each free parameter of t whether it is free in u. *)
Inductive freezes : tree -> tree -> list bool -> Prop :=
| fr_same t : freezes t t (repeat true (number_of_params t))
| fr_leaf l liq : Forall2 no_more liq (l_liquid l) -> freezes (PList l) (PList (with_liquid l liq)) (keep (l_liquid l) liq)
| fr_member nm pre a post lpre lpost : length pre = length lpre ->
    freezes (PMulti nm (pre ++ a :: post) (lpre ++ true :: lpost)) (PMulti nm (pre ++ a :: post) (lpre ++ false :: lpost))
            (repeat true (cnt pre lpre) ++ repeat false (number_of_params a) ++ repeat true (cnt post lpost))
| fr_child nm pre a a' post lpre l lpost m : length pre = length lpre -> freezes a a' m ->
    freezes (PMulti nm (pre ++ a :: post) (lpre ++ l :: lpost)) (PMulti nm (pre ++ a' :: post) (lpre ++ l :: lpost))
            (repeat true (cnt pre lpre) ++ (if l then m else []) ++ repeat true (cnt post lpost))
| fr_trans t u v m m' : freezes t u m -> freezes u v m' -> freezes t v (fill m m').
(** A step of the free parameters, as a step of all: zero for the frozen ones. *)
Fixpoint place (m : list bool) (d : list Q) : list Q :=
  match m, d with
  | true :: m, x :: d => x :: place m d
  | true :: m, [] => 0%Q :: place m []
  | false :: m, d => 0%Q :: place m d
  | [], _ => []
  end.

(** ** Flags *)
(** Equal at the frozen parameters. *)
Fixpoint agree (m : list bool) (p p' : list Q) : Prop :=
  match m, p, p' with
  | true :: m, _ :: p, _ :: p' => agree m p p'
  | false :: m, x :: p, y :: p' => (x == y)%Q /\ agree m p p'
  | [], [], [] => True
  | _, _, _ => False
  end.
Lemma agree_len : forall m p p', agree m p p' -> length p = length m /\ length p' = length m.
Proof. induction m as [|[] m IH]; intros [|x p] [|y p'] H; cbn in *; try tauto; [apply IH in H|destruct H as (_ & H); apply IH in H]; lia. Qed.
Lemma agree_app : forall m1 m2 p1 p1' p2 p2', length p1 = length m1 -> length p1' = length m1 ->
  agree (m1 ++ m2) (p1 ++ p2) (p1' ++ p2') -> agree m1 p1 p1' /\ agree m2 p2 p2'.
Proof.
  induction m1 as [|[] m1 IH]; intros m2 [|x p1] [|y p1'] p2 p2' L L' H; cbn in *; try discriminate; auto.
  destruct H as (E & H). apply IH in H; try lia. tauto.
Qed.
Lemma agree_true : forall n p p', agree (repeat true n) p p' -> length p = n /\ length p' = n.
Proof. intros n p p' H. apply agree_len in H. rewrite repeat_length in H. exact H. Qed.
Lemma keep_true {A} n (p : list A) : length p = n -> keep (repeat true n) p = p.
Proof. revert p. induction n; intros [|x p] H; cbn in *; try discriminate; auto. rewrite IHn; auto. Qed.
Lemma keep_false {A} n (p : list A) : keep (repeat false n) p = [].
Proof. revert p. induction n; intros [|x p]; cbn; auto. Qed.
Lemma count_all n : count_true (repeat true n) = n.
Proof. induction n; [reflexivity|]. cbn [repeat]. rewrite count_true_cons, IHn. lia. Qed.
Lemma count_none n : count_true (repeat false n) = 0%nat.
Proof. induction n; [reflexivity|]. cbn [repeat]. rewrite count_true_cons, IHn. reflexivity. Qed.
Lemma fill_len : forall m m', length (fill m m') = length m.
Proof. induction m as [|[] m IH]; intros [|b m']; cbn; auto. Qed.
Lemma fill_keep {A} : forall m m' (p : list A), length p = length m -> length m' = count_true m -> keep (fill m m') p = keep m' (keep m p).
Proof.
  induction m as [|[] m IH]; intros m' [|x p] L C; cbn in L; try discriminate; rewrite ?count_true_cons in C.
  - destruct m' as [|[] ?]; reflexivity.
  - destruct m' as [|b m']; [discriminate|]. cbn in *. destruct b; rewrite IH by lia; reflexivity.
  - cbn. apply IH; lia.
Qed.
Lemma fill_count : forall m m', length m' = count_true m -> count_true (fill m m') = count_true m'.
Proof.
  induction m as [|[] m IH]; intros m' C; rewrite ?count_true_cons in C.
  - destruct m'; [reflexivity|discriminate].
  - destruct m' as [|b m']; [discriminate|]. cbn [fill length] in *. rewrite !count_true_cons, IH by lia. reflexivity.
  - cbn [fill]. rewrite count_true_cons, IH by lia. reflexivity.
Qed.
Lemma fill_agree : forall m m' p p', length m' = count_true m -> agree (fill m m') p p' -> agree m p p' /\ agree m' (keep m p) (keep m p').
Proof.
  induction m as [|[] m IH]; intros m' p p' C H; rewrite ?count_true_cons in C.
  - destruct m'; [|discriminate]. destruct p, p'; cbn in *; tauto.
  - destruct m' as [|b m']; [discriminate|]. cbn in C. destruct b; destruct p as [|x p], p' as [|y p']; cbn in *; try contradiction.
    + apply IH; auto.
    + destruct H as (E & H). apply IH in H; auto. tauto.
  - destruct p as [|x p], p' as [|y p']; cbn in *; try contradiction. destruct H as (E & H). apply IH in H; auto. tauto.
Qed.

(** ** A list of parameters *)
Lemma keep_twice {A} : forall liq liq' (v : list A), Forall2 no_more liq' liq -> length v = length liq -> keep liq' v = keep (keep liq liq') (keep liq v).
Proof.
  induction liq as [|b liq IH]; intros liq' v F L; inversion F as [|b' ? liq1 ? N F']; subst; destruct v as [|x v]; cbn in L; try discriminate; auto.
  destruct b, b'; cbn; rewrite ?IH by (auto; lia); auto. specialize (N eq_refl). discriminate.
Qed.
Lemma keep_count : forall liq liq', Forall2 no_more liq' liq -> count_true (keep liq liq') = count_true liq' /\ length (keep liq liq') = count_true liq.
Proof.
  induction 1 as [|b' b liq' liq N F (IH & IH')]; [auto|]. rewrite !count_true_cons. destruct b, b'; cbn [keep length]; rewrite ?count_true_cons, ?IH, ?IH'; auto.
  specialize (N eq_refl). discriminate.
Qed.
Lemma nth_still : forall liq liq' i (p : list Q), Forall2 no_more liq' liq -> length p = count_true liq -> nth_error liq' i = Some true ->
  nth_error liq i = Some true /\ nth (count_true (firstn i liq')) (keep (keep liq liq') p) 0%Q = nth (count_true (firstn i liq)) p 0%Q.
Proof.
  induction liq as [|b liq IH]; intros liq' i p F L E; inversion F as [|b' ? liq1 ? N F']; subst; [destruct i; discriminate|].
  rewrite count_true_cons in L. destruct i as [|i]; cbn [nth_error firstn] in *.
  - injection E as ->. rewrite (N eq_refl) in *. destruct p as [|x p]; [discriminate|]. auto.
  - rewrite !count_true_cons. destruct b.
    + destruct p as [|x p]; [discriminate|]. cbn in L. destruct (IH liq1 i p F' ltac:(lia) E) as (A & B). split; auto. destruct b'; cbn; exact B.
    + destruct b'; [specialize (N eq_refl); discriminate|]. apply (IH liq1 i p F'); auto.
Qed.
Lemma nth_froz : forall liq liq' i (p p' : list Q), Forall2 no_more liq' liq -> agree (keep liq liq') p p' -> nth_error liq' i = Some false -> nth_error liq i = Some true ->
  (nth (count_true (firstn i liq)) p 0 == nth (count_true (firstn i liq)) p' 0)%Q.
Proof.
  induction liq as [|b liq IH]; intros liq' i p p' F AG E E'; inversion F as [|b' ? liq1 ? N F']; subst; [destruct i; discriminate|].
  destruct i as [|i]; cbn [nth_error firstn] in *.
  - injection E as ->. injection E' as ->. cbn in *. destruct p, p'; try contradiction. cbn. tauto.
  - rewrite !count_true_cons. destruct b; cbn in AG.
    + destruct b', p as [|x p], p' as [|y p']; cbn in AG; try contradiction; cbn; eapply IH; eauto; tauto.
    + cbn. eapply IH; eauto.
Qed.
Open Scope Q_scope.
Lemma leaf_chi liq liq' (p p' : list Q) : Forall2 no_more liq' liq -> agree (keep liq liq') p p' -> forall ps,
  chi_terms (lterms liq ps) p - chi_terms (lterms liq' ps) (keep (keep liq liq') p) ==
  chi_terms (lterms liq ps) p' - chi_terms (lterms liq' ps) (keep (keep liq liq') p').
Proof.
  intros F AG. destruct (agree_len _ _ _ AG) as (L & L'). destruct (keep_count _ _ F) as (_ & KL). rewrite KL in L, L'.
  assert (FL : length liq' = length liq) by (apply F2_len in F; auto).
  induction ps as [|q ps IH]; [reflexivity|]. unfold lterms in *. cbn [flat_map]. rewrite !chi_app.
  match goal with |- ?a + ?b - (?c + ?d) == ?a' + ?b' - (?c' + ?d') => assert (G : a - c == a' - c') end.
  { destruct (nth_error liq' (pr_idx q)) as [[]|] eqn:E.
    - destruct (nth_still liq liq' (pr_idx q) p F L E) as (E1 & N1). destruct (nth_still liq liq' (pr_idx q) p' F L' E) as (_ & N2).
      rewrite E1. unfold chi_terms. cbn. rewrite N1, N2. ring.
    - destruct (nth_error liq (pr_idx q)) as [[]|] eqn:E1; unfold chi_terms; cbn; try reflexivity.
      rewrite (nth_froz liq liq' (pr_idx q) p p' F AG E E1). reflexivity.
    - apply nth_error_None in E. destruct (nth_error liq (pr_idx q)) as [[]|] eqn:E1; try reflexivity.
      assert (pr_idx q < length liq)%nat by (apply nth_error_Some; congruence). lia. }
  lra.
Qed.
Open Scope nat_scope.
Lemma kept_free t u m : freezes t u m -> wf t -> priors_ok t ->
  wf u /\ priors_ok u /\ length m = number_of_params t /\ count_true m = number_of_params u /\
  get_params u = keep m (get_params t) /\
  (forall p p', agree m p p' -> (chi_terms (terms t) p - chi_terms (terms u) (keep m p) == chi_terms (terms t) p' - chi_terms (terms u) (keep m p'))%Q).
Proof.
  induction 1 as [t|l liq F|nm pre a post lpre lpost LP|nm pre a a' post lpre l lpost m LP R IH|t u v m m' R1 IH1 R2 IH2]; intros W O.
  - split; [auto|]. split; [auto|]. split; [apply repeat_length|]. split; [apply count_all|]. split; [rewrite keep_true; auto; symmetry; apply number_get; auto|].
    intros p p' H. apply agree_true in H as (H & H'). rewrite !keep_true by auto. ring.
  - destruct (keep_count _ _ F) as (K1 & K2). assert (FL := F2_len _ _ _ F). cbn in W. destruct W as (W1 & W). split; [split; [cbn; lia|exact W]|].
    split; [exact O|]. split; [exact K2|]. split; [exact K1|]. split; [apply keep_twice; auto; lia|].
    intros p p' H. apply leaf_chi; auto.
  - destruct (gok_of _ _ _ W O) as (L & G). rewrite !app_length in L. cbn [length] in L.
    destruct (of_gok nm (pre ++ a :: post) (lpre ++ false :: lpost)) as (W' & O'); [rewrite !app_length; cbn [length]; lia|auto|].
    split; [exact W'|]. split; [exact O'|]. rewrite gok_app, gok_cons in G. destruct G as (G1 & (Wa & Oa) & G4).
    assert (L4 : length lpost = length post) by lia. assert (Ea : gok [a]) by (apply gok_cons; split; auto; constructor).
    split; [|split; [|split]].
    + rewrite !app_length, !repeat_length. symmetry. change (cnt (pre ++ [a] ++ post) (lpre ++ [true] ++ lpost) = cnt pre lpre + (number_of_params a + cnt post lpost)).
      rewrite !cnt_app, cnt_one by auto. reflexivity.
    + rewrite !count_true_app, !count_all, count_none. symmetry. change (cnt (pre ++ [a] ++ post) (lpre ++ [false] ++ lpost) = cnt pre lpre + (0 + cnt post lpost)).
      rewrite !cnt_app, cnt_one by auto. reflexivity.
    + change (gpar (pre ++ [a] ++ post) (lpre ++ [false] ++ lpost) = keep (repeat true (cnt pre lpre) ++ repeat false (number_of_params a) ++ repeat true (cnt post lpost))
        (gpar (pre ++ [a] ++ post) (lpre ++ [true] ++ lpost))).
      rewrite !gpar_app, !gpar_one by auto. rewrite !keep_app by (rewrite ?repeat_length; first [symmetry; apply (gpar_len nm); auto | apply number_get; auto]).
      rewrite keep_false, !keep_true by (apply (gpar_len nm); auto). reflexivity.
    + intros p p' AG. destruct (agree_len _ _ _ AG) as (Lp & Lp'). rewrite !app_length, !repeat_length in Lp, Lp'.
      apply split_len in Lp as (p1 & q & -> & H1 & Lp). apply split_len in Lp as (pa & p4 & -> & Ha & H4).
      apply split_len in Lp' as (p1' & q' & -> & H1' & Lp'). apply split_len in Lp' as (pa' & p4' & -> & Ha' & H4').
      apply agree_app in AG as (A1 & AG); rewrite ?repeat_length; auto. apply agree_app in AG as (A2 & A4); rewrite ?repeat_length; auto.
      rewrite !keep_app by (rewrite ?repeat_length; auto). rewrite !keep_false, !keep_true by auto.
      change ((chi_terms (gterms (pre ++ [a] ++ post) (lpre ++ [true] ++ lpost)) (p1 ++ pa ++ p4) - chi_terms (gterms (pre ++ [a] ++ post) (lpre ++ [false] ++ lpost)) (p1 ++ [] ++ p4) ==
              chi_terms (gterms (pre ++ [a] ++ post) (lpre ++ [true] ++ lpost)) (p1' ++ pa' ++ p4') - chi_terms (gterms (pre ++ [a] ++ post) (lpre ++ [false] ++ lpost)) (p1' ++ [] ++ p4'))%Q).
      rewrite !(chi_group nm); auto; rewrite ?cnt_one; auto. rewrite !gterms_one.
      assert (EC : (chi_terms (terms a) pa == chi_terms (terms a) pa')%Q).
      { unfold chi_terms. apply qsum_ext. intros [[c mu] s] _. cbn.
        assert (N : (nth c pa 0 == nth c pa' 0)%Q).
        { clear - A2. revert pa pa' c A2. generalize (number_of_params a). induction n as [|n IH]; intros [|x p] [|y p'] [|c] H; cbn in *; try tauto; try reflexivity. apply IH; tauto. }
        rewrite N. reflexivity. }
      rewrite EC. ring.
  - destruct (gok_of _ _ _ W O) as (L & G). rewrite !app_length in L. cbn [length] in L.
    rewrite gok_app, gok_cons in G. destruct G as (G1 & (Wa & Oa) & G4).
    assert (L4 : length lpost = length post) by lia.
    destruct (IH Wa Oa) as (Wa' & Oa' & Lm & Cm & Ga & Ca).
    destruct (of_gok nm (pre ++ a' :: post) (lpre ++ l :: lpost)) as (W' & O'); [rewrite !app_length; cbn [length]; lia|rewrite gok_app, gok_cons; auto|].
    assert (Ea : gok [a]) by (apply gok_cons; split; auto; constructor). assert (Ea' : gok [a']) by (apply gok_cons; split; auto; constructor).
    split; [exact W'|]. split; [exact O'|]. split; [|split; [|split]].
    + rewrite !app_length, !repeat_length. symmetry. change (cnt (pre ++ [a] ++ post) (lpre ++ [l] ++ lpost) = cnt pre lpre + (length (if l then m else []) + cnt post lpost)).
      rewrite !cnt_app, cnt_one by auto. destruct l; rewrite ?Lm; reflexivity.
    + rewrite !count_true_app, !count_all. symmetry. change (cnt (pre ++ [a'] ++ post) (lpre ++ [l] ++ lpost) = cnt pre lpre + (count_true (if l then m else []) + cnt post lpost)).
      rewrite !cnt_app, cnt_one by auto. destruct l; rewrite ?Cm; reflexivity.
    + change (gpar (pre ++ [a'] ++ post) (lpre ++ [l] ++ lpost) = keep (repeat true (cnt pre lpre) ++ (if l then m else []) ++ repeat true (cnt post lpost))
        (gpar (pre ++ [a] ++ post) (lpre ++ [l] ++ lpost))).
      rewrite !gpar_app, !gpar_one by auto. rewrite keep_app by (rewrite repeat_length; symmetry; apply (gpar_len nm); auto).
      rewrite keep_app by (destruct l; [rewrite Lm; apply number_get; auto|reflexivity]).
      rewrite !keep_true by (apply (gpar_len nm); auto). rewrite Ga. destruct l; reflexivity.
    + intros p p' AG. destruct (agree_len _ _ _ AG) as (Lp & Lp'). rewrite !app_length, !repeat_length in Lp, Lp'.
      apply split_len in Lp as (p1 & q & -> & H1 & Lp). apply split_len in Lp as (pa & p4 & -> & Ha & H4).
      apply split_len in Lp' as (p1' & q' & -> & H1' & Lp'). apply split_len in Lp' as (pa' & p4' & -> & Ha' & H4').
      apply agree_app in AG as (A1 & AG); rewrite ?repeat_length; auto. apply agree_app in AG as (A2 & A4); auto.
      rewrite !keep_app by (rewrite ?repeat_length; auto). rewrite !keep_true by auto.
      change ((chi_terms (gterms (pre ++ [a] ++ post) (lpre ++ [l] ++ lpost)) (p1 ++ pa ++ p4) - chi_terms (gterms (pre ++ [a'] ++ post) (lpre ++ [l] ++ lpost)) (p1 ++ keep (if l then m else []) pa ++ p4) ==
              chi_terms (gterms (pre ++ [a] ++ post) (lpre ++ [l] ++ lpost)) (p1' ++ pa' ++ p4') - chi_terms (gterms (pre ++ [a'] ++ post) (lpre ++ [l] ++ lpost)) (p1' ++ keep (if l then m else []) pa' ++ p4'))%Q).
      assert (KC : forall x : list Q, length x = length (if l then m else []) -> length (keep (if l then m else []) x) = cnt [a'] [l]).
      { intros x Lx. rewrite keep_length by auto. rewrite cnt_one. destruct l; auto. }
      assert (HA : length (if l then m else []) = cnt [a] [l]) by (rewrite cnt_one; destruct l; auto).
      rewrite !(chi_group nm); auto; try congruence. rewrite !gterms_one. assert (C0 : forall x, chi_terms [] x = 0%Q) by reflexivity. destruct l; [specialize (Ca _ _ A2); lra|rewrite !C0; ring].
  - destruct (IH1 W O) as (Wu & Ou & Lu & Cu & Gu & Xu). destruct (IH2 Wu Ou) as (Wv & Ov & Lv & Cv & Gv & Xv).
    assert (LC : length m' = count_true m) by congruence.
    split; [auto|]. split; [auto|]. split; [rewrite fill_len; auto|]. split; [rewrite fill_count; auto|].
    split; [rewrite Gv, Gu, fill_keep; auto; rewrite Lu; symmetry; apply number_get; auto|].
    intros p p' AG. destruct (agree_len _ _ _ AG) as (Lp & Lp'). rewrite fill_len in Lp, Lp'. apply fill_agree in AG as (A1 & A2); auto.
    rewrite !fill_keep by auto. specialize (Xu _ _ A1). specialize (Xv _ _ A2). lra.
Qed.

(** ** The linearised chi-squared *)
Open Scope Q_scope.
Lemma change_cons l ds i x d X Y : model_change (l :: ds) i (x :: d) X Y == x * col i X Y l + model_change ds i d X Y.
Proof.
  rewrite !change_nth. cbn [length seq map]. unfold qsum. cbn [fold_right nth]. rewrite <- seq_shift, map_map. reflexivity.
Qed.
Lemma change_place : forall m ds i d X Y, length ds = length m -> length d = count_true m ->
  model_change ds i (place m d) X Y == model_change (keep m ds) i d X Y.
Proof.
  induction m as [|b m IH]; intros [|l ds] i d X Y L C; cbn in L; try discriminate; [destruct d; reflexivity|]. rewrite count_true_cons in C. destruct b.
  - destruct d as [|x d]; [discriminate|]. cbn [place keep length] in *. rewrite !change_cons, IH by lia. reflexivity.
  - cbn [place keep]. rewrite change_cons, IH by lia. ring.
Qed.
Lemma place_len : forall m d, length (place m d) = length m.
Proof. induction m as [|[] m IH]; intros [|x d]; cbn; auto. Qed.
Lemma place_zero : forall m, place m (repeat 0 (count_true m)) = repeat 0 (length m).
Proof.
  induction m as [|[] m IH]; [reflexivity| |]; rewrite count_true_cons; cbn [place repeat length Nat.add]; rewrite IH; reflexivity.
Qed.
Lemma step_place : forall m p d, length p = length m -> length d = count_true m ->
  keep m (step_by p (place m d)) = step_by (keep m p) d /\ agree m (step_by p (place m d)) p.
Proof.
  induction m as [|[] m IH]; intros [|x p] d L C; cbn in L; try discriminate; [cbn; auto| |]; rewrite count_true_cons in C.
  - destruct d as [|y d]; [discriminate|]. cbn in C. destruct (IH p d ltac:(lia) ltac:(lia)) as (A & B). unfold step_by in *. cbn. rewrite A. auto.
  - destruct (IH p d ltac:(lia) ltac:(lia)) as (A & B). unfold step_by in *. cbn. rewrite A. repeat split; auto. ring.
Qed.
Lemma keep_in {A} : forall m (l : list (list A)) x, In x (concat (keep m l)) -> In x (concat l).
Proof.
  induction m as [|[] m IH]; intros [|y l] x H; cbn in *; try contradiction; auto.
  - apply in_app_or in H as [H|H]; apply in_or_app; auto.
  - apply in_or_app; auto.
Qed.
Lemma split_filter {A} (f : A -> bool) l : Permutation l (filter f l ++ filter (fun x => negb (f x)) l).
Proof. induction l as [|x l IH]; cbn; auto. destruct (f x); cbn; [auto|]. apply Permutation_cons_app. exact IH. Qed.
(** Images that only the frozen parameters have derivatives in. *)
Lemma others ds m imgs imgs' : images_of imgs ds -> images_of imgs' (keep m ds) -> derivs_ok ds ->
  exists rest, Permutation imgs (imgs' ++ rest) /\ forall i, In i rest -> wf_image i /\ forall d X Y, model_change (keep m ds) i d X Y == 0.
Proof.
  intros (N & I) (N' & I') (D1 & D2).
  set (f := fun i : image => existsb (fun j => (im_id j =? im_id i)%nat) imgs').
  assert (SAME : forall i j, In i imgs -> In j imgs' -> im_id j = im_id i -> i = j).
  { intros i j J K E. apply I in J as (p & J). apply I' in K as (q & K). apply keep_in in K. exact (D2 _ _ _ _ J K (eq_sym E)). }
  assert (SUB : forall i, In i imgs' -> In i imgs) by (intros i K; apply I' in K as (p & K); apply I; exists p; eapply keep_in; eauto).
  exists (filter (fun i => negb (f i)) imgs). split.
  - eapply Permutation_trans; [apply (split_filter f)|]. apply Permutation_app_tail. apply NoDup_Permutation.
    + apply NoDup_filter. eapply NoDup_map_inv; eauto.
    + eapply NoDup_map_inv; eauto.
    + intros i. rewrite filter_In. unfold f. rewrite existsb_exists. split.
      * intros (J & j & K & E). apply Nat.eqb_eq in E. rewrite (SAME i j J K E). exact K.
      * intros K. split; [auto|]. exists i. rewrite Nat.eqb_refl. auto.
  - intros i J. apply filter_In in J as (J & E). split; [apply I in J as (p & J); apply (D1 _ _ J)|]. intros d X Y.
    rewrite change_nth. rewrite (qsum_ext _ (fun _ : nat => 0)).
    + unfold qsum. generalize (seq 0 (length (keep m ds))). intros r. induction r as [|c r IH]; cbn [map fold_right]; [reflexivity|]. rewrite IH. reflexivity.
    + intros c C. apply in_seq in C. assert (CZ : col i X Y (nth c (keep m ds) []) == 0); [|rewrite CZ; ring].
      unfold col. assert (SB : forall e, In e (nth c (keep m ds) []) -> im_id (snd e) <> im_id i).
      { intros [p j] K Q. assert (K' : In j imgs'). { apply I'. exists p. apply in_concat. exists (nth c (keep m ds) []). split; auto. apply nth_In. lia. }
        apply negb_true_iff in E. unfold f in E. assert (T : existsb (fun j => (im_id j =? im_id i)%nat) imgs' = true) by (apply existsb_exists; exists j; split; auto; apply Nat.eqb_eq; auto).
        congruence. }
      induction (nth c (keep m ds) []) as [|e r IH]; [reflexivity|]. unfold qsum in *. cbn [map fold_right]. rewrite IH by (intros; apply SB; right; auto).
      destruct (Nat.eqb_spec (im_id (snd e)) (im_id i)) as [Q|Q]; [|reflexivity]. elim (SB e (or_introl eq_refl) Q).
Qed.
Lemma linear_app a b ds d : linear_chisq (a ++ b) ds d == linear_chisq a ds d + linear_chisq b ds d.
Proof. unfold linear_chisq. rewrite map_app. apply qsum_app. Qed.
Lemma total_app a b : total (a ++ b) = (total a + total b)%Z.
Proof. unfold total. induction a; cbn [app fold_right]; [reflexivity|]. rewrite IHa. lia. Qed.
(** Freezing removes the parameters from the vector and leaves the values. *)
Theorem C123_params : forall t u m, freezes t u m -> wf t -> priors_ok t ->
  length m = number_of_params t /\ count_true m = number_of_params u /\ get_params u = keep m (get_params t).
Proof. intros t u m F W O. destruct (kept_free t u m F W O) as (_ & _ & A & B & C & _). auto. Qed.
(** The objective of the system for the free parameters is that of the system for all
    parameters with the frozen ones held, up to a constant: its solutions are the
    best steps among those that do not move the frozen parameters. *)
Theorem C123_step : forall sqrtf nm subs liq nm' subs' liq' m ds,
  let t := PMulti nm subs liq in let u := PMulti nm' subs' liq' in
  freezes t u m -> wf t -> priors_ok t -> number_of_params t = length ds -> derivs_ok ds ->
  exists imgs, images_of imgs ds /\ ((total imgs <= 2147483648)%Z ->
    forall ox ou s v, prior_derivs t = Ok ox -> prior_derivs u = Ok ou ->
    assemble sqrtf false None ds ox = Ok (Some s) -> assemble sqrtf false None (keep m ds) ou = Ok (Some v) ->
    (exists C, forall d, length d = number_of_params u -> objective v d == objective s (place m d) + C) /\
    (forall d, solves v d <-> length d = number_of_params u /\
       forall e, length e = number_of_params u -> objective s (place m d) <= objective s (place m e))).
Proof.
  intros sqrtf nm subs liq nm' subs' liq' m ds t u F W O N D.
  destruct (kept_free t u m F W O) as (W' & O' & Lm & Cm & G & X).
  assert (LM : length m = length ds) by congruence. assert (LK : length (keep m ds) = number_of_params u) by (rewrite keep_length by auto; auto).
  assert (D' : derivs_ok (keep m ds)).
  { destruct D as (D1 & D2). split; [intros p i I; apply (D1 p i); eapply keep_in; eauto|].
    intros p i q j I J. apply (D2 p i q j); eapply keep_in; eauto. }
  destruct (C33_objective sqrtf nm subs liq ds W O N D) as (imgs & IM & H). exists imgs. split; [exact IM|]. intros TB ox ou s v EX EU ES EV.
  destruct (C33_objective sqrtf nm' subs' liq' (keep m ds) W' O') as (imgs' & IM' & H'); [fold u; congruence|auto|].
  destruct (others ds m imgs imgs' IM IM' D) as (rest & PR & RZ).
  assert (T0 : (0 <= total rest)%Z).
  { clear - RZ. induction rest as [|i r IH]; [cbn; lia|]. unfold total in *. cbn [fold_right]. destruct (RZ i (or_introl eq_refl)) as ((A & B & _) & _).
    assert (0 <= fold_right (fun i n => (npix i + n)%Z) 0%Z r)%Z by (apply IH; intros; apply RZ; right; auto). unfold npix at 1. nia. }
  assert (TB' : (total imgs' <= 2147483648)%Z) by (rewrite (total_perm _ _ PR), total_app in TB; lia).
  specialize (H TB ox s EX ES). specialize (H' TB' ou v EU EV). cbv zeta in H, H'.
  assert (N2 : ls_ncols v = number_of_params u).
  { destruct (C33_layout sqrtf nm' subs' liq' (keep m ds) W' O') as (im2 & IM2 & K2); [fold u; congruence|auto|].
    destruct K2 as (o2 & r2 & A2 & B2 & K2).
    { rewrite (total_perm im2 imgs'); auto. eapply images_perm; [exact IM2|exact IM'|]. apply Permutation_refl. }
    fold u in A2. rewrite EU in A2. injection A2 as <-. rewrite EV in B2. injection B2 as <-. rewrite <- LK. apply K2. }
  assert (KEY : exists C, forall d, length d = number_of_params u -> objective v d == objective s (place m d) + C).
  { exists (objective v (repeat 0 (number_of_params u)) - objective s (repeat 0 (length ds))). intros d Ld.
    assert (Lt : length (get_params t) = length ds) by (rewrite <- number_get; auto).
    assert (Lu : length (get_params u) = number_of_params u) by (symmetry; apply number_get; auto).
    assert (SL : forall a b : list Q, length a = length b -> length (step_by a b) = length b).
    { intros a b E. unfold step_by. rewrite map_length, combine_length. lia. }
    assert (LPD : length (place m d) = length ds) by (rewrite place_len; auto).
    destruct (C02_set_params_writes_exactly_thawed 0 t (step_by (get_params t) (place m d)) W ltac:(discriminate)) as (t1 & E1 & _); [rewrite SL; congruence|].
    destruct (H (place m d) t1 LPD E1) as (La & Lb & HLa & HLb & OB).
    destruct (C02_set_params_writes_exactly_thawed 0 u (step_by (get_params u) d) W' ltac:(discriminate)) as (u1 & E2 & _); [rewrite SL; congruence|].
    destruct (H' d u1 ltac:(congruence) E2) as (Lc & Ld' & HLc & HLd & OB').
    destruct (log_prior_set t W O ltac:(discriminate)) as (K & HK). destruct (log_prior_set u W' O' ltac:(discriminate)) as (K' & HK').
    destruct (HK _ _ ltac:(rewrite Lt; symmetry; exact N) (C03_write_back_identity t W ltac:(discriminate))) as (q1 & X1 & Y1).
    destruct (HK (step_by (get_params t) (place m d)) t1 ltac:(rewrite SL; congruence) E1) as (q2 & X2 & Y2).
    destruct (HK' _ _ Lu (C03_write_back_identity u W' ltac:(discriminate))) as (q3 & X3 & Y3).
    destruct (HK' (step_by (get_params u) d) u1 ltac:(rewrite SL; congruence) E2) as (q4 & X4 & Y4).
    fold t in HLa, HLb; fold u in HLc, HLd; assert (La = q1) by congruence. assert (Lb = q2) by congruence. assert (Lc = q3) by congruence. assert (Ld' = q4) by congruence. subst.
    destruct (step_place m (get_params t) d ltac:(congruence) ltac:(congruence)) as (S1 & S2). specialize (X _ _ S2). rewrite S1, <- G in X.
    assert (LIN : forall e, length e = number_of_params u -> linear_chisq imgs ds (place m e) == linear_chisq imgs' (keep m ds) e + linear_chisq rest ds (repeat 0 (length ds))).
    { intros e Le. unfold linear_chisq at 1. rewrite (qsum_perm _ _ (Permutation_map _ PR)).
      change (linear_chisq (imgs' ++ rest) ds (place m e) == linear_chisq imgs' (keep m ds) e + linear_chisq rest ds (repeat 0 (length ds))). rewrite linear_app. apply Qplus_comp.
      - unfold linear_chisq. apply qsum_ext. intros i _. apply qsum_ext. intros yx _. rewrite change_place by congruence. reflexivity.
      - unfold linear_chisq. apply qsum_ext. intros i I. apply qsum_ext. intros yx _. destruct (RZ i I) as (_ & R0).
        rewrite <- LM, <- place_zero, !change_place by (rewrite ?repeat_length; congruence). rewrite !R0. reflexivity. }
    pose proof (LIN d Ld) as P1. pose proof (LIN (repeat 0 (number_of_params u)) (repeat_length _ _)) as P2.
    rewrite <- Cm, place_zero, LM, Cm in P2. rewrite LK in OB'. rewrite P1, P2 in OB. rewrite Y1, Y2 in OB. rewrite Y3, Y4 in OB'. lra. }
  split; [exact KEY|]. destruct KEY as (C & KEY). intros d. unfold solves. rewrite N2.
  split; intros (A & B); (split; [exact A|]); intros e Le; specialize (B e ltac:(congruence)); rewrite !KEY in * by congruence; lra.
Qed.

(** ** The calls that freeze *)
Open Scope nat_scope.
Lemma freeze_flags nm : forall subs liq liq', length subs = length liq -> Forall2 no_more liq' liq ->
  exists m, freezes (PMulti nm subs liq) (PMulti nm subs liq') m.
Proof.
  intros subs liq liq' L F.
  assert (G : forall post lpost lpost', Forall2 no_more lpost' lpost -> length post = length lpost -> forall pre lpre, length pre = length lpre ->
    exists m, freezes (PMulti nm (pre ++ post) (lpre ++ lpost)) (PMulti nm (pre ++ post) (lpre ++ lpost')) m).
  { intros post lpost lpost' F'. revert post. induction F' as [|b' b l' l N F' IH]; intros post Lp pre lpre LP; [eexists; apply fr_same|].
    destruct post as [|a post]; [discriminate|]. cbn in Lp.
    destruct (IH post ltac:(lia) (pre ++ [a]) (lpre ++ [b'])) as (m & R); [rewrite !app_length; cbn; lia|]. rewrite <- !app_assoc in R. cbn [app] in R.
    destruct b, b'; try (specialize (N eq_refl); discriminate); eauto.
    eexists. eapply fr_trans; [apply fr_member; auto|exact R]. }
  exact (G subs liq liq' F L [] [] eq_refl).
Qed.
Lemma freeze_children nm : forall subs subs' liq, Forall2 (fun s s' => exists m, freezes s s' m) subs subs' -> length subs = length liq ->
  exists m, freezes (PMulti nm subs liq) (PMulti nm subs' liq) m.
Proof.
  intros subs subs' liq F L.
  assert (G : forall post post', Forall2 (fun s s' => exists m, freezes s s' m) post post' -> forall lpost, length post = length lpost -> forall pre lpre, length pre = length lpre ->
    exists m, freezes (PMulti nm (pre ++ post) (lpre ++ lpost)) (PMulti nm (pre ++ post') (lpre ++ lpost)) m).
  { induction 1 as [|s s' post post' (m1 & R1) F' IH]; intros lpost Lp pre lpre LP; [eexists; apply fr_same|].
    destruct lpost as [|b lpost]; [discriminate|]. cbn in Lp.
    destruct (IH lpost ltac:(lia) (pre ++ [s']) (lpre ++ [b])) as (m & R); [rewrite !app_length; cbn; lia|]. rewrite <- !app_assoc in R. cbn [app] in R.
    eexists. eapply fr_trans; [apply fr_child; eauto|exact R]. }
  exact (G subs subs' F liq L [] [] eq_refl).
Qed.
Lemma no_more_refl liq : Forall2 no_more liq liq.
Proof. induction liq; constructor; auto. intros H. exact H. Qed.
Lemma no_more_trans a b c : Forall2 no_more a b -> Forall2 no_more b c -> Forall2 no_more a c.
Proof. intros H. revert c. induction H as [|x y a b N F IH]; intros c H'; inversion H' as [|? z ? ? N' F']; subst; constructor; auto. intros E. auto. Qed.
Lemma no_more_upd : forall liq i, Forall2 no_more (upd i false liq) liq.
Proof. induction liq as [|b liq IH]; intros [|i]; cbn; constructor; auto; try discriminate; try apply no_more_refl. intros H. exact H. Qed.
Lemma no_more_none (liq liq0 : list bool) : Forall2 no_more liq liq0 -> Forall2 no_more (map (fun _ => false) liq) liq0.
Proof. induction 1; cbn; constructor; auto. intros E. discriminate. Qed.
Lemma known_less nm : forall ns liq liq', flag_known nm false ns liq = Ok liq' -> Forall2 no_more liq' liq.
Proof.
  induction ns as [|n ns IH]; intros liq liq' H; cbn [flag_known] in H; [injection H as <-; apply no_more_refl|].
  destruct (named_param_index nm n) as [i|]; [|auto]. destruct (i <? length liq); [|discriminate].
  eapply no_more_trans; [apply IH; exact H|apply no_more_upd].
Qed.
(** freezeParam(name) on a list or group. *)
Theorem C123_freeze_name : forall nm n subs liq liq' (l : plist Q) lliq, length subs = length liq ->
  (flag_name nm n false liq = Ok liq' -> exists m, freezes (PMulti nm subs liq) (PMulti nm subs liq') m) /\
  (flag_name (l_names l) n false (l_liquid l) = Ok lliq -> exists m, freezes (PList l) (PList (with_liquid l lliq)) m).
Proof.
  intros nm n subs liq liq' l lliq L. unfold flag_name. split.
  - destruct (named_param_index nm n) as [i|]; [|discriminate]. destruct (i <? length liq); [|discriminate]. intros E. injection E as <-.
    apply freeze_flags; auto. apply no_more_upd.
  - destruct (named_param_index (l_names l) n) as [i|]; [|discriminate]. destruct (i <? length (l_liquid l)); [|discriminate]. intros E. injection E as <-.
    eexists. apply fr_leaf, no_more_upd.
Qed.
(** freezeParamsRecursive(names). *)
Theorem C123_freeze : forall ns (t u : tree), wf t -> freeze_params_recursive ns t = Ok u -> exists m, freezes t u m.
Proof.
  intros ns. unfold freeze_params_recursive. induction t as [| | |l|nm subs liq IH] using ptree_ind'; intros u W H; try discriminate.
  - cbn in H. unfold plist_flag_rec in H. destruct (flag_known (l_names l) false ns (l_liquid l)) as [lq|] eqn:E; [|discriminate]. cbn in H. injection H as <-.
    eexists. refine (fr_leaf l _ _). apply known_less in E. destruct (mem_str star ns); auto. apply no_more_none; auto.
  - cbn in W. destruct W as (L & W). rewrite fold_and_Forall in W. cbn [flag_rec] in H.
    destruct (flag_rec_walk nm ns false (flag_rec false ns) 0 subs liq) as [[subs' liq']|] eqn:E; [|discriminate]. cbn [bind fst snd] in H. injection H as H. subst u.
    assert (G : Forall2 (fun s s' => exists m, freezes s s' m) subs subs' /\ Forall2 no_more liq' liq).
    { clear L. revert E W. generalize 0 at 1. revert liq liq' subs'. induction IH as [|s subs Hs Hss IHs]; intros liq liq' subs' i E W; cbn in E.
      - injection E as <- <-. split; [constructor|apply no_more_refl].
      - inversion W as [|? ? W1 W2]; subst.
        apply bind_ok in E as (s1 & E1 & E). apply bind_ok in E as (l1 & E2 & E). apply bind_ok in E as ([ss' lr] & E3 & E). cbn [fst snd] in E. injection E as <- <-.
        destruct (IHs _ _ _ _ E3 W2) as (A & B). split.
        + constructor; auto. destruct s; try (injection E1 as <-; eexists; apply fr_same); apply Hs; auto.
        + eapply no_more_trans; [exact B|]. destruct (named_param_name nm i) as [n|]; [|injection E2 as <-; apply no_more_refl].
          destruct (mem_str n ns); [|injection E2 as <-; apply no_more_refl]. unfold flag_name in E2.
          destruct (named_param_index nm n) as [j|]; [|discriminate]. destruct (j <? length liq); [|discriminate]. injection E2 as <-. apply no_more_upd. }
    destruct G as (A & B). destruct (freeze_children nm subs subs' liq A (eq_sym L)) as (m & R).
    destruct (freeze_flags nm subs' liq (if mem_str star ns then map (fun _ => false) liq' else liq')) as (m' & R').
    + apply F2_len in A. congruence.
    + destruct (mem_str star ns); auto. apply no_more_none; auto.
    + eexists. eapply fr_trans; eauto.
Qed.

(** ** A case: two sources, the second with a prior on its flux; its size is frozen,
    which is the only parameter with a derivative in the second image. *)
Section Case.
Open Scope Q_scope.
Let nn := mkNames [("flux", 0%nat); ("size", 1%nat)]%string [(0%nat, "flux"); (1%nat, "size")]%string.
Let n0 := mkNames [] [].
Let src nm (vs : list Q) (lq : list bool) (ps : list (prior Q)) : tree :=
  PList (mkPlist nm vs lq (map (fun _ => None) vs) (map (fun _ => None) vs) (map (fun _ => None) vs) None ps).
Let mk lq := PMulti n0 [PFixed; PMulti n0 [src n0 [10] [true] []; src nn [20; 30] lq [mkPrior "flux" 0 22 1; mkPrior "size" 1 0 1]] [true; true]] [true; true].
Let t := mk [true; true].
Let u := mk [true; false].
Let row (a b : Q) : arr Q := mkArr 1 2 (fun _ x => if (x =? 0)%Z then a else b).
Let one (a : Q) : arr Q := mkArr 1 1 (fun _ _ => a).
Let A := mkImage 0 1 2 (row 1 1) (row 1 2).
Let B := mkImage 1 1 1 (one 1) (one 6).
Let pt (a : arr Q) : patch Q := mkPatch 0 0 (Some a).
Let ds : derivs := [[(pt (row 1 0), A)]; [(pt (row 0 1), A)]; [(pt (row 1 1), A); (pt (one 2), B)]].
Example case_frozen : freeze_params_recursive ["size"]%string t = Ok u /\ exists m, freezes t u m /\ m = [true; true; false].
Proof.
  split; [reflexivity|]. eexists. split.
  - refine (fr_child n0 [PFixed] _ _ [] [true] true [] _ eq_refl (fr_child n0 [_] _ _ [] [true] true [] _ eq_refl (fr_leaf _ [true; false] _))).
    repeat constructor; intros H; auto.
  - reflexivity.
Qed.
Example case_meets : wf t /\ priors_ok t /\ number_of_params t = length ds /\ derivs_ok ds.
Proof.
  split; [cbn; unfold wf_plist; cbn; repeat split; auto; try discriminate|].
  split; [cbn; repeat split; auto; repeat (constructor; [cbn; split; [lia|intros H; discriminate]|]); constructor|]. split; [reflexivity|].
  split.
  - intros p i H. cbn in H. decompose [or] H; try contradiction;
      match goal with E : (_, _) = (_, _) |- _ => injection E as <- <- end; vm_compute; repeat split; auto; discriminate.
  - intros p i q j H H'. 
    assert (T : forall x y, In (x, y) (concat ds) -> y = A \/ y = B).
    { clear. intros x y H. cbn in H. decompose [or] H; try contradiction; match goal with E : (_, _) = (_, _) |- _ => injection E as <- <- end; auto. }
    destruct (T _ _ H) as [-> | ->], (T _ _ H') as [-> | ->]; cbn; congruence.
Qed.
(** The frozen fit solves exactly; the full one prefers another step. *)
Example case_solves : exists ox ou s v, prior_derivs t = Ok ox /\ prior_derivs u = Ok ou /\
  assemble (fun q => q) false None ds ox = Ok (Some s) /\ assemble (fun q => q) false None (keep [true; true; false] ds) ou = Ok (Some v) /\
  solves v [1; 2] /\ place [true; true; false] [1; 2] = [1; 2; 0] /\ objective s [1; 2; 0] == 936 /\ ~ solves s [1; 2; 0].
Proof.
  do 4 eexists. do 4 (split; [vm_compute; reflexivity|]).
  split; [split; [reflexivity|]; intros d' _; match goal with |- objective ?s ?d <= _ => assert (E : objective s d == 0) by (vm_compute; reflexivity) end; rewrite E; apply objective_nonneg|].
  split; [reflexivity|]. split; [vm_compute; reflexivity|].
  intros (_ & H). specialize (H [1; 2; -1] eq_refl). vm_compute in H. auto.
Qed.
End Case.

Print Assumptions C123_params.
Print Assumptions C123_step.
Print Assumptions C123_freeze_name.
Print Assumptions C123_freeze.
