(** C123, which parameters a call freezes: the flags that relate the frozen and the
    unfrozen fit are those of the frozen tree, entry by entry. *)
From Coq Require Import String List ZArith QArith Bool Lia.
From Verif Require Import Base ParamsModel ParamsSpec ParamsProofs ParamsProps FlagsProofs PriorModel PriorProps LsqModel LsqSpec LsqProps OrderProps FreezeProps.
Import ListNotations.
Open Scope nat_scope.

(** ** What is claimed *)
Definition mask_walk (f : tree -> tree -> list bool) :=
  fix go (ss ss' : list tree) (ls ls' : list bool) : list bool :=
    match ss, ss', ls, ls' with
    | s :: ss, s' :: ss', b :: ls, b' :: ls' =>
        (if b then if b' then f s s' else repeat false (number_of_params s) else []) ++ go ss ss' ls ls'
    | _, _, _, _ => []
    end.
(** For each free parameter of t: is it free in u, by its own flag and those of the
    groups it is in? *)
Fixpoint still_free (t u : tree) : list bool :=
  match t, u with
  | PList l, PList l' => keep (l_liquid l) (l_liquid l')
  | PMulti _ ss ls, PMulti _ ss' ls' => mask_walk still_free ss ss' ls ls'
  | _, _ => repeat true (number_of_params t)
  end.

(** ** Proofs *)
Lemma F2_len {A B} (R : A -> B -> Prop) l l' : Forall2 R l l' -> length l = length l'.
Proof. induction 1; cbn; auto. Qed.
Inductive lower : tree -> tree -> Prop :=
| lo_same t : lower t t
| lo_list l liq : Forall2 no_more liq (l_liquid l) -> lower (PList l) (PList (with_liquid l liq))
| lo_multi nm ss ss' ls ls' : Forall2 lower ss ss' -> Forall2 no_more ls' ls -> lower (PMulti nm ss ls) (PMulti nm ss' ls').
Lemma lower_refls (ss : list tree) : Forall2 lower ss ss.
Proof. induction ss; constructor; auto. apply lo_same. Qed.
Lemma lower_multi nm ss ls u : lower (PMulti nm ss ls) u -> exists ss' ls', u = PMulti nm ss' ls' /\ Forall2 lower ss ss' /\ Forall2 no_more ls' ls.
Proof. intros H. inversion H; subst; eexists _, _; (split; [reflexivity|]); auto. split; [apply lower_refls|apply no_more_refl]. Qed.
Lemma lower_list l u : lower (PList l) u -> exists liq, u = PList (with_liquid l liq) /\ Forall2 no_more liq (l_liquid l).
Proof. intros H. inversion H; subst; eauto. exists (l_liquid l). split; [destruct l; reflexivity|apply no_more_refl]. Qed.
Lemma wf_split nm (ss : list tree) ls : wf (PMulti nm ss ls) -> length ls = length ss /\ Forall wf ss.
Proof. cbn. rewrite fold_and_Forall. auto. Qed.
Lemma lower_wf : forall t u, lower t u -> wf t -> wf u.
Proof.
  induction t as [| |s|l|nm ss ls IH] using ptree_ind'; intros u H W; try (inversion H; subst; auto; fail).
  - apply lower_list in H as (liq & -> & N). unfold wf, wf_plist, with_liquid in *. cbn. rewrite (F2_len _ _ _ N). exact W.
  - apply lower_multi in H as (ss' & ls' & -> & F & N). apply wf_split in W as (L & W). cbn. rewrite fold_and_Forall.
    rewrite (F2_len _ _ _ N), <- (F2_len _ _ _ F). split; auto. clear - IH F W. revert IH W. induction F; intros IH W; inversion IH; inversion W; subst; constructor; auto.
Qed.
Lemma cnt_multi nm (ss : list tree) ls : number_of_params (PMulti nm ss ls) = cnt ss ls.
Proof. reflexivity. Qed.
Lemma free_len : forall t u, lower t u -> wf t -> length (still_free t u) = number_of_params t /\ count_true (still_free t u) = number_of_params u.
Proof.
  induction t as [| |s|l|nm ss ls IH] using ptree_ind'; intros u H W; try (inversion H; subst; auto; fail).
  - apply lower_list in H as (liq & -> & N). destruct (keep_count _ _ N) as (A & B). cbn [still_free number_of_params l_liquid with_liquid]. auto.
  - apply lower_multi in H as (ss' & ls' & -> & F & N). apply wf_split in W as (L & W). rewrite !cnt_multi. cbn [still_free].
    revert ls ls' N L. induction F as [|s s' ss ss' LO F IHF]; intros ls ls' N L; [destruct ls; [|discriminate]; inversion N; subst; auto|].
    destruct ls as [|b ls]; [discriminate|]. inversion N as [|b' ? ls1 ? NB N']; subst. inversion IH as [|? ? I1 I2]; inversion W as [|? ? W1 W2]; subst. cbn in L.
    destruct (IHF I2 W2 ls ls1 N' ltac:(lia)) as (A & B). cbn [mask_walk]. rewrite app_length, count_true_app, (cnt_cons s), (cnt_cons s'), !cnt_one. fold (mask_walk still_free).
    rewrite A, B. destruct (I1 s' LO W1) as (C & D). destruct b, b'; try (specialize (NB eq_refl); discriminate); rewrite ?C, ?D, ?repeat_length, ?count_none; auto.
Qed.
Lemma free_same : forall t : tree, wf t -> still_free t t = repeat true (number_of_params t).
Proof.
  induction t as [| |s|l|nm ss ls IH] using ptree_ind'; intros W; try reflexivity.
  - cbn. clear. induction (l_liquid l) as [|[] m IHm]; auto. cbn [keep]. rewrite count_true_cons, IHm. reflexivity.
  - apply wf_split in W as (L & W). rewrite cnt_multi. cbn [still_free]. revert ls L. induction ss as [|s ss IHs]; intros [|b ls] L; try discriminate; auto.
    inversion IH as [|? ? I1 I2]; inversion W as [|? ? W1 W2]; subst. cbn in L. cbn [mask_walk]. fold (mask_walk still_free). rewrite IHs by (auto; lia).
    rewrite cnt_cons, cnt_one, repeat_app. destruct b; [rewrite I1 by auto|]; reflexivity.
Qed.
Lemma fill_app : forall m1 m2 m1' m2', length m1' = count_true m1 -> fill (m1 ++ m2) (m1' ++ m2') = fill m1 m1' ++ fill m2 m2'.
Proof.
  induction m1 as [|[] m1 IH]; intros m2 m1' m2' L; rewrite ?count_true_cons in L.
  - destruct m1'; [reflexivity|discriminate].
  - destruct m1' as [|b m1']; [discriminate|]. cbn in *. rewrite IH by lia. reflexivity.
  - cbn. rewrite IH by lia. reflexivity.
Qed.
Lemma fill_false n : fill (repeat false n) [] = repeat false n.
Proof. induction n; cbn; congruence. Qed.
Lemma fill_none m : fill m (repeat false (count_true m)) = repeat false (length m).
Proof. induction m as [|[] m IH]; [reflexivity| |]; rewrite count_true_cons; cbn; rewrite IH; auto. Qed.
Lemma fill_all : forall n m, length m = n -> fill (repeat true n) m = m.
Proof. induction n; intros [|b m] L; try discriminate; auto. cbn in *. rewrite IHn; auto. Qed.
Lemma keep_fill : forall a b c : list bool, Forall2 no_more b a -> Forall2 no_more c b -> keep a c = fill (keep a b) (keep b c).
Proof.
  induction a as [|x a IH]; intros b c F F'; inversion F as [|y ? b' ? N F1]; subst; inversion F' as [|z ? c' ? N' F1']; subst; auto.
  destruct x, y; try (specialize (N eq_refl); discriminate); cbn.
  - rewrite (IH b' c'); auto.
  - destruct z; [specialize (N' eq_refl); discriminate|]. rewrite (IH b' c'); auto.
  - apply IH; auto.
Qed.
Lemma free_trans : forall t u v, lower t u -> lower u v -> wf t -> still_free t v = fill (still_free t u) (still_free u v).
Proof.
  induction t as [| |s|l|nm ss ls IH] using ptree_ind'; intros u v H H' W; try (inversion H; subst; inversion H'; subst; reflexivity).
  - apply lower_list in H as (liq & -> & N). apply lower_list in H' as (liq' & -> & N'). cbn. apply keep_fill; auto.
  - apply lower_multi in H as (ss1 & ls1 & -> & F & N). apply lower_multi in H' as (ss2 & ls2 & -> & F' & N'). apply wf_split in W as (L & W). cbn [still_free].
    revert ss2 F' ls ls1 ls2 N N' L. induction F as [|s s1 ss ss1 LO F IHF]; intros ss2 F' ls ls1 ls2 N N' L; [reflexivity|].
    inversion F' as [|? s2 ? ss2' LO' F1]; subst. destruct ls as [|b ls]; [discriminate|]. inversion N as [|b1 ? ls1' ? NB N1]; subst. inversion N' as [|b2 ? ls2' ? NB' N1']; subst.
    inversion IH as [|? ? I1 I2]; inversion W as [|? ? W1 W2]; subst. cbn in L. cbn [mask_walk]. fold (mask_walk still_free).
    rewrite (IHF I2 W2 _ F1 ls ls1' ls2' N1 N1') by lia. destruct (free_len s s1 LO W1) as (A & B). destruct (free_len s1 s2 LO' (lower_wf _ _ LO W1)) as (C & D).
    destruct b, b1; try (specialize (NB eq_refl); discriminate).
    + destruct b2.
      * rewrite fill_app by congruence. rewrite <- I1; auto.
      * rewrite fill_app by (rewrite repeat_length; auto). rewrite <- B, fill_none, A. reflexivity.
    + destruct b2; [specialize (NB' eq_refl); discriminate|]. rewrite (fill_app _ _ []) by (rewrite count_none; auto). rewrite fill_false. reflexivity.
    + destruct b2; [specialize (NB' eq_refl); discriminate|]. reflexivity.
Qed.
Lemma walk_app f : forall pre pre' lpre lpre' ss ss' ls ls', length pre = length pre' -> length lpre = length pre -> length lpre' = length pre ->
  mask_walk f (pre ++ ss) (pre' ++ ss') (lpre ++ ls) (lpre' ++ ls') = mask_walk f pre pre' lpre lpre' ++ mask_walk f ss ss' ls ls'.
Proof.
  induction pre as [|s pre IH]; intros [|s' pre'] [|b lpre] [|b' lpre'] ss ss' ls ls' A B C; try discriminate; auto.
  cbn in *. rewrite <- app_assoc, IH by lia. reflexivity.
Qed.
Lemma walk_same (ss : list tree) ls : length ls = length ss -> Forall wf ss -> mask_walk still_free ss ss ls ls = repeat true (cnt ss ls).
Proof.
  intros L W. apply (free_same (PMulti (mkNames [] []) ss ls)). cbn. rewrite fold_and_Forall. auto.
Qed.
Lemma lower_trans : forall t u v, lower t u -> lower u v -> lower t v.
Proof.
  induction t as [| |s|l|nm ss ls IH] using ptree_ind'; intros u v H H'; try (inversion H; subst; exact H').
  - apply lower_list in H as (liq & -> & N). apply lower_list in H' as (liq' & -> & N'). change (with_liquid (with_liquid l liq) liq') with (with_liquid l liq'). apply lo_list.
    eapply no_more_trans; [exact N'|exact N].
  - apply lower_multi in H as (ss1 & ls1 & -> & F & N). apply lower_multi in H' as (ss2 & ls2 & -> & F' & N'). apply lo_multi; [|eapply no_more_trans; eauto].
    clear - IH F F'. revert ss2 F'. induction F; intros ss2 F'; inversion F'; inversion IH; subst; constructor; eauto.
Qed.
Lemma freezes_lower t u m : freezes t u m -> wf t -> lower t u /\ m = still_free t u.
Proof.
  induction 1 as [t|l liq F|nm pre a post lpre lpost LP|nm pre a a' post lpre l lpost m LP R IH|t u v m m' R1 IH1 R2 IH2]; intros W.
  - split; [apply lo_same|]. symmetry. apply free_same. auto.
  - split; [apply lo_list; auto|]. reflexivity.
  - apply wf_split in W as (L & W). apply Forall_app in W as (Wp & Wa). inversion Wa as [|? ? W1 W2]; subst. rewrite !app_length in L. cbn in L.
    split.
    + apply lo_multi; [apply lower_refls|]. apply Forall2_app; [apply no_more_refl|constructor; [intros E; discriminate|apply no_more_refl]].
    + cbn [still_free]. rewrite walk_app by lia. rewrite walk_same by (auto; lia). cbn [mask_walk]. fold (mask_walk still_free). rewrite walk_same by (auto; lia). reflexivity.
  - apply wf_split in W as (L & W). apply Forall_app in W as (Wp & Wa). inversion Wa as [|? ? W1 W2]; subst. rewrite !app_length in L. cbn in L.
    destruct (IH W1) as (A & ->). split.
    + apply lo_multi; [|apply no_more_refl]. apply Forall2_app; [apply lower_refls|constructor; [auto|apply lower_refls]].
    + cbn [still_free]. rewrite walk_app by lia. rewrite walk_same by (auto; lia). cbn [mask_walk]. fold (mask_walk still_free). rewrite walk_same by (auto; lia). destruct l; reflexivity.
  - destruct (IH1 W) as (A & ->). destruct (IH2 (lower_wf _ _ A W)) as (B & ->). split; [eapply lower_trans; eauto|]. symmetry. apply free_trans; auto.
Qed.

(** The flags m of the relation between a fit and the frozen fit are the flags of the
    frozen tree. *)
Theorem C123_mask : forall t u m, freezes t u m -> wf t -> m = still_free t u.
Proof. intros t u m F W. apply (freezes_lower t u m F W). Qed.
(** freezeParamsRecursive(names): the frozen fit has the values of exactly the
    parameters whose flags remain, and the flags that go are those of the positions
    with a requested name (all of them for '*'). *)
Theorem C123_exact : forall ns t, wf t -> names_ok t -> container t -> priors_ok t ->
  exists u, freeze_params_recursive ns t = Ok u /\ freezes t u (still_free t u) /\ get_params u = keep (still_free t u) (get_params t) /\
    forall path f, flag_at t path = Some f ->
      (In star ns \/ requested ns t path -> flag_at u path = Some false) /\ (~ (In star ns \/ requested ns t path) -> flag_at u path = Some f).
Proof.
  intros ns t W N C O. destruct (C07_recursive_flags false true ns t W N C) as (u & E & _ & _ & P).
  exists u. split; [exact E|]. destruct (C123_freeze ns t u W E) as (m & F). pose proof (C123_mask t u m F W) as ->.
  split; [exact F|]. split; [|exact P]. apply (C123_params t u _ F W O).
Qed.

(** ** A case: sources named a and b with a flux and a size each. *)
Section Case.
Let fs := mkNames [("flux", 0%nat); ("size", 1%nat)]%string [(0%nat, "flux"); (1%nat, "size")]%string.
Let ab := mkNames [("a", 0%nat); ("b", 1%nat)]%string [(0%nat, "a"); (1%nat, "b")]%string.
Let src (x y : Q) : tree := PList (mkPlist fs [x; y] [true; true] [None; None] [None; None] [None; None] None [mkPrior "flux" 0 1%Q 1%Q]).
Let t := PMulti ab [src 10 2; src 20 3] [true; true].
Example case_meets : wf t /\ priors_ok t /\ container t /\ names_ok t.
Proof.
  split; [cbn; unfold wf_plist; cbn; repeat split; auto; try discriminate|].
  split; [cbn; repeat split; auto; repeat (constructor; [cbn; split; [lia|intros H; discriminate]|]); constructor|]. split; [exact I|].
  cbn. unfold wf_names. cbn. repeat split; auto;
    (intros; repeat match goal with
       | H : context [String.eqb ?n ?s] |- _ => destruct (String.eqb_spec n s)
       | H : context [Nat.eqb ?n ?s] |- _ => destruct (Nat.eqb_spec n s)
       | H : context [match ?i with O => _ | S _ => _ end] |- _ => destruct i
       end; subst; cbn in *; try discriminate; repeat match goal with H : Some _ = Some _ |- _ => injection H as <- end; subst; auto; lia).
Qed.
Example case_sizes : match freeze_params_recursive ["size"; "b"]%string t with
  | Ok u => still_free t u = [true; false; false; false] /\ get_params u = [10%Q]
  | Err _ => False end.
Proof. split; reflexivity. Qed.
End Case.

Print Assumptions C123_mask.
Print Assumptions C123_exact.
