(** Properties C27, C28: the LRU cache and the cached source models. *)
From Coq Require Import List ZArith Bool Lia Sorting.Permutation.
From Verif Require Import Base CacheModel.
Import ListNotations.

(** ** Specification *)
Section Spec.
Context {K V : Type}.
Variable keq : forall a b : K, {a = b} + {a <> b}.

(** The value of the last store under [k] since the last clear. *)
Fixpoint last_put (k : K) (h : list (cop K V)) : option V :=
  match h with
  | [] => None
  | o :: r =>
      match last_put k r, o with
      | Some v, _ => Some v
      | None, CPut k' v => if keq k k' then
            (if existsb (fun o => match o with CClear => true | _ => false end) r then None else Some v)
          else None
      | None, _ => None
      end
  end.

(** Operation number [i] of the history mentions key [k]. *)
Definition mentions (h : list (cop K V)) (i : nat) (k : K) : Prop :=
  nth_error h i = Some (CGet k) \/ exists v, nth_error h i = Some (CPut k v).

Definition held (n : Z) (h : list (cop K V)) (k : K) : Prop :=
  In k (map fst (cdict (crun keq n h))).

(** Stores are only made for keys that are not held (as a client does that
    looks a key up and stores after a miss). *)
Definition no_overwrite (n : Z) (h : list (cop K V)) : Prop :=
  forall i k v, nth_error h i = Some (CPut k v) -> ~ held n (firstn i h) k.

Definition lookups (h : list (cop K V)) : nat :=
  fold_left (fun a o => match o with CGet _ => Datatypes.S a | CClear => 0 | _ => a end) h 0.
End Spec.

(** ** Lemmas *)
Section Lemmas.
Context {K V : Type}.
Variable keq : forall a b : K, {a = b} + {a <> b}.
Notation keys := (map (@fst K V)).

Lemma find_none k (d : list (K * V)) : od_find keq k d = None <-> ~ In k (keys d).
Proof.
  induction d as [|[k' v] d IH]; simpl; [tauto|].
  destruct (keq k k') as [->|N].
  - split; [discriminate|]. intros H; exfalso; apply H; auto.
  - rewrite IH. split; intros H; [intros [E|E]; [congruence|auto]|auto].
Qed.
Lemma find_some_in k (d : list (K * V)) v : od_find keq k d = Some v -> In (k, v) d.
Proof. induction d as [|[k' v'] d IH]; simpl; [discriminate|].
  destruct (keq k k') as [->|N]; [intros E; injection E; intros ->; auto|auto]. Qed.

Lemma set_new k v (d : list (K * V)) : ~ In k (keys d) -> od_set keq k v d = d ++ [(k, v)].
Proof.
  induction d as [|[k' v'] d IH]; simpl; intros H; auto.
  destruct (keq k k') as [->|N]; [exfalso; apply H; auto|]. rewrite IH; auto.
Qed.
Lemma set_old_keys k v (d : list (K * V)) : In k (keys d) -> keys (od_set keq k v d) = keys d.
Proof.
  induction d as [|[k' v'] d IH]; simpl; [tauto|]. intros H.
  destruct (keq k k') as [->|N]; auto. simpl. rewrite IH; auto. destruct H; congruence.
Qed.
Lemma set_find_same k v (d : list (K * V)) : od_find keq k (od_set keq k v d) = Some v.
Proof.
  induction d as [|[k' v'] d IH]; simpl.
  - destruct (keq k k); congruence.
  - destruct (keq k k') as [->|N]; simpl; [destruct (keq k' k'); congruence|].
    destruct (keq k k'); [congruence|auto].
Qed.
Lemma set_find_other k k2 v (d : list (K * V)) : k <> k2 -> od_find keq k2 (od_set keq k v d) = od_find keq k2 d.
Proof.
  intros N. induction d as [|[k' v'] d IH]; simpl.
  - destruct (keq k2 k); congruence.
  - destruct (keq k k') as [->|N']; simpl.
    + destruct (keq k2 k'); congruence.
    + destruct (keq k2 k'); auto.
Qed.
Lemma remove_keys_in k k2 (d : list (K * V)) : In k2 (keys (od_remove keq k d)) -> In k2 (keys d).
Proof. induction d as [|[k' v'] d IH]; simpl; auto. destruct (keq k k'); simpl; tauto. Qed.
Lemma remove_notin k (d : list (K * V)) : NoDup (keys d) -> ~ In k (keys (od_remove keq k d)).
Proof.
  induction d as [|[k' v'] d IH]; simpl; auto. intros N; inversion N as [|? ? N1 N2]; subst.
  destruct (keq k k') as [->|N']; auto. simpl. intros [E|E]; [congruence|]. apply IH; auto.
Qed.
Lemma remove_nodup k (d : list (K * V)) : NoDup (keys d) -> NoDup (keys (od_remove keq k d)).
Proof.
  induction d as [|[k' v'] d IH]; simpl; auto. intros N; inversion N as [|? ? N1 N2]; subst.
  destruct (keq k k') as [->|N']; auto. simpl. constructor; auto.
  intros E; apply N1. eapply remove_keys_in; eauto.
Qed.
Lemma remove_find_other k k2 (d : list (K * V)) : k <> k2 ->
  od_find keq k2 (od_remove keq k d) = od_find keq k2 d.
Proof.
  intros N. induction d as [|[k' v'] d IH]; simpl; auto.
  destruct (keq k k') as [->|N']; simpl.
  - destruct (keq k2 k'); congruence.
  - destruct (keq k2 k'); auto.
Qed.
Lemma remove_length k (d : list (K * V)) : In k (keys d) -> Datatypes.S (length (od_remove keq k d)) = length d.
Proof.
  induction d as [|[k' v'] d IH]; simpl; [tauto|]. intros H.
  destruct (keq k k') as [->|N']; auto. simpl. rewrite IH; auto. destruct H; congruence.
Qed.
Lemma remove_in_other k k2 (d : list (K * V)) : k <> k2 -> In k2 (keys d) -> In k2 (keys (od_remove keq k d)).
Proof.
  intros N. induction d as [|[k' v'] d IH]; simpl; auto. intros [E|E]; destruct (keq k k'); simpl; auto; congruence.
Qed.

(** The state after one more operation. *)
Lemma crun_snoc n (h : list (cop K V)) o : crun keq n (h ++ [o]) = cstep keq (crun keq n h) o.
Proof. unfold crun. rewrite fold_left_app. reflexivity. Qed.
Lemma crun_max n (h : list (cop K V)) : cmax (crun keq n h) = n.
Proof.
  induction h as [|o h IH] using rev_ind; auto. rewrite crun_snoc. destruct o; simpl; auto.
  - unfold cache_getitem. destruct (od_find keq k _); simpl; auto.
  - unfold cache_put. destruct (_ >=? _)%Z; [destruct (cdict (crun keq n h))|]; simpl; auto.
Qed.

Lemma nodup_snoc {A} (l : list A) x : NoDup l -> ~ In x l -> NoDup (l ++ [x]).
Proof. intros. rewrite <- (rev_involutive (l ++ [x])). apply NoDup_rev.
  rewrite rev_app_distr. simpl. constructor; [rewrite <- in_rev; auto|apply NoDup_rev; auto]. Qed.

Lemma set_nodup k v (d : list (K * V)) : NoDup (keys d) -> NoDup (keys (od_set keq k v d)).
Proof.
  intros N. destruct (in_dec keq k (keys d)).
  - rewrite set_old_keys; auto.
  - rewrite set_new, map_app by auto. apply nodup_snoc; auto.
Qed.
Lemma set_len k v (d : list (K * V)) : length (od_set keq k v d) <= Datatypes.S (length d).
Proof.
  induction d as [|[k' v'] d IH]; simpl; auto. destruct (keq k k'); simpl; lia. Qed.

Lemma crun_wf n (h : list (cop K V)) : (1 <= n)%Z ->
  NoDup (keys (cdict (crun keq n h))) /\ (Z.of_nat (length (cdict (crun keq n h))) <= n)%Z.
Proof.
  intros Hn. induction h as [|o h IH] using rev_ind; [simpl; split; [constructor|lia]|].
  destruct IH as (ND & LE). rewrite crun_snoc. pose proof (crun_max n h) as MX.
  destruct (crun keq n h) as [d hi mi mx]; simpl in *; subst mx.
  destruct o as [k|k v|]; simpl; [| |split; [constructor|lia]].
  - unfold cache_getitem; simpl. destruct (od_find keq k d) as [v|] eqn:E; simpl; auto.
    assert (In k (keys d)) by (apply (in_map fst _ _ (find_some_in _ _ _ E))).
    rewrite set_new by (apply remove_notin; auto). rewrite map_app, app_length. simpl. split.
    + apply nodup_snoc; [apply remove_nodup; auto|apply remove_notin; auto].
    + pose proof (remove_length k d H). lia.
  - unfold cache_put; simpl. destruct (Z.geb_spec (Z.of_nat (length d)) n); simpl.
    + destruct d as [|e d]; simpl in *; [lia|]. inversion ND as [|? ? N1 N2]; subst. split.
      * apply set_nodup; auto.
      * pose proof (set_len k v d). lia.
    + split; [apply set_nodup; auto|]. pose proof (set_len k v d). lia.
Qed.

Lemma last_put_snoc k (h : list (cop K V)) o : last_put keq k (h ++ [o]) =
  match o with
  | CPut k' v => if keq k k' then Some v else last_put keq k h
  | CClear => None
  | CGet _ => last_put keq k h
  end.
Proof.
  induction h as [|a h IH]; simpl.
  - destruct o; auto.
  - rewrite IH. rewrite existsb_app. simpl. rewrite orb_false_r.
    destruct o as [k'|k' v|].
    + rewrite orb_false_r. reflexivity.
    + destruct (keq k k'); auto. rewrite orb_false_r. reflexivity.
    + rewrite orb_true_r. destruct a; auto. destruct (keq k k0); auto.
Qed.

Lemma crun_last_put n (h : list (cop K V)) k v : (1 <= n)%Z ->
  od_find keq k (cdict (crun keq n h)) = Some v -> last_put keq k h = Some v.
Proof.
  intros Hn. revert k v. induction h as [|o h IH] using rev_ind; [discriminate|].
  intros k v. rewrite crun_snoc, last_put_snoc.
  destruct (crun_wf n h Hn) as (ND & LE). pose proof (crun_max n h) as MX.
  destruct (crun keq n h) as [d hi mi mx]; simpl in *; subst mx.
  destruct o as [k'|k' v'|]; simpl; [| |discriminate].
  - unfold cache_getitem; simpl. destruct (od_find keq k' d) as [w|] eqn:E; simpl; auto.
    destruct (keq k' k) as [->|N].
    + rewrite set_find_same. intros Q; injection Q; intros ->. apply IH; auto.
    + rewrite set_find_other, remove_find_other by auto. auto.
  - unfold cache_put; simpl. destruct (Z.geb_spec (Z.of_nat (length d)) n) as [G|G]; simpl.
    + destruct d as [|[ke ve] d]; simpl in *; [lia|]. inversion ND as [|? ? N1 N2]; subst.
      destruct (keq k k') as [->|N].
      * rewrite set_find_same. auto.
      * rewrite set_find_other by auto. intros Q. apply IH.
        destruct (keq k ke) as [->|]; auto. exfalso. apply N1.
        apply (in_map fst _ _ (find_some_in _ _ _ Q)).
    + destruct (keq k k') as [->|N].
      * rewrite set_find_same. auto.
      * rewrite set_find_other by auto. apply IH.
Qed.

(** Recency order. *)
Definition older (h : list (cop K V)) (a b : K) : Prop :=
  exists j, mentions h j b /\ forall i, mentions h i a -> i < j.

Lemma mentions_lt h i (k : K) : mentions (V := V) h i k -> i < length h.
Proof. intros [H|(v & H)]; apply nth_error_Some; congruence. Qed.
Lemma mentions_app h o i (k : K) : i < length h -> (mentions (V := V) (h ++ [o]) i k <-> mentions h i k).
Proof. intros. unfold mentions. rewrite !nth_error_app1 by auto. tauto. Qed.
Lemma mentions_last h o i (k : K) : mentions (V := V) (h ++ [o]) i k ->
  mentions h i k \/ (i = length h /\ (o = CGet k \/ exists v, o = CPut k v)).
Proof.
  intros M. pose proof (mentions_lt _ _ _ M) as L. rewrite app_length in L; simpl in L.
  destruct (Nat.lt_ge_cases i (length h)).
  - left. rewrite mentions_app in M; auto.
  - right. assert (i = length h) by lia. subst. split; auto.
    unfold mentions in M. rewrite nth_error_app2, Nat.sub_diag in M by lia. simpl in M.
    destruct M as [M|(v & M)]; injection M; intros ->; eauto.
Qed.
Lemma older_snoc h o a b : older h a b -> o <> CGet a -> (forall v, o <> CPut a v) -> older (h ++ [o]) a b.
Proof.
  intros (j & M & L) N1 N2. exists j. pose proof (mentions_lt _ _ _ M). split.
  - apply mentions_app; auto.
  - intros i Mi. apply mentions_last in Mi. destruct Mi as [Mi|(-> & [E|(v & E)])]; [auto|congruence|].
    exfalso; apply (N2 v); auto.
Qed.
Lemma older_new h o a b : o = CGet b \/ (exists v, o = CPut b v) -> a <> b -> older (h ++ [o]) a b.
Proof.
  intros Ho N. exists (length h). split.
  - unfold mentions. rewrite nth_error_app2, Nat.sub_diag by lia. simpl.
    destruct Ho as [->|(v & ->)]; eauto.
  - intros i Mi. apply mentions_last in Mi. destruct Mi as [Mi|(-> & [E|(v & E)])].
    + apply mentions_lt in Mi; auto.
    + destruct Ho as [->|(v & ->)]; congruence.
    + destruct Ho as [->|(v' & ->)]; congruence.
Qed.

Inductive ordered (R : K -> K -> Prop) : list K -> Prop :=
| ord_nil : ordered R []
| ord_cons a l : Forall (R a) l -> ordered R l -> ordered R (a :: l).

Lemma ordered_snoc R l x : ordered R l -> Forall (fun a => R a x) l -> ordered R (l ++ [x]).
Proof.
  induction l as [|a l IH]; simpl; intros O F; [repeat constructor|].
  inversion O; inversion F; subst. constructor; auto. apply Forall_app; auto.
Qed.
Lemma ordered_impl (R R' : K -> K -> Prop) l : (forall a b, In a l -> In b l -> R a b -> R' a b) ->
  ordered R l -> ordered R' l.
Proof.
  induction l as [|a l IH]; intros H O; constructor; inversion O; subst.
  - rewrite Forall_forall in *. intros; apply H; simpl; auto.
  - apply IH; auto. intros; apply H; simpl; auto.
Qed.
Lemma ordered_remove R k (d : list (K * V)) : ordered R (keys d) -> ordered R (keys (od_remove keq k d)).
Proof.
  induction d as [|[k' v'] d IH]; simpl; auto. intros O; inversion O as [|? ? F O']; subst.
  destruct (keq k k'); auto. simpl. constructor; auto.
  rewrite Forall_forall in *. intros x Hx. apply F. eapply remove_keys_in; eauto.
Qed.

Lemma no_overwrite_prefix n (h : list (cop K V)) o : no_overwrite keq n (h ++ [o]) -> no_overwrite keq n h.
Proof.
  intros H i k v E. assert (i < length h) by (apply nth_error_Some; congruence).
  specialize (H i k v). rewrite nth_error_app1 in H by auto.
  rewrite firstn_app in H. replace (i - length h) with 0 in H by lia. simpl in H.
  rewrite app_nil_r in H. auto.
Qed.
Lemma no_overwrite_last n (h : list (cop K V)) k v : no_overwrite keq n (h ++ [CPut k v]) -> ~ held keq n h k.
Proof.
  intros H. specialize (H (length h) k v). rewrite nth_error_app2, Nat.sub_diag in H by lia.
  rewrite firstn_app, firstn_all, Nat.sub_diag in H. simpl in H. rewrite app_nil_r in H. auto.
Qed.

Lemma crun_ordered n (h : list (cop K V)) : (1 <= n)%Z -> no_overwrite keq n h ->
  ordered (older h) (keys (cdict (crun keq n h))).
Proof.
  intros Hn. induction h as [|o h IH] using rev_ind; [constructor|].
  intros NO. specialize (IH (no_overwrite_prefix _ _ _ NO)).
  destruct (crun_wf n h Hn) as (ND & LE). pose proof (crun_max n h) as MX.
  rewrite crun_snoc.
  assert (NH : forall k v, o = CPut k v -> ~ In k (keys (cdict (crun keq n h)))).
  { intros k v ->. apply no_overwrite_last in NO. exact NO. }
  destruct (crun keq n h) as [d hi mi mx]; simpl in *; subst mx.
  destruct o as [k|k v|]; simpl; [| |constructor].
  - unfold cache_getitem; simpl. destruct (od_find keq k d) as [v|] eqn:E; simpl.
    + pose proof (remove_notin k d ND) as NI.
      rewrite set_new by auto. rewrite map_app. simpl. apply ordered_snoc.
      * eapply ordered_impl; [|apply ordered_remove; eauto].
        intros a b Ha Hb R. apply older_snoc; auto; try discriminate. intros Q; injection Q; intros ->. auto.
      * apply Forall_forall. intros a Ha. apply older_new; auto. intros ->; auto.
    + rewrite find_none in E. eapply ordered_impl; [|eauto].
      intros a b Ha Hb R. apply older_snoc; auto; try discriminate. intros Q; injection Q; intros ->. auto.
  - specialize (NH k v eq_refl). unfold cache_put; simpl.
    assert (G : forall d', (forall x, In x (keys d') -> In x (keys d)) -> ordered (older h) (keys d') ->
      ordered (older (h ++ [CPut k v])) (keys (od_set keq k v d'))).
    { intros d' SUB O. assert (~ In k (keys d')) by auto. rewrite set_new, map_app by auto.
      simpl. apply ordered_snoc.
      - eapply ordered_impl; [|exact O]. intros a b Ha Hb R. apply older_snoc; auto; try discriminate.
        intros w Q. injection Q; intros; subst. auto.
      - apply Forall_forall. intros a Ha. apply older_new; eauto. intros ->; auto. }
    destruct (Z.geb_spec (Z.of_nat (length d)) n); simpl.
    + destruct d as [|e d]; simpl in *; [lia|]. apply G; auto. inversion IH; auto.
    + apply G; auto.
Qed.
End Lemmas.

(** ** C27 *)

(** At most [n] entries, with distinct keys, after any history. *)
Theorem C27_capacity : forall (K V : Type) keq n (h : list (cop K V)), (1 <= n)%Z ->
  NoDup (map fst (cdict (crun keq n h))) /\ (Z.of_nat (length (cdict (crun keq n h))) <= n)%Z.
Proof. intros; apply crun_wf; auto. Qed.

(** A lookup returns the last value stored under the key if the key is held,
    and a KeyError (or the default) otherwise. *)
Theorem C27_lookup : forall (K V : Type) keq n (h : list (cop K V)) k dflt, (1 <= n)%Z ->
  (held keq n h k -> exists v, last_put keq k h = Some v /\
     snd (cache_getitem keq (crun keq n h) k) = Ok v /\ snd (cache_get keq (crun keq n h) k dflt) = v) /\
  (~ held keq n h k -> snd (cache_getitem keq (crun keq n h) k) = Err KeyError /\
     snd (cache_get keq (crun keq n h) k dflt) = dflt).
Proof.
  intros K V keq n h k dflt Hn. unfold held. rewrite <- (find_none keq).
  unfold cache_get, cache_getitem. destruct (od_find keq k (cdict (crun keq n h))) as [v|] eqn:E; simpl.
  - split; [|congruence]. intros _. exists v. split; auto. eapply crun_last_put; eauto.
  - split; auto. intros H. apply find_none in E. tauto.
Qed.

(** Storing succeeds and makes the key held with that value. *)
Theorem C27_store : forall (K V : Type) keq n (h : list (cop K V)) k v, (1 <= n)%Z ->
  (exists c, cache_put keq (crun keq n h) k v = Ok c) /\
  held keq n (h ++ [CPut k v]) k /\ snd (cache_getitem keq (crun keq n (h ++ [CPut k v])) k) = Ok v.
Proof.
  intros K V keq n h k v Hn. unfold held. rewrite crun_snoc. simpl. unfold cache_put.
  pose proof (crun_max keq n h) as MX. destruct (crun keq n h) as [d hi mi mx]; simpl in *; subst mx.
  assert (G : forall d', In k (map fst (od_set keq k v d')) /\
     snd (cache_getitem keq (mkCache (od_set keq k v d') hi mi n) k) = Ok v).
  { intros d'. unfold cache_getitem; simpl. rewrite set_find_same. split; auto.
    apply (in_map fst _ _ (find_some_in keq _ _ _ (set_find_same keq k v d'))). }
  destruct (Z.geb_spec (Z.of_nat (length d)) n); simpl; [destruct d; simpl in *; [lia|]|]; simpl; eauto.
Qed.

(** Room left: nothing is evicted. *)
Theorem C27_no_needless_eviction : forall (K V : Type) keq n (h : list (cop K V)) k v k', (1 <= n)%Z ->
  (Z.of_nat (length (cdict (crun keq n h))) < n)%Z ->
  held keq n h k' -> held keq n (h ++ [CPut k v]) k'.
Proof.
  intros K V keq n h k v k' Hn LT. unfold held. rewrite crun_snoc. simpl. unfold cache_put.
  pose proof (crun_max keq n h) as MX. destruct (crun keq n h) as [d hi mi mx]; simpl in *; subst mx.
  destruct (Z.geb_spec (Z.of_nat (length d)) n); [lia|]. simpl. intros HI.
  destruct (in_dec keq k (map fst d)).
  - rewrite set_old_keys; auto.
  - rewrite set_new, map_app by auto. apply in_or_app; auto.
Qed.

(** Full cache, new key: exactly one entry is evicted, the one whose last
    mention in the history is the oldest of all held entries. *)
Theorem C27_evicts_least_recently_used : forall (K V : Type) keq n (h : list (cop K V)) k v, (1 <= n)%Z ->
  no_overwrite keq n h -> Z.of_nat (length (cdict (crun keq n h))) = n -> ~ held keq n h k ->
  exists victim, held keq n h victim /\ ~ held keq n (h ++ [CPut k v]) victim /\
    forall k', held keq n h k' -> k' <> victim ->
      held keq n (h ++ [CPut k v]) k' /\
      exists j, mentions h j k' /\ forall i, mentions h i victim -> i < j.
Proof.
  intros K V keq n h k v Hn NO FULL NH. pose proof (crun_ordered keq n h Hn NO) as ORD.
  destruct (crun_wf keq n h Hn) as (ND & LE).
  unfold held in *. rewrite crun_snoc. simpl. unfold cache_put.
  pose proof (crun_max keq n h) as MX. destruct (crun keq n h) as [d hi mi mx]; simpl in *; subst mx.
  destruct (Z.geb_spec (Z.of_nat (length d)) n); [|lia].
  destruct d as [|[kv vv] d]; simpl in *; [lia|].
  inversion ND as [|? ? N1 N2]; subst. inversion ORD as [|? ? F O]; subst.
  assert (~ In k (map fst d)) by tauto.
  exists kv. split; auto. rewrite set_new, map_app by auto. simpl. split.
  - rewrite in_app_iff. simpl. intros [?|[->|[]]]; tauto.
  - intros k' [->|HI] N; [tauto|]. split; [apply in_or_app; auto|].
    rewrite Forall_forall in F. apply F; auto.
Qed.

(** Hit and miss counts add up to the lookups since the last clear, and a
    lookup counts as a hit exactly when the key is held. *)
Theorem C27_counters : forall (K V : Type) keq n (h : list (cop K V)),
  chits (crun keq n h) + cmisses (crun keq n h) = lookups h /\
  (forall k, held keq n h k -> chits (crun keq n (h ++ [CGet k])) = S (chits (crun keq n h)) /\
                               cmisses (crun keq n (h ++ [CGet k])) = cmisses (crun keq n h)) /\
  (forall k, ~ held keq n h k -> chits (crun keq n (h ++ [CGet k])) = chits (crun keq n h) /\
                                 cmisses (crun keq n (h ++ [CGet k])) = S (cmisses (crun keq n h))) /\
  (forall k v, chits (crun keq n (h ++ [CPut k v])) = chits (crun keq n h) /\
               cmisses (crun keq n (h ++ [CPut k v])) = cmisses (crun keq n h)).
Proof.
  intros K V keq n h. split; [|split; [|split]].
  2:{ intros k H. unfold held in H. rewrite crun_snoc. simpl. unfold cache_getitem.
      destruct (od_find keq k (cdict (crun keq n h))) eqn:E; [simpl; auto|].
      exfalso. apply (find_none keq) in E. tauto. }
  2:{ intros k H. unfold held in H. rewrite <- (find_none keq) in H. rewrite crun_snoc. simpl. unfold cache_getitem.
      rewrite H. simpl. auto. }
  2:{ intros k v. rewrite crun_snoc. simpl. unfold cache_put.
      destruct (_ >=? _)%Z; [destruct (cdict _)|]; simpl; auto. }
  induction h as [|o h IH] using rev_ind; auto.
  rewrite crun_snoc. unfold lookups. rewrite fold_left_app. simpl. fold (lookups h). rewrite <- IH.
  destruct (crun keq n h) as [d hi mi mx]; destruct o; simpl; auto.
  - unfold cache_getitem; simpl. destruct (od_find keq k d); simpl; lia.
  - unfold cache_put; simpl. destruct (_ >=? mx)%Z; [destruct d|]; simpl; auto.
Qed.

(** Without the no-overwrite condition the cache is not LRU: overwriting a
    held key does not count as a use (key 1 is mentioned after key 2, yet it
    is evicted and key 2 stays)... *)
Theorem C27_overwrite_is_not_a_use_refuted : exists (h : list (cop Z Z)),
  held Z.eq_dec 3 h 1%Z /\ held Z.eq_dec 3 h 2%Z /\
  mentions h 2 1%Z /\ (forall i, mentions h i 2%Z -> i < 2) /\
  ~ held Z.eq_dec 3 (h ++ [CPut 4%Z 40%Z]) 1%Z /\ held Z.eq_dec 3 (h ++ [CPut 4%Z 40%Z]) 2%Z.
Proof.
  exists [CPut 1%Z 10%Z; CPut 2%Z 20%Z; CPut 1%Z 11%Z; CPut 3%Z 30%Z]. unfold held. vm_compute.
  split; auto. split; auto. split; [right; eauto|]. split; [|split].
  - intros i [E|(v & E)]; do 5 (destruct i as [|i]; simpl in E; try discriminate; try lia);
      destruct i; discriminate.
  - intros [E|[E|[E|[]]]]; discriminate.
  - auto.
Qed.

(** ... and overwriting a held key in a full cache evicts another entry. *)
Theorem C27_overwrite_evicts_refuted : exists (h : list (cop Z Z)),
  held Z.eq_dec 2 h 1%Z /\ held Z.eq_dec 2 h 2%Z /\
  held Z.eq_dec 2 (h ++ [CPut 1%Z 11%Z]) 1%Z /\ ~ held Z.eq_dec 2 (h ++ [CPut 1%Z 11%Z]) 2%Z.
Proof.
  exists [CPut 2%Z 20%Z; CPut 1%Z 10%Z]. unfold held. vm_compute.
  split; auto. split; auto. split; auto. intros [E|[]]; discriminate.
Qed.

(** A cache of capacity 0 cannot be stored into. *)
Theorem C27_zero_capacity_raises : forall (K V : Type) keq (k : K) (v : V),
  cache_put keq (cache_new 0) k v = Err KeyError.
Proof. reflexivity. Qed.

(** Capacity 2; key 1 is used again, so key 2 is the victim of key 3. *)
Example C27_ex : let h := [CPut 1 10; CPut 2 20; CGet 1]%Z in
  (1 <= 2)%Z /\ no_overwrite Z.eq_dec 2 h /\ Z.of_nat (length (cdict (crun Z.eq_dec 2 h))) = 2%Z /\
  ~ held Z.eq_dec 2 h 3%Z /\ map fst (cdict (crun Z.eq_dec 2 (h ++ [CPut 3 30]%Z))) = [1; 3]%Z.
Proof.
  simpl. split; [lia|]. split; [|split; [reflexivity|split; [|reflexivity]]].
  - intros i k v E. unfold held. destruct i as [|[|[|i]]]; simpl in E; try discriminate.
    + simpl; tauto.
    + injection E; intros; subst. vm_compute. intros [Q|[]]; discriminate.
    + destruct i; discriminate.
  - unfold held. vm_compute. intros [Q|[Q|[]]]; discriminate.
Qed.

(** ** C28 *)
Section C28.
Context {K P M I S B D : Type}.
Variable keq : forall a b : K, {a = b} + {a <> b}.
Variable hk : P -> I -> S -> K.
Variable base : P -> M -> I -> S -> B -> option D.
Variable base0 : P -> M -> I -> S -> option D.
Variable mgt : B -> B -> bool.
Variable zero_sb : B.
Variable minval : P -> I -> B.
Variable fin : D -> bool.

(** Equal hash keys mean equal models, for given masks. *)
Definition keys_determine_models : Prop :=
  forall m p i s p' i' s' b, hk p i s = hk p' i' s' -> base p m i s b = base p' m i' s' b.

(** Every change of the masks is followed at once by clearing the cache. *)
Fixpoint masks_then_clear (h : list (@mop P M I S B)) : Prop :=
  match h with
  | [] => True
  | MMasks _ :: r => match r with MClear :: r' => masks_then_clear r' | _ => False end
  | _ :: r => masks_then_clear r
  end.

(** A request is answered with the model rendered now, at some brightness
    limit not above the requested one; it raises only if that model has
    non-finite pixels. *)
Definition transparent (o : @mout P M I S B D) : Prop :=
  let req := match omin o with Some b => b | None => minval (op_ o) (oi o) end in
  exists b, (mgt b req = false \/ b = req) /\
    let md := base (op_ o) (om o) (oi o) (os o) b in
    match md with
    | Some d => ores o = if fin d then Ok md else Err AssertionError
    | None => ores o = Ok None
    end.

Definition entry_ok (m : M) (e : K * (B * option D)) : Prop :=
  exists p i s, fst e = hk p i s /\ snd (snd e) = base p m i s (fst (snd e)).

Lemma set_in k (v : B * option D) d e : In e (od_set keq k v d) -> In e d \/ e = (k, v).
Proof.
  induction d as [|[k' v'] d IH]; simpl; [intros [<-|[]]; auto|].
  destruct (keq k k') as [->|]; simpl; [|tauto]. intros [<-|?]; auto.
Qed.
Lemma remove_in k (d : list (K * (B * option D))) e : In e (od_remove keq k d) -> In e d.
Proof. induction d as [|[k' v'] d IH]; simpl; auto. destruct (keq k k'); simpl; tauto. Qed.

Lemma put_ok m c k v : (1 <= cmax c)%Z -> Forall (entry_ok m) (cdict c) -> entry_ok m (k, v) ->
  exists c', cache_put keq c k v = Ok c' /\ cmax c' = cmax c /\ Forall (entry_ok m) (cdict c').
Proof.
  intros Hn F E. unfold cache_put.
  assert (G : forall d, (forall e, In e d -> In e (cdict c)) -> Forall (entry_ok m) (od_set keq k v d)).
  { intros d SUB. rewrite Forall_forall in *. intros e He. apply set_in in He. destruct He as [He| ->]; auto. }
  destruct (Z.geb_spec (Z.of_nat (length (cdict c))) (cmax c)); simpl.
  - destruct (cdict c) as [|e d] eqn:ED; simpl in *; [lia|].
    eexists; split; [reflexivity|]. split; auto. simpl. apply G. simpl; auto.
  - eexists; split; [reflexivity|]. split; auto. simpl. apply G; auto.
Qed.

Lemma mixin_get_ok p m c i s b : keys_determine_models -> (1 <= cmax c)%Z -> Forall (entry_ok m) (cdict c) ->
  exists c' r, mixin_get keq hk base base0 mgt zero_sb minval fin p m (Some c) i s b = (Some c', r) /\
    transparent (mkOut p m i s b r) /\ cmax c' = cmax c /\ Forall (entry_ok m) (cdict c').
Proof.
  intros HK Hn F. unfold mixin_get, cache_get, cache_getitem.
  set (req := match b with Some b0 => b0 | None => minval p i end).
  assert (MISS : forall c1, cmax c1 = cmax c -> Forall (entry_ok m) (cdict c1) ->
    exists c' r, match cache_put keq c1 (hk p i s) (req, base p m i s req) with
       | Ok c2 => (Some c2, match base p m i s req with
                     | Some d => if fin d then Ok (base p m i s req) else Err AssertionError
                     | None => Ok None end)
       | Err e => (Some c1, Err e) end = (Some c', r) /\
    transparent (mkOut p m i s b r) /\ cmax c' = cmax c /\ Forall (entry_ok m) (cdict c')).
  { intros c1 E1 F1.
    destruct (put_ok m c1 (hk p i s) (req, base p m i s req)) as (c' & -> & E2 & F2); auto; [lia| |].
    { exists p, i, s. split; auto. }
    do 2 eexists. split; [reflexivity|]. split; [|split; [congruence|auto]].
    unfold transparent; simpl. fold req. exists req. split; auto.
    destruct (base p m i s req); auto. }
  destruct (od_find keq (hk p i s) (cdict c)) as [[mv md]|] eqn:E; simpl.
  - assert (EO : entry_ok m (hk p i s, (mv, md))).
    { rewrite Forall_forall in F. apply F. eapply find_some_in; eauto. }
    assert (FR : Forall (entry_ok m) (od_set keq (hk p i s) (mv, md) (od_remove keq (hk p i s) (cdict c)))).
    { rewrite Forall_forall in *. intros e He. apply set_in in He. destruct He as [He| ->]; auto.
      apply F. eapply remove_in; eauto. }
    destruct (mgt mv req) eqn:G.
    + fold req in MISS |- *. apply MISS; auto.
    + destruct md as [d|].
      * do 2 eexists. split; [reflexivity|]. split; [|split; auto].
        unfold transparent; simpl. fold req. exists mv. split; auto.
        destruct EO as (p' & i' & s' & E1 & E2). simpl in *.
        rewrite (HK m p i s p' i' s' mv E1), <- E2. auto.
      * apply MISS; auto.
  - destruct (mgt zero_sb req); apply MISS; auto.
Qed.
End C28.

(** With hash keys that determine the model (for given masks), a cache of any
    capacity >= 1, and masks only changed together with clearing the cache,
    every request in any history is answered as if there were no cache. *)
Theorem C28_transparent : forall (K P M I S B D : Type) keq (hk : P -> I -> S -> K)
    (base : P -> M -> I -> S -> B -> option D) base0 mgt zero_sb minval fin p m n h,
  keys_determine_models hk base -> (1 <= n)%Z -> masks_then_clear h ->
  Forall (transparent base mgt minval fin)
    (mrun keq hk base base0 mgt zero_sb minval fin p m (cache_new n) h).
Proof.
  intros K P M I S B D keq hk base base0 mgt zero_sb minval fin p m n h HK Hn HM.
  assert (G : forall h p m c, masks_then_clear h -> (1 <= cmax c)%Z ->
     Forall (entry_ok hk base m) (cdict c) ->
     Forall (transparent base mgt minval fin)
       (mrun keq hk base base0 mgt zero_sb minval fin p m c h)).
  2:{ apply G; auto. constructor. }
  clear p m h HM n Hn.
  assert (G2 : forall N h p m c, length h <= N -> masks_then_clear h -> (1 <= cmax c)%Z ->
     Forall (entry_ok hk base m) (cdict c) ->
     Forall (transparent base mgt minval fin)
       (mrun keq hk base base0 mgt zero_sb minval fin p m c h)).
  2:{ intros; eapply G2; eauto. }
  induction N as [|N IH]; intros h p m c HN HM Hn F.
  { destruct h; simpl in *; [constructor|lia]. }
  destruct h as [|[i s b|p'|m'|] h]; cbn [mrun]; simpl in HN.
  - constructor.
  - destruct (mixin_get_ok keq hk base base0 mgt zero_sb minval fin p m c i s b HK Hn F)
      as (c' & r & EQ & T & E & F'). unfold mcache in *. rewrite EQ. constructor; auto. apply IH; auto; [lia|lia].
  - apply IH; auto; lia.
  - simpl in HM. destruct h as [|[| | |] h]; try contradiction. cbn [mrun].
    simpl in HN. apply IH; auto; [lia|]. constructor.
  - apply IH; auto; [lia|]. constructor.
Qed.

(** Masks are not part of the key: changing them without clearing the cache
    makes it return the model of the old mask. *)
Theorem C28_mask_change_refuted :
  exists (hk : unit -> unit -> unit -> Z) (base : unit -> Z -> unit -> unit -> Z -> option Z) p m h o,
    keys_determine_models hk base /\
    In o (mrun Z.eq_dec hk base (fun p m i s => base p m i s 0%Z) Z.gtb 0%Z (fun _ _ => 0%Z) (fun _ => true)
            p m (cache_new 1000) h) /\
    ores o <> Ok (base (op_ o) (om o) (oi o) (os o) 0%Z) /\
    ~ transparent base Z.gtb (fun _ _ => 0%Z) (fun _ => true) o.
Proof.
  exists (fun _ _ _ => 7%Z), (fun _ m _ _ _ => Some m), tt, 1%Z,
    [MRequest tt tt None; MMasks 2%Z; MRequest tt tt None].
  eexists. split; [intros m p i s p' i' s' b E; reflexivity|]. split; [simpl; right; left; reflexivity|].
  simpl. split; [discriminate|]. intros (b & _ & Q). simpl in Q. discriminate.
Qed.

(** Two sources with equal keys but different masks in the same image get the
    same model. *)
Theorem C28_twin_sources_refuted :
  exists (hk : unit -> unit -> bool -> Z) (base : unit -> (bool -> Z) -> unit -> bool -> Z -> option Z) p m h o,
    (forall s s', hk p tt s = hk p tt s') /\
    In o (mrun Z.eq_dec hk base (fun p m i s => base p m i s 0%Z) Z.gtb 0%Z (fun _ _ => 0%Z) (fun _ => true)
            p m (cache_new 1000) h) /\
    (forall b, ores o <> Ok (base (op_ o) (om o) (oi o) (os o) b)).
Proof.
  exists (fun _ _ _ => 7%Z), (fun _ m _ s _ => Some (m s)), tt, (fun s : bool => if s then 1%Z else 2%Z),
    [MRequest tt true None; MRequest tt false None].
  eexists. split; [reflexivity|]. split; [simpl; right; left; reflexivity|]. simpl. discriminate.
Qed.

(** With the cache disabled the requested limit is not passed on. *)
Theorem C28_disabled_cache_drops_limit_refuted :
  exists (base : unit -> unit -> unit -> unit -> Z -> option Z),
    let base0 := fun p m i s => base p m i s 10%Z in
    snd (mixin_get Z.eq_dec (fun _ _ _ => 0%Z) base base0 Z.gtb 0%Z (fun _ _ => 10%Z) (fun _ => true)
          tt tt None tt tt (Some 0%Z)) <> Ok (base tt tt tt tt 0%Z).
Proof. exists (fun _ _ _ _ b => Some b). simpl. discriminate. Qed.

(** A history with a parameter change, a finer request and a cleared mask
    change, with an LRU cache of capacity 1; the model is 100*mask+10*param
    and the key the parameter. *)
Example C28_ex :
  let base := fun (p : Z) (m : Z) (_ _ : unit) (b : Z) => Some (100 * m + 10 * p)%Z in
  keys_determine_models (fun p (_ _ : unit) => p) base /\
  masks_then_clear [MRequest tt tt (Some 5%Z); MRequest tt tt (Some 3%Z); MParams 2%Z;
     MRequest tt tt None; MMasks 4%Z; MClear; MRequest tt tt None] /\
  map ores (mrun Z.eq_dec (fun p _ _ => p) base (fun p m i s => base p m i s 0%Z) Z.gtb 0%Z
     (fun _ _ => 0%Z) (fun _ => true) 1%Z 3%Z (cache_new 1)
     [MRequest tt tt (Some 5%Z); MRequest tt tt (Some 3%Z); MParams 2%Z;
     MRequest tt tt None; MMasks 4%Z; MClear; MRequest tt tt None])
  = [Ok (Some 310); Ok (Some 310); Ok (Some 320); Ok (Some 420)]%Z.
Proof. simpl. split; [|split; [exact Logic.I|reflexivity]]. intros m p i s p' i' s' b E. subst. reflexivity. Qed.

Print Assumptions C27_capacity.
Print Assumptions C27_lookup.
Print Assumptions C27_store.
Print Assumptions C27_no_needless_eviction.
Print Assumptions C27_evicts_least_recently_used.
Print Assumptions C27_counters.
Print Assumptions C28_transparent.
Print Assumptions C28_mask_change_refuted.
Print Assumptions C28_twin_sources_refuted.
Print Assumptions C28_disabled_cache_drops_limit_refuted.
