(** C100: the bundled ordered dictionary (tractor/ordereddict.py) is a
    dictionary that keeps its keys in the order of their first insertion. *)
From Coq Require Import List Arith Bool Lia.
From Verif Require Import Base OdictModel.
Import ListNotations.
Local Open Scope list_scope.

Section Props.
Context {K V : Type} (K_eq : forall a b : K, {a = b} + {a <> b}).
Notation odict := (@odict K V). Notation find := (find K_eq). Notation del := (del K_eq). Notation store := (store K_eq).
Notation setitem := (setitem K_eq). Notation delitem := (delitem K_eq). Notation getitem := (getitem K_eq).
Notation pop := (pop K_eq). Notation popitem := (popitem K_eq). Notation setdefault := (setdefault K_eq). Notation update := (update K_eq).

(** ** Specification: a list of pairs *)
Fixpoint s_set (l : list (K * V)) (k : K) (v : V) : list (K * V) :=
  match l with [] => [(k, v)] | (k', u) :: l => if K_eq k k' then (k', v) :: l else (k', u) :: s_set l k v end.
Definition s_del (l : list (K * V)) (k : K) : list (K * V) := filter (fun p => if K_eq k (fst p) then false else true) l.
Fixpoint s_get (l : list (K * V)) (k : K) : option V :=
  match l with [] => None | (k', u) :: l => if K_eq k k' then Some u else s_get l k end.

Inductive op : Type :=
| OSet (k : K) (v : V) | ODel (k : K) | OGet (k : K) | OLen | OPop (k : K) | OPopitem (last : bool)
| OSetdefault (k : K) (v : V) | OUpdate (l : list (K * V)) | OClear.
Inductive out : Type := Done | Val (v : V) | Pair (k : K) (v : V) | Num (n : nat) | Raise (e : exn).
Definition or_key_error (o : option V) : out := match o with Some v => Val v | None => Raise KeyError end.
Definition s_do (l : list (K * V)) (o : op) : list (K * V) * out :=
  match o with
  | OSet k v => (s_set l k v, Done)
  | ODel k => match s_get l k with Some _ => (s_del l k, Done) | None => (l, Raise KeyError) end
  | OGet k => (l, or_key_error (s_get l k))
  | OLen => (l, Num (length l))
  | OPop k => (s_del l k, or_key_error (s_get l k))
  | OPopitem last =>
      match (if last then rev l else l) with
      | [] => (l, Raise KeyError)
      | (k, v) :: r => (if last then rev r else r, Pair k v)
      end
  | OSetdefault k v => match s_get l k with Some u => (l, Val u) | None => (s_set l k v, Val v) end
  | OUpdate kvs => (fold_left (fun l kv => s_set l (fst kv) (snd kv)) kvs l, Done)
  | OClear => ([], Done)
  end.
(** What the code does. *)
Definition c_do (d : odict) (o : op) : odict * out :=
  match o with
  | OSet k v => (setitem d k v, Done)
  | ODel k => match delitem d k with Ok d' => (d', Done) | Err e => (d, Raise e) end
  | OGet k => (d, match getitem d k with Ok v => Val v | Err e => Raise e end)
  | OLen => (d, Num (length (dict d)))
  | OPop k => match pop d k with Ok (d', v) => (d', Val v) | Err e => (d, Raise e) end
  | OPopitem last => match popitem d last with Ok (d', (k, v)) => (d', Pair k v) | Err e => (d, Raise e) end
  | OSetdefault k v => let '(d', u) := setdefault d k v in (d', Val u)
  | OUpdate kvs => (update d kvs, Done)
  | OClear => (clear, Done)
  end.
Fixpoint run {S} (f : S -> op -> S * out) (s : S) (l : list op) : S * list out :=
  match l with [] => (s, []) | o :: l => let '(s, u) := f s o in let '(s, us) := run f s l in (s, u :: us) end.

(** ** Association lists *)
Definition keys {A} (l : list (K * A)) : list K := map fst l.
Lemma find_In {A} (k : K) (l : list (K * A)) a : find k l = Some a -> In (k, a) l.
Proof. induction l as [|[k' b] l IH]; cbn; [discriminate|]. destruct (K_eq k k') as [<-|]; [intros [= ->]; auto|auto]. Qed.
Lemma find_None {A} (k : K) (l : list (K * A)) : find k l = None <-> ~ In k (keys l).
Proof.
  induction l as [|[k' b] l IH]; cbn; [tauto|]. destruct (K_eq k k') as [<-|N]; [split; [discriminate|tauto]|]. rewrite IH. split; intros H; [intros [E|E]; auto; congruence|tauto].
Qed.
Lemma In_find {A} (k : K) (l : list (K * A)) a : NoDup (keys l) -> In (k, a) l -> find k l = Some a.
Proof.
  induction l as [|[k' b] l IH]; cbn; intros N I; [tauto|]. inversion N as [|? ? N1 N2]; subst. destruct I as [[= -> ->]|I].
  - destruct (K_eq k k); congruence.
  - destruct (K_eq k k') as [->|]; [|auto]. exfalso. apply N1. apply (in_map fst) in I. exact I.
Qed.
Lemma find_del {A} (k j : K) (l : list (K * A)) : find j (del k l) = if K_eq j k then None else find j l.
Proof.
  induction l as [|[k' b] l IH]; cbn; [destruct (K_eq j k); auto|]. destruct (K_eq k k') as [<-|N]; cbn.
  - rewrite IH. destruct (K_eq j k); auto.
  - rewrite IH. destruct (K_eq j k'), (K_eq j k); auto; congruence.
Qed.
Lemma find_store {A} (k j : K) (a : A) (l : list (K * A)) : find j (store k a l) = if K_eq j k then Some a else find j l.
Proof. unfold store. cbn. destruct (K_eq j k); auto. rewrite find_del. destruct (K_eq j k); congruence. Qed.
Lemma del_length {A} (k : K) (l : list (K * A)) : NoDup (keys l) -> length l = (length (del k l) + match find k l with Some _ => 1 | None => 0 end)%nat.
Proof.
  induction l as [|[k' b] l IH]; cbn; intros N; auto. inversion N as [|? ? N1 N2]; subst. specialize (IH N2).
  destruct (K_eq k k') as [<-|]; cbn; [|lia]. destruct (find k l) eqn:F; [|lia]. exfalso. apply N1. apply find_In in F. apply (in_map fst) in F. exact F.
Qed.
Lemma del_keys {A} (k : K) (l : list (K * A)) j : In j (keys (del k l)) -> In j (keys l).
Proof. induction l as [|[k' b] l IH]; cbn; auto. destruct (K_eq k k'); cbn; tauto. Qed.
Lemma del_NoDup {A} (k : K) (l : list (K * A)) : NoDup (keys l) -> NoDup (keys (del k l)).
Proof.
  induction l as [|[k' b] l IH]; cbn; intros N; auto. inversion N as [|? ? N1 N2]; subst. destruct (K_eq k k'); cbn; auto.
  constructor; auto. intros I. apply N1. eapply del_keys, I.
Qed.
Lemma store_NoDup {A} (k : K) (a : A) (l : list (K * A)) : NoDup (keys l) -> NoDup (keys (store k a l)).
Proof.
  intros N. unfold store. cbn. constructor; [|now apply del_NoDup]. apply find_None. rewrite find_del. destruct (K_eq k k); congruence.
Qed.
Lemma s_get_find (l : list (K * V)) k : s_get l k = find k l.
Proof. induction l as [|[k' b] l IH]; cbn; auto. destruct (K_eq k k'); auto. Qed.
Lemma s_set_find (l : list (K * V)) k v j : find j (s_set l k v) = if K_eq j k then Some v else find j l.
Proof.
  induction l as [|[k' b] l IH]; cbn; [reflexivity|]. destruct (K_eq k k') as [<-|N]; cbn.
  - destruct (K_eq j k); auto.
  - rewrite IH. destruct (K_eq j k'), (K_eq j k); auto; congruence.
Qed.
Lemma s_set_keys_old (l : list (K * V)) k v : In k (keys l) -> keys (s_set l k v) = keys l.
Proof.
  induction l as [|[k' b] l IH]; cbn; intros I; [tauto|]. destruct (K_eq k k') as [<-|N]; cbn; auto. f_equal. apply IH. destruct I as [E|I]; [congruence|exact I].
Qed.
Lemma s_set_new (l : list (K * V)) k v : ~ In k (keys l) -> s_set l k v = l ++ [(k, v)].
Proof.
  induction l as [|[k' b] l IH]; cbn; intros I; auto. destruct (K_eq k k') as [<-|N]; [tauto|]. f_equal. apply IH. tauto.
Qed.
Lemma s_del_find (l : list (K * V)) k j : find j (s_del l k) = if K_eq j k then None else find j l.
Proof.
  induction l as [|[k' b] l IH]; [cbn; destruct (K_eq j k); auto|]. unfold s_del in *. cbn. destruct (K_eq k k') as [<-|N]; cbn.
  - rewrite IH. destruct (K_eq j k); auto.
  - rewrite IH. destruct (K_eq j k'), (K_eq j k); auto; congruence.
Qed.
Lemma s_del_none (l : list (K * V)) k : ~ In k (keys l) -> s_del l k = l.
Proof.
  induction l as [|[k' b] l IH]; cbn; intros I; auto. destruct (K_eq k k') as [<-|N]; [tauto|]. f_equal. apply IH. tauto.
Qed.
Lemma s_del_app l m k : s_del (l ++ m) k = s_del l k ++ s_del m k.
Proof. apply filter_app. Qed.
Lemma s_del_mid (l m : list (K * V)) k v : NoDup (keys (l ++ (k, v) :: m)) -> s_del (l ++ (k, v) :: m) k = l ++ m.
Proof.
  intros N. unfold keys in N. rewrite map_app in N. cbn in N. apply NoDup_remove_2 in N. rewrite s_del_app.
  assert (E : s_del ((k, v) :: m) k = s_del m k) by (unfold s_del; cbn; destruct (K_eq k k); congruence).
  rewrite E. rewrite (s_del_none l), (s_del_none m); [reflexivity|intros I; apply N, in_or_app; auto|intros I; apply N, in_or_app; auto].
Qed.

(** ** The linked list *)
Fixpoint linked (h : nat -> @node K) (x : nat) (l : list nat) : Prop :=
  match l with [] => True | y :: l => n_next (h x) = y /\ n_prev (h y) = x /\ linked h y l end.
Lemma linked_app h l : forall x y r, linked h x (l ++ y :: r) <-> linked h x (l ++ [y]) /\ linked h y r.
Proof. induction l as [|z l IH]; intros x y r; cbn; [tauto|]. rewrite IH. tauto. Qed.
Lemma linked_frame h h' l : forall x, linked h x l ->
  (forall y, In y (removelast (x :: l)) -> n_next (h' y) = n_next (h y)) -> (forall y, In y l -> n_prev (h' y) = n_prev (h y)) -> linked h' x l.
Proof.
  induction l as [|z l IH]; intros x L HN HP; cbn in *; auto. destruct L as (L1 & L2 & L3). rewrite HN by auto. rewrite HP by auto.
  split; auto.
Qed.
Lemma NoDup_app_single {A} (l : list A) a : NoDup l -> ~ In a l -> NoDup (l ++ [a]).
Proof. intros N I. apply NoDup_rev in N. rewrite <- (rev_involutive (l ++ [a])). apply NoDup_rev. rewrite rev_app_distr. cbn. constructor; auto. now rewrite <- in_rev. Qed.
Record rep (d : odict) (l : list (K * V)) (addrs : list nat) : Prop := {
  r_link : linked (heap d) 0 (addrs ++ [0]);
  r_nodup : NoDup (0 :: addrs);
  r_fresh : Forall (fun a => a < fresh d) (0 :: addrs);
  r_key : map (fun a => n_key (heap d a)) addrs = map (fun kv => Some (fst kv)) l;
  r_map : forall k a, find k (kmap d) = Some a <-> In (k, a) (combine (keys l) addrs);
  r_dict : forall k, find k (dict d) = find k l;
  r_dk : NoDup (keys (dict d)); r_lk : NoDup (keys l);
  r_len : length (dict d) = length l }.
Lemma rep_len d l addrs : rep d l addrs -> length addrs = length l.
Proof. intros R. pose proof (f_equal (@length _) (r_key _ _ _ R)) as E. rewrite !map_length in E. exact E. Qed.
Lemma rep_clear : rep clear [] [].
Proof.
  constructor; cbn; auto; try (repeat constructor; fail); try (constructor; auto; constructor); try (split; [discriminate|tauto]).
Qed.
Lemma len_find (l m : list (K * V)) : NoDup (keys l) -> NoDup (keys m) -> (forall k, find k l = find k m) -> length l = length m.
Proof.
  intros N1 N2 E. assert (G : forall l m : list (K * V), NoDup (keys l) -> NoDup (keys m) -> (forall k, find k l = find k m) -> length l <= length m).
  { clear. intros l m N1 N2 E. rewrite <- (map_length fst l), <- (map_length fst m). apply NoDup_incl_length; auto. intros k I.
    destruct (in_dec K_eq k (map fst m)) as [|NI]; auto. exfalso. apply find_None in NI. rewrite <- E in NI. apply find_None in NI. auto. }
  apply Nat.le_antisymm; apply G; auto.
Qed.
Lemma last_shift {A} (l : list A) : forall x y, last (y :: l) x = last l y.
Proof. induction l as [|z l IH]; intros x y; auto. change (last (y :: z :: l) x) with (last (z :: l) x). rewrite IH. symmetry. apply IH. Qed.
Lemma last_cons {A} (l : list A) : forall x, exists pre, x :: l = pre ++ [last l x].
Proof. induction l as [|y l IH]; intros x; [exists []; reflexivity|]. destruct (IH y) as (p & E). exists (x :: p). rewrite last_shift. cbn. f_equal. exact E. Qed.
Lemma linked_last h : forall l x, linked h x (l ++ [0]) -> n_prev (h 0) = last l x /\ n_next (h (last l x)) = 0.
Proof.
  induction l as [|y l IH]; intros x L; cbn in L; [cbn; tauto|]. destruct L as (L1 & L2 & L3). apply IH in L3.
  assert (E := last_shift l x y).
  rewrite E. exact L3.
Qed.
Lemma linked_first h l x : linked h x (l ++ [0]) -> n_next (h x) = hd 0 l.
Proof. destruct l; cbn; tauto. Qed.

Ltac heap_cases := unfold set_prev, set_next, put; cbn [n_key n_prev n_next];
  repeat match goal with |- context [Nat.eqb ?x ?y] => destruct (Nat.eqb_spec x y); cbn [n_key n_prev n_next] end; congruence.
Lemma rep_set d l addrs k v : rep d l addrs -> exists addrs', rep (setitem d k v) (s_set l k v) addrs'.
Proof.
  intros R. destruct R. unfold OdictModel.setitem. destruct (find k (dict d)) eqn:F.
  - exists addrs. assert (I : In k (keys l)) by (destruct (in_dec K_eq k (keys l)) as [|NI]; auto; apply find_None in NI; rewrite <- r_dict0, F in NI; discriminate).
    assert (N : NoDup (keys (s_set l k v))) by (rewrite s_set_keys_old; auto).
    assert (FE : forall j, find j (store k v (dict d)) = find j (s_set l k v)) by (intros j; rewrite find_store, s_set_find, r_dict0; reflexivity).
    constructor; cbn [heap fresh kmap dict]; auto.
    + rewrite r_key0. transitivity (map Some (keys l)); [unfold keys; now rewrite map_map|]. rewrite <- (s_set_keys_old l k v I). unfold keys. now rewrite map_map.
    + intros j a. rewrite s_set_keys_old by auto. apply r_map0.
    + now apply store_NoDup.
    + apply len_find; auto. now apply store_NoDup.
  - assert (NI : ~ In k (keys l)) by (apply find_None; rewrite <- r_dict0; exact F). rewrite s_set_new by auto.
    set (a := fresh d). exists (addrs ++ [a]).
    destruct (linked_last _ _ _ r_link0) as [LP LN]. rewrite LP. set (c := last addrs 0) in *.
    assert (FR := r_fresh0). rewrite Forall_forall in FR.
    assert (CI : In c (0 :: addrs)) by (destruct (last_cons addrs 0) as (p & E); rewrite E; apply in_or_app; right; left; reflexivity).
    assert (CA : c <> a) by (intros E; apply FR in CI; unfold a in E; lia).
    assert (A0 : a <> 0) by (intros E; assert (H0 := FR 0 (or_introl eq_refl)); unfold a in E; lia).
    assert (AN : ~ In a addrs) by (intros I; assert (H1 := FR a (or_intror I)); unfold a in H1; lia).
    inversion r_nodup0 as [|? ? Z0 ND]; subst.
    set (h := set_prev _ 0 a).
    assert (HNk : forall b, n_key (h b) = if (b =? a)%nat then Some k else n_key (heap d b)) by (intros b; unfold h; heap_cases).
    assert (HNn : forall b, n_next (h b) = if (b =? c)%nat then a else if (b =? a)%nat then 0 else n_next (heap d b)) by (intros b; unfold h; heap_cases).
    assert (HNp : forall b, n_prev (h b) = if (b =? 0)%nat then a else if (b =? a)%nat then c else n_prev (heap d b)) by (intros b; unfold h; heap_cases).
    constructor; cbn [heap fresh kmap dict].
    + rewrite <- app_assoc. cbn [app]. apply linked_app. split; [|cbn [linked]; rewrite HNn, HNp; destruct (Nat.eqb_spec a c); [congruence|]; rewrite !Nat.eqb_refl; auto].
      destruct (last_cons addrs 0) as (p & E). fold c in E.
      assert (G : linked h 0 (addrs ++ [a])).
      { destruct (exists_last (l := 0 :: addrs)) as (p' & z & E'); [discriminate|].
        destruct addrs as [|x xs].
        - cbn [linked app]. unfold c in *. cbn [last] in *. rewrite HNn, HNp. split; [reflexivity|]. split; auto. destruct (Nat.eqb_spec a 0); [congruence|]. now rewrite Nat.eqb_refl.
        - destruct (exists_last (l := x :: xs)) as (q & y & EQ); [discriminate|]. assert (CY : c = y) by (unfold c; rewrite EQ; apply last_last). rewrite EQ in *. clearbody c. subst y.
          rewrite <- app_assoc. cbn [app]. apply linked_app. split.
          + apply (linked_frame (heap d)).
            * rewrite <- app_assoc in r_link0. cbn [app] in r_link0. apply linked_app in r_link0. tauto.
            * intros y I. rewrite HNn. assert (I' : In y (0 :: q)).
              { assert (EE : removelast (0 :: q ++ [c]) = 0 :: q) by (change (0 :: q ++ [c]) with ((0 :: q) ++ [c]); apply removelast_last). rewrite EE in I. exact I. }
              destruct (Nat.eqb_spec y c) as [->|]. { exfalso. change (0 :: q ++ [c]) with ((0 :: q) ++ c :: []) in r_nodup0. apply NoDup_remove_2 in r_nodup0. rewrite app_nil_r in r_nodup0. auto. }
              destruct (Nat.eqb_spec y a) as [->|]; auto. exfalso. destruct I' as [I'|I']; [congruence|]. apply AN, in_or_app; auto.
            * intros y I. rewrite HNp. destruct (Nat.eqb_spec y 0) as [->|]; [tauto|]. destruct (Nat.eqb_spec y a) as [->|]; [tauto|reflexivity].
          + cbn [linked]. rewrite HNn, HNp, Nat.eqb_refl. split; [reflexivity|]. split; auto. destruct (Nat.eqb_spec a 0); [congruence|]. now rewrite Nat.eqb_refl. }
      exact G.
    + change (0 :: addrs ++ [a]) with ((0 :: addrs) ++ [a]). apply NoDup_app_single; auto. intros [I|I]; auto.
    + change (0 :: addrs ++ [a]) with ((0 :: addrs) ++ [a]). apply Forall_app. split; [eapply Forall_impl; [|exact r_fresh0]; cbn; intros; unfold a; lia|repeat constructor; lia].
    + rewrite !map_app. cbn [map fst]. rewrite HNk, Nat.eqb_refl. f_equal. rewrite <- r_key0. apply map_ext_in. intros b I. rewrite HNk.
      destruct (Nat.eqb_spec b a) as [->|]; [tauto|reflexivity].
    + intros j b. rewrite find_store. unfold keys. rewrite map_app. cbn [map fst].
      assert (LE : length (map fst l) = length addrs) by (pose proof (f_equal (@length _) r_key0) as E; rewrite !map_length in *; lia).
      assert (CO : combine (map fst l ++ [k]) (addrs ++ [a]) = combine (map fst l) addrs ++ [(k, a)]).
      { clear -LE. revert LE. generalize (map fst l) as ks. induction addrs as [|x xs IH]; intros [|y ys] L; cbn in *; try discriminate; auto. f_equal. apply IH. lia. }
      rewrite CO, in_app_iff. cbn. destruct (K_eq j k) as [->|N].
      * split; [intros [= <-]; auto|]. intros [I|[[= <-]|[]]]; auto. apply in_combine_l in I. contradiction.
      * rewrite r_map0. split; [auto|]. intros [I|[[= <- <-]|[]]]; auto. congruence.
    + intros j. rewrite find_store, r_dict0, <- (s_set_new l k v) by auto. rewrite s_set_find. reflexivity.
    + now apply store_NoDup.
    + unfold keys. rewrite map_app. apply NoDup_app_single; auto.
    + unfold OdictModel.store. cbn [length]. rewrite app_length. cbn [length]. pose proof (del_length k (dict d) r_dk0) as E. rewrite F in E. lia.
Qed.

Lemma combine_split (l : list (K * V)) : forall (addrs : list nat) k a, length addrs = length l -> In (k, a) (combine (keys l) addrs) ->
  exists l1 v l2 A B, l = l1 ++ (k, v) :: l2 /\ addrs = A ++ a :: B /\ length A = length l1 /\ length B = length l2.
Proof.
  induction l as [|[k' v] l IH]; intros [|b addrs] k a L I; cbn in *; try tauto; try discriminate.
  destruct I as [[= -> ->]|I].
  - exists [], v, l, [], addrs. auto.
  - destruct (IH addrs k a) as (l1 & w & l2 & A & B & -> & -> & L1 & L2); auto. exists ((k', v) :: l1), w, l2, (b :: A), B. cbn. auto.
Qed.
Lemma app_inj_len {A} (a b c d : list A) : length a = length c -> a ++ b = c ++ d -> a = c /\ b = d.
Proof. revert c. induction a; intros [|x c] L E; cbn in *; try discriminate; auto. injection E as -> E. destruct (IHa c) as [-> ->]; auto. Qed.
Lemma combine_app {A B} (l1 l2 : list A) (m1 m2 : list B) : length l1 = length m1 -> combine (l1 ++ l2) (m1 ++ m2) = combine l1 m1 ++ combine l2 m2.
Proof. revert m1. induction l1; intros [|b m1] L; cbn in *; try discriminate; auto. f_equal. apply IHl1. lia. Qed.
Lemma keys_app {A} (l m : list (K * A)) : keys (l ++ m) = keys l ++ keys m.
Proof. apply map_app. Qed.

Lemma rep_del d l addrs k v : rep d l addrs -> find k l = Some v ->
  exists d' addrs', delitem d k = Ok d' /\ rep d' (s_del l k) addrs'.
Proof.
  intros R F. assert (LE := rep_len _ _ _ R). destruct R. unfold OdictModel.delitem. rewrite r_dict0, F.
  assert (KI : In k (keys l)) by (apply find_In in F; apply (in_map fst) in F; exact F).
  assert (EA : exists a, In (k, a) (combine (keys l) addrs)).
  { destruct (In_nth_error _ _ KI) as (n & N). destruct (nth_error addrs n) as [a|] eqn:NA.
    - exists a. clear -N NA. revert n addrs N NA. induction (keys l) as [|x xs IH]; intros [|n] [|b addrs] N NA; cbn in *; try discriminate; [left; congruence|right; eauto].
    - apply nth_error_None in NA. assert (nth_error (keys l) n <> None) by congruence. apply nth_error_Some in H. unfold keys in H. rewrite map_length in H. lia. }
  destruct EA as (a & IC). rewrite (proj2 (r_map0 k a) IC).
  destruct (combine_split l addrs k a LE IC) as (l1 & w & l2 & A & B & -> & -> & L1 & L2).
  eexists. exists (A ++ B). split; [reflexivity|]. rewrite s_del_mid by auto.
  rewrite <- app_assoc in r_link0. cbn [app] in r_link0. apply linked_app in r_link0. destruct r_link0 as [LA LB].
  inversion r_nodup0 as [|? ? Z0 ND]; subst. assert (NA := NoDup_remove_2 _ _ _ ND). assert (NAB := NoDup_remove_1 _ _ _ ND).
  assert (Z1 : ~ In 0 (A ++ B)) by (intros I; apply Z0; apply in_app_iff in I; apply in_or_app; cbn; tauto).
  assert (A0 : a <> 0) by (intros ->; apply Z0, in_or_app; right; now left).
  set (p := n_prev (heap d a)). set (n := n_next (heap d a)).
  assert (Hn : n = hd 0 B) by (unfold n; apply linked_first; auto).
  assert (Hp : p = last A 0).
  { unfold p. clear -LA. revert LA. generalize 0. induction A as [|x A IH]; intros y LA; cbn in LA; [cbn; tauto|]. rewrite last_shift. apply IH. tauto. }
  set (h := set_prev _ n p).
  assert (PI : In p (0 :: A)) by (rewrite Hp; destruct (last_cons A 0) as (q & E); rewrite E; apply in_or_app; right; now left).
  assert (NI : In n (B ++ [0])) by (rewrite Hn; destruct B; cbn; auto).
  assert (PN : p = n -> A = [] /\ B = []).
  { intros E. destruct PI as [PI|PI].
    - rewrite Hn in E. destruct B as [|b B]; cbn in E; [|exfalso; apply Z1; rewrite PI, E; apply in_or_app; right; now left]. split; auto.
      destruct (exists_last (l := 0 :: A)) as (q & z & EQ); [discriminate|]. destruct A as [|x A]; auto. exfalso. rewrite Hp in PI. rewrite last_shift in PI.
      destruct (last_cons A x) as (q' & E'). apply Z1. apply in_or_app. left. rewrite E'. rewrite <- PI. apply in_or_app. right. now left.
    - exfalso. rewrite Hn in E. destruct B as [|b B]; cbn in E; [apply Z1; rewrite <- E; apply in_or_app; auto|].
      assert (N2 := NAB). apply NoDup_remove_2 in N2. apply N2. rewrite <- E. apply in_or_app. auto. }
  assert (HNk : forall b, n_key (h b) = n_key (heap d b)) by (intros b; unfold h; heap_cases).
  assert (HNn : forall b, n_next (h b) = if (b =? p)%nat then n else n_next (heap d b)) by (intros b; unfold h; heap_cases).
  assert (HNp : forall b, n_prev (h b) = if (b =? n)%nat then p else n_prev (heap d b)) by (intros b; unfold h; heap_cases).
  constructor; cbn [heap fresh kmap dict].
  - fold n p. fold h. rewrite <- app_assoc.
    assert (NB : forall y, In y (0 :: A) -> ~ In y B).
    { intros y [<-|I] J; [apply Z1, in_or_app; auto|]. clear -NAB I J. induction A as [|x A IH]; cbn in *; [tauto|]. inversion NAB; subst. destruct I as [->|I]; auto. apply H1, in_or_app; auto. }
    assert (G1 : linked h 0 A).
    { apply (linked_frame (heap d)).
      - clear -LA. revert LA. generalize 0. induction A as [|x A IH]; intros y LA; cbn in *; auto. destruct LA as (L1 & L2 & L3). auto.
      - intros y I. rewrite HNn. destruct (Nat.eqb_spec y p) as [->|]; auto. exfalso.
        destruct (last_cons A 0) as (q & E). rewrite E in I. rewrite removelast_last in I. rewrite <- Hp in E.
        assert (N0 : NoDup (0 :: A)). { constructor; [intros J; apply Z1, in_or_app; auto|]. clear -NAB. induction A; cbn in *; [constructor|]. inversion NAB; subst. constructor; auto. intros J; apply H1, in_or_app; auto. }
        rewrite E in N0. apply NoDup_remove_2 in N0. rewrite app_nil_r in N0. auto.
      - intros y I. rewrite HNp. destruct (Nat.eqb_spec y n) as [->|]; auto. exfalso. apply in_app_iff in NI. destruct NI as [NI|[NI|[]]].
        + apply (NB n); cbn; auto.
        + apply Z1. rewrite NI. apply in_or_app; auto. }
    assert (G2 : linked h p (B ++ [0])).
    { destruct B as [|b B]; cbn [app hd] in *.
      - cbn [linked]. rewrite HNn, HNp, Hn, !Nat.eqb_refl. auto.
      - cbn [linked] in LB |- *. rewrite HNn, HNp, Hn, !Nat.eqb_refl. split; auto. split; auto. destruct LB as (_ & _ & LB).
        assert (NBB : NoDup (b :: B)) by (clear -NAB; induction A; auto; inversion NAB; auto).
        assert (RL : removelast (b :: B ++ [0]) = b :: B) by (change (b :: B ++ [0]) with ((b :: B) ++ [0]); apply removelast_last).
        apply (linked_frame (heap d)); auto.
        + intros y I. rewrite RL in I. rewrite HNn. destruct (Nat.eqb_spec y p) as [->|]; auto. exfalso. eapply NB; eauto.
        + intros y I. rewrite HNp, Hn. destruct (Nat.eqb_spec y b) as [->|]; auto. exfalso. inversion NBB; subst. apply in_app_iff in I. destruct I as [I|[I|[]]]; auto.
          apply Z1. rewrite I. apply in_or_app. right. now left. }
    clear -G1 G2 Hp. rewrite Hp in G2. clear Hp. revert G1 G2. generalize 0 at 1 2 4. induction A as [|x A IH]; intros y G1 G2; [exact G2|]. rewrite last_shift in G2. cbn in *. intuition.
  - constructor; auto.
  - rewrite Forall_forall in *. intros y I. apply r_fresh0. cbn in I |- *. rewrite in_app_iff in *. cbn. tauto.
  - rewrite (map_ext _ _ HNk). rewrite !map_app in *. cbn [map] in r_key0.
    assert (LL : length (map (fun a0 => n_key (heap d a0)) A) = length (map (fun kv : K * V => Some (fst kv)) l1)) by (rewrite !map_length; auto).
    apply app_inj_len in r_key0; auto. destruct r_key0 as [E1 E2]. injection E2 as _ E2. rewrite E1, E2. reflexivity.
  - intros j b. rewrite find_del, keys_app. unfold keys in L1, L2 |- *. rewrite combine_app by (rewrite map_length; auto). rewrite in_app_iff.
    rewrite keys_app in r_map0. cbn [keys map fst] in r_map0. unfold keys in r_map0.
    assert (NK : ~ In k (map fst l1 ++ map fst l2)) by (rewrite keys_app in r_lk0; apply NoDup_remove_2 in r_lk0; exact r_lk0).
    destruct (K_eq j k) as [->|N].
    + split; [discriminate|]. intros [I|I]; apply in_combine_l in I; exfalso; apply NK, in_or_app; auto.
    + rewrite r_map0. rewrite combine_app by (rewrite map_length; auto). rewrite in_app_iff. cbn. split; [intros [I|[[= -> ->]|I]]; auto; congruence|tauto].
  - intros j. rewrite find_del, r_dict0. rewrite <- (s_del_mid l1 l2 k w r_lk0). rewrite s_del_find. reflexivity.
  - now apply del_NoDup.
  - rewrite keys_app in *. cbn in r_lk0. apply NoDup_remove_1 in r_lk0. exact r_lk0.
  - pose proof (del_length k (dict d) r_dk0) as E. rewrite r_dict0, F in E. rewrite app_length in *. cbn [length] in *. lia.
Qed.

Lemma walk_next h : forall l x fuel, linked h x (l ++ [0]) -> ~ In 0 l -> length l < fuel ->
  walk (fun a => n_next (h a)) h fuel (n_next (h x)) = Some (map (fun a => n_key (h a)) l).
Proof.
  induction l as [|y l IH]; intros x [|fuel] L Z F; cbn in F; try lia.
  - destruct L as (-> & _). reflexivity.
  - destruct L as (-> & _ & L). cbn [walk]. destruct (Nat.eqb_spec y 0) as [->|]; [exfalso; apply Z; now left|].
    rewrite IH; auto; [intros I; apply Z; now right|lia].
Qed.
Lemma walk_prev h : forall l y fuel, linked h 0 (l ++ [y]) -> ~ In 0 l -> length l < fuel ->
  walk (fun a => n_prev (h a)) h fuel (n_prev (h y)) = Some (map (fun a => n_key (h a)) (rev l)).
Proof.
  induction l as [|z l IH] using rev_ind; intros y [|fuel] L Z F; try lia.
  - destruct L as (_ & -> & _). reflexivity.
  - rewrite <- app_assoc in L. cbn [app] in L. apply linked_app in L. destruct L as [L (_ & -> & _)].
    rewrite rev_app_distr. cbn [walk rev app map]. destruct (Nat.eqb_spec z 0) as [->|]; [exfalso; apply Z, in_or_app; right; now left|].
    rewrite app_length in F. cbn in F. rewrite IH; auto; [intros I; apply Z, in_or_app; auto|lia].
Qed.
Lemma rep_iter d l addrs fuel : rep d l addrs -> length l < fuel ->
  forwards d fuel = Some (map Some (keys l)) /\ backwards d fuel = Some (map Some (rev (keys l))).
Proof.
  intros R F. assert (LE := rep_len _ _ _ R). destruct R. inversion r_nodup0 as [|? ? Z0 ND]; subst. unfold forwards, backwards.
  rewrite (walk_next _ addrs), (walk_prev _ addrs); auto; try lia.
  rewrite map_rev, r_key0. unfold keys. rewrite <- !map_rev, !map_map. auto.
Qed.
Lemma getitem_rep d l addrs k : rep d l addrs -> getitem d k = match s_get l k with Some v => Ok v | None => Err KeyError end.
Proof. intros R. unfold OdictModel.getitem. rewrite (r_dict _ _ _ R), s_get_find. reflexivity. Qed.
Lemma rep_pop d l addrs k : rep d l addrs ->
  match s_get l k with
  | Some v => exists d' addrs', pop d k = Ok (d', v) /\ rep d' (s_del l k) addrs'
  | None => pop d k = Err KeyError
  end.
Proof.
  intros R. unfold OdictModel.pop. rewrite (getitem_rep d l addrs k R). destruct (s_get l k) as [v|] eqn:E; [|reflexivity].
  rewrite s_get_find in E. destruct (rep_del d l addrs k v R E) as (d' & addrs' & -> & R'). cbn. eauto.
Qed.
Lemma rep_update kvs : forall d l addrs, rep d l addrs -> exists addrs', rep (update d kvs) (fold_left (fun l kv => s_set l (fst kv) (snd kv)) kvs l) addrs'.
Proof.
  induction kvs as [|[k v] kvs IH]; intros d l addrs R; [exists addrs; exact R|]. unfold OdictModel.update. cbn [fold_left fst snd].
  destruct (rep_set d l addrs k v R) as (addrs' & R'). exact (IH _ _ _ R').
Qed.
Lemma first_last d l addrs k v l1 l2 : rep d l addrs -> l = l1 ++ (k, v) :: l2 ->
  (l1 = [] -> n_key (heap d (n_next (heap d 0))) = Some k) /\ (l2 = [] -> n_key (heap d (n_prev (heap d 0))) = Some k) /\ s_get l k = Some v /\ s_del l k = l1 ++ l2.
Proof.
  intros R ->. assert (LE := rep_len _ _ _ R). destruct R. split; [|split; [|split]].
  - intros ->. cbn in *. destruct addrs as [|a addrs]; [discriminate|]. destruct r_link0 as (-> & _). cbn in r_key0. congruence.
  - intros ->. destruct addrs as [|a addrs _] using rev_ind; [rewrite app_length in LE; cbn in LE; lia|].
    destruct (linked_last _ _ _ r_link0) as [-> _]. rewrite last_last. rewrite !map_app in r_key0. cbn in r_key0.
    apply app_inj_tail in r_key0. tauto.
  - rewrite s_get_find. apply In_find; auto. apply in_or_app. right. now left.
  - now apply s_del_mid.
Qed.
Lemma do_sim d l addrs o : rep d l addrs -> snd (c_do d o) = snd (s_do l o) /\ exists addrs', rep (fst (c_do d o)) (fst (s_do l o)) addrs'.
Proof.
  intros R. destruct o as [k v|k|k| |k|b|k v|kvs|]; cbn [c_do s_do].
  - cbn. split; auto. eapply rep_set, R.
  - rewrite s_get_find. destruct (find k l) as [v|] eqn:F.
    + destruct (rep_del d l addrs k v R F) as (d' & addrs' & -> & R'). cbn. eauto.
    + unfold OdictModel.delitem. rewrite (r_dict _ _ _ R), F. cbn. eauto.
  - rewrite (getitem_rep d l addrs k R). destruct (s_get l k); cbn; eauto.
  - cbn. rewrite (r_len _ _ _ R). eauto.
  - assert (P := rep_pop d l addrs k R). destruct (s_get l k) as [v|] eqn:E.
    + destruct P as (d' & addrs' & -> & R'). cbn. eauto.
    + rewrite P. cbn. split; auto. rewrite s_get_find in E. apply find_None in E. rewrite s_del_none by auto. eauto.
  - unfold OdictModel.popitem. destruct l as [|kv l'] eqn:EL.
    { assert (LD := r_len _ _ _ R). destruct (dict d); [|discriminate]. destruct b; cbn; eauto. }
    assert (LD := r_len _ _ _ R). destruct (dict d); [discriminate|]. rewrite <- EL in *.
    destruct b.
    + destruct (rev l) as [|[k v] r] eqn:ER; [apply (f_equal (@length _)) in ER; rewrite rev_length, EL in ER; discriminate|].
      assert (EL2 : l = rev r ++ [(k, v)]) by (rewrite <- (rev_involutive l), ER; reflexivity).
      destruct (first_last d l addrs k v (rev r) [] R EL2) as (_ & H2 & H3 & H4). rewrite (H2 eq_refl).
      assert (P := rep_pop d l addrs k R). rewrite H3 in P. destruct P as (d' & addrs' & -> & R'). cbn. rewrite H4, app_nil_r in R'. eauto.
    + rewrite EL. destruct kv as [k v]. destruct (first_last d l addrs k v [] l' R EL) as (H1 & _ & H3 & H4). rewrite (H1 eq_refl).
      assert (P := rep_pop d l addrs k R). rewrite H3 in P. destruct P as (d' & addrs' & -> & R'). cbn. rewrite H4 in R'. eauto.
  - unfold OdictModel.setdefault. rewrite (r_dict _ _ _ R), s_get_find. destruct (find k l); cbn; [eauto|]. split; auto. eapply rep_set, R.
  - cbn. split; auto. eapply rep_update, R.
  - cbn. split; auto. exists []. apply rep_clear.
Qed.
Lemma run_sim : forall ops d l addrs, rep d l addrs ->
  snd (run c_do d ops) = snd (run s_do l ops) /\ exists addrs', rep (fst (run c_do d ops)) (fst (run s_do l ops)) addrs'.
Proof.
  induction ops as [|o ops IH]; intros d l addrs R; cbn; [eauto|]. destruct (do_sim d l addrs o R) as (E & addrs1 & R1).
  destruct (c_do d o) as [d1 u1], (s_do l o) as [l1 u2]. cbn in *. subst u2. destruct (IH d1 l1 addrs1 R1) as (E2 & R2).
  destruct (run c_do d1 ops), (run s_do l1 ops). cbn in *. subst. auto.
Qed.
Lemma with_values_rep d l addrs : rep d l addrs -> with_values K_eq d (map Some (keys l)) = Ok l.
Proof.
  intros R. assert (G : forall m, incl m l -> with_values K_eq d (map Some (keys m)) = Ok m).
  { induction m as [|[k v] m IH]; intros I; auto. cbn [keys map fst with_values].
    assert (E : getitem d k = Ok v).
    { rewrite (getitem_rep d l addrs k R), s_get_find. rewrite (In_find k l v); auto; [apply R|]. apply I. now left. }
    rewrite E. cbn [bind]. fold (keys m). rewrite IH; auto. intros x Hx. apply I. now right. }
  apply G, incl_refl.
Qed.

(** ** C100_program: after any operations, each has returned (or raised) what
    it does on a list of pairs, and iteration ends and shows this list, in
    both directions. *)
Theorem C100_program : forall ops, let '(d, outs) := run c_do clear ops in let '(l, outs') := run s_do [] ops in
  outs = outs' /\
  forall fuel, length l < fuel ->
    forwards d fuel = Some (map Some (map fst l)) /\ backwards d fuel = Some (map Some (rev (map fst l))) /\ items K_eq d fuel = Some (Ok l).
Proof.
  intros ops. destruct (run_sim ops clear [] [] rep_clear) as (E & addrs & R). destruct (run c_do clear ops) as [d outs], (run s_do [] ops) as [l outs'].
  cbn in E, R. split; auto. intros fuel F. destruct (rep_iter d l addrs fuel R F) as [F1 F2]. split; auto. split; auto.
  unfold items. rewrite F1. f_equal. apply (with_values_rep d l addrs R).
Qed.
(** Keys are in the list once. *)
Theorem C100_keys : forall ops, NoDup (map fst (fst (run s_do [] ops))).
Proof. intros ops. destruct (run_sim ops clear [] [] rep_clear) as (_ & addrs & R). apply (r_lk _ _ _ R). Qed.
(** ** C100_copy: a copy (also by pickling) has the same items. *)
Lemma s_set_all l : NoDup (keys l) -> fold_left (fun l kv => s_set l (fst kv) (snd kv)) l [] = l.
Proof.
  intros N. assert (G : forall m pre, NoDup (keys (pre ++ m)) -> fold_left (fun l kv => s_set l (fst kv) (snd kv)) m pre = pre ++ m).
  { induction m as [|[k v] m IH]; intros pre N2; cbn [fold_left fst snd]; [now rewrite app_nil_r|].
    rewrite s_set_new.
    - rewrite IH; rewrite <- app_assoc; auto.
    - rewrite keys_app in N2. cbn in N2. apply NoDup_remove_2 in N2. intros I. apply N2, in_or_app. auto. }
  exact (G l [] N).
Qed.
Theorem C100_copy : forall ops fuel, let d := fst (run c_do clear ops) in let l := fst (run s_do [] ops) in length l < fuel ->
  exists e, copy K_eq d fuel = Some (Ok e) /\ items K_eq e fuel = Some (Ok l) /\ forwards e fuel = forwards d fuel /\ backwards e fuel = backwards d fuel.
Proof.
  intros ops fuel d l F. destruct (run_sim ops clear [] [] rep_clear) as (_ & addrs & R). fold d l in R.
  destruct (rep_iter d l addrs fuel R F) as [F1 F2]. unfold copy, items. rewrite F1, (with_values_rep d l addrs R). cbn [bind].
  destruct (rep_update l clear [] [] rep_clear) as (addrs' & R'). rewrite s_set_all in R' by apply R. eexists. split; [reflexivity|].
  unfold from_pairs. destruct (rep_iter _ _ _ fuel R' F) as [G1 G2]. rewrite G1, G2, F2. rewrite (with_values_rep _ _ _ R'). auto.
Qed.
(** ** C100_equal: == compares the items in order. *)
Theorem C100_equal : forall (V_eq : V -> V -> bool) ops ops' fuel, (forall a b, V_eq a b = true <-> a = b) ->
  let d := fst (run c_do clear ops) in let e := fst (run c_do clear ops') in
  let l := fst (run s_do [] ops) in let m := fst (run s_do [] ops') in
  length l < fuel -> length m < fuel ->
  exists b, equal K_eq V_eq d e fuel = Some (Ok b) /\ (b = true <-> l = m).
Proof.
  intros V_eq ops ops' fuel VE d e l m F G. destruct (run_sim ops clear [] [] rep_clear) as (_ & addrs & R). fold d l in R.
  destruct (run_sim ops' clear [] [] rep_clear) as (_ & addrs' & R'). fold e m in R'.
  unfold equal, items. destruct (rep_iter d l addrs fuel R F) as [-> _]. destruct (rep_iter e m addrs' fuel R' G) as [-> _].
  rewrite (with_values_rep d l addrs R), (with_values_rep e m addrs' R'). cbn [bind]. rewrite (r_len _ _ _ R), (r_len _ _ _ R').
  destruct (Nat.eqb_spec (length l) (length m)) as [L|L]; cbn [negb]; eexists; (split; [reflexivity|]).
  - clearbody l m. clear -VE L. revert m L. induction l as [|[k v] l IH]; intros [|[k' v'] m] L; cbn in *; try discriminate; [tauto|].
    destruct (K_eq k k') as [->|N]; [|split; [discriminate|congruence]].
    destruct (V_eq v v') eqn:E.
    + apply VE in E. subst v'. rewrite IH by lia. split; congruence.
    + split; [discriminate|]. intros [= -> ->]. assert (V_eq v' v' = true) by now apply VE. congruence.
  - split; [discriminate|]. intros ->. congruence.
Qed.
End Props.

Example C100_ex : let ops := [OSet 1 10; OSet 2 20; OSet 3 30; OSet 1 11; OPop 2; OSet 2 21; OPopitem false; ODel 7] in
  run (s_do Nat.eq_dec) [] ops = ([(3, 30); (2, 21)], [Done; Done; Done; Done; Val 20; Done; Pair 1 11; Raise KeyError]) /\
  items Nat.eq_dec (fst (run (c_do Nat.eq_dec) clear ops)) 5 = Some (Ok [(3, 30); (2, 21)]).
Proof. split; reflexivity. Qed.

Print Assumptions C100_program.
Print Assumptions C100_keys.
Print Assumptions C100_copy.
Print Assumptions C100_equal.
