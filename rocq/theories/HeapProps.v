(** C10, second half: later changes to a copy or to its original do not show
    in the other; and what it takes for an object graph to behave like the
    trees of ParamsModel.v. *)
From Coq Require Import String List ZArith Bool Lia.
From Verif Require Import Base ParamsModel ParamsSpec ParamsProofs ParamsProofs2 HeapModel.
Import ListNotations.

Ltac conjs := repeat match goal with |- _ /\ _ => split end.

Section Spec.
Context {V : Type}.
Notation heap := (@heap V).
Notation cell := (@cell V).

(** Objects that can be got at from an object. *)
Inductive reach (h : heap) (a : nat) : nat -> Prop :=
| reach_here : reach h a a
| reach_step b c k : reach h a b -> nth_error h b = Some k -> In c (ptrs k) -> reach h a c.

(** References lead to existing objects. *)
Definition closed (h : heap) : Prop :=
  forall b k c, nth_error h b = Some k -> In c (ptrs k) -> c < length h.

(** Anything that can be done with the objects [P] in hand: overwrite any of
    them, create new ones, refer only to these; in any order, any number of
    times.  Afterwards one has [P'] in hand. *)
Inductive evolve : (nat -> Prop) -> heap -> (nat -> Prop) -> heap -> Prop :=
| ev_done (P : nat -> Prop) (h : heap) : evolve P h P h
| ev_write (P P' : nat -> Prop) (h h' : heap) b (k : cell) : P b -> (forall c, In c (ptrs k) -> P c) ->
    evolve P (put h b k) P' h' -> evolve P h P' h'
| ev_new (P P' : nat -> Prop) (h h' : heap) (k : cell) : (forall c, In c (ptrs k) -> P c) ->
    evolve (fun x => P x \/ x = length h) (h ++ [k]) P' h' -> evolve P h P' h'.

(** Two parties, one with the objects [P] and one with [Q], taking turns. *)
Inductive turns : (nat -> Prop) -> (nat -> Prop) -> heap -> (nat -> Prop) -> (nat -> Prop) -> heap -> Prop :=
| tn_done P Q h : turns P Q h P Q h
| tn_left P Q h P1 h1 P' Q' h' : evolve P h P1 h1 -> turns P1 Q h1 P' Q' h' -> turns P Q h P' Q' h'
| tn_right P Q h Q1 h1 P' Q' h' : evolve Q h Q1 h1 -> turns P Q1 h1 P' Q' h' -> turns P Q h P' Q' h'.

(** The objects that make up an object, with repetition if shared. *)
Fixpoint fp (n : nat) (h : heap) (r : option nat) : list nat :=
  match n with
  | 0 => []
  | S n' =>
      match r with
      | None => []
      | Some a =>
          a :: match nth_error h a with
               | Some (KMulti nm s b) =>
                   s :: b :: match get_s h s with Some ss => flat_map (fp n' h) ss | None => [] end
               | Some k => ptrs k
               | None => []
               end
      end
  end.
End Spec.

Section Proofs.
Context {V : Type}.
Variable one : V.
Notation heap := (@heap V).
Notation cell := (@cell V).

Lemma get_s_ext (h h' : heap) a : nth_error h' a = nth_error h a -> get_s h' a = get_s h a.
Proof. unfold get_s. intros ->. reflexivity. Qed.
Lemma get_b_ext (h h' : heap) a : nth_error h' a = nth_error h a -> get_b h' a = get_b h a.
Proof. unfold get_b. intros ->. reflexivity. Qed.
Lemma get_v_ext (h h' : heap) a : nth_error h' a = nth_error h a -> get_v h' a = get_v h a.
Proof. unfold get_v. intros ->. reflexivity. Qed.
Lemma get_o_ext (h h' : heap) a : nth_error h' a = nth_error h a -> get_o h' a = get_o h a.
Proof. unfold get_o. intros ->. reflexivity. Qed.
Lemma get_p_ext (h h' : heap) a : nth_error h' a = nth_error h a -> get_p h' a = get_p h a.
Proof. unfold get_p. intros ->. reflexivity. Qed.

Lemma read_all_ext (f g : option nat -> option (ptree V)) l :
  (forall x, In x l -> f x = g x) -> read_all f l = read_all g l.
Proof.
  induction l as [|x l IH]; intros HH; [reflexivity|]. cbn [read_all].
  fold (read_all f) (read_all g). rewrite HH, IH; auto; [intros; apply HH; right; auto | left; auto].
Qed.

(** An object's value depends on its own objects only. *)
Lemma read_dep n : forall (h h' : heap) r,
  (forall b, In b (fp n h r) -> nth_error h' b = nth_error h b) ->
  read n h' r = read n h r /\ fp n h' r = fp n h r.
Proof.
  induction n as [|n IH]; intros h h' r HH; [split; reflexivity|].
  destruct r as [a|]; [|split; reflexivity]. cbn [read fp] in *.
  assert (EA : nth_error h' a = nth_error h a) by (apply HH; left; reflexivity).
  rewrite EA. destruct (nth_error h a) as [[| s | nm v b lo up mx st pr | nm s b | | | | |]|] eqn:E;
    try (split; reflexivity).
  - cbn [ptrs app] in HH. split; [|reflexivity].
    rewrite (get_v_ext h h' v), (get_b_ext h h' b), (get_o_ext h h' lo), (get_o_ext h h' up), (get_o_ext h h' mx),
      (get_p_ext h h' pr) by (apply HH; cbn [In]; tauto).
    destruct st as [x|]; [|reflexivity]. rewrite (get_v_ext h h' x); [reflexivity|].
    apply HH. cbn [In app]. tauto.
  - rewrite (get_s_ext h h' s), (get_b_ext h h' b) by (apply HH; cbn [In]; tauto).
    destruct (get_s h s) as [ss|]; [|split; reflexivity].
    assert (SUB : forall x, In x ss -> read n h' x = read n h x /\ fp n h' x = fp n h x).
    { intros x HX. apply IH. intros c HC. apply HH. cbn [In]. right. right. right. apply in_flat_map. eauto. }
    split.
    + destruct (get_b h b); [|reflexivity]. rewrite (read_all_ext (read n h') (read n h)); [reflexivity|].
      intros x HX. apply SUB; auto.
    + f_equal. f_equal. f_equal. clear - SUB. induction ss as [|x ss IH]; [reflexivity|]. cbn [flat_map].
      rewrite (proj2 (SUB x (or_introl eq_refl))), IH; auto. intros y HY. apply SUB. right; auto.
Qed.

Lemma fp_reach n : forall (h : heap) a b, In b (fp n h (Some a)) -> reach h a b.
Proof.
  assert (TR : forall (h : heap) a b c, reach h a b -> reach h b c -> reach h a c).
  { intros h a b c H1 H2. induction H2; auto. eapply reach_step; eauto. }
  induction n as [|n IH]; intros h a b HB; [contradiction|]. cbn [fp] in HB.
  destruct HB as [<-|HB]; [constructor|].
  destruct (nth_error h a) as [k|] eqn:E; [|contradiction].
  assert (PT : forall c, In c (ptrs k) -> reach h a c).
  { intros c HC. eapply reach_step; eauto. constructor. }
  destruct k as [| s | nm v b0 lo up mx st pr | nm s b0 | l | l | l | l | l]; try (apply PT; exact HB).
  destruct HB as [<-|[<-|HB]]; [apply PT; cbn; auto | apply PT; cbn; auto |].
  destruct (get_s h s) as [ss|] eqn:GS; [|contradiction].
  apply in_flat_map in HB. destruct HB as (x & HX & HB).
  destruct x as [x|]; [|destruct n; contradiction].
  apply TR with x; [|apply IH; auto]. apply reach_step with s (KS ss).
  - apply PT; cbn; auto.
  - unfold get_s in GS. destruct (nth_error h s) as [[]|]; congruence.
  - cbn [ptrs]. apply in_flat_map. exists (Some x). split; auto. left; auto.
Qed.

(** ** Frames *)
Lemma put_length (h : heap) a k : length (put h a k) = length h.
Proof. apply upd_length. Qed.
Lemma put_other (h : heap) a b k : b <> a -> nth_error (put h a k) b = nth_error h b.
Proof. intros. unfold put. apply nth_error_upd_other; auto. Qed.
Lemma put_same (h : heap) a k : a < length h -> nth_error (put h a k) a = Some k.
Proof. intros. unfold put. apply nth_error_upd_same; auto. Qed.

Lemma evolve_frame P (h : heap) P' h' : evolve P h P' h' ->
  length h <= length h' /\ (forall b, b < length h -> ~ P b -> nth_error h' b = nth_error h b) /\
  (forall b, P' b -> P b \/ length h <= b < length h') /\ (forall b, P b -> P' b).
Proof.
  induction 1 as [P h | P P' h h' b k PB PC EV IH | P P' h h' k PC EV IH].
  - conjs; auto.
  - destruct IH as (L & F & O & M). rewrite put_length in L, F, O. conjs; auto. intros c HC NP.
    rewrite F by auto. apply put_other. intros ->. contradiction.
  - destruct IH as (L & F & O & M). rewrite app_length in L, F, O. cbn [length] in *. conjs; [lia|..].
    + intros c HC NP. rewrite F; [|lia|intros [|]; [contradiction|lia]]. apply nth_error_app1; auto.
    + intros c HC. destruct (O c HC) as [[HP| ->]|]; [auto|right; lia|right; lia].
    + auto.
Qed.

(** [P] is the set of objects some party can get at. *)
Definition shut (P : nat -> Prop) (h : heap) : Prop :=
  (forall b, P b -> b < length h) /\ (forall b k c, P b -> nth_error h b = Some k -> In c (ptrs k) -> P c).

Lemma evolve_shut P (h : heap) P' h' : evolve P h P' h' -> shut P h -> shut P' h'.
Proof.
  induction 1 as [P h | P P' h h' b k PB PC EV IH | P P' h h' k PC EV IH]; auto; intros [B C]; apply IH; split.
  - intros c HC. rewrite put_length. auto.
  - intros c k0 x HC NC HX. destruct (Nat.eq_dec c b) as [->|NE].
    + rewrite put_same in NC by auto. injection NC as <-. auto.
    + rewrite put_other in NC by auto. eauto.
  - intros c HC. rewrite app_length. cbn. destruct HC as [HC| ->]; [apply B in HC|]; lia.
  - intros c k0 x HC NC HX. left. destruct HC as [HC| ->].
    + rewrite nth_error_app1 in NC by (apply B; auto). eauto.
    + rewrite nth_error_app2, Nat.sub_diag in NC by auto. cbn in NC. injection NC as <-. auto.
Qed.

Lemma shut_other P Q (h : heap) P' h' : evolve P h P' h' -> shut P h -> shut Q h -> (forall b, P b -> Q b -> False) ->
  shut Q h' /\ (forall b, P' b -> Q b -> False) /\ (forall b m, Q b -> read m h' (Some b) = read m h (Some b)).
Proof.
  intros EV SP [B C] D. destruct (evolve_frame _ _ _ _ EV) as (L & F & O & M).
  assert (SAME : forall b, Q b -> nth_error h' b = nth_error h b).
  { intros b HQ. apply F; auto. intros HP. eapply D; eauto. }
  conjs.
  - split; [intros b HQ; apply B in HQ; lia|]. intros b k c HQ NB HC. rewrite SAME in NB by auto. eauto.
  - intros b HP HQ. destruct (O b HP) as [HP'|HB]; [eauto|]. apply B in HQ. lia.
  - intros b m HQ. apply read_dep. intros c HC. apply SAME. apply fp_reach in HC.
    clear - HQ HC C. induction HC; auto. eauto.
Qed.

Lemma turns_inv P Q (h : heap) P' Q' h' : turns P Q h P' Q' h' ->
  shut P h -> shut Q h -> (forall b, P b -> Q b -> False) ->
  shut P' h' /\ shut Q' h' /\ (forall b, P' b -> Q' b -> False).
Proof.
  induction 1 as [P Q h | P Q h P1 h1 P' Q' h' EV T IH | P Q h Q1 h1 P' Q' h' EV T IH]; intros SP SQ D; auto.
  - destruct (shut_other P Q h P1 h1 EV SP SQ D) as (S2 & D2 & _). apply IH; auto. eapply evolve_shut; eauto.
  - destruct (shut_other Q P h Q1 h1 EV SQ SP) as (S2 & D2 & _); [eauto|]. apply IH; auto; [eapply evolve_shut; eauto|eauto].
Qed.

(** ** Copying *)
(** Cells from [k] on are new and refer to new ones only. *)
Definition fresh_from (k : nat) (h : heap) : Prop :=
  forall b c x, k <= b -> nth_error h b = Some c -> In x (ptrs c) -> k <= x < length h.

Lemma fresh_app k (h ext : heap) : k <= length h -> fresh_from k h ->
  (forall c x, In c ext -> In x (ptrs c) -> k <= x < length h + length ext) ->
  fresh_from k (h ++ ext).
Proof.
  intros KL F E b c x KB NB PX. rewrite app_length.
  destruct (Nat.lt_ge_cases b (length h)) as [LT|GE].
  - rewrite nth_error_app1 in NB by auto. specialize (F b c x KB NB PX). lia.
  - rewrite nth_error_app2 in NB by auto. apply nth_error_In in NB. eauto.
Qed.

Lemma fresh_reach k (h : heap) a b : fresh_from k h -> k <= a < length h -> reach h a b -> k <= b < length h.
Proof.
  intros F KA R. induction R as [|b x c R IH NB PX]; auto. destruct IH as [IH _]. exact (F b c x IH NB PX).
Qed.

Lemma closed_reach (h ext : heap) a b : closed h -> a < length h -> reach (h ++ ext) a b -> b < length h.
Proof.
  intros C HA R. induction R as [|b x c R IH NB PX]; auto.
  rewrite nth_error_app1 in NB by auto. eapply C; eauto.
Qed.

Lemma fp_bound n : forall (h : heap) a, closed h -> a < length h -> forall b, In b (fp n h (Some a)) -> b < length h.
Proof.
  intros h a C HA b HB. apply fp_reach in HB.
  apply (closed_reach h [] a b); auto. rewrite app_nil_r. auto.
Qed.

Lemma read_in n (h : heap) a t : read n h (Some a) = Some t -> a < length h.
Proof.
  destruct n; [discriminate|]. cbn [read]. destruct (nth_error h a) eqn:E; [|discriminate].
  intros _. apply nth_error_Some. congruence.
Qed.

Lemma read_app n (h ext : heap) a t : closed h -> read n h (Some a) = Some t -> read n (h ++ ext) (Some a) = Some t.
Proof.
  intros C R. rewrite <- R. apply read_dep. intros b HB. apply nth_error_app1.
  eapply fp_bound; eauto. eapply read_in; eauto.
Qed.

Lemma closed_app (h ext : heap) : closed h ->
  (forall c x, In c ext -> In x (ptrs c) -> x < length h + length ext) -> closed (h ++ ext).
Proof.
  intros C E b k c NB PC. rewrite app_length. destruct (Nat.lt_ge_cases b (length h)) as [LT|GE].
  - rewrite nth_error_app1 in NB by auto. specialize (C b k c NB PC). lia.
  - rewrite nth_error_app2 in NB by auto. apply nth_error_In in NB. eauto.
Qed.

Lemma flat_map_in_ext {A B} (f g : A -> list B) l : (forall x, In x l -> f x = g x) -> flat_map f l = flat_map g l.
Proof.
  induction l as [|x l IH]; intros HH; [reflexivity|]. cbn. rewrite HH, IH; auto; [intros; apply HH; right; auto | left; auto].
Qed.

Lemma nodup_app {A} (l1 l2 : list A) : NoDup l1 -> NoDup l2 -> (forall x, In x l1 -> ~ In x l2) -> NoDup (l1 ++ l2).
Proof.
  intros N1 N2 D. induction N1 as [|x l1 NI N1 IH]; [exact N2|]. cbn. constructor.
  - rewrite in_app_iff. intros [|]; [contradiction|]. apply (D x); cbn; auto.
  - apply IH. intros y HY. apply D. right; auto.
Qed.

Lemma read_all_len (f : option nat -> option (ptree V)) l ts : read_all f l = Some ts -> length ts = length l.
Proof.
  revert ts. induction l as [|x l IH]; intros ts E; cbn [read_all] in E; [injection E as <-; reflexivity|].
  fold (read_all f) in E. destruct (f x); [|discriminate]. destruct (read_all f l) eqn:E2; [|discriminate].
  injection E as <-. cbn. rewrite (IH l0); auto.
Qed.

Lemma read_all_cons (f : option nat -> option (ptree V)) x l ts : read_all f (x :: l) = Some ts ->
  exists t tr, ts = t :: tr /\ f x = Some t /\ read_all f l = Some tr.
Proof.
  cbn [read_all]. fold (read_all f). destruct (f x); [|discriminate]. destruct (read_all f l); [|discriminate].
  intros E. injection E as <-. eauto.
Qed.

Lemma get_ss (h : heap) s ss : get_s h s = Some ss -> nth_error h s = Some (KS ss).
Proof. unfold get_s. destruct (nth_error h s) as [[]|]; congruence. Qed.

Lemma fresh_trans k (h ext : heap) : k <= length h -> fresh_from k h -> fresh_from (length h) (h ++ ext) -> fresh_from k (h ++ ext).
Proof.
  intros KL F1 F2 b c x KB NB PX. rewrite app_length. destruct (Nat.lt_ge_cases b (length h)) as [LT|GE].
  - rewrite nth_error_app1 in NB by auto. specialize (F1 b c x KB NB PX). lia.
  - specialize (F2 b c x GE NB PX). rewrite app_length in F2. lia.
Qed.

Lemma fresh_refl (h : heap) : fresh_from (length h) h.
Proof. intros b c x KB NB. assert (b < length h) by (apply nth_error_Some; congruence). lia. Qed.

Definition copied (n : nat) (h : heap) (a : nat) (t' : ptree V) : Prop :=
  exists ext a', h_copy one n h a = Ok (h ++ ext, a') /\ length h <= a' < length (h ++ ext) /\
    closed (h ++ ext) /\ fresh_from (length h) (h ++ ext) /\
    read n (h ++ ext) (Some a') = Some t' /\ NoDup (fp n (h ++ ext) (Some a')).

Lemma fp_fresh k n (h : heap) a b : fresh_from k h -> k <= a < length h -> In b (fp n h (Some a)) -> k <= b < length h.
Proof. intros F KA HB. eapply fresh_reach; eauto. eapply fp_reach; eauto. Qed.

Lemma read_app_all n (h ext : heap) ss ts : closed h -> read_all (read n h) ss = Some ts ->
  read_all (read n (h ++ ext)) ss = Some ts.
Proof.
  intros C R. rewrite <- R. revert ts R. induction ss as [|x ss IH]; intros ts R; [reflexivity|].
  apply read_all_cons in R. destruct R as (t & tr & -> & RX & RR). cbn [read_all]. fold (read_all (read n (h ++ ext))) (read_all (read n h)).
  rewrite (IH tr RR). destruct x as [a|].
  - rewrite (read_app n h ext a t C RX), RX. reflexivity.
  - destruct n; reflexivity.
Qed.

Lemma copy_all_lemma n :
  (forall h a t t', closed h -> read n h (Some a) = Some t -> copy one t = Ok t' -> copied n h a t') ->
  forall ss h ts ts', closed h -> read_all (read n h) ss = Some ts -> copy_walk (copy one) ts = Ok ts' ->
  exists ext ss', copy_all (h_copy one n) h ss = Ok (h ++ ext, ss') /\ closed (h ++ ext) /\
    fresh_from (length h) (h ++ ext) /\
    (forall x, In x ss' -> exists a', x = Some a' /\ length h <= a' < length (h ++ ext)) /\
    read_all (read n (h ++ ext)) ss' = Some ts' /\ NoDup (flat_map (fp n (h ++ ext)) ss').
Proof.
  intros IH ss. induction ss as [|x ss IHs]; intros h ts ts' C R CW.
  - cbn in R. injection R as <-. cbn in CW. injection CW as <-. exists [], []. rewrite app_nil_r.
    conjs; [reflexivity|auto|apply fresh_refl|intros x []|reflexivity|constructor].
  - apply read_all_cons in R. destruct R as (t & tr & -> & RX & RR).
    cbn [copy_walk] in CW. fold (copy_walk (copy one)) in CW.
    apply bind_ok in CW. destruct CW as (t1 & CT & CW). apply bind_ok in CW. destruct CW as (tr1 & CR & CW).
    injection CW as <-. destruct x as [a|].
    2: { destruct n; [discriminate|]. cbn in RX. injection RX as <-. discriminate. }
    destruct (IH h a t t1 C RX CT) as (ext & a' & HC & LA & C1 & F1 & R1 & N1).
    destruct (IHs (h ++ ext) tr tr1 C1 (read_app_all n h ext ss tr C RR) CR)
      as (ext2 & ss' & HC2 & C2 & F2 & B2 & R2 & N2).
    exists (ext ++ ext2), (Some a' :: ss'). rewrite app_assoc.
    assert (FF : fresh_from (length h) ((h ++ ext) ++ ext2)).
    { apply fresh_trans; auto. rewrite app_length. lia. }
    assert (SAME : fp n ((h ++ ext) ++ ext2) (Some a') = fp n (h ++ ext) (Some a')).
    { apply read_dep. intros b HB. apply nth_error_app1. eapply fp_fresh; eauto. }
    conjs; auto.
    + cbn [copy_all]. fold (copy_all (h_copy one n)). rewrite HC. cbn [bind fst snd]. rewrite HC2. reflexivity.
    + intros x [<-|HX].
      * exists a'. split; auto. rewrite app_length. lia.
      * destruct (B2 x HX) as (b & -> & LB). exists b. split; auto. rewrite app_length in LB at 1. lia.
    + cbn [read_all]. fold (read_all (read n ((h ++ ext) ++ ext2))).
      rewrite (read_app n _ ext2 a' t1 C1 R1), R2. reflexivity.
    + cbn [flat_map]. apply nodup_app; auto.
      * rewrite SAME. auto.
      * rewrite SAME. intros b HB HB2. apply in_flat_map in HB2. destruct HB2 as (x & HX & HB2).
        destruct (B2 x HX) as (c & -> & LC).
        assert (b < length (h ++ ext)) by (eapply fp_fresh; eauto).
        assert (length (h ++ ext) <= b) by (eapply fp_fresh; eauto). lia.
Qed.

Lemma copy_lemma n : forall h a t t', closed h -> read n h (Some a) = Some t -> copy one t = Ok t' -> copied n h a t'.
Proof.
  induction n as [|n IH]; intros h a t t' C R CT; [discriminate|].
  unfold copied. cbn [read] in R. cbn [h_copy].
  destruct (nth_error h a) as [[| s | nm v b lo up mx st pr | nm s b | | | | |]|] eqn:E; try discriminate.
  - injection R as <-. cbn in CT. injection CT as <-. exists [KFixed], (length h).
    rewrite app_length. cbn [length]. conjs; auto; try lia.
    + apply closed_app; auto. intros c x [<-|[]] [].
    + apply fresh_app; auto using fresh_refl. intros c x [<-|[]] [].
    + cbn [read]. rewrite nth_error_app2, Nat.sub_diag by lia. reflexivity.
    + cbn [fp]. rewrite nth_error_app2, Nat.sub_diag by lia. cbn. repeat constructor. intros [].
  - injection R as <-. cbn in CT. injection CT as <-. eexists [_], (length h).
    rewrite app_length. cbn [length]. conjs; [reflexivity|lia|lia|..].
    + apply closed_app; auto. intros c x [<-|[]] [].
    + apply fresh_app; auto using fresh_refl. intros c x [<-|[]] [].
    + cbn [read]. rewrite nth_error_app2, Nat.sub_diag by lia. reflexivity.
    + cbn [fp]. rewrite nth_error_app2, Nat.sub_diag by lia. cbn. repeat constructor. intros [].
  - destruct (get_v h v) as [vs|]; [|discriminate]. destruct (get_b h b) as [bs|]; [|discriminate].
    destruct (get_o h lo); [|discriminate]. destruct (get_o h up); [|discriminate]. destruct (get_o h mx); [|discriminate].
    destruct (get_p h pr); [|discriminate]. destruct (match st with Some _ => _ | None => _ end); [|discriminate].
    injection R as <-. cbn in CT. injection CT as <-.
    eexists _, (length h + 6). split; [reflexivity|]. rewrite app_length. cbn [length]. conjs; [lia|lia|..].
    + apply closed_app; auto. cbn [length]. intros c x HC HX.
      repeat (destruct HC as [<-|HC]; [cbn in HX; try lia; intuition lia|]). contradiction.
    + apply fresh_app; auto using fresh_refl. cbn [length]. intros c x HC HX.
      repeat (destruct HC as [<-|HC]; [cbn in HX; try lia; intuition lia|]). contradiction.
    + match goal with |- read _ (_ ++ ?e) _ = _ =>
        assert (NTH : forall i, nth_error (h ++ e) (length h + i) = nth_error e i);
          [intros i; rewrite nth_error_app2 by lia; f_equal; lia|] end.
      cbn [read]. rewrite NTH. cbn [nth_error]. unfold get_v, get_b, get_o, get_p. rewrite !NTH.
      specialize (NTH 0). rewrite Nat.add_0_r in NTH. rewrite NTH. reflexivity.
    + cbn [fp]. rewrite nth_error_app2 by lia. rewrite Nat.add_sub_swap, Nat.sub_diag by lia. cbn.
      repeat constructor; cbn; intuition lia.
  - destruct (get_s h s) as [ss|] eqn:GS; [|discriminate]. destruct (get_b h b) as [bs|]; [|discriminate].
    destruct (read_all (read n h) ss) as [ts|] eqn:RA; [|discriminate]. injection R as <-.
    cbn [copy] in CT. apply bind_ok in CT. destruct CT as (ts' & CW & CT). injection CT as <-.
    destruct (copy_all_lemma n IH ss h ts ts' C RA CW) as (ext & ss' & HC & C1 & F1 & B1 & R1 & N1).
    rewrite HC. cbn [bind fst snd].
    set (k := length (h ++ ext)) in *.
    assert (KH : length h <= k) by (unfold k; rewrite app_length; lia).
    exists (ext ++ [KS ss'; KB bs; KMulti nm k (k + 1)]), (k + 2). rewrite app_assoc.
    assert (PT : forall (c : cell) x, In c [KS ss'; KB bs; KMulti nm k (k + 1)] -> In x (ptrs c) -> length h <= x < k + 3).
    { intros c x HC' HX. destruct HC' as [<-|[<-|[<-|[]]]].
      - cbn in HX. apply in_flat_map in HX. destruct HX as (y & HY & HX). destruct (B1 y HY) as (c & -> & LC).
        destruct HX as [<-|[]]. lia.
      - contradiction.
      - cbn in HX. destruct HX as [<-|[<-|[]]]; lia. }
    assert (NTH : forall i, nth_error ((h ++ ext) ++ [KS ss'; KB bs; KMulti nm k (k + 1)]) (k + i)
      = nth_error [KS ss'; KB bs; KMulti nm k (k + 1)] i).
    { intros i. rewrite nth_error_app2 by (fold k; lia). f_equal. fold k. lia. }
    set (hh := (h ++ ext) ++ [KS ss'; KB bs; KMulti nm k (k + 1)]) in *.
    assert (CC : closed hh).
    { apply closed_app; auto. fold k. cbn [length]. intros c x HC' HX. specialize (PT c x HC' HX). lia. }
    assert (FR : fresh_from (length h) hh).
    { apply fresh_app; auto. }
    assert (LH : length hh = k + 3) by (unfold hh; rewrite app_length; reflexivity).
    assert (G0 : get_s hh k = Some ss').
    { unfold get_s. rewrite <- (Nat.add_0_r k), NTH. reflexivity. }
    assert (SUB : forall x, In x ss' -> fp n hh x = fp n (h ++ ext) x).
    { intros x HX. destruct (B1 x HX) as (c & -> & LC). apply read_dep. intros d HD.
      apply nth_error_app1. eapply fp_fresh; eauto. }
    conjs; auto; try lia.
    + cbn [read]. rewrite (NTH 2). cbn [nth_error]. rewrite G0. unfold get_b. rewrite (NTH 1). cbn [nth_error].
      unfold hh. rewrite (read_app_all n (h ++ ext) _ ss' ts' C1 R1). reflexivity.
    + cbn [fp]. rewrite (NTH 2). cbn [nth_error]. rewrite G0.
      assert (EQ : flat_map (fp n hh) ss' = flat_map (fp n (h ++ ext)) ss').
      { apply flat_map_in_ext. exact SUB. }
      rewrite EQ.
      assert (LT : forall d, In d (flat_map (fp n (h ++ ext)) ss') -> d < k).
      { intros d HD. apply in_flat_map in HD. destruct HD as (x & HX & HD). destruct (B1 x HX) as (c & -> & LC).
        eapply fp_fresh; eauto. }
      repeat constructor; auto; cbn [In].
      * intros [|[|HD]]; [lia|lia|]. apply LT in HD. lia.
      * intros [|HD]; [lia|]. apply LT in HD. lia.
      * intros HD. apply LT in HD. lia.
Qed.

(** ** Setting parameters *)
Lemma get_vv (h : heap) s l : get_v h s = Some l -> nth_error h s = Some (KV l).
Proof. unfold get_v. destruct (nth_error h s) as [[]|]; congruence. Qed.
Lemma get_bb (h : heap) s l : get_b h s = Some l -> nth_error h s = Some (KB l).
Proof. unfold get_b. destruct (nth_error h s) as [[]|]; congruence. Qed.

Definition stored (n : nat) (h h' : heap) (r : option nat) (t' : ptree V) : Prop :=
  length h' = length h /\ (forall b, ~ In b (fp n h r) -> nth_error h' b = nth_error h b) /\
  read n h' r = Some t' /\ fp n h' r = fp n h r.

Lemma read_some_not_none n (h : heap) a t : read n h (Some a) = Some t -> is_none t = false.
Proof.
  destruct n; [discriminate|]. cbn [read]. intros R.
  destruct (nth_error h a) as [[| s | nm v b lo up mx st pr | nm s b | | | | |]|] eqn:E; try discriminate.
  - injection R as <-; reflexivity.
  - injection R as <-; reflexivity.
  - repeat match type of R with match ?x with _ => _ end = _ => destruct x; [|discriminate] end.
    injection R as <-; reflexivity.
  - repeat match type of R with match ?x with _ => _ end = _ => destruct x; [|discriminate] end.
    injection R as <-; reflexivity.
Qed.

Lemma nodup_app_inv {A} (l1 l2 : list A) : NoDup (l1 ++ l2) ->
  NoDup l1 /\ NoDup l2 /\ (forall x, In x l1 -> ~ In x l2).
Proof.
  induction l1 as [|x l1 IH]; cbn; intros N; [conjs; [constructor|auto|intros x []]|].
  inversion N as [|? ? NI N']; subst. destruct (IH N') as (N1 & N2 & D). conjs; auto.
  - constructor; auto. intros HX. apply NI. apply in_or_app; auto.
  - intros y [<-|HY]; auto. intros HX. apply NI. apply in_or_app; auto.
Qed.

Lemma set_all_lemma n :
  (forall (h : heap) a t p, read n h (Some a) = Some t -> NoDup (fp n h (Some a)) ->
    match set_params t p with
    | Ok t' => exists h', h_set_params n h a p = Ok h' /\ stored n h h' (Some a) t'
    | Err e => h_set_params n h a p = Err e
    end) ->
  forall (p : list V) ss (h : heap) ts bs off, read_all (read n h) ss = Some ts -> NoDup (flat_map (fp n h) ss) ->
    match slice_walk number_of_params set_params p ts bs off with
    | Ok ts' => exists h', set_all (h_num n) (h_set_params n) p h ss bs off = Ok h' /\ length h' = length h /\
        (forall b, ~ In b (flat_map (fp n h) ss) -> nth_error h' b = nth_error h b) /\
        read_all (read n h') ss = Some ts' /\ flat_map (fp n h') ss = flat_map (fp n h) ss
    | Err e => set_all (h_num n) (h_set_params n) p h ss bs off = Err e
    end.
Proof.
  intros IH p ss. induction ss as [|x ss IHs]; intros h ts bs off R N.
  - cbn in R. injection R as <-. cbn [slice_walk]. exists h. destruct bs; cbn; conjs; auto.
  - apply read_all_cons in R. destruct R as (t & tr & -> & RX & RR). cbn [flat_map] in N.
    apply nodup_app_inv in N. destruct N as (N1 & N2 & D).
    destruct bs as [|l bs].
    { cbn [slice_walk set_all]. exists h. destruct x; conjs; auto; cbn [read_all]; fold (read_all (read n h)); rewrite RX, RR; reflexivity. }
    (* not touched *)
    assert (SKIP : match slice_walk number_of_params set_params p tr bs off with
      | Ok ts' => exists h', set_all (h_num n) (h_set_params n) p h ss bs off = Ok h' /\ length h' = length h /\
          (forall b, ~ In b (flat_map (fp n h) (x :: ss)) -> nth_error h' b = nth_error h b) /\
          read_all (read n h') (x :: ss) = Some (t :: ts') /\ flat_map (fp n h') (x :: ss) = flat_map (fp n h) (x :: ss)
      | Err e => set_all (h_num n) (h_set_params n) p h ss bs off = Err e end).
    { specialize (IHs h tr bs off RR N2). destruct (slice_walk _ _ p tr bs off) as [ts'|e]; [|exact IHs].
      destruct IHs as (h' & E & L & F & R' & FP). exists h'.
      destruct (read_dep n h h' x) as [RD FD]; [intros b HB; apply F; auto|].
      conjs; auto.
      - cbn [flat_map]. intros b HB. apply F. intros HI. apply HB. apply in_or_app; auto.
      - cbn [read_all]. fold (read_all (read n h')). rewrite RD, RX, R'. reflexivity.
      - cbn [flat_map]. rewrite FD, FP. reflexivity. }
    cbn [slice_walk]. fold (slice_walk number_of_params set_params p).
    destruct x as [a|].
    2: { assert (T : is_none t = true) by (destruct n; [discriminate|]; cbn in RX; injection RX as <-; reflexivity).
         rewrite T, andb_false_r. cbn [set_all]. fold (set_all (h_num n) (h_set_params n) p).
         destruct (slice_walk _ _ p tr bs off) as [ts'|e]; cbn [bind].
         - destruct SKIP as (h' & SK). exists h'. destruct l; exact SK.
         - destruct l; exact SKIP. }
    rewrite (read_some_not_none n h a t RX). destruct l.
    2: { cbn [andb set_all]. fold (set_all (h_num n) (h_set_params n) p).
         destruct (slice_walk _ _ p tr bs off) as [ts'|e]; cbn [bind]; exact SKIP. }
    clear SKIP. cbn [andb negb set_all]. fold (set_all (h_num n) (h_set_params n) p).
    cbv zeta. assert (HN : h_num n h a = number_of_params t) by (unfold h_num; rewrite RX; reflexivity).
    rewrite HN.
    specialize (IH h a t (slice off (off + number_of_params t) p) RX N1).
    destruct (set_params t _) as [t'|e]; [|rewrite IH; reflexivity]. destruct IH as (h1 & E1 & L1 & F1 & R1 & P1).
    rewrite E1. cbn [bind].
    assert (SAME : forall y, In y ss -> read n h1 y = read n h y /\ fp n h1 y = fp n h y).
    { intros y HY. apply read_dep. intros b HB. apply F1. intros HI. apply (D b HI). apply in_flat_map; eauto. }
    assert (FPS : flat_map (fp n h1) ss = flat_map (fp n h) ss).
    { clear - SAME. induction ss as [|y l IHl]; [reflexivity|]. cbn [flat_map].
      rewrite (proj2 (SAME y (or_introl eq_refl))), IHl; auto. intros z HZ. apply SAME. right; auto. }
    assert (RS : read_all (read n h1) ss = Some tr).
    { rewrite <- RR. apply read_all_ext. intros y HY. apply SAME; auto. }
    specialize (IHs h1 tr bs (off + number_of_params t) RS). rewrite FPS in IHs. specialize (IHs N2).
    destruct (slice_walk _ _ p tr bs (off + number_of_params t)) as [ts'|e]; cbn [bind].
    2: exact IHs.
    destruct IHs as (h' & E & L & F & R' & FP). exists h'.
    destruct (read_dep n h1 h' (Some a)) as [RD FD].
    { intros b HB. apply F. rewrite P1 in HB. auto. }
    conjs; [exact E|congruence|..].
    + cbn [flat_map]. intros b HB. rewrite F, F1; auto; intros HI; apply HB; apply in_or_app; auto.
    + cbn [read_all]. fold (read_all (read n h')). rewrite RD, R1, R'. reflexivity.
    + cbn [flat_map]. congruence.
Qed.

Lemma set_lemma n : forall (h : heap) a t p, read n h (Some a) = Some t -> NoDup (fp n h (Some a)) ->
  match set_params t p with
  | Ok t' => exists h', h_set_params n h a p = Ok h' /\ stored n h h' (Some a) t'
  | Err e => h_set_params n h a p = Err e
  end.
Proof.
  induction n as [|n IH]; intros h a t p R N; [discriminate|].
  assert (HA : a < length h) by (eapply read_in; eauto).
  unfold stored. cbn [read fp h_set_params] in *.
  destruct (nth_error h a) as [[| s | nm v b lo up mx st pr | nm s b | | | | |]|] eqn:E; try discriminate.
  - injection R as <-. cbn [set_params]. destruct p; [|reflexivity]. exists h. rewrite !E. conjs; auto.
  - injection R as <-. cbn [set_params]. destruct p as [|x [|]]; try reflexivity. eexists. split; [reflexivity|].
    rewrite put_length, !put_same by auto. conjs; auto. intros c HC. apply put_other. intros ->. apply HC. left; auto.
  - destruct (get_v h v) as [vs|] eqn:GV; [|discriminate]. destruct (get_b h b) as [bs|] eqn:GB; [|discriminate].
    destruct (get_o h lo) as [o1|] eqn:GO1; [|discriminate]. destruct (get_o h up) as [o2|] eqn:GO2; [|discriminate].
    destruct (get_o h mx) as [o3|] eqn:GO3; [|discriminate].
    destruct (get_p h pr) as [pp|] eqn:GP; [|discriminate].
    destruct (match st with Some _ => _ | None => _ end) as [sv|] eqn:GST; [|discriminate].
    injection R as <-. cbn [set_params l_liquid l_vals].
    destruct (plist_set_loop bs vs 0 p) as [vs'|e]; [|reflexivity]. cbn [bind].
    eexists. split; [reflexivity|].
    assert (HV : v < length h) by (apply nth_error_Some; rewrite (get_vv h v vs GV); discriminate).
    cbn [ptrs app] in N. rewrite !NoDup_cons_iff in N. cbn [In] in N.
    destruct N as (NA & NV & _).
    assert (NE : forall c, c <> v -> nth_error (put h v (KV vs')) c = nth_error h c) by (intros; apply put_other; auto).
    rewrite put_length, (NE a) by (intros ->; apply NA; auto). rewrite E.
    conjs; auto.
    + intros c HC. apply NE. intros ->. apply HC. cbn. auto.
    + unfold get_v at 1. rewrite put_same by auto.
      rewrite (get_b_ext h), (get_o_ext h _ lo), (get_o_ext h _ up), (get_o_ext h _ mx), (get_p_ext h)
        by (apply NE; intros ->; apply NV; tauto).
      rewrite GB, GO1, GO2, GO3, GP.
      destruct st as [x|].
      * rewrite (get_v_ext h _ x) by (apply NE; intros ->; apply NV; cbn [In]; tauto). rewrite GST. reflexivity.
      * injection GST as <-. reflexivity.
  - destruct (get_s h s) as [ss|] eqn:GS; [|discriminate]. destruct (get_b h b) as [bs|] eqn:GB; [|discriminate].
    destruct (read_all (read n h) ss) as [ts|] eqn:RA; [|discriminate]. injection R as <-.
    rewrite !NoDup_cons_iff in N. cbn [In] in N. destruct N as (NA & NS & NB & N).
    cbn [set_params]. pose proof (set_all_lemma n IH p ss h ts bs 0 RA N) as SA.
    destruct (slice_walk _ _ p ts bs 0) as [ts'|e]; cbn [bind]; [|exact SA].
    destruct SA as (h' & E' & L' & F' & R' & FP'). exists h'.
    assert (EA : nth_error h' a = nth_error h a) by (apply F'; tauto).
    rewrite EA, E. rewrite (get_s_ext h), (get_b_ext h) by (apply F'; tauto). rewrite GS, GB, R', FP'.
    conjs; auto. intros c HC. apply F'. intros HI. apply HC. cbn; auto.
Qed.

Lemma reach_shut (h : heap) a : closed h -> a < length h -> shut (reach h a) h.
Proof.
  intros C HA. split.
  - intros b R. apply (closed_reach h [] a b); auto. rewrite app_nil_r. auto.
  - intros b k c R NB HC. eapply reach_step; eauto.
Qed.

(** *** C10: a copy and its original go separate ways.
    After the copy the two stand for the same values as in ParamsModel.v; and
    through any further history in which both sides change what they can get
    at - set or replace values, flags and bounds, add, remove and create
    members - no change on one side shows on the other.  Nor do changes to any
    other object that existed before. *)
Theorem C10_copy_independent n (h : heap) a t : closed h -> read n h (Some a) = Some t -> no_none t ->
  exists h1 a' t', h_copy one n h a = Ok (h1, a') /\ copy one t = Ok t' /\
    read n h1 (Some a) = Some t /\ read n h1 (Some a') = Some t' /\ NoDup (fp n h1 (Some a')) /\
    let old := fun b => b < length h in
    forall P Q h2, turns old (reach h1 a') h1 P Q h2 ->
      P a /\ Q a' /\
      (forall P3 h3, evolve P h2 P3 h3 -> forall m b, Q b -> read m h3 (Some b) = read m h2 (Some b)) /\
      (forall Q3 h3, evolve Q h2 Q3 h3 -> forall m b, P b -> read m h3 (Some b) = read m h2 (Some b)).
Proof.
  intros C R NN. destruct (copy_spec one t NN) as (t' & E & _).
  destruct (copy_lemma n h a t t' C R E) as (ext & a' & HC & LA & C1 & F1 & R1 & N1).
  assert (HA : a < length h) by (eapply read_in; eauto).
  exists (h ++ ext), a', t'. conjs; auto; [apply read_app; auto|]. cbv zeta.
  intros P Q h2 T.
  assert (SO : shut (fun b => b < length h) (h ++ ext)).
  { split; [intros b HB; rewrite app_length; lia|]. intros b k c HB NB HX.
    rewrite nth_error_app1 in NB by auto. eapply C; eauto. }
  assert (SC : shut (reach (h ++ ext) a') (h ++ ext)) by (apply reach_shut; auto; lia).
  assert (D : forall b, b < length h -> reach (h ++ ext) a' b -> False).
  { intros b HB HR. apply (fresh_reach (length h)) in HR; auto. lia. }
  destruct (turns_inv _ _ _ _ _ _ T SO SC D) as (SP & SQ & DD).
  assert (MON : forall P0 Q0 (hh : heap) P1 Q1 hh1, turns P0 Q0 hh P1 Q1 hh1 -> (forall b, P0 b -> P1 b) /\ (forall b, Q0 b -> Q1 b)).
  { clear. induction 1 as [| ? ? ? ? ? ? ? ? EV T IH| ? ? ? ? ? ? ? ? EV T IH]; auto;
      apply evolve_frame in EV; destruct EV as (_ & _ & _ & M), IH as [I1 I2]; split; auto. }
  destruct (MON _ _ _ _ _ _ T) as [M1 M2].
  conjs; [apply M1; auto|apply M2; constructor|..].
  - intros P3 h3 EV m b HB. destruct (shut_other P Q h2 P3 h3 EV SP SQ DD) as (_ & _ & X). auto.
  - intros Q3 h3 EV m b HB. destruct (shut_other Q P h2 Q3 h3 EV SQ SP) as (_ & _ & X); eauto.
Qed.

(** The methods are such changes. *)
Lemma evolve_write1 (P : nat -> Prop) (h : heap) b (k : cell) : P b -> (forall c, In c (ptrs k) -> P c) -> evolve P h P (put h b k).
Proof. intros PB PC. eapply ev_write; eauto. constructor. Qed.
Lemma evolve_trans P (h : heap) P1 h1 P2 h2 : evolve P h P1 h1 -> evolve P1 h1 P2 h2 -> evolve P h P2 h2.
Proof. induction 1; intros; auto; [eapply ev_write|eapply ev_new]; eauto. Qed.

Lemma set_all_evolve n P : 
  (forall (h : heap) a p h', shut P h -> P a -> h_set_params n h a p = Ok h' -> evolve P h P h') ->
  forall (p : list V) ss (h : heap) bs off h', shut P h -> (forall x, In (Some x) ss -> P x) ->
    set_all (h_num n) (h_set_params n) p h ss bs off = Ok h' -> evolve P h P h'.
Proof.
  intros IH p ss. induction ss as [|x ss IHs]; intros h bs off h' SH IN E.
  - destruct bs; cbn in E; injection E as <-; constructor.
  - assert (IN' : forall y, In (Some y) ss -> P y) by (intros; apply IN; right; auto).
    cbn [set_all] in E. fold (set_all (h_num n) (h_set_params n) p) in E.
    destruct x as [a|], bs as [|[|] bs]; cbv zeta in E; eauto; try (injection E as <-; constructor).
    apply bind_ok in E. destruct E as (h1 & E1 & E).
    assert (EV : evolve P h P h1) by (eapply IH; eauto; apply IN; left; auto).
    eapply evolve_trans; eauto. eapply IHs; eauto. eapply evolve_shut; eauto.
Qed.

Theorem C10_set_params_local n : forall P (h : heap) a p h', shut P h -> P a ->
  h_set_params n h a p = Ok h' -> evolve P h P h'.
Proof.
  induction n as [|n IH]; intros P h a p h' SH PA E; [discriminate|]. cbn [h_set_params] in E.
  destruct (nth_error h a) as [[| s | nm v b lo up mx st pr | nm s b | | | | |]|] eqn:EA; try discriminate.
  - destruct p; [|discriminate]. injection E as <-. constructor.
  - destruct p as [|x [|]]; try discriminate. injection E as <-. apply evolve_write1; [exact PA|intros c []].
  - destruct (get_v h v); [|discriminate]. destruct (get_b h b); [|discriminate]. apply bind_ok in E.
    destruct E as (vs' & _ & E). injection E as <-. apply evolve_write1; [|intros c []].
    apply (proj2 SH a _ v PA EA). cbn. auto.
  - destruct (get_s h s) as [ss|] eqn:GS; [|discriminate]. destruct (get_b h b); [|discriminate].
    eapply set_all_evolve; eauto. intros x HX. apply (proj2 SH s (KS ss) x).
    + apply (proj2 SH a _ s PA EA). cbn; auto.
    + apply get_ss; auto.
    + cbn [ptrs]. apply in_flat_map. exists (Some x). split; auto. left; auto.
Qed.

Theorem C10_flag_append_local P (h : heap) a : shut P h -> P a ->
  (forall i f h', h_set_flag h a i f = Ok h' -> evolve P h P h') /\
  (forall x h', P x -> h_append h a x = Ok h' -> evolve P h P h').
Proof.
  intros [B SH] PA. split.
  - intros i f h' E. unfold h_set_flag in E.
    destruct (nth_error h a) as [[| s | nm v b lo up mx st pr | nm s b | | | | |]|] eqn:EA; try discriminate;
      (destruct (get_b h b); [|discriminate]; destruct (_ <? _); [|discriminate]; injection E as <-;
       apply evolve_write1; [|intros c []]; apply (SH a _ b PA EA); cbn; auto).
  - intros x h' PX E. unfold h_append in E.
    destruct (nth_error h a) as [[| s | nm v b lo up mx st pr | nm s b | | | | |]|] eqn:EA; try discriminate.
    destruct (get_s h s) as [ss|] eqn:GS; [|discriminate]. destruct (get_b h b) as [bs|]; [|discriminate].
    injection E as <-.
    assert (PS : P s) by (apply (SH a _ s PA EA); cbn; auto).
    assert (PB : P b) by (apply (SH a _ b PA EA); cbn; auto).
    eapply ev_write with (k := KS (ss ++ [Some x])); [exact PS| |apply evolve_write1; [exact PB|intros c []]].
    intros c HC. cbn [ptrs] in HC. apply in_flat_map in HC. destruct HC as (y & HY & HC).
    apply in_app_or in HY. destruct HY as [HY|[<-|[]]].
    + apply (SH s (KS ss) c PS (get_ss _ _ _ GS)). cbn [ptrs]. apply in_flat_map. eauto.
    + destruct HC as [<-|[]]. auto.
Qed.

(** *** When an object graph behaves like a tree: nothing in it is shared.
    Then setting parameters of the object has exactly the effect it has on the
    tree of ParamsModel.v, on nothing else, and the object stays unshared; a
    copy is always unshared. *)
Theorem C10_unshared_refines n (h : heap) a t p : read n h (Some a) = Some t -> NoDup (fp n h (Some a)) ->
  match set_params t p with
  | Ok t' => exists h', h_set_params n h a p = Ok h' /\
      read n h' (Some a) = Some t' /\ fp n h' (Some a) = fp n h (Some a) /\
      (forall b, ~ In b (fp n h (Some a)) -> nth_error h' b = nth_error h b)
  | Err e => h_set_params n h a p = Err e
  end.
Proof.
  intros R N. pose proof (set_lemma n h a t p R N) as S. destruct (set_params t p); auto.
  destruct S as (h' & E & _ & F & R' & FP). eauto 6.
Qed.
End Proofs.

(** With sharing it need not: one list of values put twice into a group. *)
Theorem C10_shared_member_refuted :
  exists (h : @heap Z) a t t' h', closed h /\ read 3 h (Some a) = Some t /\ wf t /\
    set_params t [1; 2]%Z = Ok t' /\ h_set_params 3 h a [1; 2]%Z = Ok h' /\
    get_params t' = [1; 2]%Z /\ exists u, read 3 h' (Some a) = Some u /\ get_params u = [2; 2]%Z.
Proof.
  exists [KMulti (mkNames [] []) 1 2; KS [Some 3; Some 3]; KB [true; true]; KScalar (mkScalar "x" 0%Z None None None 1%Z)], 0.
  eexists _, _, _. conjs; [|reflexivity| |reflexivity|reflexivity|reflexivity|eexists; split; reflexivity].
  - intros b k c NB HC. do 4 (destruct b as [|b]; [injection NB as <-; cbn in HC |- *; intuition lia|]).
    destruct b; discriminate.
  - cbn. tauto.
Qed.

(** A group with a missing member cannot be copied at all. *)
Theorem C10_copy_missing_refuted : exists t : ptree Z, wf t /\ copy 1%Z t = Err AttributeError /\
  exists h a, closed h /\ read 2 h (Some a) = Some t /\ h_copy 1%Z 2 h a = Err AttributeError.
Proof.
  exists (PMulti (mkNames [] []) [PNone] [true]). conjs; [cbn; tauto|reflexivity|].
  exists [KMulti (mkNames [] []) 1 2; KS [None]; KB [true]], 0. conjs; try reflexivity.
  intros b k c NB HC. do 3 (destruct b as [|b]; [injection NB as <-; cbn in HC |- *; intuition lia|]).
  destruct b; discriminate.
Qed.

(** A group of a scalar and a list whose second value is frozen, copied;
    then the original's flags and values and the copy's values change. *)
Example heap_copy_example :
  let h : @heap Z :=
    [KV [10; 20]%Z; KB [true; false]; KO [None; None]; KO [None; None]; KO [None; None]; KP [];
     KList (mkNames [] []) 0 1 2 3 4 None 5; KScalar (mkScalar "f" 7%Z None None None 1%Z);
     KS [Some 7; Some 6]; KB [true; true]; KMulti (mkNames [] []) 8 9] in
  closed h /\ (exists t, read 2 h (Some 10) = Some t /\ no_none t /\ get_params t = [7; 10]%Z) /\
  exists h1 a', h_copy 1%Z 2 h 10 = Ok (h1, a') /\ a' = 21 /\
  exists h2, h_set_flag h1 10 0 false = Ok h2 /\
  exists h3, h_set_params 2 h2 10 [99]%Z = Ok h3 /\
  exists h4, h_set_params 2 h3 a' [1; 2]%Z = Ok h4 /\
  exists t t', read 2 h4 (Some 10) = Some t /\ read 2 h4 (Some a') = Some t' /\
    get_params t = [99]%Z /\ get_all_params t = [7; 99; 20]%Z /\ get_all_params t' = [1; 2; 20]%Z.
Proof.
  cbv zeta. split.
  { intros b k c NB HC. do 11 (destruct b as [|b]; [injection NB as <-; cbn in HC |- *; intuition lia|]).
    destruct b; discriminate. }
  split; [eexists; split; [reflexivity|]; cbn; auto|].
  eexists _, _. split; [reflexivity|]. split; [reflexivity|].
  eexists. split; [reflexivity|]. eexists. split; [reflexivity|]. eexists. split; [reflexivity|].
  eexists _, _. split; [reflexivity|]. split; [reflexivity|]. repeat split; reflexivity.
Qed.

Print Assumptions C10_copy_independent.
Print Assumptions C10_set_params_local.
Print Assumptions C10_flag_append_local.
Print Assumptions C10_unshared_refines.
Print Assumptions C10_shared_member_refuted.
Print Assumptions C10_copy_missing_refuted.
