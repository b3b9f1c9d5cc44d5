(** C51: Gaussian-mixture parameters; C56: parameters in FITS headers. *)
From Coq Require Import String List Bool Arith Lia.
From Verif Require Import Base MogModel.
Import ListNotations.

Section Props.
Context {V : Type} (avg : V -> V -> V).
Hypothesis avg_same : forall x, avg x x = x.
Notation mog := (@mog V).

(** *** Specification *)
(** K components, symmetric variances. *)
Definition shaped (m : mog) : Prop := length (amp m) = mog_K m /\ length (var m) = mog_K m.
Definition symmetric (m : mog) : Prop := Forall (fun v => let '(xx, xy, yx, yy) := v in xy = yx) (var m).
(** What a name stands for. *)
Definition named (m : mog) (n : mname) : option V :=
  match n with
  | NAmp k => nth_error (amp m) k
  | NMeanX k => option_map fst (nth_error (mean m) k)
  | NMeanY k => option_map snd (nth_error (mean m) k)
  | NVarXX k => option_map (fun v => let '(xx, xy, yx, yy) := v in xx) (nth_error (var m) k)
  | NVarYY k => option_map (fun v => let '(xx, xy, yx, yy) := v in yy) (nth_error (var m) k)
  | NVarXY k => option_map (fun v => let '(xx, xy, yx, yy) := v in xy) (nth_error (var m) k)
  end.

(** *** Lists *)
Lemma pairs_flat2 (l : list (V * V)) : pairs (flat2 l) = l.
Proof. induction l as [|[a b] r IH]; [reflexivity|]. cbn. f_equal. apply IH. Qed.
Lemma flat2_length (l : list (V * V)) : length (flat2 l) = 2 * length l.
Proof. induction l as [|[a b] r IH]; [reflexivity|]. change (length (flat2 ((a, b) :: r))) with (S (S (length (flat2 r)))). cbn [length]. lia. Qed.
Lemma flat2_pairs : forall n (l : list V), length l = 2 * n -> flat2 (pairs l) = l /\ length (pairs l) = n.
Proof.
  induction n as [|n IH]; intros l H; [destruct l; [auto|discriminate]|].
  destruct l as [|a [|b r]]; [discriminate|cbn in H; lia|]. cbn in H. destruct (IH r ltac:(lia)) as [E L].
  cbn. split; [|lia]. do 2 f_equal. apply E.
Qed.
Definition flat3 (l : list (V * V * V)) : list V := flat_map (fun e => let '(a, b, c) := e in [a; b; c]) l.
Fixpoint triples (l : list V) : list (V * V * V) := match l with a :: b :: c :: r => (a, b, c) :: triples r | _ => [] end.
Lemma flat3_length l : length (flat3 l) = 3 * length l.
Proof. induction l as [|[[a b] c] r IH]; [reflexivity|]. change (length (flat3 ((a, b, c) :: r))) with (S (S (S (length (flat3 r))))). cbn [length]. lia. Qed.
Lemma flat3_triples : forall n (l : list V), length l = 3 * n -> flat3 (triples l) = l /\ length (triples l) = n.
Proof.
  induction n as [|n IH]; intros l H; [destruct l; [auto|discriminate]|].
  destruct l as [|a [|b [|c r]]]; try (cbn in H; lia). cbn in H. destruct (IH r ltac:(lia)) as [E L].
  cbn. split; [|lia]. do 3 f_equal. apply E.
Qed.
Lemma triples_flat3 l : triples (flat3 l) = l.
Proof. induction l as [|[[a b] c] r IH]; [reflexivity|]. cbn. f_equal. apply IH. Qed.
Lemma every3_flat3 l : every3 0 (flat3 l) = map (fun e => fst (fst e)) l /\ every3 1 (flat3 l) = map (fun e => snd (fst e)) l /\
  every3 2 (flat3 l) = map snd l.
Proof. induction l as [|[[a b] c] r (I1 & I2 & I3)]; [auto|]. cbn. unfold flat3 in *. rewrite I1, I2, I3. auto. Qed.
(** (xx, yy, xy) of a variance and back. *)
Definition tri (v : V * V * V * V) : V * V * V := let '(xx, xy, yx, yy) := v in (xx, yy, xy).
Definition untri (e : V * V * V) : V * V * V * V := let '(xx, yy, xy) := e in (xx, xy, xy, yy).
Lemma get_things_eq (m : mog) : get_things m = amp m ++ flat2 (mean m) ++ flat3 (map tri (var m)).
Proof.
  unfold get_things, flat3. rewrite flat_map_concat_map, flat_map_concat_map, map_map. do 3 f_equal. apply map_ext. intros [[[a b] c] d]. reflexivity.
Qed.
Lemma zip_var_map l : zip_var (map (fun e => fst (fst e)) l) (map (fun e => snd (fst e)) l) (map snd l) = map untri l.
Proof. induction l as [|[[a b] c] r IH]; [reflexivity|]. cbn. f_equal. apply IH. Qed.
Lemma tri_untri l : map tri (map untri l) = l.
Proof. rewrite map_map. rewrite <- (map_id l) at 2. apply map_ext. intros [[a b] c]. reflexivity. Qed.
Lemma untri_tri m : symmetric m -> map untri (map tri (var m)) = var m.
Proof.
  intros H. rewrite map_map. rewrite <- (map_id (var m)) at 2. apply map_ext_in. intros [[[a b] c] d] HI.
  apply (proj1 (Forall_forall _ _) H) in HI. subst. reflexivity.
Qed.
Lemma columns K tr : length tr = K ->
  column K (every3 0 (flat3 tr)) = Ok (map (fun e => fst (fst e)) tr) /\
  column K (every3 1 (flat3 tr)) = Ok (map (fun e => snd (fst e)) tr) /\
  column K (every3 2 (flat3 tr)) = Ok (map snd tr).
Proof.
  intros <-. destruct (every3_flat3 tr) as (E1 & E2 & E3). rewrite E1, E2, E3. unfold column. rewrite !map_length, Nat.eqb_refl. auto.
Qed.
Lemma firstn_app_len {A} (a b : list A) n : length a = n -> firstn n (a ++ b) = a.
Proof. intros <-. rewrite firstn_app, Nat.sub_diag, firstn_O, app_nil_r. apply firstn_all. Qed.
Lemma skipn_app_len {A} (a b : list A) n : length a = n -> skipn n (a ++ b) = b.
Proof. intros <-. rewrite skipn_app, Nat.sub_diag, skipn_all. reflexivity. Qed.
Lemma split3 K (p : list V) : length p = 6 * K -> exists a mn tr, p = a ++ flat2 mn ++ flat3 tr /\ length a = K /\ length mn = K /\ length tr = K.
Proof.
  intros H. exists (firstn K p), (pairs (firstn (2 * K) (skipn K p))), (triples (skipn (3 * K) p)).
  destruct (flat2_pairs K (firstn (2 * K) (skipn K p))) as [E1 L1]; [rewrite firstn_length, skipn_length; lia|].
  destruct (flat3_triples K (skipn (3 * K) p)) as [E2 L2]; [rewrite skipn_length; lia|].
  rewrite E1, E2. split; [|rewrite firstn_length; repeat split; auto; lia].
  replace (skipn (3 * K) p) with (skipn (2 * K) (skipn K p)) by (rewrite skipn_add; f_equal; lia).
  rewrite firstn_skipn, firstn_skipn. reflexivity.
Qed.

Lemma set_things_eq (m : mog) a mn tr : length a = mog_K m -> length mn = mog_K m -> length tr = mog_K m ->
  set_things m (a ++ flat2 mn ++ flat3 tr) = Ok (mkMog a mn (map untri tr)).
Proof.
  intros HA HM HT. unfold set_things. cbv zeta. rewrite (firstn_app_len a _ _ HA), (skipn_app_len a _ _ HA).
  assert (L2 : length (flat2 mn) = mog_K m * 2) by (rewrite flat2_length; lia).
  rewrite (firstn_app_len _ _ _ L2), (skipn_app_len _ _ _ L2), L2, Nat.eqb_refl. cbn [negb].
  destruct (columns _ tr HT) as (C1 & C2 & C3). rewrite C1. cbn [bind]. rewrite C2. cbn [bind]. rewrite C3. cbn [bind].
  rewrite pairs_flat2, zip_var_map. reflexivity.
Qed.

(** *** C51 *)
(** The vector determines the mixture... *)
Theorem C51_get_set : forall (m : mog) p, length p = 6 * mog_K m ->
  exists m', set_things m p = Ok m' /\ get_things m' = p /\ shaped m' /\ symmetric m' /\ mog_K m' = mog_K m.
Proof.
  intros m p H. destruct (split3 _ _ H) as (a & mn & tr & -> & LA & LM & LT). rewrite set_things_eq by auto.
  eexists. split; [reflexivity|]. rewrite get_things_eq. cbn [amp mean var]. rewrite tri_untri. split; [reflexivity|].
  unfold shaped, mog_K in *. cbn [amp mean var]. rewrite map_length. repeat split; try congruence.
  unfold symmetric. cbn [var]. apply Forall_forall. intros v HI. apply in_map_iff in HI. destruct HI as ([[x y] z] & <- & _). reflexivity.
Qed.
(** ... and conversely. *)
Theorem C51_set_get : forall (m : mog), shaped m -> symmetric m -> set_things m (get_things m) = Ok m.
Proof.
  intros m [LA LV] S. rewrite get_things_eq, set_things_eq; auto; [|rewrite map_length; auto].
  rewrite untri_tri by auto. destruct m; reflexivity.
Qed.
Theorem C51_injective : forall (m1 m2 : mog), shaped m1 -> shaped m2 -> symmetric m1 -> symmetric m2 ->
  get_things m1 = get_things m2 -> m1 = m2.
Proof.
  intros m1 m2 H1 H2 S1 S2 E.
  assert (K : mog_K m1 = mog_K m2).
  { apply (f_equal (@length V)) in E. rewrite !get_things_eq in E. destruct H1, H2.
    rewrite !app_length, !flat2_length, !flat3_length, !map_length in E. unfold mog_K in *. lia. }
  pose proof (C51_set_get m1 H1 S1) as A. pose proof (C51_set_get m2 H2 S2) as B. rewrite <- E in B.
  unfold set_things in A, B. rewrite K in A. rewrite A in B. injection B. auto.
Qed.
(** The constructor with 6K numbers, hence copies. *)
Theorem C51_construct : forall p K, length p = 6 * K ->
  exists m, mog_of_args avg p = Ok m /\ get_things m = p /\ shaped m /\ symmetric m /\ mog_K m = K.
Proof.
  intros p K H. destruct (split3 _ _ H) as (a & mn & tr & E & LA & LM & LT). unfold mog_of_args.
  assert (D : length p / 6 = K /\ length p mod 6 = 0).
  { rewrite H, Nat.mul_comm. split; [apply Nat.div_mul; lia|apply Nat.mod_mul; lia]. }
  destruct D as [-> ->]. cbn [Nat.eqb negb]. rewrite E.
  rewrite (firstn_app_len a _ _ LA), (skipn_app_len a _ _ LA).
  assert (L2 : length (flat2 mn) = 2 * K) by (rewrite flat2_length; lia).
  rewrite (firstn_app_len _ _ _ L2). rewrite app_assoc, (skipn_app_len (a ++ flat2 mn)) by (rewrite app_length; lia).
  destruct (columns _ tr LT) as (C1 & C2 & C3). rewrite C1. cbn [bind]. rewrite C2. cbn [bind]. rewrite C3. cbn [bind].
  rewrite pairs_flat2, zip_var_map. unfold new_mog.
  replace (map (fun m => let '(xx, xy, yx, yy) := m in (xx, avg yx xy, avg yx xy, yy)) (map untri tr)) with (map untri tr).
  - eexists. split; [reflexivity|]. rewrite get_things_eq. cbn [amp mean var]. rewrite tri_untri, app_assoc. split; [reflexivity|].
    unfold shaped, mog_K. cbn [amp mean var]. rewrite map_length. repeat split; try congruence.
    unfold symmetric. cbn [var]. apply Forall_forall. intros v HI. apply in_map_iff in HI. destruct HI as ([[x y] z] & <- & _). reflexivity.
  - rewrite map_map. apply map_ext. intros [[x y] z]. cbn. rewrite avg_same. reflexivity.
Qed.
Theorem C51_copy : forall (m : mog), shaped m -> symmetric m -> mog_of_args avg (get_things m) = Ok m.
Proof.
  intros m H S. destruct (C51_construct (get_things m) (mog_K m)) as (m' & E & G & H' & S' & _).
  - rewrite get_things_eq, !app_length, flat2_length, flat3_length, map_length. destruct H. unfold mog_K in *. lia.
  - rewrite E. f_equal. apply C51_injective; auto.
Qed.

Lemma upd_app1 {A} i (x : A) a b : i < length a -> upd i x (a ++ b) = upd i x a ++ b.
Proof. revert i. induction a as [|y r IH]; intros i H; [cbn in H; lia|]. destruct i; cbn in *; [reflexivity|]. rewrite IH by lia. reflexivity. Qed.
Lemma upd_app2 {A} i (x : A) a b : upd (length a + i) x (a ++ b) = a ++ upd i x b.
Proof. induction a as [|y r IH]; [reflexivity|]. cbn. f_equal. apply IH. Qed.
Lemma upd_flat3 o x : forall l j e, nth_error l j = Some e -> o < 3 ->
  upd (3 * j + o) x (flat3 l) = flat3 (upd j (let '(a, b, c) := e in match o with 0 => (x, b, c) | 1 => (a, x, c) | _ => (a, b, x) end) l) /\
  nth_error (flat3 l) (3 * j + o) = Some (let '(a, b, c) := e in match o with 0 => a | 1 => b | _ => c end).
Proof.
  induction l as [|[[a b] c] r IH]; intros j e HE HO; [destruct j; discriminate|]. destruct j.
  - injection HE as <-. destruct o as [|[|[|o]]]; try lia; auto.
  - cbn [nth_error] in HE. destruct (IH j e HE HO) as [I1 I2].
    replace (3 * S j + o) with (S (S (S (3 * j + o)))) by lia.
    change (flat3 ((a, b, c) :: r)) with (a :: b :: c :: flat3 r).
    cbn [upd nth_error]. rewrite I1, I2. split; reflexivity.
Qed.

(** Setting one entry changes that entry only, and returns the old value. *)
Theorem C51_set_one : forall (m : mog) i v, shaped m -> i < 6 * mog_K m ->
  exists m' old, set_thing m i v = Ok (m', old) /\ nth_error (get_things m) i = Some old /\
    get_things m' = upd i v (get_things m) /\ shaped m' /\ mog_K m' = mog_K m /\ (symmetric m -> symmetric m').
Proof.
  intros m i v [LA LV] Hi. unfold set_thing. rewrite get_things_eq. set (K := mog_K m) in *.
  assert (LF : length (flat2 (mean m)) = K * 2) by (rewrite flat2_length; unfold K, mog_K; lia).
  destruct (Nat.ltb_spec i K).
  - destruct (nth_error (amp m) i) as [old|] eqn:E; [|apply nth_error_None in E; lia].
    eexists. eexists. split; [reflexivity|]. rewrite nth_error_app1 by lia. split; [exact E|].
    rewrite get_things_eq. cbn [amp mean var]. rewrite upd_app1 by lia. split; [reflexivity|].
    unfold shaped, mog_K, symmetric. cbn [amp mean var]. rewrite upd_length. auto.
  - cbv zeta. set (i1 := i - K) in *. replace i with (length (amp m) + i1) by lia. rewrite upd_app2.
    rewrite nth_error_app2 by lia. replace (length (amp m) + i1 - length (amp m)) with i1 by lia.
    destruct (Nat.ltb_spec i1 (K * 2)).
    + destruct (nth_error (flat2 (mean m)) i1) as [old|] eqn:E; [|apply nth_error_None in E; lia].
      eexists. eexists. split; [reflexivity|]. rewrite nth_error_app1 by lia. split; [exact E|].
      destruct (flat2_pairs K (upd i1 v (flat2 (mean m)))) as [E2 L2]; [rewrite upd_length; lia|].
      rewrite get_things_eq. cbn [amp mean var]. rewrite upd_app1 by lia. rewrite E2. split; [reflexivity|].
      unfold shaped, mog_K, symmetric. cbn [amp mean var]. rewrite L2. auto.
    + set (i2 := i1 - K * 2) in *. replace i1 with (length (flat2 (mean m)) + i2) by lia. rewrite upd_app2.
      rewrite nth_error_app2 by lia. replace (length (flat2 (mean m)) + i2 - length (flat2 (mean m))) with i2 by lia.
      assert (DM := Nat.div_mod i2 3 ltac:(lia)). assert (MB := Nat.mod_upper_bound i2 3 ltac:(lia)).
      assert (DJ : i2 / 3 < K) by (apply Nat.div_lt_upper_bound; lia).
      destruct (nth_error (var m) (i2 / 3)) as [[[[xx xy] yx] yy]|] eqn:E; [|apply nth_error_None in E; lia].
      assert (ET : nth_error (map tri (var m)) (i2 / 3) = Some (xx, yy, xy)) by (rewrite nth_error_map, E; reflexivity).
      destruct (upd_flat3 (i2 mod 3) v _ _ _ ET MB) as [U N]. rewrite <- DM in U, N. rewrite U, N.
      set (j := i2 / 3) in *. destruct (i2 mod 3) as [|[|[|o]]]; try lia;
        (eexists; eexists; split; [reflexivity|]; split; [reflexivity|]; rewrite get_things_eq; cbn [amp mean var];
         rewrite upd_map; split; [reflexivity|]; unfold shaped, mog_K, symmetric; cbn [amp mean var]; rewrite upd_length;
         split; [auto|]; split; [auto|]; intros S; apply Forall_forall; intros w HW; apply In_nth_error in HW; destruct HW as [q HQ];
         destruct (Nat.eq_dec j q) as [->|NE];
         [rewrite nth_error_upd_same in HQ by (apply nth_error_Some; congruence); injection HQ as <-;
          apply nth_error_In in E; apply (proj1 (Forall_forall _ _) S) in E; auto
         |rewrite nth_error_upd_other in HQ by auto; apply nth_error_In in HQ; apply (proj1 (Forall_forall _ _) S) in HQ; auto]).
Qed.
(** Setting all entries one after the other is setting the vector. *)
Theorem C51_set_all : forall (m : mog) p, shaped m -> symmetric m -> length p = 6 * mog_K m -> set_all_params m 0 p = set_things m p.
Proof.
  intros m p H Sy L. destruct (C51_get_set m p L) as (m' & E & G & H' & S' & K'). rewrite E. clear E.
  assert (LG : length (get_things m) = 6 * mog_K m).
  { rewrite get_things_eq, !app_length, flat2_length, flat3_length, map_length. destruct H. unfold mog_K in *. lia. }
  assert (A : forall q n (mm : mog) pre, shaped mm -> symmetric mm -> mog_K mm = mog_K m -> length pre = n -> pre ++ q = p ->
     firstn n (get_things mm) = pre -> length (get_things mm) = 6 * mog_K m -> set_all_params mm n q = Ok m').
  { induction q as [|v q IH]; intros n mm pre Hm Sm Km Ln E F LL.
    - cbn. f_equal. rewrite app_nil_r in E. subst pre. apply C51_injective; auto.
      rewrite G, <- F. symmetry. apply firstn_all2. lia.
    - assert (n < 6 * mog_K mm) by (rewrite <- E, app_length in L; cbn in L; lia).
      destruct (C51_set_one mm n v Hm ltac:(lia)) as (m1 & old & E1 & _ & G1 & H1 & K1 & S1). cbn [set_all_params]. rewrite E1. cbn [bind].
      apply (IH _ _ (pre ++ [v])); auto; try congruence.
      + rewrite app_length. cbn. lia.
      + rewrite <- app_assoc. auto.
      + rewrite G1. rewrite <- (firstn_skipn n (get_things mm)). rewrite F. rewrite <- Ln at 2. rewrite <- (Nat.add_0_r (length pre)), upd_app2.
        destruct (skipn n (get_things mm)) as [|x r] eqn:ES.
        { apply (f_equal (@length V)) in ES. rewrite skipn_length in ES. cbn in ES. lia. }
        cbn [upd]. replace (S n) with (length (pre ++ [v])) by (rewrite app_length; cbn; lia).
        change (pre ++ v :: r) with (pre ++ [v] ++ r). rewrite app_assoc. apply firstn_app_len. reflexivity.
      + rewrite G1, upd_length. auto. }
  apply (A p 0 m []); auto.
Qed.
(** With frozen entries: the thawed ones are set in order, the others kept. *)
Fixpoint merge (liq : list bool) (old new : list V) : list V :=
  match liq, old with
  | true :: liq, o :: old => match new with n :: new => n :: merge liq old new | [] => o :: old end
  | false :: liq, o :: old => o :: merge liq old new
  | _, _ => old
  end.
Theorem C51_set_thawed : forall (m : mog) liq p, shaped m -> length liq = 6 * mog_K m -> length p = count_true liq ->
  exists m', set_params m liq 0 p = Ok m' /\ get_things m' = merge liq (get_things m) p /\ shaped m' /\ mog_K m' = mog_K m /\
    (symmetric m -> symmetric m').
Proof.
  intros m liq p H L LP.
  assert (A : forall liq (p : list V) n (mm : mog) pre rest, shaped mm -> n + length liq = 6 * mog_K mm -> length p = count_true liq ->
     get_things mm = pre ++ rest -> length pre = n -> length rest = length liq ->
     exists m', set_params mm liq n p = Ok m' /\ get_things m' = pre ++ merge liq rest p /\ shaped m' /\ mog_K m' = mog_K mm /\ (symmetric mm -> symmetric m')).
  { clear. induction liq as [|b liq IH]; intros p n mm pre rest Hm Hn Hp HG HL HR.
    - destruct rest; [|discriminate]. exists mm. cbn. repeat split; auto; apply Hm.
    - destruct rest as [|o rest]; [discriminate|]. cbn [length] in *. rewrite count_true_cons in Hp. destruct b.
      + destruct p as [|v p]; [discriminate|]. cbn in Hp. cbn [set_params merge].
        destruct (C51_set_one mm n v Hm ltac:(lia)) as (m1 & old & E1 & _ & G1 & H1 & K1 & S1). rewrite E1. cbn [bind].
        destruct (IH p (S n) m1 (pre ++ [v]) rest) as (m2 & E2 & G2 & H2 & K2 & S2); auto; try lia.
        * rewrite G1, HG, <- HL. rewrite <- (Nat.add_0_r (length pre)), upd_app2. cbn [upd]. rewrite <- app_assoc. reflexivity.
        * rewrite app_length. cbn. lia.
        * exists m2. split; auto. rewrite <- app_assoc in G2. split; auto. split; auto. split; [congruence|auto].
      + cbn [set_params merge]. destruct (IH p (S n) mm (pre ++ [o]) rest) as (m2 & E2 & G2 & H2 & K2 & S2); auto; try lia.
        * rewrite <- app_assoc. auto.
        * rewrite app_length. cbn. lia.
        * exists m2. split; auto. rewrite <- app_assoc in G2. auto. }
  destruct (A liq p 0 m [] (get_things m)) as (m' & R); auto.
  - rewrite get_things_eq, !app_length, flat2_length, flat3_length, map_length. destruct H. unfold mog_K in *. lia.
  - exists m'. exact R.
Qed.

(** Names match positions, and each position has one name. *)
Lemma nth_flat2 l k : nth_error (flat2 l) (k * 2) = option_map fst (nth_error l k) /\
  nth_error (flat2 l) (k * 2 + 1) = option_map snd (nth_error (A:=V*V) l k).
Proof.
  revert k. induction l as [|[a b] r IH]; intros k.
  - destruct k; cbn; split; auto; apply nth_error_nil || (destruct (k * 2); reflexivity) || (destruct (k*2+1); reflexivity).
  - destruct k; [auto|]. cbn [Nat.mul Nat.add]. change (flat2 ((a, b) :: r)) with (a :: b :: flat2 r). cbn [nth_error]. apply IH.
Qed.
Lemma nth_flat3 l k o : o < 3 -> nth_error (flat3 l) (k * 3 + o) = option_map (fun e => let '(a, b, c) := e in match o with 0 => a | 1 => b | _ => c end) (nth_error l k).
Proof.
  intros HO. revert k. induction l as [|[[a b] c] r IH]; intros k.
  - destruct (k * 3 + o), k; reflexivity.
  - destruct k.
    + destruct o as [|[|[|o]]]; try lia; reflexivity.
    + cbn [Nat.mul Nat.add]. change (flat3 ((a, b, c) :: r)) with (a :: b :: c :: flat3 r). cbn [nth_error]. apply IH.
Qed.
Theorem C51_names : forall (m : mog) n i, shaped m -> In (n, i) (names (mog_K m)) ->
  i < 6 * mog_K m /\ nth_error (get_things m) i = named m n /\ named m n <> None.
Proof.
  intros m n i [LA LV] H. unfold names in H. apply in_flat_map in H. destruct H as (k & Hk & H). apply in_seq in Hk.
  rewrite get_things_eq.
  assert (NV : nth_error (var m) k <> None) by (apply nth_error_Some; lia).
  assert (NM : nth_error (mean m) k <> None) by (apply nth_error_Some; unfold mog_K in *; lia).
  assert (LF : length (flat2 (mean m)) = mog_K m * 2) by (rewrite flat2_length; unfold mog_K; lia).
  assert (MS : forall j, nth_error (amp m ++ flat2 (mean m) ++ flat3 (map tri (var m))) (mog_K m * 3 + j) = nth_error (flat3 (map tri (var m))) j).
  { intros j. rewrite !nth_error_app2 by lia. f_equal. lia. }
  assert (MM : forall j, j < mog_K m * 2 -> nth_error (amp m ++ flat2 (mean m) ++ flat3 (map tri (var m))) (mog_K m + j) = nth_error (flat2 (mean m)) j).
  { intros j Hj. rewrite nth_error_app2 by lia. rewrite nth_error_app1 by lia. f_equal. lia. }
  destruct (nth_flat2 (mean m) k) as [F1 F2].
  assert (T : forall o, o < 3 -> nth_error (flat3 (map tri (var m))) (k * 3 + o) =
     option_map (fun v => let '(a, b, c) := tri v in match o with 0 => a | 1 => b | _ => c end) (nth_error (var m) k)).
  { intros o Ho. rewrite nth_flat3 by auto. rewrite nth_error_map. destruct (nth_error (var m) k); reflexivity. }
  destruct H as [E|[E|[E|[E|[E|[E|[]]]]]]]; injection E as <- <-; cbn [named].
  - split; [lia|]. rewrite nth_error_app1 by lia. split; [reflexivity|]. apply nth_error_Some. lia.
  - split; [lia|]. rewrite MM by lia. split; [exact F1|]. destruct (nth_error (mean m) k); [discriminate|congruence].
  - split; [lia|]. rewrite <- Nat.add_assoc, MM by lia. split; [exact F2|]. destruct (nth_error (mean m) k); [discriminate|congruence].
  - split; [lia|]. rewrite MS. rewrite <- (Nat.add_0_r (k * 3)), T by lia. destruct (nth_error (var m) k) as [[[[a b] c] d]|]; [|congruence]. split; [reflexivity|discriminate].
  - split; [lia|]. rewrite <- Nat.add_assoc, MS, T by lia. destruct (nth_error (var m) k) as [[[[a b] c] d]|]; [|congruence]. split; [reflexivity|discriminate].
  - split; [lia|]. rewrite <- Nat.add_assoc, MS, T by lia. destruct (nth_error (var m) k) as [[[[a b] c] d]|]; [|congruence]. split; [reflexivity|discriminate].
Qed.
Theorem C51_name_of_position : forall K i, i < 6 * K -> exists n, In (n, i) (names K) /\ forall n', In (n', i) (names K) -> n' = n.
Proof.
  intros K i Hi.
  assert (U : forall n, In (n, i) (names K) <-> match n with
     | NAmp k => k < K /\ i = k | NMeanX k => k < K /\ i = K + k * 2 | NMeanY k => k < K /\ i = K + k * 2 + 1
     | NVarXX k => k < K /\ i = K * 3 + k * 3 | NVarYY k => k < K /\ i = K * 3 + k * 3 + 1 | NVarXY k => k < K /\ i = K * 3 + k * 3 + 2 end).
  { intros n. unfold names. rewrite in_flat_map. split.
    - intros (k & Hk & H). apply in_seq in Hk. destruct H as [E|[E|[E|[E|[E|[E|[]]]]]]]; injection E as <- <-; split; auto; lia.
    - intros H. destruct n as [k|k|k|k|k|k]; destruct H as [HK ->]; exists k; (split; [apply in_seq; lia|]); cbn; auto 7. }
  assert (EX : exists n, In (n, i) (names K)).
  { destruct (Nat.lt_ge_cases i K); [exists (NAmp i); apply U; auto|].
    destruct (Nat.lt_ge_cases i (3 * K)).
    - pose proof (Nat.div_mod (i - K) 2 ltac:(lia)) as D. pose proof (Nat.mod_upper_bound (i - K) 2 ltac:(lia)) as B.
      destruct ((i - K) mod 2) as [|[|q]]; [exists (NMeanX ((i - K) / 2))|exists (NMeanY ((i - K) / 2))|lia]; apply U; lia.
    - pose proof (Nat.div_mod (i - 3 * K) 3 ltac:(lia)) as D. pose proof (Nat.mod_upper_bound (i - 3 * K) 3 ltac:(lia)) as B.
      destruct ((i - 3 * K) mod 3) as [|[|[|q]]]; [exists (NVarXX ((i - 3 * K) / 3))|exists (NVarYY ((i - 3 * K) / 3))|exists (NVarXY ((i - 3 * K) / 3))|lia]; apply U; lia. }
  destruct EX as [n Hn]. exists n. split; auto. intros n' Hn'. apply U in Hn. apply U in Hn'.
  destruct n, n'; destruct Hn as [A B], Hn' as [A' B']; try (f_equal; lia); exfalso; lia.
Qed.
(** Refutation: no lower bound is reported for any parameter, so that bounds of
    parameters that come after a mixture in a group move forward. *)
Theorem C51_bounds_refuted : forall liq, count_true liq > 0 -> length (lower_bounds (V:=V) liq) <> count_true liq.
Proof. intros liq H. unfold lower_bounds. destruct liq; cbn [combine filter map length]; lia. Qed.

(** *** The ellipse variant: variances always follow from the ellipses. *)
Context (cov : V * V * V -> V * V * V * V).
Definition e_shaped (m : @emog V) : Prop := length (e_amp m) = e_K m /\ length (e_ell m) = e_K m.
Lemma set_ells_flat3 : forall tr l, length tr = length l -> set_ells l (flat3 tr) = tr.
Proof.
  induction tr as [|[[x y] z] r IH]; intros [|[[a b] c] l] H; try discriminate; [reflexivity|].
  change (flat3 ((x, y, z) :: r)) with (x :: y :: z :: flat3 r). cbn [set_ells firstn skipn]. f_equal. apply IH. cbn in H. lia.
Qed.
Lemma e_set_eq (m : @emog V) a mn tr : length a = e_K m -> length mn = e_K m -> length tr = length (e_ell m) ->
  e_set_things cov m (a ++ flat2 mn ++ flat3 tr) = Ok (mkEmog a mn tr (map cov tr)).
Proof.
  intros HA HM HT. unfold e_set_things. cbv zeta. rewrite (firstn_app_len a _ _ HA), (skipn_app_len a _ _ HA).
  assert (L2 : length (flat2 mn) = e_K m * 2) by (rewrite flat2_length; lia).
  rewrite (firstn_app_len _ _ _ L2), (skipn_app_len _ _ _ L2), L2, Nat.eqb_refl. cbn [negb].
  rewrite pairs_flat2, set_ells_flat3 by auto. reflexivity.
Qed.
Theorem C51_ellipse_get_set : forall (m : @emog V) p, e_shaped m -> length p = 6 * e_K m ->
  exists m', e_set_things cov m p = Ok m' /\ e_get_things m' = p /\ e_shaped m' /\ e_K m' = e_K m /\ e_var m' = map cov (e_ell m').
Proof.
  intros m p [LA LE] H. destruct (split3 _ _ H) as (a & mn & tr & -> & L1 & L2 & L3). rewrite e_set_eq by lia.
  eexists. split; [reflexivity|]. unfold e_get_things, e_shaped, e_K in *. cbn [e_amp e_mean e_ell e_var]. repeat split; congruence.
Qed.
Theorem C51_ellipse_set_one : forall (m : @emog V) i v, e_shaped m -> i < 6 * e_K m ->
  exists m' old, e_set_thing cov m i v = Ok (m', old) /\ nth_error (e_get_things m) i = Some old /\
    e_get_things m' = upd i v (e_get_things m) /\ e_shaped m' /\ e_var m' = map cov (e_ell m').
Proof.
  intros m i v H Hi. unfold e_set_thing.
  assert (L : length (e_get_things m) = 6 * e_K m).
  { unfold e_get_things. fold (flat3 (e_ell m)). destruct H. rewrite !app_length, flat2_length, flat3_length. unfold e_K in *. lia. }
  destruct (nth_error (e_get_things m) i) as [old|] eqn:E; [|apply nth_error_None in E; lia].
  destruct (C51_ellipse_get_set m (upd i v (e_get_things m)) H) as (m' & E1 & G & H' & _ & VV); [rewrite upd_length; auto|].
  rewrite E1. cbn [bind]. eauto 7.
Qed.

(** *** C56: FITS headers *)
Context {C : Type}.
Notation header := (@header V C).
Definition no_prefix (prefix : string) (hdr : header) : Prop := Forall (fun e => fst (fst e) <> prefix) hdr.

Lemma find_none_prefix prefix i (hdr : header) : no_prefix prefix hdr ->
  find (fun e => String.eqb (fst (fst e)) prefix && (snd (fst e) =? i)) hdr = None.
Proof.
  induction 1 as [|e r HE HR IH]; [reflexivity|]. cbn. destruct (String.eqb_spec (fst (fst e)) prefix); [contradiction|]. exact IH.
Qed.
Lemma find_app {A} (f : A -> bool) a b : find f (a ++ b) = match find f a with Some x => Some x | None => find f b end.
Proof. induction a as [|x r IH]; [reflexivity|]. cbn. destruct (f x); auto. Qed.
Lemma lookup_entries prefix : forall (names : list C) (params : list V) s i,
  find (fun e => String.eqb (fst (fst e)) prefix && (snd (fst e) =? s + i))
    (map (fun e => (prefix, fst e, (snd (snd e), fst (snd e)))) (combine (seq s (length names)) (combine names params))) =
  match nth_error names i, nth_error params i with Some c, Some v => Some (prefix, s + i, (v, c)) | _, _ => None end.
Proof.
  induction names as [|c names IH]; intros params s i; [destruct i; reflexivity|].
  destruct params as [|v params]; [cbn; destruct i; cbn; [reflexivity|]; destruct (nth_error names i); reflexivity|].
  cbn [length seq combine map find fst snd]. rewrite String.eqb_refl. cbn [andb]. destruct i as [|i].
  - rewrite Nat.add_0_r, Nat.eqb_refl. reflexivity.
  - destruct (Nat.eqb_spec s (s + S i)); [lia|]. cbn [nth_error]. replace (s + S i) with (S s + i) by lia. exact (IH params (S s) i).
Qed.
Lemma lookup_to_header prefix i names params (h1 h2 : header) : no_prefix prefix h1 -> no_prefix prefix h2 ->
  lookup prefix i (to_header prefix names params h1 ++ h2) =
  match nth_error names i, nth_error params i with Some _, Some v => Some v | _, _ => None end.
Proof.
  intros H1 H2. unfold lookup, to_header. rewrite <- app_assoc, find_app, find_none_prefix by auto. rewrite find_app.
  pose proof (lookup_entries prefix names params 0 i) as L. cbn [Nat.add] in L. rewrite L.
  destruct (nth_error names i), (nth_error params i); cbn; auto; rewrite find_none_prefix by auto; reflexivity.
Qed.
(** What is read back: the first (at most 100) values that have a name. *)
Theorem C56_read : forall prefix names params (h1 h2 : header), no_prefix prefix h1 -> no_prefix prefix h2 ->
  header_params prefix (to_header prefix names params h1 ++ h2) = firstn 100 (firstn (length names) params).
Proof.
  intros prefix names params h1 h2 H1 H2. unfold header_params.
  assert (G : forall n i, read_params n i prefix (to_header prefix names params h1 ++ h2) = firstn n (skipn i (firstn (length names) params))).
  { induction n as [|n IH]; intros i; [reflexivity|]. cbn [read_params]. rewrite lookup_to_header by auto.
    destruct (nth_error (firstn (length names) params) i) as [v|] eqn:E.
    - assert (i < length names /\ i < length params).
      { assert (i < length (firstn (length names) params)) by (apply nth_error_Some; congruence). rewrite firstn_length in *. lia. }
      destruct (nth_error names i) eqn:EN; [|apply nth_error_None in EN; lia].
      destruct (nth_error params i) as [w|] eqn:EP; [|apply nth_error_None in EP; lia].
      assert (w = v). { rewrite <- (firstn_skipn (length names) params) in EP. rewrite nth_error_app1 in EP by (rewrite firstn_length; lia). congruence. }
      subst w. rewrite IH.
      rewrite <- (firstn_skipn i (firstn (length names) params)) in E.
      assert (LI : length (firstn i (firstn (length names) params)) = i) by (rewrite !firstn_length; lia).
      rewrite nth_error_app2, LI, Nat.sub_diag in E by lia.
      replace (skipn (S i) (firstn (length names) params)) with (skipn 1 (skipn i (firstn (length names) params))) by (rewrite skipn_add; f_equal; lia).
      destruct (skipn i (firstn (length names) params)) as [|x r]; [discriminate|]. injection E as ->. reflexivity.
    - apply nth_error_None in E. rewrite skipn_all2 by lia. rewrite firstn_nil.
      rewrite firstn_length in E. destruct (nth_error names i) eqn:EN; auto. destruct (nth_error params i) eqn:EP; auto.
      assert (i < length names) by (apply nth_error_Some; congruence). assert (i < length params) by (apply nth_error_Some; congruence). lia. }
  rewrite G. reflexivity.
Qed.
(** Nothing frozen (as many names as values) and at most 100 values: the values
    come back. *)
Lemma assign_ok : forall (p vals pre : list V), length vals = length pre + length p -> firstn (length pre) vals = pre ->
  assign vals (length pre) p = Ok (pre ++ p).
Proof.
  induction p as [|v p IH]; intros vals pre L F; cbn [assign length] in *.
  - rewrite app_nil_r. f_equal. rewrite <- F. symmetry. apply firstn_all2. lia.
  - destruct (Nat.ltb_spec (length pre) (length vals)); [|lia].
    replace (S (length pre)) with (length (pre ++ [v])) by (rewrite app_length; cbn; lia).
    rewrite IH.
    + rewrite <- app_assoc. reflexivity.
    + rewrite upd_length, app_length. cbn. lia.
    + rewrite <- (firstn_skipn (length pre) vals). rewrite F.
      destruct (skipn (length pre) vals) as [|x r] eqn:E; [apply (f_equal (@length V)) in E; rewrite skipn_length in E; cbn in E; lia|].
      rewrite <- (Nat.add_0_r (length pre)) at 1. rewrite upd_app2. cbn [upd]. change (pre ++ v :: r) with (pre ++ [v] ++ r).
      rewrite app_assoc. apply firstn_app_len. reflexivity.
Qed.
Theorem C56_round_trip : forall prefix names params dflt (h1 h2 : header), no_prefix prefix h1 -> no_prefix prefix h2 ->
  length names = length params -> length dflt = length params -> length params <= 100 ->
  from_header dflt prefix (to_header prefix names params h1 ++ h2) = Ok params.
Proof.
  intros prefix names params dflt h1 h2 H1 H2 LN LD L. unfold from_header. rewrite C56_read by auto.
  rewrite LN, firstn_all, firstn_all2 by lia. apply (assign_ok params dflt []); auto.
Qed.
(** A mixture PSF of at most 16 components. *)
Theorem C56_mixture : forall zero prefix names (m : mog) (h1 h2 : header), no_prefix prefix h1 -> no_prefix prefix h2 ->
  shaped m -> symmetric m -> length names = 6 * mog_K m -> 1 <= mog_K m -> 6 * mog_K m <= 100 ->
  gmpsf_from_header avg zero prefix (to_header prefix names (get_things m) h1 ++ h2) = Ok m.
Proof.
  intros zero prefix names m h1 h2 H1 H2 H Sy LN K1 K2. unfold gmpsf_from_header. rewrite C56_read by auto.
  assert (LG : length (get_things m) = 6 * mog_K m).
  { rewrite get_things_eq, !app_length, flat2_length, flat3_length, map_length. destruct H. unfold mog_K in *. lia. }
  rewrite LN, <- LG, firstn_all, firstn_all2 by lia. cbv zeta. rewrite LG.
  assert (D : 6 * mog_K m / 6 = mog_K m /\ (6 * mog_K m) mod 6 = 0).
  { rewrite Nat.mul_comm. split; [apply Nat.div_mul; lia|apply Nat.mod_mul; lia]. }
  destruct D as [-> ->]. destruct (Nat.eqb_spec (6 * mog_K m) 0) as [Z0|Z0]; [lia|]; clear Z0. cbn [Nat.eqb negb orb].
  set (m0 := new_mog avg _ _ _).
  assert (S0 : shaped m0 /\ mog_K m0 = mog_K m).
  { unfold m0, shaped, new_mog, mog_K. cbn [amp mean var]. rewrite map_length, !repeat_length. auto. }
  destruct S0 as [S0 K0].
  assert (CT : forall n, count_true (repeat true n) = n).
  { induction n as [|n IH]; [reflexivity|]. cbn [repeat]. rewrite count_true_cons, IH. reflexivity. }
  destruct (C51_set_thawed m0 (repeat true (6 * mog_K m)) (get_things m) S0) as (m' & E & G & H' & K' & S').
  - rewrite repeat_length. lia.
  - rewrite CT. auto.
  - rewrite E. f_equal.
    assert (Y0 : symmetric m0).
    { unfold m0, symmetric, new_mog. cbn [var]. apply Forall_forall. intros v HV. apply in_map_iff in HV. destruct HV as ([[[a b] c] d] & <- & _). reflexivity. }
    apply C51_injective; auto. rewrite G.
    assert (MG : forall n (old new : list V), length old = n -> length new = n -> merge (repeat true n) old new = new).
    { induction n as [|n IH]; intros [|o old] [|x new]; cbn; intros; try discriminate; auto. f_equal. apply IH; lia. }
    apply MG; [|auto]. rewrite get_things_eq, !app_length, flat2_length, flat3_length, map_length. destruct S0. unfold mog_K in *. lia.
Qed.
(** Refutation: 17 components or more cannot be read back. *)
Theorem C56_many_components_refuted : forall zero prefix names (m : mog) (h1 h2 : header), no_prefix prefix h1 -> no_prefix prefix h2 ->
  shaped m -> length names = 6 * mog_K m -> 17 <= mog_K m ->
  gmpsf_from_header avg zero prefix (to_header prefix names (get_things m) h1 ++ h2) = Err RuntimeError.
Proof.
  intros zero prefix names m h1 h2 H1 H2 H LN K1. unfold gmpsf_from_header. rewrite C56_read by auto.
  assert (LG : length (get_things m) = 6 * mog_K m).
  { rewrite get_things_eq, !app_length, flat2_length, flat3_length, map_length. destruct H. unfold mog_K in *. lia. }
  rewrite LN, <- LG, firstn_all. cbv zeta. replace (length (firstn 100 (get_things m))) with 100 by (rewrite firstn_length; lia). reflexivity.
Qed.
(** Refutation: with frozen parameters (fewer names than values) the values at
    the end are lost: the object read back keeps its default there. *)
Theorem C56_frozen_refuted : forall prefix names params dflt (h1 h2 : header), no_prefix prefix h1 -> no_prefix prefix h2 ->
  length names < length params -> length dflt = length params -> length params <= 100 ->
  from_header dflt prefix (to_header prefix names params h1 ++ h2) =
    Ok (firstn (length names) params ++ skipn (length names) dflt).
Proof.
  intros prefix names params dflt h1 h2 H1 H2 LN LD L. unfold from_header. rewrite C56_read by auto.
  rewrite (firstn_all2 (firstn _ _)) by (rewrite firstn_length; lia).
  set (p := firstn (length names) params). assert (LP : length p = length names) by (unfold p; rewrite firstn_length; lia).
  assert (G : forall (q vals pre : list V), length pre + length q <= length vals -> firstn (length pre) vals = pre ->
     assign vals (length pre) q = Ok (pre ++ q ++ skipn (length pre + length q) vals)).
  { clear. induction q as [|v q IH]; intros vals pre L F; cbn [assign length] in *.
    - rewrite Nat.add_0_r. cbn [app]. f_equal. rewrite <- (firstn_skipn (length pre) vals) at 1. rewrite F. reflexivity.
    - destruct (Nat.ltb_spec (length pre) (length vals)); [|lia].
      assert (UE : upd (length pre) v vals = pre ++ v :: skipn (S (length pre)) vals).
      { replace (S (length pre)) with (length pre + 1) by lia. rewrite <- skipn_add.
        rewrite <- (firstn_skipn (length pre) vals) at 1. rewrite F.
        destruct (skipn (length pre) vals) as [|x r] eqn:E; [apply (f_equal (@length V)) in E; rewrite skipn_length in E; cbn in E; lia|].
        rewrite <- (Nat.add_0_r (length pre)) at 1. rewrite upd_app2. reflexivity. }
      replace (S (length pre)) with (length (pre ++ [v])) by (rewrite app_length; cbn; lia).
      rewrite IH.
      + rewrite <- app_assoc. cbn [app]. do 3 f_equal. f_equal. rewrite app_length. cbn [length]. rewrite UE.
        change (pre ++ v :: skipn (S (length pre)) vals) with (pre ++ [v] ++ skipn (S (length pre)) vals). rewrite app_assoc.
        rewrite <- skipn_add. rewrite skipn_app_len by (rewrite app_length; reflexivity). rewrite skipn_add. f_equal. lia.
      + rewrite upd_length, app_length. cbn. lia.
      + rewrite UE. change (pre ++ v :: skipn (S (length pre)) vals) with (pre ++ [v] ++ skipn (S (length pre)) vals). rewrite app_assoc.
        apply firstn_app_len. reflexivity. }
  specialize (G p dflt []). cbn [length Nat.add app firstn] in G. rewrite G by (auto; lia). rewrite LP. reflexivity.
Qed.
End Props.

(** Two components over the numbers 0..11. *)
Definition ex_m : @mog nat := mkMog [0; 1] [(2, 3); (4, 5)] [(6, 8, 8, 7); (9, 11, 11, 10)].
Example C51_ex : shaped ex_m /\ symmetric ex_m /\ get_things ex_m = seq 0 12 /\
  (exists m', set_thing ex_m 8 42 = Ok (m', 8) /\ var m' = [(6, 42, 42, 7); (9, 11, 11, 10)]) /\
  In (NVarXY 0, 8) (names 2) /\
  set_things ex_m (seq 20 12) = Ok (mkMog [20; 21] [(22, 23); (24, 25)] [(26, 28, 28, 27); (29, 31, 31, 30)]).
Proof.
  split; [split; reflexivity|]. split; [repeat constructor|]. split; [reflexivity|]. split; [eexists; split; reflexivity|].
  split; [cbn; auto 8|reflexivity].
Qed.
Example C51_ellipse_ex : let m := mkEmog [0] [(1, 2)] [(3, 4, 5)] [(0, 0, 0, 0)] in e_shaped m /\
  exists m', e_set_thing (fun e => let '(a, b, c) := e in (a, c, c, b)) m 4 9 = Ok (m', 4) /\ e_var m' = [(3, 5, 5, 9)].
Proof. cbv zeta. split; [split; reflexivity|]. eexists. split; reflexivity. Qed.
Open Scope string_scope.
Example C56_ex : let other : @header nat string := [("WCS_", 0, (5, "ra"))] in
  no_prefix "PSF_" other /\
  gmpsf_from_header (fun a _ => a) 0 "PSF_" (to_header "PSF_" (repeat "n" 12) (get_things ex_m) other) = Ok ex_m /\
  from_header [0; 0; 0] "SKY_" (to_header "SKY_" ["a"; "c"] [7; 8; 9] other) = Ok [7; 8; 0].
Proof. cbv zeta. split; [apply Forall_cons; [discriminate|constructor]|]. split; reflexivity. Qed.

Print Assumptions C51_get_set.
Print Assumptions C51_set_get.
Print Assumptions C51_injective.
Print Assumptions C51_construct.
Print Assumptions C51_copy.
Print Assumptions C51_set_one.
Print Assumptions C51_set_all.
Print Assumptions C51_set_thawed.
Print Assumptions C51_names.
Print Assumptions C51_name_of_position.
Print Assumptions C51_bounds_refuted.
Print Assumptions C51_ellipse_get_set.
Print Assumptions C51_ellipse_set_one.
Print Assumptions C56_read.
Print Assumptions C56_round_trip.
Print Assumptions C56_mixture.
Print Assumptions C56_many_components_refuted.
Print Assumptions C56_frozen_refuted.

(** ** C13: groups with such a list *)

(** In a group, the missing bounds shift the bounds of every later member: the
    first lower bound of the group is that of the member after the mixture. *)
From Verif Require Import ParamsModel.

Theorem C13_detached_list_refuted : forall (V : Type) (nm : names) (l : plist V) (t : ptree V),
  l_lowers l = [] -> l_uppers l = [] -> count_true (l_liquid l) > 0 ->
  is_none t = false -> length (get_lower_bounds t) = number_of_params t ->
  get_lower_bounds (PMulti nm [PList l; t] [true; true]) = get_lower_bounds t /\
  length (get_lower_bounds (PMulti nm [PList l; t] [true; true])) < number_of_params (PMulti nm [PList l; t] [true; true]).
Proof.
  intros V nm l t HL HU HC HN HT.
  assert (E : get_lower_bounds (PMulti nm [PList l; t] [true; true]) = get_lower_bounds t).
  { cbn [get_lower_bounds active_map is_none]. rewrite HN. cbn.
    rewrite HL. destruct (l_liquid l) as [|[] ?]; cbn; rewrite app_nil_r; reflexivity. }
  rewrite E. split; auto. rewrite HT. cbn [number_of_params active_map is_none]. rewrite HN. cbn. lia.
Qed.

(** A mixture of one Gaussian, then a position with lower bounds. *)
Example C13_detached_example :
  let mog := mkPlist (mkNames [] []) [1; 0; 0; 1; 1; 0] (repeat true 6) [] [] [] None [] in
  let pos := mkPlist (mkNames [] []) [5; 6] [true; true] [Some 3; Some 4] [None; None] [None; None] None [] in
  get_params (PMulti (mkNames [] []) [PList mog; PList pos] [true; true]) = [1; 0; 0; 1; 1; 0; 5; 6] /\
  get_lower_bounds (PMulti (mkNames [] []) [PList mog; PList pos] [true; true]) = [Some 3; Some 4].
Proof. split; reflexivity. Qed.

Print Assumptions C13_detached_list_refuted.
