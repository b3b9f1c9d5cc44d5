(** C101: the entries of a numpy array as parameters (NpArrayParams). *)
From Coq Require Import List Arith ZArith Bool Lia.
From Verif Require Import Base ParamsModel NpParamsModel.
Import ListNotations.

Section NpParamsProps.
Variable V : Type.

(** ** Spec *)

(** The number of thawed entries before position k. *)
Definition rank (liq : list bool) (k : nat) : nat := count_true (firstn k liq).

(** An object as its constructor leaves it, but for frozen entries: the
    buffer fits the shape, and there is one flag for each entry. *)
Definition good (o : npp V) : Prop :=
  length (buf (np_a o)) = nr (np_a o) * nc (np_a o) /\
  length (np_liquid o) = nr (np_a o) * nc (np_a o).

(** The array has the same shape and, at every (i, j), what [f] says. *)
Definition holds (a a' : nda V) (f : nat -> nat -> option V) : Prop :=
  nr a' = nr a /\ nc a' = nc a /\
  forall i j, i < nr a -> j < nc a -> entry a' i j = f i j.

(** ** Lemmas *)

Lemma inner_len (g : nat -> option V) n : forall s,
  (forall j, s <= j < s + n -> g j <> None) ->
  length (flat_map (fun j => match g j with Some v => [v] | None => [] end) (seq s n)) = n.
Proof.
  induction n; intros s H; simpl; auto.
  rewrite app_length, IHn by (intros; apply H; lia).
  destruct (g s) eqn:E; simpl; auto. exfalso. apply (H s); auto; lia.
Qed.

Lemma inner_nth (g : nat -> option V) n : forall s j,
  (forall j, s <= j < s + n -> g j <> None) -> j < n ->
  nth_error (flat_map (fun j => match g j with Some v => [v] | None => [] end) (seq s n)) j
  = g (s + j).
Proof.
  induction n; intros s j H L; simpl; [lia|].
  destruct (g s) eqn:E; [|exfalso; apply (H s); auto; lia].
  destruct j; simpl; [rewrite Nat.add_0_r; auto|].
  rewrite IHn by (try (intros; apply H); lia). f_equal. lia.
Qed.

Lemma rows_len (f : nat -> list V) w n : forall s,
  (forall i, s <= i < s + n -> length (f i) = w) -> length (flat_map f (seq s n)) = n * w.
Proof.
  induction n; intros s H; simpl; auto.
  rewrite app_length, IHn by (intros; apply H; lia). rewrite H by lia. lia.
Qed.

Lemma rows_nth (f : nat -> list V) w n : forall s i j,
  (forall i, s <= i < s + n -> length (f i) = w) -> i < n -> j < w ->
  nth_error (flat_map f (seq s n)) (i * w + j) = nth_error (f (s + i)) j.
Proof.
  induction n; intros s i j H Li Lj; simpl; [lia|].
  destruct i; simpl.
  - rewrite nth_error_app1 by (rewrite H; lia). f_equal. f_equal. lia.
  - rewrite nth_error_app2 by (rewrite H; lia). rewrite H by lia.
    replace (w + i * w + j - w) with (i * w + j) by lia.
    rewrite IHn by (try (intros; apply H); lia). f_equal. f_equal. lia.
Qed.

Lemma entry_some (a : nda V) i j : length (buf a) = nr a * nc a ->
  i < nr a -> j < nc a -> entry a i j <> None.
Proof.
  intros L Li Lj. unfold entry. rewrite nth_error_Some, L. unfold offset.
  destruct (fortran a); nia.
Qed.

Lemma flat_len (a : nda V) : length (buf a) = nr a * nc a -> length (flat a) = nr a * nc a.
Proof.
  intros L. unfold flat. apply rows_len. intros i Hi.
  apply inner_len. intros j Hj. apply entry_some; auto; lia.
Qed.

Lemma flat_nth (a : nda V) i j : length (buf a) = nr a * nc a -> i < nr a -> j < nc a ->
  nth_error (flat a) (i * nc a + j) = entry a i j.
Proof.
  intros L Li Lj. unfold flat. rewrite (rows_nth _ (nc a)); auto.
  - rewrite inner_nth; auto. intros; apply entry_some; auto; lia.
  - intros k Hk. apply inner_len. intros; apply entry_some; auto; lia.
Qed.

Lemma nth_error_ext {A} (l m : list A) :
  (forall k, nth_error l k = nth_error m k) -> l = m.
Proof.
  revert m. induction l; intros [|b m] H; auto.
  - specialize (H 0). discriminate.
  - specialize (H 0). discriminate.
  - f_equal. specialize (H 0). simpl in H. congruence.
    apply IHl. intros k. exact (H (S k)).
Qed.

Lemma offset_contiguous (a : nda V) i j : contiguous a = true -> i < nr a -> j < nc a ->
  offset V a i j = i * nc a + j.
Proof.
  unfold contiguous, offset. destruct (fortran a); simpl; auto.
  rewrite orb_true_iff, !Nat.leb_le. intros [H|H] Li Lj.
  - replace (nr a) with 1 in * by lia. replace i with 0 by lia. lia.
  - replace (nc a) with 1 in * by lia. replace j with 0 by lia. lia.
Qed.

Lemma flat_contiguous (a : nda V) : length (buf a) = nr a * nc a -> contiguous a = true ->
  flat a = buf a.
Proof.
  intros L C. apply nth_error_ext. intros k.
  destruct (Nat.lt_ge_cases k (nr a * nc a)) as [Hk|Hk].
  - assert (N : nc a <> 0) by (intros E; rewrite E in Hk; lia).
    pose proof (Nat.div_mod k (nc a) N) as D.
    pose proof (Nat.mod_upper_bound k (nc a) N) as M.
    assert (Li : k / nc a < nr a) by (apply Nat.div_lt_upper_bound; nia).
    replace k with (k / nc a * nc a + k mod nc a) by lia.
    rewrite flat_nth; auto. unfold entry. rewrite offset_contiguous; auto.
  - assert (nth_error (flat a) k = None) as -> by (apply nth_error_None; rewrite flat_len; auto).
    symmetry. apply nth_error_None. lia.
Qed.

(** What an assignment leaves unchanged. *)
Lemma set_thing_spec (a a' : nda V) k v : length (buf a) = nr a * nc a ->
  set_thing a k v = Ok a' ->
  nr a' = nr a /\ nc a' = nc a /\ fortran a' = fortran a /\ k < nr a * nc a /\
  length (buf a') = nr a * nc a /\
  buf a' = if contiguous a then upd k v (buf a) else buf a.
Proof.
  intros L. unfold set_thing. rewrite flat_len by auto.
  destruct (Nat.ltb_spec k (nr a * nc a)) as [Lk|]; [|discriminate].
  intros E. injection E as <-. destruct (contiguous a); simpl; rewrite ?upd_length; repeat split; auto.
Qed.

Lemma contiguous_same (a a' : nda V) : nr a' = nr a -> nc a' = nc a -> fortran a' = fortran a ->
  contiguous a' = contiguous a.
Proof. unfold contiguous. intros -> -> ->. auto. Qed.

Lemma upd_nth {A} (l : list A) : forall i k x, i < length l ->
  nth_error (upd i x l) k = if k =? i then Some x else nth_error l k.
Proof.
  induction l; intros [|i] [|k] x H; simpl in *; auto; try lia.
  apply IHl. lia.
Qed.

Lemma set_loop_spec (p : list V) : forall liq i j (a : nda V),
  length (buf a) = nr a * nc a -> contiguous a = true ->
  j + length liq = nr a * nc a -> i + count_true liq <= length p ->
  exists a', np_set_loop liq i j p a = Ok a' /\
    nr a' = nr a /\ nc a' = nc a /\ fortran a' = fortran a /\
    length (buf a') = nr a * nc a /\
    (forall k, k < j -> nth_error (buf a') k = nth_error (buf a) k) /\
    (forall k, k < length liq -> nth_error (buf a') (j + k) =
       if nth k liq false then nth_error p (i + rank liq k) else nth_error (buf a) (j + k)).
Proof.
  induction liq as [|b liq IH]; intros i j a L C Hl Hp.
  - simpl. exists a. repeat split; auto. simpl; intros; lia.
  - simpl in Hl. destruct b.
    + unfold count_true in Hp; simpl in Hp. fold (count_true liq) in Hp.
      simpl. unfold py_get.
      destruct (nth_error p i) as [x|] eqn:Ex;
        [|exfalso; revert Ex; apply nth_error_Some; lia].
      simpl. unfold set_thing at 1. rewrite flat_len by auto.
      destruct (Nat.ltb_spec j (nr a * nc a)); [|lia]. rewrite C. simpl.
      set (a1 := mkNda (nr a) (nc a) (fortran a) (upd j x (buf a))).
      destruct (IH (S i) (S j) a1) as (a' & E & R & Cc & F & B & Old & New).
      * subst a1; simpl. rewrite upd_length. auto.
      * subst a1; exact C.
      * subst a1; simpl. lia.
      * lia.
      * exists a'. subst a1; cbn [nr nc fortran buf] in *. repeat split; auto.
        -- intros k Hk. rewrite Old by lia. rewrite upd_nth by lia.
           destruct (Nat.eqb_spec k j); [lia|auto].
        -- intros [|k] Hk.
           ++ rewrite Nat.add_0_r, Old by lia. rewrite upd_nth by lia.
              rewrite Nat.eqb_refl. unfold rank, count_true. simpl. rewrite Nat.add_0_r. auto.
           ++ replace (j + S k) with (S j + k) by lia. rewrite New by lia.
              rewrite upd_nth by lia. destruct (Nat.eqb_spec (S j + k) j); [lia|].
              change (rank (true :: liq) (S k)) with (S (rank liq k)).
              replace (i + S (rank liq k)) with (S i + rank liq k) by lia.
              reflexivity.
    + change (count_true (false :: liq)) with (count_true liq) in Hp. simpl.
      destruct (IH i (S j) a) as (a' & E & R & Cc & F & B & Old & New); auto; try lia.
      exists a'. repeat split; auto.
      intros [|k] Hk.
      * simpl. rewrite Nat.add_0_r. apply Old; lia.
      * replace (j + S k) with (S j + k) by lia. rewrite New by lia. simpl nth.
        change (rank (false :: liq) (S k)) with (rank liq k). auto.
Qed.

Lemma keep_nth {A} : forall (liq : list bool) (l : list A) k, length liq = length l ->
  nth k liq false = true -> nth_error (keep liq l) (rank liq k) = nth_error l k.
Proof.
  induction liq as [|b liq IH]; intros [|x l] k H N; simpl in *; try lia.
  - destruct k; discriminate.
  - destruct k; simpl in N.
    + subst b. reflexivity.
    + destruct b; unfold rank; simpl; fold (count_true (firstn k liq)); apply IH; auto.
Qed.

Lemma keep_eq {A} : forall (liq : list bool) (l : list A) (p : list A),
  length liq = length l -> length p = count_true liq ->
  (forall k, k < length liq -> nth k liq false = true ->
     nth_error l k = nth_error p (rank liq k)) -> keep liq l = p.
Proof.
  induction liq as [|b liq IH]; intros [|x l] p H Lp Hk; simpl in *; try discriminate.
  - destruct p; [auto|discriminate].
  - destruct b.
    + destruct p as [|y p]; [discriminate|].
      pose proof (Hk 0 ltac:(lia) eq_refl) as H0. simpl in H0. injection H0 as ->.
      f_equal. apply IH; [lia|unfold count_true in *; simpl in *; lia|].
      intros k L N. exact (Hk (S k) ltac:(lia) N).
    + apply IH; [lia|exact Lp|].
      intros k L N. exact (Hk (S k) ltac:(lia) N).
Qed.

Lemma holds_of_buf (a a' : nda V) (f : nat -> option V) :
  length (buf a) = nr a * nc a -> contiguous a = true ->
  nr a' = nr a -> nc a' = nc a -> fortran a' = fortran a ->
  (forall k, k < nr a * nc a -> nth_error (buf a') k = f k) ->
  holds a a' (fun i j => f (i * nc a + j)).
Proof.
  intros L C R Cc F B. repeat split; auto. intros i j Li Lj.
  unfold entry. rewrite offset_contiguous by
    (try (rewrite (contiguous_same a a'); auto); congruence).
  rewrite Cc. apply B. nia.
Qed.

(** ** Theorems *)

(** setParams on a C-ordered (or one-dimensional) array writes the vector into
    the array itself: the thawed entries, in row-major order, get the values
    in turn, the frozen entries and the shape stay, and getParams returns the
    vector. *)
Theorem C101_write (o : npp V) (p : list V) : good o -> contiguous (np_a o) = true ->
  length p = np_number o ->
  exists o', np_set_params o p = Ok o' /\ good o' /\ np_liquid o' = np_liquid o /\
    np_get_params o' = p /\
    holds (np_a o) (np_a o') (fun i j =>
      let k := i * nc (np_a o) + j in
      if nth k (np_liquid o) false then nth_error p (rank (np_liquid o) k)
      else entry (np_a o) i j).
Proof.
  intros (Lb & Ll) C Lp.
  destruct (set_loop_spec p (np_liquid o) 0 0 (np_a o)) as (a' & E & R & Cc & F & B & _ & New);
    auto; [unfold np_number in Lp; lia|].
  unfold np_set_params. rewrite E. cbn [bind]. eexists. split; [reflexivity|].
  unfold with_a. cbn.
  assert (G : forall k, k < nr (np_a o) * nc (np_a o) -> nth_error (buf a') k =
     (fun k => if nth k (np_liquid o) false then nth_error p (rank (np_liquid o) k)
               else nth_error (buf (np_a o)) k) k).
  { intros k Hk. rewrite <- Ll in Hk. exact (New k Hk). }
  split; [split; cbn; congruence|]. split; auto. split.
  - unfold np_get_params. cbn. rewrite flat_contiguous; [|congruence|].
    + apply keep_eq; auto; [congruence|]. intros k Hk N.
      rewrite G by (rewrite <- Ll; auto). cbv beta. rewrite N. auto.
    + rewrite (contiguous_same (np_a o) a'); auto.
  - pose proof (holds_of_buf _ _ _ Lb C R Cc F G) as (H1 & H2 & H3).
    repeat split; auto. intros i j Li Lj. rewrite H3 by auto. cbv beta zeta.
    unfold entry. rewrite offset_contiguous by auto. auto.
Qed.

(** setAllParams of a full vector is the same, frozen or not. *)
Theorem C101_write_all (o : npp V) (p : list V) : good o -> contiguous (np_a o) = true ->
  length p = nr (np_a o) * nc (np_a o) ->
  exists o', np_set_all o p = Ok o' /\ good o' /\ np_liquid o' = np_liquid o /\
    np_get_all o' = p /\
    holds (np_a o) (np_a o') (fun i j => nth_error p (i * nc (np_a o) + j)).
Proof.
  intros (Lb & Ll) C Lp.
  assert (K : forall r i (a : nda V), length (buf a) = nr a * nc a -> contiguous a = true ->
     i + length r = nr a * nc a ->
     exists a', np_setall_loop i r a = Ok a' /\ nr a' = nr a /\ nc a' = nc a /\
       fortran a' = fortran a /\ length (buf a') = nr a * nc a /\
       (forall k, k < i -> nth_error (buf a') k = nth_error (buf a) k) /\
       (forall k, k < length r -> nth_error (buf a') (i + k) = nth_error r k)).
  { induction r as [|x r IH]; intros i a L Ca Hl.
    - exists a. simpl. repeat split; auto. simpl; intros; lia.
    - simpl in Hl. simpl. unfold set_thing at 1. rewrite flat_len by auto.
      destruct (Nat.ltb_spec i (nr a * nc a)); [|lia]. rewrite Ca. simpl.
      destruct (IH (S i) (mkNda (nr a) (nc a) (fortran a) (upd i x (buf a))))
        as (a' & E & R & Cc & F & B & Old & New); simpl; rewrite ?upd_length; auto; [lia|].
      cbn [nr nc fortran buf] in *. exists a'. repeat split; auto.
      + intros k Hk. rewrite Old by lia. rewrite upd_nth by lia.
        destruct (Nat.eqb_spec k i); [lia|auto].
      + intros [|k] Hk.
        * rewrite Nat.add_0_r, Old by lia. rewrite upd_nth by lia. rewrite Nat.eqb_refl. auto.
        * replace (i + S k) with (S i + k) by lia. simpl. apply New. lia. }
  destruct (K p 0 (np_a o)) as (a' & E & R & Cc & F & B & _ & New); auto.
  unfold np_set_all. rewrite E. cbn [bind]. eexists. split; [reflexivity|].
  unfold with_a. cbn. split; [split; cbn; congruence|]. split; auto.
  assert (P : buf a' = p).
  { apply nth_error_ext. intros k. destruct (Nat.lt_ge_cases k (length p)) as [Hk|Hk].
    - exact (New k Hk).
    - assert (nth_error p k = None) as -> by (apply nth_error_None; auto).
      apply nth_error_None. lia. }
  split.
  - unfold np_get_all. cbn. rewrite flat_contiguous; auto; [congruence|].
    rewrite (contiguous_same (np_a o) a'); auto.
  - apply (holds_of_buf (np_a o) a' (fun k => nth_error p k)); auto. rewrite P. auto.
Qed.

(** setParam(k, v) for the k-th thawed parameter changes that one entry and
    returns what was there. *)
Theorem C101_write_one (o : npp V) (k : nat) (v : V) : good o ->
  contiguous (np_a o) = true -> k < length (np_liquid o) ->
  nth k (np_liquid o) false = true ->
  exists o' old, np_set_param o (Z.of_nat (rank (np_liquid o) k)) v = Ok (o', old) /\
    good o' /\ np_liquid o' = np_liquid o /\
    nth_error (np_get_params o) (rank (np_liquid o) k) = Some old /\
    holds (np_a o) (np_a o') (fun i j =>
      if i * nc (np_a o) + j =? k then Some v else entry (np_a o) i j).
Proof.
  intros (Lb & Ll) C Hk N.
  assert (IX : forall liq k, nth k liq false = true ->
     index_liquid liq (Z.of_nat (rank liq k)) = Ok k).
  { clear. induction liq as [|b liq IH]; intros [|k] N; simpl in N; try discriminate.
    - subst b. reflexivity.
    - destruct b.
      + unfold rank. cbn [firstn]. change (count_true (true :: firstn k liq))
          with (S (count_true (firstn k liq))).
        cbn [index_liquid]. destruct (Z.eqb_spec (Z.of_nat (S (count_true (firstn k liq)))) 0); [lia|].
        replace (Z.of_nat (S (count_true (firstn k liq))) - 1)%Z
          with (Z.of_nat (rank liq k)) by (unfold rank; lia).
        rewrite IH by auto. reflexivity.
      + change (rank (false :: liq) (S k)) with (rank liq k). cbn [index_liquid].
        rewrite IH by auto. reflexivity. }
  unfold np_set_param. rewrite IX by auto. cbn [bind]. unfold py_get.
  destruct (nth_error (flat (np_a o)) k) as [old|] eqn:Eo;
    [|exfalso; revert Eo; apply nth_error_Some; rewrite flat_len by auto; lia].
  cbn [bind]. unfold set_thing. rewrite flat_len by auto.
  destruct (Nat.ltb_spec k (nr (np_a o) * nc (np_a o))); [|lia]. rewrite C. cbn [bind].
  eexists. exists old. split; [reflexivity|]. unfold with_a. cbn.
  split; [split; cbn; rewrite ?upd_length; auto|]. split; auto. split.
  - unfold np_get_params. rewrite keep_nth; auto. rewrite flat_len; auto.
  - set (a' := mkNda _ _ _ _).
    pose proof (holds_of_buf (np_a o) a'
      (fun q => if q =? k then Some v else nth_error (buf (np_a o)) q) Lb C
      eq_refl eq_refl eq_refl) as (H1 & H2 & H3).
    { intros q Hq. cbn. apply upd_nth. lia. }
    repeat split; auto. intros i j Li Lj. rewrite H3 by auto.
    destruct (_ =? k); auto. unfold entry. rewrite offset_contiguous by auto. auto.
Qed.

(** The parameters are the entries row by row, whatever the memory order. *)
Theorem C101_read (o : npp V) : good o ->
  length (np_get_all o) = nr (np_a o) * nc (np_a o) /\
  length (np_get_params o) = np_number o /\
  forall i j, i < nr (np_a o) -> j < nc (np_a o) ->
    nth_error (np_get_all o) (i * nc (np_a o) + j) = entry (np_a o) i j.
Proof.
  intros (Lb & Ll). split; [apply flat_len; auto|]. split.
  - unfold np_get_params, np_number. rewrite <- keep_length with (l := flat (np_a o)); auto.
    rewrite flat_len; auto.
  - intros. apply flat_nth; auto.
Qed.

(** In Fortran order (two or more rows and columns) every write is lost, and
    without an error: setParams of any vector long enough leaves the array as
    it was. *)
Theorem C101_fortran_refuted (o : npp V) (p : list V) : good o ->
  fortran (np_a o) = true -> 2 <= nr (np_a o) -> 2 <= nc (np_a o) ->
  np_number o <= length p -> np_set_params o p = Ok o.
Proof.
  intros (Lb & Ll) F R Cc Lp.
  assert (C : contiguous (np_a o) = false).
  { unfold contiguous. rewrite F. simpl. apply orb_false_iff. rewrite !Nat.leb_gt. lia. }
  assert (K : forall liq i j, j + length liq = nr (np_a o) * nc (np_a o) ->
     i + count_true liq <= length p -> np_set_loop liq i j p (np_a o) = Ok (np_a o)).
  { induction liq as [|b liq IH]; intros i j Hl Hp; simpl; auto. simpl in Hl. destruct b.
    - unfold count_true in Hp; simpl in Hp; fold (count_true liq) in Hp.
      unfold py_get. destruct (nth_error p i) eqn:E;
        [|exfalso; revert E; apply nth_error_Some; lia].
      simpl. unfold set_thing. rewrite flat_len by auto.
      destruct (Nat.ltb_spec j (nr (np_a o) * nc (np_a o))); [|lia].
      rewrite C. simpl. apply IH; lia.
    - apply IH; [lia|exact Hp]. }
  unfold np_set_params. rewrite K; auto.
  - cbn. destruct o; reflexivity.
Qed.

(** The bounds and the largest steps are empty lists, however many parameters
    there are; so in a group the bounds of what follows the array stand
    against the wrong parameters. *)
Theorem C101_bounds_refuted (a : nda V) (l : plist V) :
  length (buf a) = nr a * nc a ->
  np_get_lowers (np_init a) = [] /\ np_get_uppers (np_init a) = [] /\
  np_get_maxstep (np_init a) = [] /\ np_number (np_init a) = nr a * nc a /\
  (length (l_lowers l) = length (l_vals l) ->
   length (l_liquid l) = length (l_vals l) ->
   pair_lowers (np_init a) l = keep (l_liquid l) (l_lowers l) /\
   length (pair_params (np_init a) l) = nr a * nc a + length (pair_lowers (np_init a) l)).
Proof.
  intros L.
  assert (K : forall m, keep m (@nil (option V)) = []) by (intros [|[] m]; reflexivity).
  unfold np_get_lowers, np_get_uppers, np_get_maxstep, np_number, pair_lowers, pair_params,
    np_get_lowers, np_get_params. cbn [np_init np_liquid np_lowers np_uppers np_maxstep np_a].
  rewrite !K. repeat split; auto.
  - rewrite flat_len by auto. generalize (nr a * nc a). induction n; simpl; auto.
    unfold count_true in *. simpl. auto.
  - rewrite !app_length. cbn [app length].
    rewrite !keep_length by (rewrite ?repeat_length; congruence).
    rewrite flat_len by auto. f_equal. generalize (nr a * nc a). induction n; simpl; auto.
    unfold count_true in *. simpl. auto.
Qed.

(** copy() raises unless there is exactly one entry. *)
Theorem C101_copy_refuted (o : npp V) : good o ->
  (nr (np_a o) * nc (np_a o) <> 1 -> np_copy o = Err TypeError) /\
  (nr (np_a o) * nc (np_a o) = 1 -> exists o', np_copy o = Ok o' /\
     np_get_params o' = np_get_params o /\ np_liquid o' = np_liquid o).
Proof.
  intros (Lb & Ll). pose proof (flat_len _ Lb) as F. unfold np_copy, np_get_all. split; intros H.
  - destruct (flat (np_a o)) as [|x [|y r]]; auto. simpl in F. lia.
  - rewrite H in F. destruct (flat (np_a o)) as [|x [|y r]] eqn:E; simpl in F; try lia.
    eexists. split; [reflexivity|]. split; auto.
    unfold np_get_params. cbn. rewrite E. auto.
Qed.

End NpParamsProps.

(** A 2-by-3 array with its middle column frozen. *)
Definition ex_np (f : bool) : npp nat :=
  mkNpp (mkNda 2 3 f (if f then [10; 40; 20; 50; 30; 60] else [10; 20; 30; 40; 50; 60]))
    [true; false; true; true; false; true] [] [] [].

Example ex_np_write :
  good _ (ex_np false) /\ contiguous (np_a (ex_np false)) = true /\
  np_get_params (ex_np false) = [10; 30; 40; 60] /\
  np_set_params (ex_np false) [1; 3; 4; 6] =
    Ok (mkNpp (mkNda 2 3 false [1; 20; 3; 4; 50; 6])
          [true; false; true; true; false; true] [] [] []) /\
  np_set_param (ex_np false) 2 7 =
    Ok (mkNpp (mkNda 2 3 false [10; 20; 30; 7; 50; 60])
          [true; false; true; true; false; true] [] [] [], 40).
Proof. repeat split. Qed.

(** The same table in Fortran order reads the same, but keeps its values. *)
Example ex_np_fortran :
  good _ (ex_np true) /\ np_get_params (ex_np true) = [10; 30; 40; 60] /\
  np_set_params (ex_np true) [1; 3; 4; 6] = Ok (ex_np true).
Proof. repeat split. Qed.

(** A two-entry array followed by a bounded parameter: two lower bounds would
    be expected before the bound 5. *)
Example ex_np_bounds :
  let l := mkPlist (mkNames [] []) [9] [true] [Some 5] [None] [None] None [] in
  pair_params (np_init (mkNda 1 2 false [7; 8])) l = [7; 8; 9] /\
  pair_lowers (np_init (mkNda 1 2 false [7; 8])) l = [Some 5].
Proof. repeat split. Qed.

Example ex_np_copy : np_copy (ex_np false) = Err TypeError.
Proof. reflexivity. Qed.

Print Assumptions C101_write.
Print Assumptions C101_write_all.
Print Assumptions C101_write_one.
Print Assumptions C101_read.
Print Assumptions C101_fortran_refuted.
Print Assumptions C101_bounds_refuted.
Print Assumptions C101_copy_refuted.
