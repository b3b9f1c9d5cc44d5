(** C120: the order in which images and sources are listed does not matter to a
    fit. *)
From Coq Require Import String List ZArith QArith Qabs Bool Lia Lqa Permutation.
From Verif Require Import Base Ext ParamsModel ParamsSpec ParamsProofs ParamsProps PatchModel PatchSpec PriorModel PriorProps LsqModel LsqSpec LsqProps.
From Verif Require Import EngineModel OptimModel MaskedProps.
Import ListNotations.

(** ** What is claimed *)
(** The elements of a list at these positions. *)
Definition pick {A} (x : A) (s : list nat) (l : list A) : list A := map (fun i => nth i l x) s.
(** Number of free parameters of the children of a group. *)
Definition cnt (subs : list tree) (liq : list bool) : nat := list_sum (active_map number_of_params subs liq).
(** [reordered t t' s]: t' is t with neighbouring children of groups exchanged,
    any number of times and at any depth; s gives for each parameter of t' its
    position in t. *)
Inductive reordered : tree -> tree -> list nat -> Prop :=
| re_same t : reordered t t (seq 0 (number_of_params t))
| re_swap nm nm' pre a b post lpre la lb lpost : length pre = length lpre ->
    let n1 := cnt pre lpre in let na := cnt [a] [la] in let nb := cnt [b] [lb] in
    reordered (PMulti nm (pre ++ a :: b :: post) (lpre ++ la :: lb :: lpost))
              (PMulti nm' (pre ++ b :: a :: post) (lpre ++ lb :: la :: lpost))
              (seq 0 n1 ++ seq (n1 + na) nb ++ seq n1 na ++ seq (n1 + na + nb) (cnt post lpost))
| re_child nm nm' pre a a' post lpre l lpost s : length pre = length lpre -> reordered a a' s ->
    let n1 := cnt pre lpre in
    reordered (PMulti nm (pre ++ a :: post) (lpre ++ l :: lpost)) (PMulti nm' (pre ++ a' :: post) (lpre ++ l :: lpost))
              (seq 0 n1 ++ (if l then map (fun k => n1 + k)%nat s else []) ++ seq (n1 + cnt [a] [l]) (cnt post lpost))
| re_trans t u v s s' : reordered t u s -> reordered u v s' -> reordered t v (pick 0%nat s' s).
(** A solution of the least-squares system. *)
Definition solves (s : lsys) (d : list Q) : Prop :=
  length d = ls_ncols s /\ forall d', length d' = length d -> (objective s d <= objective s d')%Q.

(** ** Picking *)
Open Scope nat_scope.
Lemma pick_app {A} (x : A) s s' l : pick x (s ++ s') l = pick x s l ++ pick x s' l.
Proof. apply map_app. Qed.
Lemma pick_seq {A} (x : A) a b c : pick x (seq (length a) (length b)) (a ++ b ++ c) = b.
Proof.
  revert a. induction b as [|y b IH]; intros a; [reflexivity|]. cbn [length seq pick map]. f_equal.
  - rewrite app_nth2 by lia. rewrite Nat.sub_diag. reflexivity.
  - specialize (IH (a ++ [y])). rewrite app_length, Nat.add_1_r, <- app_assoc in IH. exact IH.
Qed.
Lemma pick_at {A} (x : A) n m a b c : n = length a -> m = length b -> pick x (seq n m) (a ++ b ++ c) = b.
Proof. intros -> ->. apply pick_seq. Qed.
Lemma pick_end {A} (x : A) n m a b : n = length a -> m = length b -> pick x (seq n m) (a ++ b) = b.
Proof. intros -> ->. pose proof (pick_seq x a b []) as H. rewrite app_nil_r in H. exact H. Qed.
Lemma pick_shift {A} (x : A) s n a b c : n = length a -> (forall k, In k s -> k < length b) ->
  pick x (map (fun k => n + k) s) (a ++ b ++ c) = pick x s b.
Proof.
  intros -> H. unfold pick. rewrite map_map. apply map_ext_in. intros k K. rewrite app_nth2 by lia.
  rewrite app_nth1 by (specialize (H k K); lia). f_equal. lia.
Qed.
Lemma pick_pick {A} (x : A) s s' l : (forall k, In k s' -> k < length s) -> pick x s' (pick x s l) = pick x (pick 0 s' s) l.
Proof.
  intros H. unfold pick. rewrite map_map. apply map_ext_in. intros k K.
  rewrite (nth_indep _ x (nth 0 l x)) by (rewrite map_length; auto). rewrite (map_nth (fun i => nth i l x)). reflexivity.
Qed.
Lemma pick_all {A} (x : A) l : pick x (seq 0 (length l)) l = l.
Proof. pose proof (pick_seq x [] l []) as H. cbn [app length] in H. rewrite app_nil_r in H. exact H. Qed.
Lemma pick_length {A} (x : A) s l : length (pick x s l) = length s.
Proof. apply map_length. Qed.
Lemma perm_range s n : Permutation s (seq 0 n) -> forall k, In k s -> k < n.
Proof. intros P k K. apply (Permutation_in _ P), in_seq in K. lia. Qed.
Lemma perm_len s n : Permutation s (seq 0 n) -> length s = n.
Proof. intros P. rewrite (Permutation_length P). apply seq_length. Qed.

(** ** Groups *)
Section Walks.
Lemma active_app {A} (f : tree -> A) : forall subs liq subs' liq', length subs = length liq ->
  active_map f (subs ++ subs') (liq ++ liq') = active_map f subs liq ++ active_map f subs' liq'.
Proof. induction subs as [|s subs IH]; intros [|l liq] subs' liq' L; cbn in L; try discriminate; auto. cbn. rewrite IH by lia. destruct (l && negb (is_none s)); reflexivity. Qed.
Lemma active_cons {A} (f : tree -> A) s subs l liq : active_map f (s :: subs) (l :: liq) = active_map f [s] [l] ++ active_map f subs liq.
Proof. cbn. destruct (l && negb (is_none s)); reflexivity. Qed.
Lemma cnt_app subs liq subs' liq' : length subs = length liq -> cnt (subs ++ subs') (liq ++ liq') = cnt subs liq + cnt subs' liq'.
Proof. intros L. unfold cnt. rewrite active_app by auto. apply list_sum_app. Qed.
Lemma cnt_cons s subs l liq : cnt (s :: subs) (l :: liq) = cnt [s] [l] + cnt subs liq.
Proof. unfold cnt. rewrite active_cons. apply list_sum_app. Qed.
Lemma cnt_one s l : cnt [s] [l] = if l then number_of_params s else 0.
Proof. unfold cnt. cbn. destruct l; cbn; auto. destruct s; cbn; lia. Qed.
Definition gpar subs liq : list Q := concat (active_map get_params subs liq).
Lemma gpar_app subs liq subs' liq' : length subs = length liq -> gpar (subs ++ subs') (liq ++ liq') = gpar subs liq ++ gpar subs' liq'.
Proof. intros L. unfold gpar. rewrite active_app by auto. apply concat_app. Qed.
Lemma gpar_cons s subs l liq : gpar (s :: subs) (l :: liq) = gpar [s] [l] ++ gpar subs liq.
Proof. unfold gpar. rewrite active_cons. apply concat_app. Qed.
Lemma gpar_one s l : gpar [s] [l] = if l then get_params s else [].
Proof. unfold gpar. cbn. destruct l; cbn; auto. destruct s; cbn; rewrite ?app_nil_r; auto. Qed.
Definition gterms subs liq : list (nat * Q * Q) := terms_walk terms subs liq 0.
Lemma walk_shift : forall subs liq c, terms_walk terms subs liq c = map (shift c) (gterms subs liq).
Proof.
  unfold gterms. assert (S2 : forall (c c' : nat) ts, map (shift c) (map (shift c') ts) = map (shift (c' + c)) ts).
  { intros. rewrite map_map. apply map_ext. intros [[k m] s]. cbn. do 2 f_equal. lia. }
  induction subs as [|s subs IH]; intros [|l liq] c; cbn; auto. destruct (l && negb (is_none s)); [|apply IH].
  rewrite map_app, (IH liq (c + number_of_params s)), (IH liq (number_of_params s)), !S2. f_equal.
  f_equal. f_equal. lia.
Qed.
Lemma gterms_app : forall subs liq subs' liq', length subs = length liq ->
  gterms (subs ++ subs') (liq ++ liq') = gterms subs liq ++ map (shift (cnt subs liq)) (gterms subs' liq').
Proof.
  assert (S2 : forall (c c' : nat) ts, map (shift c) (map (shift c') ts) = map (shift (c' + c)) ts).
  { intros. rewrite map_map. apply map_ext. intros [[k m] s]. cbn. do 2 f_equal. lia. }
  induction subs as [|s subs IH]; intros [|l liq] subs' liq' L; cbn in L; try discriminate.
  - cbn. change (cnt [] []) with 0. rewrite <- walk_shift. reflexivity.
  - unfold gterms in *. cbn [app terms_walk]. unfold cnt. cbn [active_map]. destruct (l && negb (is_none s)).
    + rewrite !walk_shift. unfold gterms. rewrite IH by lia. rewrite map_app, S2, <- app_assoc. unfold cnt.
      replace (list_sum (number_of_params s :: active_map number_of_params subs liq))
        with (list_sum (active_map number_of_params subs liq) + number_of_params s) by (cbn [list_sum fold_right]; unfold list_sum; cbn [fold_right]; lia). rewrite ?S2. reflexivity.
    + apply IH. lia.
Qed.
Lemma gterms_cons s subs l liq : gterms (s :: subs) (l :: liq) = gterms [s] [l] ++ map (shift (cnt [s] [l])) (gterms subs liq).
Proof. exact (gterms_app [s] [l] subs liq eq_refl). Qed.
Lemma gterms_one s l : gterms [s] [l] = if l then terms s else [].
Proof.
  unfold gterms. cbn. destruct l; cbn; auto. assert (E : map (shift 0) (terms s) = terms s).
  { rewrite <- map_id. apply map_ext. intros [[k m] x]. cbn. do 2 f_equal. lia. }
  destruct s; cbn [is_none negb]; rewrite ?app_nil_r; auto.
Qed.
Lemma chi_app ts ts' p : (chi_terms (ts ++ ts') p == chi_terms ts p + chi_terms ts' p)%Q.
Proof. unfold chi_terms. rewrite map_app. apply qsum_app. Qed.
Lemma chi_shift ts a b : chi_terms (map (shift (length a)) ts) (a ++ b) = chi_terms ts b.
Proof.
  unfold chi_terms. rewrite map_map. f_equal. apply map_ext. intros [[c m] s]. cbn. rewrite app_nth2 by lia. do 4 f_equal. lia.
Qed.
Lemma chi_front ts a b : Forall (in_range (length a)) ts -> chi_terms ts (a ++ b) = chi_terms ts a.
Proof.
  intros F. unfold chi_terms. f_equal. apply map_ext_in. intros [[c m] s] I. rewrite Forall_forall in F. destruct (F _ I) as (R & _). cbn in *.
  rewrite app_nth1 by auto. reflexivity.
Qed.
Definition gok subs : Prop := Forall (fun s : tree => wf s /\ priors_ok s) subs.
Lemma gok_of nm subs liq : wf (PMulti nm subs liq) -> priors_ok (PMulti nm subs liq) -> length liq = length subs /\ gok subs.
Proof.
  cbn. rewrite !fold_and_Forall. intros (L & W) O. split; auto. unfold gok. rewrite Forall_forall in *. auto.
Qed.
Lemma of_gok (nm : names) subs liq : length liq = length subs -> gok subs -> wf (PMulti nm subs liq) /\ priors_ok (PMulti nm subs liq).
Proof. intros L G. unfold gok in G. cbn. rewrite !fold_and_Forall. repeat split; auto; eapply Forall_impl; try exact G; cbn; tauto. Qed.
Lemma gterms_range (nm : names) subs liq : length liq = length subs -> gok subs -> Forall (in_range (cnt subs liq)) (gterms subs liq).
Proof. intros L G. destruct (of_gok nm subs liq L G) as (W & O). exact (terms_range _ W O). Qed.
(** The prior terms of a group are those of its parts. *)
Lemma chi_group (nm : names) subs liq subs' liq' p p' : length liq = length subs -> gok subs -> length p = cnt subs liq ->
  (chi_terms (gterms (subs ++ subs') (liq ++ liq')) (p ++ p') == chi_terms (gterms subs liq) p + chi_terms (gterms subs' liq') p')%Q.
Proof.
  intros L G LP. rewrite gterms_app, chi_app by auto. rewrite <- LP, chi_shift, chi_front; [reflexivity|]. rewrite LP. apply (gterms_range nm); auto.
Qed.
End Walks.

(** ** What reordering keeps *)
Definition opt_walk := log_prior_walk log_prior.
Lemma walk_acc : forall subs liq a b, (a == b)%Q -> same_res Qeq (opt_walk subs liq a) (opt_walk subs liq b).
Proof.
  unfold opt_walk. induction subs as [|s subs IH]; intros [|l liq] a b E; cbn; auto. destruct (l && negb (is_none s)); [|apply IH; auto].
  destruct (log_prior s); cbn; auto. apply IH. rewrite E. reflexivity.
Qed.
Lemma walk_app : forall subs liq subs' liq' a, length subs = length liq ->
  opt_walk (subs ++ subs') (liq ++ liq') a = bind (opt_walk subs liq a) (opt_walk subs' liq').
Proof.
  unfold opt_walk. induction subs as [|s subs IH]; intros [|l liq] subs' liq' a L; cbn in L; try discriminate; auto. cbn.
  destruct (l && negb (is_none s)); [|apply IH; lia]. destruct (log_prior s); cbn; auto.
Qed.
Lemma same_res_trans (a b c : res Q) : same_res Qeq a b -> same_res Qeq b c -> same_res Qeq a c.
Proof. destruct a, b, c; cbn; try tauto; [intros -> ->; reflexivity|congruence]. Qed.
Lemma same_res_refl (a : res Q) : same_res Qeq a a.
Proof. destruct a; cbn; auto. reflexivity. Qed.
Lemma reordered_none t u s : reordered t u s -> is_none t = is_none u.
Proof. induction 1; auto. congruence. Qed.
(** Priors fail only on members that are None, which groups skip. *)
Lemma prior_total t : wf t -> priors_ok t -> t <> PNone -> exists L, log_prior t = Ok L.
Proof.
  intros W O N. destruct (log_prior_set t W O N) as (K & H).
  destruct (H (get_params t) t) as (L & E & _); [|apply C03_write_back_identity; auto|eauto].
  rewrite number_get; auto.
Qed.
Lemma split_len {A} (p : list A) n m : length p = n + m -> exists a b, p = a ++ b /\ length a = n /\ length b = m.
Proof. intros H. exists (firstn n p), (skipn n p). rewrite firstn_skipn, firstn_length, skipn_length. repeat split; lia. Qed.
Lemma gok_app a b : gok (a ++ b) <-> gok a /\ gok b.
Proof. apply Forall_app. Qed.
Lemma gok_cons a b : gok (a :: b) <-> (wf a /\ priors_ok a) /\ gok b.
Proof. apply Forall_cons_iff. Qed.
Lemma gpar_len (nm : names) subs liq : length liq = length subs -> gok subs -> length (gpar subs liq) = cnt subs liq.
Proof. intros L G. destruct (of_gok nm subs liq L G) as (W & O). symmetry. exact (number_get _ W). Qed.
Lemma kept t u s : reordered t u s -> wf t -> priors_ok t ->
  wf u /\ priors_ok u /\ number_of_params u = number_of_params t /\ Permutation s (seq 0 (number_of_params t)) /\
  get_params u = pick 0%Q s (get_params t) /\
  (forall p, length p = number_of_params t -> (chi_terms (terms u) (pick 0%Q s p) == chi_terms (terms t) p)%Q) /\
  same_res Qeq (log_prior t) (log_prior u).
Proof.
  induction 1 as [t|nm nm' pre a b post lpre la lb lpost LP n1 na nb|nm nm' pre a a' post lpre l lpost s LP R IH n1|t u v s s' R1 IH1 R2 IH2]; intros W O.
  - do 4 (split; [auto|]). split; [rewrite number_get by auto; rewrite pick_all; auto|]. split; [|apply same_res_refl].
    intros p <-. rewrite pick_all. reflexivity.
  - destruct (gok_of _ _ _ W O) as (L & G). rewrite !app_length in L. cbn [length] in L.
    rewrite gok_app, !gok_cons in G. destruct G as (G1 & Ga & Gb & G4).
    assert (L4 : length lpost = length post) by lia.
    assert (Lx : forall x (y : bool), length [y] = length [x : tree]) by reflexivity.
    destruct (of_gok nm' (pre ++ b :: a :: post) (lpre ++ lb :: la :: lpost)) as (W' & O');
      [rewrite !app_length; cbn [length]; lia|rewrite gok_app, !gok_cons; auto|].
    assert (Ea : gok [a]) by (apply gok_cons; split; auto; constructor). assert (Eb : gok [b]) by (apply gok_cons; split; auto; constructor).
    split; [exact W'|]. split; [exact O'|].
    assert (N : number_of_params (PMulti nm (pre ++ a :: b :: post) (lpre ++ la :: lb :: lpost)) = n1 + (na + (nb + cnt post lpost))).
    { change (cnt (pre ++ a :: b :: post) (lpre ++ la :: lb :: lpost) = n1 + (na + (nb + cnt post lpost))).
      rewrite cnt_app, (cnt_cons a), (cnt_cons b) by auto. reflexivity. }
    assert (PK : forall A (x : A) p1 pa pb p4, length p1 = n1 -> length pa = na -> length pb = nb -> length p4 = cnt post lpost ->
      pick x (seq 0 n1 ++ seq (n1 + na) nb ++ seq n1 na ++ seq (n1 + na + nb) (cnt post lpost)) (p1 ++ pa ++ pb ++ p4) = p1 ++ pb ++ pa ++ p4).
    { intros A x p1 pa pb p4 H1 Ha Hb H4. rewrite !pick_app. f_equal; [|f_equal; [|f_equal]].
      - apply (pick_at x 0 n1 [] p1 (pa ++ pb ++ p4)); auto.
      - rewrite app_assoc. apply pick_at; rewrite ?app_length; lia.
      - apply pick_at; auto.
      - rewrite (app_assoc p1), (app_assoc (p1 ++ pa)). apply pick_end; rewrite ?app_length; lia. }
    split; [|split; [|split; [|split]]].
    + rewrite N. change (cnt (pre ++ b :: a :: post) (lpre ++ lb :: la :: lpost) = n1 + (na + (nb + cnt post lpost))).
      rewrite cnt_app, (cnt_cons b), (cnt_cons a) by auto. fold n1 na nb. lia.
    + rewrite N, !seq_app. apply Permutation_app_head. apply Permutation_app_swap_app.
    + change (gpar (pre ++ b :: a :: post) (lpre ++ lb :: la :: lpost) = pick 0%Q (seq 0 n1 ++ seq (n1 + na) nb ++ seq n1 na ++ seq (n1 + na + nb) (cnt post lpost))
        (gpar (pre ++ a :: b :: post) (lpre ++ la :: lb :: lpost))).
      rewrite !gpar_app, (gpar_cons a), (gpar_cons b (a :: post)), (gpar_cons b post), (gpar_cons a post) by auto. symmetry.
      apply PK; apply (gpar_len nm); auto.
    + intros p LPn. rewrite N in LPn. apply split_len in LPn as (p1 & q & -> & H1 & LPn). apply split_len in LPn as (pa & q' & -> & Ha & LPn).
      apply split_len in LPn as (pb & p4 & -> & Hb & H4). rewrite PK by auto.
      change (chi_terms (gterms (pre ++ [b] ++ [a] ++ post) (lpre ++ [lb] ++ [la] ++ lpost)) (p1 ++ pb ++ pa ++ p4) ==
              chi_terms (gterms (pre ++ [a] ++ [b] ++ post) (lpre ++ [la] ++ [lb] ++ lpost)) (p1 ++ pa ++ pb ++ p4))%Q.
      rewrite !(chi_group nm) by auto. ring.
    + change (same_res Qeq (opt_walk (pre ++ [a] ++ [b] ++ post) (lpre ++ [la] ++ [lb] ++ lpost) 0)
                           (opt_walk (pre ++ [b] ++ [a] ++ post) (lpre ++ [lb] ++ [la] ++ lpost) 0)).
      rewrite !(walk_app pre) by auto. destruct (opt_walk pre lpre 0) as [x|e]; cbn [bind]; [|reflexivity].
      rewrite !app_assoc, !(walk_app (_ ++ _)) by reflexivity.
      assert (T : forall c (lc : bool), wf c -> priors_ok c -> exists y, forall z, exists w, opt_walk [c] [lc] z = Ok w /\ (w == z + y)%Q).
      { intros c lc Wc Oc. unfold opt_walk. cbn. destruct (lc && negb (is_none c)) eqn:E; [|exists 0%Q; intros z; exists z; split; [auto|ring]].
        apply andb_prop in E as (_ & E). destruct (prior_total c Wc Oc) as (y & ->); [intros ->; discriminate|].
        exists y. intros z. exists (z + y)%Q. split; [reflexivity|ring]. }
      destruct (T a la) as (ya & Ta); [apply Ga|apply Ga|]. destruct (T b lb) as (yb & Tb); [apply Gb|apply Gb|].
      assert (T2 : forall c d lc ld z, opt_walk ([c] ++ [d]) ([lc] ++ [ld]) z = bind (opt_walk [c] [lc] z) (opt_walk [d] [ld])) by (intros; apply walk_app; auto).
      rewrite !T2. destruct (Ta x) as (xa & -> & Ha). destruct (Tb x) as (xb & -> & Hb). cbn [bind].
      destruct (Tb xa) as (xab & -> & Hab). destruct (Ta xb) as (xba & -> & Hba). cbn [bind]. apply walk_acc. rewrite Hab, Hba, Ha, Hb. ring.
  - destruct (gok_of _ _ _ W O) as (L & G). rewrite !app_length in L. cbn [length] in L.
    rewrite gok_app, gok_cons in G. destruct G as (G1 & (Wa & Oa) & G4).
    assert (L4 : length lpost = length post) by lia.
    destruct (IH Wa Oa) as (Wa' & Oa' & Na & Pa & Ga & Ca & La).
    destruct (of_gok nm' (pre ++ a' :: post) (lpre ++ l :: lpost)) as (W' & O'); [rewrite !app_length; cbn [length]; lia|rewrite gok_app, gok_cons; auto|].
    assert (Ea : gok [a]) by (apply gok_cons; split; auto; constructor). assert (Ea' : gok [a']) by (apply gok_cons; split; auto; constructor).
    split; [exact W'|]. split; [exact O'|].
    assert (N : number_of_params (PMulti nm (pre ++ a :: post) (lpre ++ l :: lpost)) = n1 + (cnt [a] [l] + cnt post lpost)).
    { change (cnt (pre ++ a :: post) (lpre ++ l :: lpost) = n1 + (cnt [a] [l] + cnt post lpost)). rewrite cnt_app, (cnt_cons a) by auto. reflexivity. }
    assert (PK : forall A (x : A) p1 pa p4, length p1 = n1 -> length pa = cnt [a] [l] -> length p4 = cnt post lpost ->
      pick x (seq 0 n1 ++ (if l then map (fun k => n1 + k) s else []) ++ seq (n1 + cnt [a] [l]) (cnt post lpost)) (p1 ++ pa ++ p4)
      = p1 ++ (if l then pick x s pa else []) ++ p4).
    { intros A x p1 pa p4 H1 Ha H4. rewrite !pick_app. f_equal; [|f_equal].
      - apply (pick_at x 0 n1 [] p1 (pa ++ p4)); auto.
      - destruct l; [|reflexivity]. apply pick_shift; auto. intros k K. rewrite Ha, cnt_one. apply (perm_range _ _ Pa k K).
      - rewrite (app_assoc p1). apply pick_end; rewrite ?app_length; lia. }
    split; [|split; [|split; [|split]]].
    + rewrite N. change (cnt (pre ++ a' :: post) (lpre ++ l :: lpost) = n1 + (cnt [a] [l] + cnt post lpost)).
      rewrite cnt_app, (cnt_cons a'), !cnt_one, Na by auto. reflexivity.
    + rewrite N, !seq_app. apply Permutation_app_head. apply Permutation_app_tail. cbn [Nat.add]. rewrite cnt_one. destruct l; [|constructor].
      eapply Permutation_trans; [apply Permutation_map; exact Pa|]. 
      assert (E : forall n k, map (fun j => n1 + j) (seq k n) = seq (n1 + k) n).
      { induction n; intros k; cbn; auto. rewrite IHn. do 2 f_equal. lia. }
      rewrite E, Nat.add_0_r. apply Permutation_refl.
    + change (gpar (pre ++ a' :: post) (lpre ++ l :: lpost) = pick 0%Q (seq 0 n1 ++ (if l then map (fun k => n1 + k) s else []) ++ seq (n1 + cnt [a] [l]) (cnt post lpost))
        (gpar (pre ++ a :: post) (lpre ++ l :: lpost))).
      rewrite !gpar_app, (gpar_cons a'), (gpar_cons a) by auto. rewrite PK by (apply (gpar_len nm); auto). rewrite !gpar_one. destruct l; [rewrite Ga|]; reflexivity.
    + intros p LPn. rewrite N in LPn. apply split_len in LPn as (p1 & q & -> & H1 & LPn). apply split_len in LPn as (pa & p4 & -> & Ha & H4). rewrite PK by auto.
      change (chi_terms (gterms (pre ++ [a'] ++ post) (lpre ++ [l] ++ lpost)) (p1 ++ (if l then pick 0%Q s pa else []) ++ p4) ==
              chi_terms (gterms (pre ++ [a] ++ post) (lpre ++ [l] ++ lpost)) (p1 ++ pa ++ p4))%Q.
      rewrite cnt_one in Ha.
      rewrite !(chi_group nm); auto; rewrite ?cnt_one; try exact Ha; try (destruct l; [rewrite pick_length, Na; apply perm_len; auto|reflexivity]).
      rewrite !gterms_one. destruct l; [rewrite Ca by auto; reflexivity|]. destruct pa; [reflexivity|discriminate].
    + change (same_res Qeq (opt_walk (pre ++ [a] ++ post) (lpre ++ [l] ++ lpost) 0) (opt_walk (pre ++ [a'] ++ post) (lpre ++ [l] ++ lpost) 0)).
      rewrite !(walk_app pre) by auto. destruct (opt_walk pre lpre 0) as [x|e]; cbn [bind]; [|reflexivity].
      rewrite !(walk_app [_]) by reflexivity. 
      assert (ST : forall c z, opt_walk [c] [l] z = if l && negb (is_none c) then bind (log_prior c) (fun y => Ok (z + y)%Q) else Ok z) by reflexivity.
      rewrite !ST, <- (reordered_none _ _ _ R).
      destruct (l && negb (is_none a)); cbn [bind]; [|apply walk_acc; reflexivity].
      destruct (log_prior a), (log_prior a'); cbn in La |- *; try contradiction; auto. apply walk_acc. rewrite La. reflexivity.
  - destruct (IH1 W O) as (Wu & Ou & Nu & Pu & Gu & Cu & Lu). destruct (IH2 Wu Ou) as (Wv & Ov & Nv & Pv & Gv & Cv & Lv).
    assert (RG : forall k, In k s' -> k < length s) by (intros k K; rewrite (perm_len _ _ Pu), <- Nu; apply (perm_range _ _ Pv k K)).
    split; [auto|]. split; [auto|]. split; [congruence|]. split; [|split; [|split]].
    + eapply Permutation_trans; [|exact Pu]. unfold pick. eapply Permutation_trans; [apply Permutation_map; exact Pv|].
      rewrite Nu, <- (perm_len _ _ Pu). change (Permutation (pick 0 (seq 0 (length s)) s) s). rewrite pick_all. apply Permutation_refl.
    + rewrite Gv, Gu. apply pick_pick; auto.
    + intros p LPn. rewrite <- (pick_pick 0%Q s s' p RG), Cv by (rewrite pick_length, Nu; apply perm_len; auto). auto.
    + eapply same_res_trans; eauto.
Qed.

(** The parameters of a reordered group are those of the group, rearranged, and
    its log-prior is the same. *)
Theorem C120_params : forall t u s, reordered t u s -> wf t -> priors_ok t ->
  Permutation s (seq 0 (number_of_params t)) /\ number_of_params u = number_of_params t /\
  get_params u = pick 0%Q s (get_params t) /\ same_res Qeq (log_prior t) (log_prior u).
Proof. intros t u s R W O. destruct (kept t u s R W O) as (_ & _ & N & P & G & _ & L). auto. Qed.

(** ** The linearised chi-squared *)
Open Scope Q_scope.
Lemma qsum_perm l l' : Permutation l l' -> qsum l == qsum l'.
Proof. induction 1; cbn; [reflexivity|rewrite IHPermutation; reflexivity|ring|rewrite IHPermutation1; auto]. Qed.
Lemma qsum_same l l' : Forall2 Qeq l l' -> qsum l == qsum l'.
Proof. induction 1; cbn; [reflexivity|]. rewrite H, IHForall2. reflexivity. Qed.
Definition col (i : image) (X Y : Z) (l : list (patch Q * image)) : Q :=
  qsum (map (fun pj => if (im_id (snd pj) =? im_id i)%nat then img_at 0 (fst pj) X Y * px (im_ie i) Y X else 0) l).
Lemma change_nth ds i d X Y : model_change ds i d X Y = qsum (map (fun c => nth c d 0 * col i X Y (nth c ds [])) (seq 0 (length ds))).
Proof.
  unfold model_change. f_equal.
  assert (G : forall k pre, length pre = k -> map (fun e => let '(c, l) := e in nth c d 0 * col i X Y l) (combine (seq k (length ds)) ds)
    = map (fun c => nth c d 0 * col i X Y (nth c (pre ++ ds) [])) (seq k (length ds))).
  { induction ds as [|l ds IH]; intros k pre L; [reflexivity|]. cbn [length seq combine map]. f_equal.
    - rewrite app_nth2 by lia. replace (k - length pre)%nat with 0%nat by lia. reflexivity.
    - rewrite (IH (S k) (pre ++ [l])) by (rewrite app_length; cbn; lia). rewrite <- app_assoc. reflexivity. }
  exact (G 0%nat [] eq_refl).
Qed.
Lemma change_perm ds ds' s i d X Y : Permutation s (seq 0 (length ds)) -> Forall2 (@Permutation _) (pick [] s ds) ds' ->
  model_change ds' i (pick 0 s d) X Y == model_change ds i d X Y.
Proof.
  intros P F. rewrite !change_nth. pose proof (F2_len _ _ _ F) as L. rewrite pick_length in L. rewrite <- L.
  transitivity (qsum (map (fun c => nth c d 0 * col i X Y (nth c ds [])) s)); [|apply qsum_perm, Permutation_map; auto].
  apply qsum_same. clear P L. revert ds' F. unfold pick.
  assert (G : forall (pre : list nat) (dpre : list (list (patch Q * image))) s ds', length pre = length dpre ->
    Forall2 (@Permutation _) (map (fun k => nth k ds []) s) ds' ->
    Forall2 Qeq (map (fun c => nth c (map (fun k => nth k d 0) (pre ++ s)) 0 * col i X Y (nth c (dpre ++ ds') [])) (seq (length pre) (length s)))
      (map (fun c => nth c d 0 * col i X Y (nth c ds [])) s)).
  { clear s. intros pre dpre s. revert pre dpre. induction s as [|k s IH]; intros pre dpre ds' L F; [constructor|].
    inversion F as [|? l' ? r' P F']; subst. cbn [length seq map]. constructor.
    - rewrite map_app, app_nth2, app_nth2, map_length, L, Nat.sub_diag by (rewrite ?map_length; lia). cbn [map nth].
      apply Qmult_comp; [reflexivity|]. unfold col. symmetry. apply qsum_perm, Permutation_map; auto.
    - specialize (IH (pre ++ [k]) (dpre ++ [l']) r'). rewrite !app_length in IH. cbn [length] in IH.
      rewrite <- !app_assoc in IH. cbn [app] in IH. rewrite Nat.add_1_r in IH. apply IH; auto. lia. }
  intros ds' F. exact (G [] [] s ds' eq_refl F).
Qed.
Lemma images_perm imgs imgs' ds ds' : images_of imgs ds -> images_of imgs' ds' -> Permutation (concat ds) (concat ds') -> Permutation imgs imgs'.
Proof.
  intros (N & I) (N' & I') P. apply NoDup_Permutation; [eapply NoDup_map_inv; eauto|eapply NoDup_map_inv; eauto|].
  intros i. rewrite I, I'. split; intros (p & H); exists p; [|apply Permutation_sym in P]; apply (Permutation_in _ P H).
Qed.
Lemma concat_perm {A} (a b : list (list A)) : Permutation a b -> Permutation (concat a) (concat b).
Proof.
  induction 1; cbn; auto; [apply Permutation_app_head; auto|rewrite !app_assoc; apply Permutation_app_tail, Permutation_app_comm|eapply Permutation_trans; eauto].
Qed.
Lemma concat_inner {A} (a b : list (list A)) : Forall2 (@Permutation A) a b -> Permutation (concat a) (concat b).
Proof. induction 1; cbn; auto. apply Permutation_app; auto. Qed.
Lemma derivs_perm (ds ds' : derivs) s : Permutation s (seq 0 (length ds)) -> Forall2 (@Permutation _) (pick [] s ds) ds' -> Permutation (concat ds) (concat ds').
Proof.
  intros P F. eapply Permutation_trans; [|apply concat_inner; exact F]. apply concat_perm.
  rewrite <- (pick_all [] ds) at 1. apply Permutation_map, Permutation_sym, P.
Qed.
Lemma total_perm a b : Permutation a b -> total a = total b.
Proof. unfold total. induction 1; cbn [fold_right]; lia. Qed.
Lemma linear_perm imgs imgs' ds ds' s d : Permutation imgs imgs' -> Permutation s (seq 0 (length ds)) -> Forall2 (@Permutation _) (pick [] s ds) ds' ->
  linear_chisq imgs' ds' (pick 0 s d) == linear_chisq imgs ds d.
Proof.
  intros PI P F. unfold linear_chisq. rewrite (qsum_perm _ _ (Permutation_map _ PI)). apply qsum_ext. intros i _. apply qsum_ext. intros yx _.
  rewrite (change_perm ds ds' s) by auto. reflexivity.
Qed.
Fixpoint pos (k : nat) (s : list nat) : nat := match s with [] => 0 | j :: s => if (j =? k)%nat then 0 else S (pos k s) end.
Lemma pick_onto s n d : Permutation s (seq 0 n) -> length d = n -> exists d0, length d0 = n /\ pick 0 s d0 = d.
Proof.
  intros P L. exists (map (fun k => nth (pos k s) d 0) (seq 0 n)). split; [rewrite map_length, seq_length; auto|].
  assert (ND : NoDup s) by (eapply Permutation_NoDup; [apply Permutation_sym; exact P|apply seq_NoDup]).
  pose proof (perm_len _ _ P) as LS. rewrite <- L in LS. pose proof (perm_range _ _ P) as RG.
  unfold pick. transitivity (map (fun k => nth (pos k s) d 0) s).
  { apply map_ext_in. intros k K. specialize (RG k K). rewrite (nth_indep _ 0 (nth (pos 0 s) d 0)) by (rewrite map_length, seq_length; auto).
    rewrite (map_nth (fun k => nth (pos k s) d 0)). rewrite seq_nth by auto. reflexivity. }
  clear P L RG n. revert d LS. induction s as [|j s IH]; intros [|x d] LS; try discriminate; auto. inversion ND as [|? ? NI ND']; subst.
  cbn [map pos]. rewrite Nat.eqb_refl. cbn [nth]. f_equal. cbn in LS. transitivity (map (fun k => nth (pos k s) d 0) s); [|apply IH; auto; lia]. apply map_ext_in. intros k K.
  destruct (Nat.eqb_spec j k); [subst; contradiction|reflexivity].
Qed.
Lemma step_by_pick s n p d : Permutation s (seq 0 n) -> length p = n -> length d = n -> step_by (pick 0 s p) (pick 0 s d) = pick 0 s (step_by p d).
Proof.
  intros P Lp Ld. pose proof (perm_range _ _ P) as RG. clear P. unfold step_by, pick. induction s as [|k s IH]; auto. cbn [map combine]. f_equal.
  - cbn [fst snd]. assert (K : (k < n)%nat) by (apply RG; left; auto). clear - K Lp Ld. subst n. revert d k Ld K.
    induction p as [|a p IH]; intros [|b d] k Ld K; cbn in *; try lia. destruct k; auto. apply IH; lia.
  - apply IH. intros. apply RG. right; auto.
Qed.

Lemma pick_zero s n : pick 0 s (repeat 0 n) = repeat 0 (length s).
Proof. unfold pick. induction s as [|k s IH]; auto. cbn [map length repeat]. rewrite nth_repeat, IH. reflexivity. Qed.

(** The update: with the parameters listed in another order, and the derivatives
    of each parameter in another order of images, the solutions of the
    least-squares system are the same, rearranged likewise. *)
Theorem C120_step : forall sqrtf nm subs liq nm' subs' liq' sg ds ds',
  let t := PMulti nm subs liq in let u := PMulti nm' subs' liq' in
  reordered t u sg -> wf t -> priors_ok t -> number_of_params t = length ds -> derivs_ok ds ->
  Forall2 (@Permutation _) (pick [] sg ds) ds' ->
  exists imgs, images_of imgs ds /\ ((total imgs <= 2147483648)%Z ->
    forall ox ou s v, prior_derivs t = Ok ox -> prior_derivs u = Ok ou ->
    assemble sqrtf false None ds ox = Ok (Some s) -> assemble sqrtf false None ds' ou = Ok (Some v) ->
    forall d, length d = length ds -> (solves s d <-> solves v (pick 0 sg d))).
Proof.
  intros sqrtf nm subs liq nm' subs' liq' sg ds ds' t u R W O N D F.
  destruct (kept t u sg R W O) as (W' & O' & N' & P & G & C & _). rewrite N in P.
  pose proof (derivs_perm ds ds' sg P F) as PC.
  assert (L' : length ds' = length ds) by (pose proof (F2_len _ _ _ F) as L; rewrite pick_length, (perm_len _ _ P) in L; auto).
  assert (D' : derivs_ok ds').
  { destruct D as (D1 & D2). pose proof (Permutation_sym PC) as PS. split.
    - intros p i I. apply D1. eapply Permutation_in; eauto.
    - intros p i q j I J. apply (D2 p i q j); eapply Permutation_in; eauto. }
  destruct (C33_objective sqrtf nm subs liq ds W O N D) as (imgs & IM & H). exists imgs. split; [exact IM|]. intros TB ox ou s v EX EU ES EV.
  destruct (C33_objective sqrtf nm' subs' liq' ds' W' O') as (imgs' & IM' & H'); [fold u; congruence|auto|].
  pose proof (images_perm _ _ _ _ IM IM' PC) as PI. rewrite (total_perm _ _ PI) in TB. specialize (H' TB ou v EU EV).
  rewrite <- (total_perm _ _ PI) in TB. specialize (H TB ox s EX ES). cbv zeta in H, H'.
  assert (NS : ls_ncols s = length ds /\ ls_ncols v = length ds').
  { destruct (C33_layout sqrtf nm subs liq ds W O N D) as (im1 & IM1 & K). destruct K as (o1 & r1 & A1 & B1 & K).
    { rewrite (total_perm im1 imgs); auto. eapply images_perm; eauto. }
    fold t in A1. rewrite EX in A1. injection A1 as <-. rewrite ES in B1. injection B1 as <-. split; [apply K|].
    destruct (C33_layout sqrtf nm' subs' liq' ds' W' O') as (im2 & IM2 & K2); [fold u; congruence|auto|].
    destruct K2 as (o2 & r2 & A2 & B2 & K2).
    { rewrite (total_perm im2 imgs); auto. eapply images_perm; [exact IM2|exact IM|]. apply Permutation_sym; auto. }
    fold u in A2. rewrite EU in A2. injection A2 as <-. rewrite EV in B2. injection B2 as <-. apply K2. }
  destruct NS as (N1 & N2).
  assert (KEY : exists K, forall d, length d = length ds -> objective v (pick 0 sg d) == objective s d + K).
  { exists (objective v (repeat 0 (length ds')) - objective s (repeat 0 (length ds))). intros d Ld.
    assert (Lt : length (get_params t) = length ds) by (rewrite <- number_get; auto).
    assert (SL : forall a b : list Q, length a = length b -> length (step_by a b) = length b).
    { intros a b E. unfold step_by. rewrite map_length, combine_length. lia. }
    destruct (C02_set_params_writes_exactly_thawed 0 t (step_by (get_params t) d) W ltac:(discriminate)) as (t1 & E1 & _); [rewrite SL; congruence|].
    destruct (H d t1 Ld E1) as (La & Lb & HLa & HLb & OB).
    assert (Lu : length (pick 0 sg d) = length ds') by (rewrite pick_length, (perm_len _ _ P); auto).
    assert (ST : step_by (get_params u) (pick 0 sg d) = pick 0 sg (step_by (get_params t) d)) by (rewrite G; apply (step_by_pick sg (length ds)); auto).
    destruct (C02_set_params_writes_exactly_thawed 0 u (step_by (get_params u) (pick 0 sg d)) W' ltac:(discriminate)) as (u1 & E2 & _).
    { rewrite ST, pick_length, (perm_len _ _ P). congruence. }
    destruct (H' (pick 0 sg d) u1 Lu E2) as (Lc & Ld' & HLc & HLd & OB').
    destruct (log_prior_set t W O ltac:(discriminate)) as (K & HK). destruct (log_prior_set u W' O' ltac:(discriminate)) as (K' & HK').
    destruct (HK _ _ ltac:(rewrite Lt; symmetry; exact N) (C03_write_back_identity t W ltac:(discriminate))) as (q1 & X1 & Y1).
    destruct (HK (step_by (get_params t) d) t1 ltac:(rewrite SL; congruence) E1) as (q2 & X2 & Y2).
    assert (Gu : length (get_params u) = number_of_params u) by (symmetry; apply number_get; auto).
    destruct (HK' _ _ Gu (C03_write_back_identity u W' ltac:(discriminate))) as (q3 & X3 & Y3).
    destruct (HK' (step_by (get_params u) (pick 0 sg d)) u1 ltac:(rewrite ST, pick_length, (perm_len _ _ P); congruence) E2) as (q4 & X4 & Y4).
    fold t in HLa, HLb; fold u in HLc, HLd; assert (La = q1) by congruence. assert (Lb = q2) by congruence. assert (Lc = q3) by congruence. assert (Ld' = q4) by congruence. subst.
    rewrite ST, C in Y4 by (rewrite SL; congruence). rewrite G, C in Y3 by congruence.
    rewrite Y1, Y2 in OB. rewrite Y3, Y4 in OB'.
    assert (Z0 : pick 0 sg (repeat 0 (length ds)) = repeat 0 (length ds')).
    { rewrite L', pick_zero, (perm_len _ _ P). reflexivity. }
    pose proof (linear_perm imgs imgs' ds ds' sg d PI P F) as LP1. pose proof (linear_perm imgs imgs' ds ds' sg (repeat 0 (length ds)) PI P F) as LP2.
    rewrite Z0 in LP2. rewrite LP1, LP2 in OB'. lra. }
  destruct KEY as (K & KEY). intros d Ld. unfold solves.
  assert (LP : forall e, length (pick 0 sg e) = length ds) by (intros; rewrite pick_length; apply perm_len; auto).
  split; intros (A & B).
  - split; [rewrite LP; congruence|]. intros e Le. rewrite LP in Le. destruct (pick_onto sg _ e P Le) as (e0 & L0 & <-).
    rewrite !KEY by auto. specialize (B e0 ltac:(congruence)). lra.
  - split; [congruence|]. intros e Le. specialize (B (pick 0 sg e)). rewrite !LP, !KEY in B by congruence. specialize (B eq_refl). lra.
Qed.

(** If the solution is unique, the two updates are rearrangements of one
    another. *)
Theorem C120_update : forall sqrtf nm subs liq nm' subs' liq' sg ds ds',
  let t := PMulti nm subs liq in let u := PMulti nm' subs' liq' in
  reordered t u sg -> wf t -> priors_ok t -> number_of_params t = length ds -> derivs_ok ds ->
  Forall2 (@Permutation _) (pick [] sg ds) ds' ->
  exists imgs, images_of imgs ds /\ ((total imgs <= 2147483648)%Z ->
    forall ox ou s v d d', prior_derivs t = Ok ox -> prior_derivs u = Ok ou ->
    assemble sqrtf false None ds ox = Ok (Some s) -> assemble sqrtf false None ds' ou = Ok (Some v) ->
    length d = length ds -> length d' = length ds -> solves s d -> (forall e, solves s e -> Forall2 Qeq d e) -> solves v d' ->
    Forall2 Qeq (pick 0 sg d) d').
Proof.
  intros sqrtf nm subs liq nm' subs' liq' sg ds ds' t u R W O N D F.
  destruct (C120_step sqrtf nm subs liq nm' subs' liq' sg ds ds' R W O N D F) as (imgs & IM & H). exists imgs. split; [exact IM|].
  intros TB ox ou s v d d' EX EU ES EV Ld Ld' Sd U Sd'.
  destruct (kept t u sg R W O) as (_ & _ & _ & P & _). rewrite N in P. destruct (pick_onto sg _ d' P Ld') as (e & Le & <-).
  apply (H TB ox ou s v EX EU ES EV e Le), U in Sd'. unfold pick. clear - Sd'. induction sg as [|k l IH]; cbn [map]; constructor; auto.
  clear - Sd'. revert k. induction Sd' as [|a b d e E F IH]; intros [|k]; cbn; auto; reflexivity.
Qed.

(** ** The log-likelihood *)
Lemma eadd_comm a b : eeq (eadd a b) (eadd b a).
Proof. destruct a, b; cbn; auto. ring. Qed.
Lemma eadd_assoc a b c : eeq (eadd a (eadd b c)) (eadd (eadd a b) c).
Proof. destruct a, b, c; cbn; auto. ring. Qed.
(** The images in another order have the same log-likelihood; NaN and infinities
    included. *)
Theorem C120_likelihood : forall oms oms', Permutation oms oms' ->
  eeq (loglik (map fst oms) (map snd oms)) (loglik (map fst oms') (map snd oms')).
Proof.
  assert (C : forall (A B : Type) (l : list (A * B)), combine (map fst l) (map snd l) = l).
  { induction l as [|[x y] l IH]; cbn; auto. rewrite IH. auto. }
  intros oms oms' P. unfold loglik. rewrite !C. unfold get_log_likelihood. apply emul_eeq; [apply eeq_refl|].
  apply (Permutation_map (fun om => get_chi_image (o_data (fst om)) (o_ie (fst om)) (snd om))) in P. revert P.
  generalize (map (fun om : obs ext * arr ext => get_chi_image (o_data (fst om)) (o_ie (fst om)) (snd om)) oms).
  generalize (map (fun om : obs ext * arr ext => get_chi_image (o_data (fst om)) (o_ie (fst om)) (snd om)) oms').
  intros l' l P. set (f := fun chi => arr_sum eadd ezero (mkArr (ah chi) (aw chi) (fun y x => esq (px chi y x)))).
  change (eeq (fold_left (fun acc chi => eadd acc (f chi)) l ezero) (fold_left (fun acc chi => eadd acc (f chi)) l' ezero)).
  assert (ACC : forall l z z', eeq z z' -> eeq (fold_left (fun acc chi => eadd acc (f chi)) l z) (fold_left (fun acc chi => eadd acc (f chi)) l z')).
  { induction l0 as [|a l0 IH]; intros z z' E; cbn [fold_left]; auto. apply IH. apply eadd_eeq; auto. apply eeq_refl. }
  generalize ezero. induction P as [|a l l' P IH|a b l|l l' l'' P1 IH1 P2 IH2]; intros z; cbn [fold_left].
  - apply eeq_refl.
  - apply IH.
  - apply ACC. eapply eeq_trans; [apply eeq_sym, eadd_assoc|]. eapply eeq_trans; [|apply eadd_assoc]. apply eadd_eeq; [apply eeq_refl|apply eadd_comm].
  - eapply eeq_trans; [apply IH1|apply IH2].
Qed.

(** ** A whole fit *)
(** The same numbers, rearranged. *)
Definition rearranged (sg : list nat) (p p' : list Q) : Prop := Forall2 Qeq (pick 0 sg p) p'.
Section Fit.
Variables (sg : list nat) (n : nat).
Hypothesis PERM : Permutation sg (seq 0 n).
Variables lp lp' : list Q -> ext.
Hypothesis LP : forall p p', length p = n -> rearranged sg p p' -> eeq (lp p) (lp' p').
Variables dir dir' : list Q -> option (list Q).
Hypothesis DIR : forall p p', length p = n -> rearranged sg p p' ->
  match dir p, dir' p' with Some X, Some X' => length X = n /\ rearranged sg X X' | None, None => True | _, _ => False end.
Lemma re_len p p' : rearranged sg p p' -> length p' = n.
Proof. intros H. apply F2_len in H. rewrite pick_length, (perm_len _ _ PERM) in H. auto. Qed.
Lemma move_len' al p X : length p = n -> length X = n -> length (move Qplus Qmult al p X) = n.
Proof. intros H H'. rewrite move_len; congruence. Qed.
Lemma move_re al p p' X X' : length p = n -> length X = n -> rearranged sg p p' -> rearranged sg X X' ->
  rearranged sg (move Qplus Qmult al p X) (move Qplus Qmult al p' X').
Proof.
  intros Lp LX. unfold rearranged, pick. assert (RG := perm_range _ _ PERM). clear PERM LP DIR.
  assert (NM : forall k, (k < n)%nat -> nth k (move Qplus Qmult al p X) 0 = nth k p 0 + al * nth k X 0).
  { subst n. clear RG. revert X LX. induction p as [|a p IH]; intros [|b X] LX k K; cbn in *; try lia. destruct k; auto. apply IH; lia. }
  revert p' X'. induction sg as [|k s IH]; intros p' X' F G; cbn [map] in *; inversion F as [|? ? ? ? E F']; inversion G as [|? ? ? ? E' G']; subst; cbn.
  - constructor.
  - constructor; [rewrite NM by (apply RG; left; auto); rewrite E, E'; reflexivity|]. apply IH; auto. intros. apply RG; right; auto.
Qed.
Definition re_found (r r' : list Q * option Q * ext) : Prop :=
  length (fst (fst r)) = n /\ rearranged sg (fst (fst r)) (fst (fst r')) /\ snd (fst r) = snd (fst r') /\ eeq (snd r) (snd r').
Lemma set_re cur cur' v v' : length cur = n -> length cur' = n -> length v = n -> rearranged sg v v' ->
  set_vec cur v = Ok v /\ set_vec cur' v' = Ok v'.
Proof. intros A B C D. pose proof (re_len _ _ D). unfold set_vec. split; rewrite (proj2 (Nat.eqb_eq _ _)) by congruence; reflexivity. Qed.
Lemma try_loop_re p0 p0' X X' : length p0 = n -> length X = n -> rearranged sg p0 p0' -> rearranged sg X X' ->
  forall alphas cur cur' best b b', length cur = n -> rearranged sg cur cur' -> eeq b b' ->
  same_res re_found (try_loop Qplus Qmult lp p0 X alphas cur best b) (try_loop Qplus Qmult lp' p0' X' alphas cur' best b').
Proof.
  intros L0 LX R0 RX. induction alphas as [|al r IH]; intros cur cur' best b b' Lc Rc E; cbn [try_loop]; [repeat split; auto|].
  pose proof (move_len' al p0 X L0 LX) as LM. pose proof (move_re al p0 p0' X X' L0 LX R0 RX) as RM.
  destruct (set_re cur cur' _ _ Lc (re_len _ _ Rc) LM RM) as (-> & ->). cbn [bind]. pose proof (LP _ _ LM RM) as EL.
  rewrite <- (isfinite_eeq _ _ EL). destruct (isfinite (lp _)); cbn [negb]; [|repeat split; auto].
  rewrite <- (eltb_eeq _ _ (esub b (Fin 1)) (esub b' (Fin 1)) EL) by (apply esub_eeq; auto; apply eeq_refl).
  destruct (eltb (lp _) (esub b (Fin 1))); [repeat split; auto|].
  unfold egtb. rewrite <- (eltb_eeq b b' _ _ E EL). destruct (eltb b (lp _)); apply IH; auto.
Qed.
Definition re_step (r r' : list Q * ext) : Prop := length (fst r) = n /\ rearranged sg (fst r) (fst r') /\ eeq (snd r) (snd r').
Lemma optimize_re alphas p p' : length p = n -> rearranged sg p p' ->
  same_res re_step (optimize Qplus Qmult lp dir alphas p) (optimize Qplus Qmult lp' dir' alphas p').
Proof.
  intros L R. unfold optimize. pose proof (DIR p p' L R) as D. destruct (dir p) as [X|], (dir' p') as [X'|]; try contradiction; [|repeat split; auto; apply eeq_refl].
  destruct D as (LX & RX). pose proof (re_len _ _ RX) as LX'.
  destruct X as [|x X], X' as [|x' X']; try (exfalso; cbn [length] in LX, LX'; lia); [repeat split; auto; apply eeq_refl|].
  eapply same_bind with (R := fun r r' => length (fst (fst r)) = n /\ rearranged sg (fst (fst r)) (fst (fst r')) /\ eeq (snd (fst r)) (snd (fst r'))).
  - unfold try_updates. eapply same_bind; [apply (try_loop_re p p' (x :: X) (x' :: X') L LX R RX); auto|].
    intros ((cur, best), b) ((cur', best'), b') (Lc & Rc & Eb & E); cbn [fst snd] in *. subst best'. destruct best as [a|].
    + destruct (set_re cur cur' _ _ Lc (re_len _ _ Rc) (move_len' a p (x :: X) L LX) (move_re a p p' _ _ L LX R RX)) as (-> & ->). cbn [bind].
      repeat split; cbn [fst snd]; [apply (move_len' a p (x :: X)); auto|apply (move_re a p p'); auto|]. apply esub_eeq; auto.
    + destruct (set_re cur cur' p p' Lc (re_len _ _ Rc) L R) as (-> & ->). repeat split; auto; apply eeq_refl.
  - intros ((q, g), a) ((q', g'), a') H; cbn [fst snd] in *. exact H.
Qed.
Lemma loop_re alphas dchisq m : forall step p p', length p = n -> rearranged sg p p' ->
  same_res (fun r r' => length (fst (fst r)) = n /\ rearranged sg (fst (fst r)) (fst (fst r')) /\ snd (fst r) = snd (fst r') /\ Forall2 eeq (snd r) (snd r'))
    (opt_loop Qplus Qmult lp dir alphas dchisq m step p) (opt_loop Qplus Qmult lp' dir' alphas dchisq m step p').
Proof.
  induction m as [|m IH]; intros step p p' L R; cbn [opt_loop]; [repeat split; cbn; auto|].
  eapply same_bind; [apply optimize_re; eauto|]. intros (q, g) (q', g') (Lq & Rq & G); cbn [fst snd] in *.
  rewrite <- (eleb_eeq g g' dchisq dchisq) by (auto; apply eeq_refl). destruct (eleb g dchisq); [repeat split; simpl; auto|].
  destruct m; [repeat split; simpl; auto|]. eapply same_bind; [apply IH; eauto|]. intros ((a, b), l) ((a', b'), l') (La & Ra & E & F); cbn [fst snd] in *.
  subst b'. repeat split; cbn [fst snd]; auto.
Qed.
(** Two fits whose log-probabilities agree and whose updates are rearranged alike
    take the same steps and end at the same parameters, rearranged. *)
Theorem C120_fit : forall alphas dchisq steps p p', length p = n -> rearranged sg p p' ->
  same_res (fun r r' => rearranged sg (fst (fst r)) (fst (fst r')) /\ snd (fst r) = snd (fst r') /\ Forall2 eeq (snd r) (snd r'))
    (optimize_loop Qplus Qmult lp dir alphas dchisq steps p) (optimize_loop Qplus Qmult lp' dir' alphas dchisq steps p').
Proof.
  intros alphas dchisq steps p p' L R. unfold optimize_loop. destruct steps; [reflexivity|].
  pose proof (loop_re alphas dchisq (S steps) 0 p p' L R) as H. revert H.
  destruct (opt_loop Qplus Qmult lp dir alphas dchisq (S steps) 0 p), (opt_loop Qplus Qmult lp' dir' alphas dchisq (S steps) 0 p'); cbn; tauto.
Qed.
End Fit.

(** ** A case: two sources, the first with a prior, listed in the other order;
    two images, listed in the other order. *)
Section Case.
Let nn := mkNames [] [].
Let src (vs : list Q) (ps : list (prior Q)) : tree :=
  PList (mkPlist nn vs (map (fun _ => true) vs) (map (fun _ => None) vs) (map (fun _ => None) vs) (map (fun _ => None) vs) None ps).
Let s1 := src [10] [mkPrior "flux" 0 11 2].
Let s2 := src [20; 30] [].
Let t := PMulti nn [PFixed; PMulti nn [s1; s2] [true; true]] [true; true].
Let u := PMulti nn [PFixed; PMulti nn [s2; s1] [true; true]] [true; true].
Let row (a b : Q) : arr Q := mkArr 1 2 (fun _ x => if (x =? 0)%Z then a else b).
Let one (a : Q) : arr Q := mkArr 1 1 (fun _ _ => a).
Let A := mkImage 0 1 2 (row 1 1) (row 4 5).
Let B := mkImage 1 1 1 (one 1) (one 6).
Let pt (a : arr Q) : patch Q := mkPatch 0 0 (Some a).
Let ds : derivs := [[(pt (row 1 0), A)]; [(pt (row 0 1), A)]; [(pt (row 1 1), A); (pt (one 2), B)]].
Let ds' : derivs := [[(pt (row 0 1), A)]; [(pt (one 2), B); (pt (row 1 1), A)]; [(pt (row 1 0), A)]].
Example case_reordered : reordered t u [1; 2; 0]%nat.
Proof.
  exact (re_child nn nn [PFixed] _ _ [] [true] true [] _ eq_refl (re_swap nn nn [] s1 s2 [] [] true true [] eq_refl)).
Qed.
Lemma objective_nonneg s d : 0 <= objective s d.
Proof. unfold objective. generalize (seq 0 (Z.to_nat (ls_nrows s))). intros l. apply qsum_nonneg, Forall_map, Forall_forall. intros k _. apply sq_nonneg. Qed.
Example case_meets : wf t /\ priors_ok t /\ number_of_params t = length ds /\ derivs_ok ds /\ Forall2 (@Permutation _) (pick [] [1; 2; 0]%nat ds) ds'.
Proof.
  split; [cbn; unfold wf_plist; cbn; repeat split; auto; try discriminate|].
  split; [cbn; repeat split; auto; constructor; [cbn; split; [lia|intros H; discriminate]|constructor]|]. split; [reflexivity|]. split.
  - split.
    + intros p i H. cbn in H. decompose [or] H; try contradiction;
        match goal with E : (_, _) = (_, _) |- _ => injection E as <- <- end; vm_compute; repeat split; auto; discriminate.
    + intros p i q j H H'. cbn in H, H'.
      assert (T : forall x y, In (x, y) (concat ds) -> y = A \/ y = B).
      { clear. intros x y H. cbn in H. decompose [or] H; try contradiction; match goal with E : (_, _) = (_, _) |- _ => injection E as <- <- end; auto. }
      destruct (T _ _ H) as [-> | ->], (T _ _ H') as [-> | ->]; cbn; congruence.
  - cbn. repeat constructor.
Qed.
Example case_solves : exists ox ou s v, prior_derivs t = Ok ox /\ prior_derivs u = Ok ou /\
  assemble (fun q => q) false None ds ox = Ok (Some s) /\ assemble (fun q => q) false None ds' ou = Ok (Some v) /\
  solves s [1; 2; 3] /\ solves v [2; 3; 1] /\ pick 0 [1; 2; 0]%nat [1; 2; 3] = [2; 3; 1] /\ ~ solves v [1; 2; 3].
Proof.
  assert (Z0 : forall s d, length d = ls_ncols s -> objective s d == 0 -> solves s d).
  { intros s d L E. split; auto. intros d' _. rewrite E. apply objective_nonneg. }
  do 4 eexists. do 4 (split; [vm_compute; reflexivity|]). split; [apply Z0; vm_compute; reflexivity|].
  split; [apply Z0; vm_compute; reflexivity|]. split; [reflexivity|].
  intros (_ & H). specialize (H [2; 3; 1] eq_refl). vm_compute in H. auto.
Qed.
(** For the fit: two parameters exchanged, from (0, 0) to (1, 2). *)
Let lp (p : list Q) : ext := Fin (- qsq (nth 0 p 0 - 1) - qsq (nth 1 p 0 - 2)).
Let lp' (p : list Q) : ext := Fin (- qsq (nth 1 p 0 - 1) - qsq (nth 0 p 0 - 2)).
Let dir (p : list Q) : option (list Q) := Some [1 - nth 0 p 0; 2 - nth 1 p 0].
Let dir' (p : list Q) : option (list Q) := Some [2 - nth 0 p 0; 1 - nth 1 p 0].
Example case_fit : (forall p p', length p = 2%nat -> rearranged [1; 0]%nat p p' -> eeq (lp p) (lp' p')) /\
  (forall p p', length p = 2%nat -> rearranged [1; 0]%nat p p' ->
    match dir p, dir' p' with Some X, Some X' => length X = 2%nat /\ rearranged [1; 0]%nat X X' | None, None => True | _, _ => False end) /\
  match optimize_loop Qplus Qmult lp dir [1] (Fin (1 # 100)) 5 [0; 0], optimize_loop Qplus Qmult lp' dir' [1] (Fin (1 # 100)) 5 [0; 0] with
  | Ok (p, n, _), Ok (p', n', _) => map Qred p = [1; 2] /\ map Qred p' = [2; 1] /\ n = n'
  | _, _ => False
  end.
Proof.
  assert (I : forall p p', rearranged [1; 0]%nat p p' -> exists a b, p' = [a; b] /\ nth 1 p 0 == a /\ nth 0 p 0 == b).
  { intros p p' H. inversion H as [|? a ? ? E H']; subst. inversion H' as [|? b ? ? E' H'']; subst. inversion H''; subst. eauto. }
  split; [|split].
  - intros p p' _ H. destruct (I _ _ H) as (a & b & -> & E & E'). cbn. rewrite E, E'. reflexivity.
  - intros p p' _ H. destruct (I _ _ H) as (a & b & -> & E & E'). split; [reflexivity|]. unfold rearranged. cbn. constructor; [|constructor; [|constructor]]; cbn.
    + rewrite E. reflexivity.
    + rewrite E'. reflexivity.
  - vm_compute. auto.
Qed.
End Case.

Print Assumptions C120_params.
Print Assumptions C120_step.
Print Assumptions C120_update.
Print Assumptions C120_likelihood.
Print Assumptions C120_fit.
