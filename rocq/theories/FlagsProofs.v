(** Proofs about freezing and thawing. *)
From Coq Require Import String List ZArith Bool Lia.
From Verif Require Import Base ParamsModel ParamsSpec ParamsProofs FlagsModel.
Import ListNotations.

(** ** Specification of one-object histories *)

(** The position a key stands for in an object with [n] entries. *)
Definition denotes (nm : names) (n : nat) (k : key) : option nat :=
  match k with
  | KInt i => py_index n i
  | KName s => match named_param_index nm s with
               | Some j => if j <? n then Some j else None
               | None => None
               end
  end.

(** Keys before the first invalid one: the call raises there. *)
Fixpoint valid_prefix (nm : names) (n : nat) (ks : list key) : list nat :=
  match ks with
  | [] => []
  | k :: r => match denotes nm n k with Some j => j :: valid_prefix nm n r | None => [] end
  end.

Definition memb (j : nat) (l : list nat) : bool := existsb (Nat.eqb j) l.

(** What an operation does to entry [j]: nothing, or set it. *)
Definition touches (nm : names) (n : nat) (op : fop) (j : nat) : option bool :=
  match op with
  | FreezeParams ks => if memb j (valid_prefix nm n ks) then Some false else None
  | ThawParams ks => if memb j (valid_prefix nm n ks) then Some true else None
  | FreezeAllBut ks => Some (memb j (valid_prefix nm n ks))
  | FreezeAll => Some false
  | ThawAll => Some true
  end.

(** The last operation that touches [j] decides. *)
Fixpoint last_touch (nm : names) (n : nat) (ops : list fop) (j : nat) (init : bool) : bool :=
  match ops with
  | [] => init
  | op :: r => last_touch nm n r j (match touches nm n op j with Some b => b | None => init end)
  end.

Lemma set_flag_denotes nm b k liq :
  set_flag nm b k liq =
  match denotes nm (length liq) k with
  | Some j => (upd j b liq, None)
  | None => (liq, snd (set_flag nm b k liq))
  end /\
  (denotes nm (length liq) k = None <-> snd (set_flag nm b k liq) <> None).
Proof.
  destruct k; simpl.
  - destruct (py_index (length liq) i); simpl; split; auto; split; congruence.
  - destruct (named_param_index nm n); simpl; [|split; auto; split; congruence].
    destruct (n0 <? length liq); simpl; split; auto; split; congruence.
Qed.

Lemma denotes_lt nm n k j : denotes nm n k = Some j -> j < n.
Proof. destruct k; simpl.
  - unfold py_index. destruct (Z.leb_spec 0 i).
    + destruct (Z.ltb_spec i (Z.of_nat n)); intros; try discriminate. injection H1; intros; lia.
    + destruct (Z.leb_spec 0 (i + Z.of_nat n)); intros; try discriminate. injection H1; intros; lia.
  - destruct (named_param_index nm n0); try discriminate.
    destruct (Nat.ltb_spec n1 n); try discriminate. congruence.
Qed.

Lemma set_flags_spec nm b ks : forall liq,
  length (fst (set_flags nm b ks liq)) = length liq /\
  forall j, nth_error (fst (set_flags nm b ks liq)) j =
    if memb j (valid_prefix nm (length liq) ks)
    then Some b else nth_error liq j.
Proof.
  induction ks as [|k r IH]; intros liq; simpl; auto.
  destruct (set_flag_denotes nm b k liq) as (E & _). rewrite E.
  destruct (denotes nm (length liq) k) as [i|] eqn:D.
  - specialize (IH (upd i b liq)). rewrite upd_length in IH. destruct IH as (L & IH).
    split; auto. intros j. rewrite IH. simpl.
    destruct (memb j (valid_prefix nm (length liq) r)); [rewrite orb_true_r; auto|].
    rewrite orb_false_r. apply denotes_lt in D.
    destruct (Nat.eqb_spec j i).
    + subst. rewrite nth_error_upd_same; auto.
    + apply nth_error_upd_other; auto.
  - destruct (snd (set_flag nm b k liq)) eqn:S; simpl; auto.
    destruct (set_flag_denotes nm b k liq) as (_ & F). rewrite S in F.
    apply F in D. congruence.
Qed.

Lemma all_flags_nth b liq j :
  nth_error (all_flags b liq) j = match nth_error liq j with Some _ => Some b | None => None end.
Proof. unfold all_flags. revert j; induction liq; destruct j; simpl; auto. Qed.

Lemma fstep_spec nm liq op :
  length (fst (fstep nm liq op)) = length liq /\
  forall j f, nth_error liq j = Some f ->
    nth_error (fst (fstep nm liq op)) j =
      Some (match touches nm (length liq) op j with Some b => b | None => f end).
Proof.
  destruct op; simpl.
  - destruct (set_flags_spec nm false ks liq) as (L & N). split; auto. intros. rewrite N.
    destruct (memb _ _); auto.
  - destruct (set_flags_spec nm true ks liq) as (L & N). split; auto. intros. rewrite N.
    destruct (memb _ _); auto.
  - destruct (set_flags_spec nm true ks (all_flags false liq)) as (L & N).
    assert (length (all_flags false liq) = length liq) as HL by (apply map_length).
    rewrite HL in *. split; auto. intros. rewrite N, all_flags_nth, H.
    destruct (memb _ _); auto.
  - split; [apply map_length|]. intros. rewrite all_flags_nth, H; auto.
  - split; [apply map_length|]. intros. rewrite all_flags_nth, H; auto.
Qed.

Lemma frun_spec nm ops : forall liq,
  length (frun nm liq ops) = length liq /\
  forall j f, nth_error liq j = Some f ->
    nth_error (frun nm liq ops) j = Some (last_touch nm (length liq) ops j f).
Proof.
  unfold frun. induction ops as [|op r IH]; intros liq; simpl; auto.
  destruct (fstep_spec nm liq op) as (L & N).
  destruct (IH (fst (fstep nm liq op))) as (L' & N'). split; [congruence|].
  intros j f H. apply N in H. rewrite L in N'. rewrite (N' _ _ H). auto.
Qed.

Lemma indices_where_in b liq : forall i j,
  In j (indices_where b i liq) <-> i <= j /\ nth_error liq (j - i) = Some b.
Proof.
  induction liq as [|x r IH]; intros i j; simpl.
  - split; [tauto|]. intros (_ & H). destruct (j - i); discriminate.
  - assert (R : In j (indices_where b (S i) r) <-> S i <= j /\ nth_error (x :: r) (j - i) = Some b).
    { rewrite IH. split; intros (A & B).
      - split; auto. replace (j - i) with (S (j - S i)) by lia. auto.
      - split; auto. replace (j - i) with (S (j - S i)) in B by lia. auto. }
    destruct (Bool.eqb x b) eqn:E; simpl.
    + apply Bool.eqb_prop in E. subst. rewrite R. split.
      * intros [->|(A & B)]; split; auto; try lia. rewrite Nat.sub_diag; auto.
      * intros (A & B). destruct (Nat.eq_dec i j); auto. right; split; auto; lia.
    + rewrite R. split; intros (A & B); split; auto; try lia.
      destruct (Nat.eq_dec i j); [|lia]. subst. rewrite Nat.sub_diag in B. simpl in B.
      injection B; intros; subst. rewrite Bool.eqb_reflx in E; discriminate.
Qed.

(** ** List edits *)
Section GroupSpec.
Context {I : Type} (eqb : I -> I -> bool).

(** Plain list of (member, flag) pairs. *)
Fixpoint remove_first (x : I) (l : list (I * bool)) : list (I * bool) :=
  match l with
  | [] => []
  | (y, f) :: r => if eqb y x then r else (y, f) :: remove_first x r
  end.
Definition spec_step (nm : names) (l : list (I * bool)) (op : gop) : list (I * bool) :=
  match op with
  | GAppend x => l ++ [(x, true)]
  | GPrepend x => (x, true) :: l
  | GExtend xs => l ++ map (fun x => (x, true)) xs
  | GRemove x => remove_first x l
  | GFlag b k => match denotes nm (length l) k with
                 | Some j => match nth_error l j with
                             | Some (x, _) => upd j (x, b) l
                             | None => l
                             end
                 | None => l
                 end
  | GFlagAll b => map (fun e => (fst e, b)) l
  end.

Definition pairs (g : @group I) : list (I * bool) := combine (g_subs g) (g_liquid g).

Lemma combine_app {A B} (a c : list A) (b d : list B) :
  length a = length b -> combine (a ++ c) (b ++ d) = combine a b ++ combine c d.
Proof. revert b; induction a; destruct b; simpl; intros; try lia; auto. rewrite IHa; auto. Qed.

Lemma combine_len {A B} (a : list A) (b : list B) : length a = length b -> length (combine a b) = length a.
Proof. intros; rewrite combine_length; lia. Qed.

Lemma remove_pairs x : forall subs liq, length subs = length liq ->
  match find_index eqb x subs with
  | None => remove_first x (combine subs liq) = combine subs liq
  | Some i => i < length subs /\
      combine (firstn i subs ++ skipn (i + 1) subs) (firstn i liq ++ skipn (i + 1) liq)
      = remove_first x (combine subs liq)
  end.
Proof.
  induction subs as [|y r IH]; destruct liq as [|f ls]; simpl; intros; try lia; auto.
  destruct (eqb y x) eqn:E; simpl; [split; auto; lia|].
  specialize (IH ls ltac:(lia)). destruct (find_index eqb x r); simpl.
  - destruct IH as (A & B). split; [lia|]. rewrite B; auto.
  - rewrite IH; auto.
Qed.

Lemma gstep_spec nm g op : length (g_liquid g) = length (g_subs g) ->
  let g' := fst (gstep eqb nm g op) in
  length (g_liquid g') = length (g_subs g') /\ pairs g' = spec_step nm (pairs g) op.
Proof.
  intros L. unfold pairs. destruct op; simpl.
  - rewrite !app_length, combine_app by auto. simpl; split; auto.
  - split; auto.
  - rewrite !app_length, map_length, combine_app by auto. split; auto.
    f_equal. induction xs; simpl; congruence.
  - pose proof (remove_pairs x (g_subs g) (g_liquid g) ltac:(auto)) as R.
    destruct (find_index eqb x (g_subs g)); simpl; auto.
    destruct R as (A & B). split; auto.
    rewrite !app_length, !firstn_length, !skipn_length. lia.
  - rewrite combine_len, <- L by auto. destruct (set_flag_denotes nm b k (g_liquid g)) as (E & _).
    rewrite E. destruct (denotes nm (length (g_liquid g)) k) as [j|] eqn:D; simpl; auto.
    rewrite upd_length. split; auto. apply denotes_lt in D.
    clear E. revert j D. revert L. generalize (g_liquid g) as ls. generalize (g_subs g) as ss. clear g.
    induction ss as [|s ss IH]; destruct ls as [|f ls]; simpl; intros L j D; try lia.
    destruct j; simpl; auto. specialize (IH ls ltac:(lia) j ltac:(lia)).
    destruct (nth_error (combine ss ls) j) as [[y h]|]; rewrite IH; auto.
  - unfold all_flags. rewrite map_length. split; auto.
    revert L. generalize (g_liquid g) as ls. generalize (g_subs g) as ss. clear g.
    induction ss as [|s ss IH]; destruct ls as [|f ls]; simpl; intros L; try lia; auto.
    rewrite IH; auto.
Qed.

Lemma grun_spec nm ops : forall g, length (g_liquid g) = length (g_subs g) ->
  length (g_liquid (grun eqb nm g ops)) = length (g_subs (grun eqb nm g ops)) /\
  pairs (grun eqb nm g ops) = fold_left (spec_step nm) ops (pairs g).
Proof.
  unfold grun. induction ops as [|op r IH]; intros g L; simpl; auto.
  destruct (gstep_spec nm g op L) as (L' & P). rewrite <- P. apply IH; auto.
Qed.
End GroupSpec.

(** ** Recursive freezing *)
Section Rec.
Context {V : Type}.
Notation ptree := (ptree V).

(** Everything but the flags. *)
Fixpoint reflag (b0 : bool) (t : ptree) : ptree :=
  match t with
  | PList l => PList (mkPlist (l_names l) (l_vals l) (map (fun _ => b0) (l_liquid l))
                        (l_lowers l) (l_uppers l) (l_maxstep l) (l_steps l) (l_priors l))
  | PMulti nm subs liq => PMulti nm (map (reflag b0) subs) (map (fun _ => b0) liq)
  | t => t
  end.

Definition container (t : ptree) : Prop :=
  match t with PList _ | PMulti _ _ _ => True | _ => False end.

Lemma map_const_len {A} (b0 : bool) (a b : list A) : length a = length b ->
  map (fun _ => b0) a = map (fun _ => b0) b.
Proof. revert b; induction a; destruct b; simpl; intros; try lia; auto. f_equal; auto. Qed.

Lemma flag_known_spec nm b ns : forall liq,
  (forall s i, named_param_index nm s = Some i -> i < length liq) ->
  exists liq', flag_known nm b ns liq = Ok liq' /\ length liq' = length liq /\
    forall i f, nth_error liq i = Some f ->
      ((exists n, In n ns /\ named_param_index nm n = Some i) -> nth_error liq' i = Some b) /\
      (~ (exists n, In n ns /\ named_param_index nm n = Some i) -> nth_error liq' i = Some f).
Proof.
  induction ns as [|n r IH]; intros liq HN; simpl.
  - exists liq; repeat split; auto. intros (n & [] & _).
  - destruct (named_param_index nm n) as [k|] eqn:E.
    + pose proof (HN _ _ E) as Hk.
      replace (k <? length liq) with true by (symmetry; apply Nat.ltb_lt; auto).
      destruct (IH (upd k b liq)) as (liq' & EQ & L & S).
      { intros; rewrite upd_length; eauto. }
      rewrite upd_length in L. exists liq'; repeat split; auto.
      * intros (m & [->|Hm] & HE).
        -- rewrite E in HE. injection HE; intros; subst.
           destruct (S i b) as (S1 & S2); [apply nth_error_upd_same; auto|].
           destruct (in_dec Nat.eq_dec i (map (fun m => match named_param_index nm m with Some x => x | None => Datatypes.S i end) r)) as [D|D].
           ++ apply S1. apply in_map_iff in D. destruct D as (q & D1 & D2).
              exists q; split; auto. destruct (named_param_index nm q); try congruence. lia.
           ++ apply S2. intros (q & Q1 & Q2). apply D. apply in_map_iff. exists q. rewrite Q2; auto.
        -- assert (exists g, nth_error (upd k b liq) i = Some g) as (g & G).
           { destruct (nth_error (upd k b liq) i) eqn:X; eauto.
             apply nth_error_None in X. rewrite upd_length in X.
             assert (i < length liq) by (apply nth_error_Some; congruence). lia. }
           destruct (S i g G) as (S1 & _). apply S1; eauto.
      * intros NO.
        assert (k <> i) by (intros ->; apply NO; exists n; simpl; auto).
        destruct (S i f) as (_ & S2).
        { rewrite nth_error_upd_other; auto. }
        apply S2. intros (m & M1 & M2). apply NO; exists m; simpl; auto.
    + destruct (IH liq HN) as (liq' & EQ & L & S). exists liq'; repeat split; auto.
      * intros (m & [->|Hm] & HE); [congruence|]. destruct (S i f H) as (S1 & _). apply S1; eauto.
      * intros NO. destruct (S i f H) as (_ & S2). apply S2.
        intros (m & M1 & M2). apply NO; exists m; simpl; auto.
Qed.

Lemma mem_str_In n ns : mem_str n ns = true <-> In n ns.
Proof. unfold mem_str. rewrite existsb_exists. split.
  - intros (x & A & B). apply String.eqb_eq in B. subst; auto.
  - intros; exists n; split; auto. apply String.eqb_refl. Qed.

Lemma mem_str_nIn n ns : mem_str n ns = false <-> ~ In n ns.
Proof. rewrite <- mem_str_In. destruct (mem_str n ns); split; congruence. Qed.

Definition flag_post (b : bool) (ns : list string) (t t' : ptree) : Prop :=
  forall path f, flag_at t path = Some f ->
    ((In star ns \/ requested ns t path) -> flag_at t' path = Some b) /\
    (~ (In star ns \/ requested ns t path) -> flag_at t' path = Some f).

Lemma nth_map_const {A} (b : bool) (l : list A) i x :
  nth_error l i = Some x -> nth_error (map (fun _ => b) l) i = Some b.
Proof. revert i; induction l; destruct i; simpl; intros; try discriminate; auto. Qed.

Lemma flag_rec_spec b b0 ns (t : ptree) :
  wf t -> names_ok t -> container t ->
  exists t', flag_rec b ns t = Ok t' /\ flag_post b ns t t' /\
    reflag b0 t' = reflag b0 t /\ container t' /\ wf t' /\ names_ok t'.
Proof.
  induction t using ptree_ind'; simpl; intros W N C; try tauto.
  - destruct W as (W1 & W2 & W3 & W4 & W5). destruct N as (N1 & N2).
    destruct (flag_known_spec (l_names l) b ns (l_liquid l) N1) as (liq' & E & L & S).
    unfold plist_flag_rec. rewrite E; simpl.
    set (lq := if mem_str star ns then map (fun _ => b) liq' else liq').
    assert (HLq : length lq = length (l_liquid l)).
    { unfold lq. destruct (mem_str star ns); rewrite ?map_length; auto. }
    eexists; split; [reflexivity|]. simpl. unfold wf_plist, wf_names; simpl. rewrite HLq.
    repeat split; auto.
    + (* requested *)
      destruct path as [|i [|? ?]]; simpl in *; try discriminate.
      destruct (S i f H) as (S1 & S2). unfold lq.
      intros [HS|HR].
      * apply mem_str_In in HS. rewrite HS.
        assert (exists y, nth_error liq' i = Some y) as (y & Y).
        { destruct (nth_error liq' i) eqn:X; eauto. apply nth_error_None in X.
          assert (i < length (l_liquid l)) by (apply nth_error_Some; congruence). lia. }
        eapply nth_map_const; eauto.
      * specialize (S1 HR). destruct (mem_str star ns); auto. eapply nth_map_const; eauto.
    + destruct path as [|i [|? ?]]; simpl in *; try discriminate.
      destruct (S i f H) as (S1 & S2). unfold lq. intros NO.
      destruct (mem_str star ns) eqn:HS; [apply mem_str_In in HS; tauto|].
      apply S2; tauto.
    + do 2 f_equal. apply map_const_len; auto.
  - rewrite !fold_and_Forall in *. destruct W as (HL & W), N as (N0 & N).
    assert (G : forall (pre : list ptree) (preliq : list bool), length pre = length preliq -> forall liq, length liq = length subs ->
      wf_names nm (length pre + length subs) ->
      exists subs' liq',
        flag_rec_walk nm ns b (flag_rec b ns) (length pre) subs (preliq ++ liq) = Ok (subs', preliq ++ liq') /\
        length liq' = length liq /\ length subs' = length subs /\
        (forall i f, nth_error liq i = Some f ->
           ((exists n, In n ns /\ named_param_name nm (length pre + i) = Some n) -> nth_error liq' i = Some b) /\
           (~ (exists n, In n ns /\ named_param_name nm (length pre + i) = Some n) -> nth_error liq' i = Some f)) /\
        (forall i s, nth_error subs i = Some s -> exists s', nth_error subs' i = Some s' /\ flag_post b ns s s') /\
        map (reflag b0) subs' = map (reflag b0) subs /\ Forall wf subs' /\ Forall names_ok subs').
    { clear liq HL N0. intros pre preliq HP.
      revert pre preliq HP. induction H as [|s ss Hs Hss IH]; intros pre preliq HP liq HL WN; destruct liq as [|lf ls]; simpl in *; try lia.
      - exists [], []. rewrite app_nil_r. split; auto. split; auto. split; auto.
        split; [intros [|i]; discriminate|]. split; [intros [|i]; discriminate|]. auto.
      - inversion W as [|? ? Wx Wxs]; inversion N as [|? ? Nx Nxs]; subst.
        assert (exists s', (match s with PList _ | PMulti _ _ _ => flag_rec b ns s | _ => Ok s end) = Ok s' /\
                  flag_post b ns s s' /\ reflag b0 s' = reflag b0 s /\ wf s' /\ names_ok s')
          as (s' & -> & P1 & P2 & P3 & P4).
        { destruct s; simpl in *;
            try (eexists; split; [reflexivity|]; split; [intros [|? [|]] ff EE; discriminate|]; auto).
          - destruct (Hs Wx Nx I) as (s' & E & A & B & _ & C1 & C2). exists s'; auto.
          - destruct (Hs Wx Nx I) as (s' & E & A & B & _ & C1 & C2). exists s'; auto. }
        simpl.
        set (hit := match named_param_name nm (length pre) with Some n => mem_str n ns | None => false end).
        assert (EL : (match named_param_name nm (length pre) with
                 | Some n => if mem_str n ns then flag_name nm n b (preliq ++ lf :: ls) else Ok (preliq ++ lf :: ls)
                 | None => Ok (preliq ++ lf :: ls) end)
                = Ok (preliq ++ (if hit then b else lf) :: ls)).
        { unfold hit. destruct (named_param_name nm (length pre)) as [n|] eqn:EN; auto.
          destruct (mem_str n ns); auto. unfold flag_name.
          destruct WN as (_ & WN2). rewrite (WN2 n (length pre)) by (auto; lia).
          replace (length pre <? length (preliq ++ lf :: ls)) with true
            by (symmetry; apply Nat.ltb_lt; rewrite app_length; simpl; lia).
          f_equal. rewrite HP. clear. induction preliq; simpl; congruence. }
        rewrite EL; simpl.
        destruct (IH Wxs Nxs (pre ++ [s]) (preliq ++ [if hit then b else lf])) with (liq := ls)
          as (subs' & liq' & E & L1 & L2 & F1 & F2 & F3 & F4 & F5).
        { rewrite !app_length; simpl; lia. }
        { lia. }
        { rewrite app_length; simpl. replace (length pre + 1 + length ss) with (length pre + S (length ss)) by lia. auto. }
        rewrite app_length in E, F1. simpl in E, F1. rewrite Nat.add_1_r in E.
        rewrite <- !app_assoc in E. simpl in E. rewrite E; simpl.
        exists (s' :: subs'), ((if hit then b else lf) :: liq'). rewrite <- ?app_assoc. simpl.
        split; auto. split; [lia|]. split; [lia|]. split; [|split; [|split; [congruence|auto]]].
        + intros [|i] f Hf; simpl in *.
          * injection Hf; intros; subst. rewrite Nat.add_0_r. unfold hit. split.
            -- intros (n & I1 & I2). rewrite I2. apply mem_str_In in I1. rewrite I1. auto.
            -- intros NO. destruct (named_param_name nm (length pre)) as [n|] eqn:EN; auto.
               destruct (mem_str n ns) eqn:EM; auto. apply mem_str_In in EM. exfalso; eauto.
          * replace (length pre + S i) with (length pre + 1 + i) by lia. apply F1; auto.
        + intros [|i] x Hx; simpl in *; [injection Hx; intros; subst; eauto|]. apply F2; auto. }
    destruct (G [] [] eq_refl liq HL N0) as (subs' & liq' & E & L1 & L2 & F1 & F2 & F3 & F4 & F5).
    simpl in E. rewrite E; simpl. eexists; split; [reflexivity|]. simpl.
    set (lq := if mem_str star ns then map (fun _ => b) liq' else liq').
    assert (HLq : length lq = length liq).
    { unfold lq. destruct (mem_str star ns); rewrite ?map_length; auto. }
    rewrite !fold_and_Forall. split; [|repeat split; auto; try congruence].
    + intros path f HF. destruct path as [|i rest]; simpl in *; try discriminate.
      destruct rest as [|j rest].
      * destruct (F1 i f HF) as (S1 & S2).
        assert (Hi : i < length liq) by (apply nth_error_Some; congruence).
        unfold lq. split.
        -- intros [HS|HR].
           ++ apply mem_str_In in HS. rewrite HS.
              assert (exists y, nth_error liq' i = Some y) as (y & Y).
              { destruct (nth_error liq' i) eqn:X; eauto. apply nth_error_None in X. lia. }
              eapply nth_map_const; eauto.
           ++ destruct HR as (_ & HR). specialize (S1 HR). destruct (mem_str star ns); auto.
              eapply nth_map_const; eauto.
        -- intros NO. destruct (mem_str star ns) eqn:HS; [apply mem_str_In in HS; tauto|].
           apply S2. intros HR. apply NO. right. split; auto. lia.
      * destruct (nth_error subs i) as [s|] eqn:ES; [|discriminate].
        destruct (F2 i s ES) as (s' & -> & P). apply P; auto.
    + f_equal; auto. apply map_const_len. auto.
    + replace (length subs') with (length subs) by lia. apply N0.
    + replace (length subs') with (length subs) by lia. apply N0.
Qed.

(** Whole-vector consequences of freezing and thawing '*'. *)
Lemma active_map_frozen {A} (g : ptree -> A) subs liq :
  Forall (fun b => b = false) liq -> active_map g subs liq = [].
Proof. intros H; revert subs; induction H as [|b m Hb Hm IH]; intros [|s ss]; simpl; auto.
  rewrite Hb; simpl; auto. Qed.

Lemma keep_false {A} liq (l : list A) : Forall (fun b => b = false) liq -> keep liq l = [].
Proof. intros H; revert l; induction H as [|b m Hb Hm IH]; intros [|s ss]; simpl; auto;
  rewrite Hb; auto. Qed.

Lemma Forall_nth_flags (b : bool) liq :
  (forall i f, nth_error liq i = Some f -> f = b) -> Forall (fun x => x = b) liq.
Proof. intros H. apply Forall_forall. intros x Hx. apply In_nth_error in Hx.
  destruct Hx as (n & Hn). eauto. Qed.

Lemma all_frozen_empty (t : ptree) : container t ->
  (forall path f, flag_at t path = Some f -> f = false) -> get_params t = [].
Proof.
  destruct t; simpl; intros C H; try tauto.
  - apply keep_false. apply Forall_nth_flags. intros i f Hf. apply (H [i] f); auto.
  - rewrite active_map_frozen; auto. apply Forall_nth_flags. intros i f Hf. apply (H [i] f); auto.
Qed.

Lemma all_thawed_all (t : ptree) : wf t ->
  (forall path f, flag_at t path = Some f -> f = true) -> get_params t = get_all_params t.
Proof.
  induction t using ptree_ind'; simpl; intros W HF; auto.
  - destruct W as (W1 & _).
    assert (Forall (fun x => x = true) (l_liquid l)) as FT.
    { apply Forall_nth_flags. intros i f Hf. apply (HF [i] f); auto. }
    revert W1 FT. generalize (l_vals l). generalize (l_liquid l).
    induction l0 as [|b m IH]; intros [|v vs] W1 FT; simpl in *; try lia; auto.
    inversion FT; subst. f_equal. apply IH; auto.
  - rewrite fold_and_Forall in W. destruct W as (HL & W).
    assert (Forall (fun x => x = true) liq) as FT.
    { apply Forall_nth_flags. intros i f Hf. apply (HF [i] f); auto. }
    assert (HS : forall i s, nth_error subs i = Some s ->
              forall path f, path <> [] -> flag_at s path = Some f -> f = true).
    { intros i s Hs path f HP Hf. apply (HF (i :: path) f). destruct path; [congruence|].
      simpl. rewrite Hs. auto. }
    clear HF. revert liq HL FT. induction H as [|s ss Hs Hss IH]; intros; destruct liq as [|b ls]; simpl in *; try lia; auto.
    inversion W as [|? ? Wx Wxs]; inversion FT as [|? ? Fx Fxs]; subst. simpl.
    destruct (is_none s) eqn:EN; simpl.
    + apply IH; auto. intros i x Hx. apply (HS (S i) x Hx).
    + f_equal.
      * apply Hs; auto. intros path f Hf. destruct path as [|a q].
        -- destruct s; simpl in Hf; discriminate.
        -- apply (HS 0 s eq_refl (a :: q) f); auto; discriminate.
      * apply IH; auto. intros i x Hx. apply (HS (S i) x Hx).
Qed.

(** ** thawPathsTo *)
Lemma plist_thaw_spec nm ns : forall liq th,
  (forall s i, named_param_index nm s = Some i -> i < length liq) ->
  exists liq' th', plist_thaw_paths nm ns liq th = Ok (liq', th') /\ length liq' = length liq /\
    (forall i f, nth_error liq i = Some f ->
      (nth_error liq' i = Some true <->
         f = true \/ exists n, In n ns /\ named_param_index nm n = Some i)) /\
    (th' = true <-> th = true \/ exists n i, In n ns /\ named_param_index nm n = Some i).
Proof.
  induction ns as [|n r IH]; intros liq th HN; simpl.
  - exists liq, th. split; auto. split; auto. split.
    + intros i f Hf. rewrite Hf. split; [intros E; injection E; auto|].
      intros [->|(n & [] & _)]; auto.
    + split; auto. intros [?|(n & i & [] & _)]; auto.
  - destruct (named_param_index nm n) as [k|] eqn:E.
    + pose proof (HN _ _ E) as Hk.
      replace (k <? length liq) with true by (symmetry; apply Nat.ltb_lt; auto).
      destruct (IH (upd k true liq) true) as (liq' & th' & EQ & L & S & T).
      { intros; rewrite upd_length; eauto. }
      rewrite upd_length in L. exists liq', th'. split; auto. split; auto. split.
      * intros i f Hf. destruct (Nat.eq_dec k i).
        -- subst. rewrite (S i true) by (apply nth_error_upd_same; auto).
           split; auto. intros _. right. exists n; auto.
        -- rewrite (S i f) by (rewrite nth_error_upd_other; auto).
           split; intros [?|(m & M1 & M2)]; auto; right.
           ++ exists m; auto.
           ++ destruct M1 as [->|M1]; [congruence|]. exists m; auto.
      * rewrite T. split; auto. intros _. right. exists n, k; auto.
    + destruct (IH liq th HN) as (liq' & th' & EQ & L & S & T). exists liq', th'.
      split; auto. split; auto. split.
      * intros i f Hf. rewrite (S i f Hf).
        split; intros [?|(m & M1 & M2)]; auto; right.
        -- exists m; auto.
        -- destruct M1 as [->|M1]; [congruence|]. exists m; auto.
      * rewrite T. split; intros [?|(m & i & M1 & M2)]; auto; right.
        -- exists m, i; auto.
        -- destruct M1 as [->|M1]; [congruence|]. exists m, i; auto.
Qed.

Definition thaw_post (ns : list string) (t t' : ptree) (hit : bool) : Prop :=
  (forall path f, flag_at t path = Some f ->
     (flag_at t' path = Some true <->
        f = true \/ exists q, requested ns t (path ++ q)) /\
     flag_at t' path <> None) /\
  (hit = true <-> exists q, requested ns t q).

Lemma requested_nil ns (t : ptree) : ~ requested ns t [].
Proof. destruct t; simpl; auto. Qed.

Lemma thaw_paths_spec b0 ns (t : ptree) :
  wf t -> names_ok t -> container t ->
  exists t' hit, thaw_paths_to ns t = Ok (t', hit) /\ thaw_post ns t t' hit /\
    reflag b0 t' = reflag b0 t /\ wf t'.
Proof.
  induction t using ptree_ind'; simpl; intros W N C; try tauto.
  - destruct W as (W1 & W2 & W3 & W4 & W5). destruct N as (N1 & N2).
    destruct (plist_thaw_spec (l_names l) ns (l_liquid l) false N1) as (liq' & th & E & L & S & T).
    rewrite E; simpl. do 2 eexists; split; [reflexivity|]. simpl. unfold wf_plist; simpl. rewrite L.
    repeat split; auto; try congruence.
    + destruct path as [|i [|? ?]]; simpl in *; try discriminate.
      rewrite (S i f H). intros [?|R]; auto. right. exists []; simpl; auto.
    + destruct path as [|i [|? ?]]; simpl in *; try discriminate.
      rewrite (S i f H). intros [?|([|? q] & R)]; auto; simpl in R; tauto.
    + destruct path as [|i [|? ?]]; simpl in *; try discriminate.
      apply nth_error_Some. rewrite L. apply nth_error_Some. congruence.
    + rewrite T. intros [?|(n & i & R)]; [discriminate|]. exists [i]; simpl; eauto.
    + rewrite T. intros ([|i [|? q]] & R); simpl in R; try tauto. destruct R as (n & R). right; eauto.
    + do 2 f_equal. apply map_const_len; auto.
  - rewrite !fold_and_Forall in *. destruct W as (HL & W), N as (N0 & N).
    assert (G : forall k preliq, k = length preliq -> forall liq th, length liq = length subs ->
      exists subs' liq' th',
        thaw_walk nm ns (thaw_paths_to ns) k subs (preliq ++ liq) th = Ok (subs', preliq ++ liq', th') /\
        length liq' = length liq /\ length subs' = length subs /\
        (forall i f s, nth_error liq i = Some f -> nth_error subs i = Some s ->
           (nth_error liq' i = Some true <->
             f = true \/ (exists n, In n ns /\ named_param_name nm (k + i) = Some n)
                      \/ (exists q, requested ns s q))) /\
        (forall i s, nth_error subs i = Some s -> exists s' hit, nth_error subs' i = Some s' /\ thaw_post ns s s' hit) /\
        (th' = true <-> th = true \/ exists i s, nth_error subs i = Some s /\
             ((exists n, In n ns /\ named_param_name nm (k + i) = Some n)
                      \/ (exists q, requested ns s q))) /\
        map (reflag b0) subs' = map (reflag b0) subs /\ Forall wf subs').
    { clear liq HL N0. induction H as [|s ss Hs Hss IH]; intros k preliq HP liq th HL; destruct liq as [|lf ls]; simpl in *; try lia.
      - exists [], [], th. split; auto. split; auto. split; auto.
        split; [intros [|i]; discriminate|]. split; [intros [|i]; discriminate|].
        split; auto. split; auto. intros [?|([|i] & s & X & _)]; auto; discriminate.
      - inversion W as [|? ? Wx Wxs]; inversion N as [|? ? Nx Nxs]; subst.
        assert (exists s' hit, (match s with PList _ | PMulti _ _ _ => thaw_paths_to ns s | _ => Ok (s, false) end) = Ok (s', hit) /\
                  thaw_post ns s s' hit /\ reflag b0 s' = reflag b0 s /\ wf s')
          as (s' & hit & -> & P1 & P2 & P3).
        { destruct s; simpl in *;
            try (do 2 eexists; split; [reflexivity|]; split; auto; split;
                 [intros [|? [|]]; discriminate | split; [discriminate|intros ([|? [|]] & [])]]).
          - destruct (Hs Wx Nx I) as (s' & hit & E & A & B & C1). exists s', hit; auto.
          - destruct (Hs Wx Nx I) as (s' & hit & E & A & B & C1). exists s', hit; auto. }
        simpl.
        set (nmd := match named_param_name nm (length preliq) with Some n => mem_str n ns | None => false end).
        assert (Hnmd : nmd = true <-> exists n, In n ns /\ named_param_name nm (length preliq) = Some n).
        { unfold nmd. destruct (named_param_name nm (length preliq)) as [n|] eqn:EN.
          - rewrite mem_str_In. split; [eauto|]. intros (m & M1 & M2). congruence.
          - split; [discriminate|]. intros (m & M1 & M2). congruence. }
        assert (EL : (if hit || nmd
                 then if length preliq <? length (preliq ++ lf :: ls)
                      then Ok (upd (length preliq) true (preliq ++ lf :: ls)) else Err IndexError
                 else Ok (preliq ++ lf :: ls)) = Ok (preliq ++ (lf || (hit || nmd)) :: ls)).
        { destruct (hit || nmd); [|rewrite orb_false_r; auto].
          replace (length preliq <? length (preliq ++ lf :: ls)) with true
            by (symmetry; apply Nat.ltb_lt; rewrite app_length; simpl; lia).
          f_equal. rewrite orb_true_r. clear. induction preliq; simpl; congruence. }
        rewrite EL; simpl.
        destruct (IH Wxs Nxs (S (length preliq)) (preliq ++ [lf || (hit || nmd)])) with (liq := ls) (th := th || (hit || nmd))
          as (subs' & liq' & th' & E & L1 & L2 & F1 & F2 & F3 & F4 & F5).
        { rewrite !app_length; simpl; lia. }
        { lia. }
        rewrite <- !app_assoc in E. simpl in E. rewrite E; simpl.
        exists (s' :: subs'), ((lf || (hit || nmd)) :: liq'), th'. rewrite <- ?app_assoc. simpl.
        split; auto. split; [lia|]. split; [lia|]. split; [|split; [|split; [|split; [congruence|auto]]]].
        + intros [|i] f x Hf Hx; simpl in *.
          * injection Hf; injection Hx; intros; subst. rewrite Nat.add_0_r.
            destruct P1 as (_ & P1). rewrite <- Hnmd, <- P1.
            destruct f, hit, nmd; simpl; intuition congruence.
          * replace (length preliq + S i) with (S (length preliq) + i) by lia. apply F1; auto.
        + intros [|i] x Hx; simpl in *; [injection Hx; intros; subst; eauto|]. apply F2; auto.
        + rewrite F3. destruct P1 as (_ & P1). rewrite !orb_true_iff. split.
          * intros [[?|[?|?]]|(i & x & X1 & X2)]; auto; right.
            -- exists 0, s; simpl; split; auto. right; apply P1; auto.
            -- exists 0, s; simpl; split; auto. left; rewrite Nat.add_0_r; apply Hnmd; auto.
            -- exists (S i), x; simpl; split; auto.
               replace (length preliq + S i) with (S (length preliq) + i) by lia; auto.
          * intros [?|([|i] & x & X1 & X2)]; auto; simpl in *.
            -- injection X1; intros; subst x. left; right. rewrite Nat.add_0_r in X2.
               destruct X2 as [X2|X2]; [right; apply Hnmd; auto|left; apply P1; auto].
            -- right. exists i, x; split; auto.
               rewrite Nat.add_succ_r in X2; simpl; auto. }
    destruct (G 0 [] eq_refl liq false HL) as (subs' & liq' & th & E & L1 & L2 & F1 & F2 & F3 & F4 & F5).
    simpl in E. rewrite E; simpl. do 2 eexists; split; [reflexivity|]. simpl.
    rewrite !fold_and_Forall. split; [|split; [f_equal; auto; apply map_const_len; auto|split; auto; congruence]].
    split.
    + intros path f HF. destruct path as [|i rest]; simpl in HF; try discriminate.
      destruct rest as [|j rest].
      * assert (Hi : i < length liq) by (apply nth_error_Some; congruence).
        assert (exists s, nth_error subs i = Some s) as (s & Hs).
        { destruct (nth_error subs i) eqn:X; eauto. apply nth_error_None in X. lia. }
        split; [|simpl; apply nth_error_Some; lia].
        change (flag_at (PMulti nm subs' liq') [i]) with (nth_error liq' i).
        rewrite (F1 i f s HF Hs). split.
        -- intros [?|[(n & X1 & X2)|(q & X)]]; auto; right.
           ++ exists []; simpl; split; [lia|eauto].
           ++ exists q; simpl. destruct q; [apply requested_nil in X; tauto|]. rewrite Hs. auto.
        -- intros [?|(q & X)]; auto; right. destruct q as [|a q]; simpl in X.
           ++ left; tauto.
           ++ rewrite Hs in X. right. exists (a :: q). exact X.
      * destruct (nth_error subs i) as [s|] eqn:ES; [|discriminate].
        destruct (F2 i s ES) as (s' & hit & E' & P). simpl. rewrite E', ES.
        destruct P as (P & _). apply (P (j :: rest) f HF).
    + rewrite F3. split.
      * intros [?|(i & s & X1 & [(n & X2)|(q & X2)])]; [discriminate| |].
        -- exists [i]; simpl. split; [|eauto]. apply nth_error_Some; congruence.
        -- exists (i :: q); simpl. destruct q; [apply requested_nil in X2; tauto|]. rewrite X1; auto.
      * intros ([|i q] & X); simpl in X; try tauto. right. destruct q as [|a q].
        -- destruct X as (X1 & X2). destruct (nth_error subs i) as [s|] eqn:ES.
           ++ exists i, s; auto.
           ++ apply nth_error_None in ES. lia.
        -- destruct (nth_error subs i) as [s|] eqn:ES; [|tauto]. exists i, s; split; auto. right; eauto.
Qed.

Lemma reflag_all b0 (t t' : ptree) : reflag b0 t' = reflag b0 t ->
  get_all_params t' = get_all_params t.
Proof.
  revert t'. assert (G : forall x : ptree, get_all_params (reflag b0 x) = get_all_params x /\ is_none (reflag b0 x) = is_none x).
  { induction x using ptree_ind'; simpl; auto. split; auto. f_equal.
    induction H as [|s ss Hs Hss IH]; simpl; auto. destruct Hs as (Hs1 & Hs2).
    rewrite Hs1, Hs2, IH; auto. }
  intros t' E. rewrite <- (proj1 (G t)), <- (proj1 (G t')), E; auto.
Qed.

Lemma reflag_none b0 : forall (x y : ptree), reflag b0 x = reflag b0 y ->
  forall q, flag_at x q = None -> flag_at y q = None.
Proof.
  induction x using ptree_ind'; intros y; destruct y; simpl; intros HE q Hq; try discriminate;
    try (destruct q as [|? [|]]; auto; fail).
  - injection HE; intros _ _ _ _ _ HF _ _. destruct q as [|i [|]]; simpl in *; auto.
    apply nth_error_None. apply nth_error_None in Hq.
    apply (f_equal (@length bool)) in HF. rewrite !map_length in HF. lia.
  - injection HE; intros HF HS _. destruct q as [|i [|j r]]; simpl in *; auto.
    + apply nth_error_None. apply nth_error_None in Hq.
      apply (f_equal (@length bool)) in HF. rewrite !map_length in HF. lia.
    + destruct (nth_error subs0 i) as [y|] eqn:EY; auto.
      assert (nth_error (map (reflag b0) subs) i = Some (reflag b0 y)) as EX.
      { rewrite HS. rewrite nth_error_map, EY; auto. }
      rewrite nth_error_map in EX. destruct (nth_error subs i) as [x|] eqn:ES; simpl in EX; [|discriminate].
      rewrite Forall_forall in H. apply (H x (nth_error_In _ _ ES) y ltac:(congruence) (j :: r)). exact Hq.
Qed.

Lemma reflag_some b0 (x y : ptree) : reflag b0 x = reflag b0 y ->
  forall q f, flag_at y q = Some f -> exists g, flag_at x q = Some g.
Proof. intros E q f Hf. destruct (flag_at x q) eqn:F; eauto.
  rewrite (reflag_none b0 x y E q F) in Hf. discriminate. Qed.

End Rec.
