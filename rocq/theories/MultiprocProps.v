(** C52: parallel derivatives come back in order. *)
From Coq Require Import List Bool Arith Lia.
From Verif Require Import Base MultiprocModel.
Import ListNotations.

Section Props.
Context {P I V : Type} (model0 : nat -> I) (model1 : nat -> nat -> I) (diff : I -> I -> V -> P) (finite : P -> bool).
Notation image := (image P V).
Notation source := (source P).
Notation tractor := (tractor P V).
Notation mp_get_derivs := (mp_get_derivs P I V model0 model1 diff finite).

(** *** Specification *)
(** Parameter k of image j: the derivative the image reports, or the finite
    difference of the models of that image for that parameter. *)
Definition image_row (j : nat) (im : image) (k : nat) : list (option P * nat) :=
  match nth_error (im_derivs P V im) k with
  | Some (DPatch _ p) => [(Some p, j)]
  | Some (DFalse _) =>
      match nth_error (im_steps P V im) k with
      | Some step => [(Some (diff (model1 j k) (model0 j) step), j)]
      | None => []
      end
  | _ => [(None, j)]
  end.
(** Parameter k of a source: its derivatives in the images that have one. *)
Definition source_row (nims : nat) (s : source) (k : nat) : list (option P * nat) :=
  flat_map (fun i => match nth k (so_derivs P s i) None with Some p => [(Some p, i)] | None => [] end) (seq 0 nims).
Definition in_order (t : tractor) : list (list (option P * nat)) :=
  flat_map (fun p => map (image_row (fst p) (snd p)) (seq 0 (im_np P V (snd p)))) (image_list P V t) ++
  flat_map (fun s => map (source_row (length (t_images P V t)) s) (seq 0 (so_np P s))) (source_list P V t).
(** Images and sources report one entry per parameter; derivatives are finite. *)
Definition well_formed (t : tractor) : Prop :=
  Forall (fun im => length (im_derivs P V im) = im_np P V im /\ length (im_steps P V im) = im_np P V im) (t_images P V t) /\
  Forall (fun s => forall i, i < length (t_images P V t) -> length (so_derivs P s i) = so_np P s /\
                    forall p, In (Some p) (so_derivs P s i) -> finite p = true) (t_sources P V t).
Definition some_false (t : tractor) : Prop :=
  exists p, In p (image_list P V t) /\ In (DFalse P) (im_derivs P V (snd p)).

(** *** Proofs *)
Lemma pop_rev {A} (x : A) q : pop (rev (x :: q)) = Ok (x, rev q).
Proof. unfold pop. rewrite rev_involutive. reflexivity. Qed.

Lemma find_mod0 (l : list (nat * list nat)) j ns : In (j, ns) l ->
  find (fun p => fst p =? j) (map (fun p => (fst p, model0 (fst p))) l) = Some (j, model0 j).
Proof.
  induction l as [|[a b] r IH]; intros H; [destruct H|]. cbn. destruct (Nat.eqb_spec a j) as [->|N]; auto.
  destruct H as [E|H]; [congruence|auto].
Qed.

Definition entry (j : nat) (steps : list V) (k : nat) (d : ideriv P) : option P * nat :=
  (match d with DPatch _ p => Some p | DNone _ => None | DFalse _ =>
     match nth_error steps k with Some step => Some (diff (model1 j k) (model0 j) step) | None => None end end, j).
Fixpoint entries (j : nat) (steps : list V) (k : nat) (ds : list (ideriv P)) : list (option P * nat) :=
  match ds with [] => [] | d :: r => entry j steps k d :: entries j steps (S k) r end.

Lemma unpack_image_ok j steps mod0s have : forall ds k q,
  (need P k ds <> [] -> have = true /\ find (fun p => fst p =? j) mod0s = Some (j, model0 j)) ->
  k + length ds <= length steps ->
  unpack_image P I V diff j steps mod0s have k ds (rev (map (model1 j) (need P k ds) ++ q)) = Ok (entries j steps k ds, rev q).
Proof.
  induction ds as [|d r IH]; intros k q H HL; [reflexivity|].
  cbn [length] in HL. destruct d as [p| |]; cbn [unpack_image need entries entry] in *.
  - rewrite IH by (auto; lia). reflexivity.
  - rewrite IH by (auto; lia). reflexivity.
  - destruct (H ltac:(discriminate)) as [-> HF]. rewrite HF. unfold py_get.
    destruct (nth_error steps k) as [st|] eqn:E; [|apply nth_error_None in E; lia]. cbn [bind map app].
    rewrite pop_rev. cbn [bind negb]. rewrite IH by (auto; lia). cbn [bind]. unfold entry. rewrite E. reflexivity.
Qed.

Lemma unpack_images_ok mod0s have : forall ims q,
  (forall j im, In (j, im) ims -> length (im_derivs P V im) <= length (im_steps P V im) /\
     (need P 0 (im_derivs P V im) <> [] -> have = true /\ find (fun p => fst p =? j) mod0s = Some (j, model0 j))) ->
  unpack_images P I V diff ims mod0s have
    (rev (map (fun a => model1 (fst a) (snd a)) (flat_map (fun p => map (fun k => (fst p, k)) (need P 0 (im_derivs P V (snd p)))) ims) ++ q)) =
  Ok (flat_map (fun p => map (fun d => [d]) (entries (fst p) (im_steps P V (snd p)) 0 (im_derivs P V (snd p)))) ims, rev q).
Proof.
  induction ims as [|[j im] r IH]; intros q H; [reflexivity|].
  cbn [unpack_images flat_map fst snd]. rewrite map_app, map_map. cbn [fst snd]. rewrite <- app_assoc.
  destruct (H j im (or_introl eq_refl)) as [HL HN].
  rewrite unpack_image_ok by (auto; lia). cbn [bind]. rewrite IH by (intros; apply H; right; auto). reflexivity.
Qed.

Lemma entries_rows j im : length (im_derivs P V im) = im_np P V im -> length (im_steps P V im) = im_np P V im ->
  map (fun d => [d]) (entries j (im_steps P V im) 0 (im_derivs P V im)) = map (image_row j im) (seq 0 (im_np P V im)).
Proof.
  intros HD HS. rewrite <- HD.
  assert (G : forall ds pre k, im_derivs P V im = pre ++ ds -> length pre = k ->
     map (fun d => [d]) (entries j (im_steps P V im) k ds) = map (image_row j im) (seq k (length ds))).
  { induction ds as [|d r IH]; intros pre k E HK; [reflexivity|]. cbn [entries map length seq]. f_equal.
    - unfold image_row. rewrite E, nth_error_app2, HK, Nat.sub_diag by lia. cbn. unfold entry.
      destruct d; try reflexivity. destruct (nth_error (im_steps P V im) k) eqn:EN; auto.
      apply nth_error_None in EN. assert (L : length (im_derivs P V im) = length pre + S (length r)) by (rewrite E, app_length; reflexivity). lia.
    - apply (IH (pre ++ [d])). rewrite <- app_assoc. auto. rewrite app_length. simpl. lia. }
  apply (G _ []); auto.
Qed.

Lemma add_derivs_ok i : forall ds (f : nat -> list (option P * nat)) k, (forall p, In (Some p) ds -> finite p = true) ->
  add_derivs P finite i ds (map f (seq k (length ds))) =
  Ok (map (fun m => f m ++ match nth (m - k) ds None with Some p => [(Some p, i)] | None => [] end) (seq k (length ds))).
Proof.
  induction ds as [|d r IH]; intros f k H; [reflexivity|]. cbn [length seq map add_derivs].
  rewrite IH by (intros p HP; apply H; right; auto). cbn [bind]. rewrite Nat.sub_diag. cbn [nth].
  assert (E : map (fun m => f m ++ match nth (m - S k) r None with Some p => [(Some p, i)] | None => [] end) (seq (S k) (length r)) =
              map (fun m => f m ++ match nth (m - k) (d :: r) None with Some p => [(Some p, i)] | None => [] end) (seq (S k) (length r))).
  { apply map_ext_in. intros m Hm. apply in_seq in Hm. replace (m - k) with (S (m - S k)) by lia. reflexivity. }
  rewrite E. destruct d as [p|].
  - rewrite (H p) by (left; auto). reflexivity.
  - rewrite app_nil_r. reflexivity.
Qed.

Lemma unpack_source_ok s : forall n i q,
  (forall m, i <= m < i + n -> length (so_derivs P s m) = so_np P s /\ forall p, In (Some p) (so_derivs P s m) -> finite p = true) ->
  unpack_source P finite (so_np P s) i n (map (source_row i s) (seq 0 (so_np P s))) (rev (map (so_derivs P s) (seq i n) ++ q)) =
  Ok (map (source_row (i + n) s) (seq 0 (so_np P s)), rev q).
Proof.
  induction n as [|n IH]; intros i q H.
  - cbn. rewrite Nat.add_0_r. reflexivity.
  - cbn [unpack_source seq map app]. rewrite pop_rev. cbn [bind]. destruct (H i ltac:(lia)) as [HL HF].
    rewrite HL, Nat.eqb_refl. cbn [negb].
    pose proof (add_derivs_ok i (so_derivs P s i) (source_row i s) 0 HF) as A. rewrite HL in A. rewrite A. cbn [bind].
    replace (map (fun m => source_row i s m ++ match nth (m - 0) (so_derivs P s i) None with Some p => [(Some p, i)] | None => [] end) (seq 0 (so_np P s)))
      with (map (source_row (S i) s) (seq 0 (so_np P s))).
    + rewrite IH by (intros; apply H; lia). do 4 f_equal; lia.
    + apply map_ext. intros m. unfold source_row. rewrite seq_S, flat_map_app. cbn. rewrite app_nil_r, Nat.sub_0_r. reflexivity.
Qed.
Lemma unpack_sources_ok n : forall srcs q,
  Forall (fun s => forall i, i < n -> length (so_derivs P s i) = so_np P s /\ forall p, In (Some p) (so_derivs P s i) -> finite p = true) srcs ->
  unpack_sources P finite srcs n (rev (map (fun a => so_derivs P (fst a) (snd a)) (flat_map (fun s => map (fun i => (s, i)) (seq 0 n)) srcs) ++ q)) =
  Ok (flat_map (fun s => map (source_row n s) (seq 0 (so_np P s))) srcs, rev q).
Proof.
  induction srcs as [|s r IH]; intros q H; [reflexivity|]. inversion H as [|s' r' HS HR]; subst.
  cbn [unpack_sources flat_map]. rewrite map_app, map_map. cbn [fst snd]. rewrite <- app_assoc.
  replace (repeat [] (so_np P s)) with (map (source_row 0 s) (seq 0 (so_np P s))).
  - change (map (fun x => so_derivs P s x) (seq 0 n)) with (map (so_derivs P s) (seq 0 n)).
    rewrite unpack_source_ok by (intros; apply HS; lia). cbn [bind Nat.add]. rewrite IH by auto. reflexivity.
  - assert (R : forall m z, map (source_row 0 s) (seq z m) = repeat [] m).
    { induction m as [|m IHm]; intros z; [reflexivity|]. cbn. f_equal. apply IHm. }
    apply R.
Qed.

Lemma need_spec : forall ds k m, In m (need P k ds) -> m < k + length ds /\ nth_error ds (m - k) = Some (DFalse P).
Proof.
  induction ds as [|d r IH]; intros k m H; [destruct H|]. cbn [length].
  assert (G : In m (need P (S k) r) -> m < k + S (length r) /\ nth_error (d :: r) (m - k) = Some (DFalse P)).
  { intros HI. assert (S k <= m). { clear -HI. revert k HI. generalize (S) as f. intros f k. revert k.
      assert (GG : forall ds a, In m (need P a ds) -> a <= m).
      { induction ds as [|x y IHy]; intros a HA; [destruct HA|]. destruct x; cbn in HA; try (apply IHy in HA; lia). destruct HA as [->|HA]; [lia|]. apply IHy in HA. lia. }
      intros k HI. apply GG in HI. auto. }
    destruct (IH (S k) m HI) as [A B]. split; [lia|]. replace (m - k) with (S (m - S k)) by lia. exact B. }
  destruct d; cbn [need] in H; try (apply G; exact H). destruct H as [->|H]; [|apply G; exact H]. rewrite Nat.sub_diag. split; [lia|reflexivity].
Qed.
Lemma need_nonempty : forall ds k, need P k ds <> [] <-> In (DFalse P) ds.
Proof.
  induction ds as [|d r IH]; intros k; [cbn; tauto|]. destruct d; cbn.
  - rewrite IH. split; [auto|intros [E|H]; [discriminate|auto]].
  - rewrite IH. split; [auto|intros [E|H]; [discriminate|auto]].
  - split; [auto|discriminate].
Qed.

Lemma need_args (t : tractor) : flat_map (fun p => map (fun k => (fst p, k)) (snd p)) (need_list P V t) =
  flat_map (fun p => map (fun k => (fst p, k)) (need P 0 (im_derivs P V (snd p)))) (image_list P V t).
Proof.
  unfold need_list. induction (image_list P V t) as [|[j im] r IH]; [reflexivity|]. cbn [map filter fst snd flat_map].
  destruct (need P 0 (im_derivs P V im)) as [|a b] eqn:E; cbn [length Nat.eqb negb flat_map fst snd map app]; rewrite IH; reflexivity.
Qed.

(** *** C52 *)
Theorem C52_in_order : forall t, well_formed t ->
  t_has_mp P V t = true -> t_has_names P V t = true -> t_no_masks P V t = true ->
  (some_false t -> source_list P V t <> []) ->
  mp_get_derivs t = Ok (in_order t).
Proof.
  intros t [WI WS] HMP HN HM HF. unfold MultiprocModel.mp_get_derivs. rewrite HMP, HN. cbn [negb].
  assert (WIL : forall j im, In (j, im) (image_list P V t) -> length (im_derivs P V im) = im_np P V im /\ length (im_steps P V im) = im_np P V im).
  { intros j im H. rewrite Forall_forall in WI. apply WI. unfold image_list in H. destruct (t_images_frozen P V t); [destruct H|].
    apply filter_In in H. destruct H as [H _]. apply in_combine_r in H. auto. }
  assert (SO : steps_ok P V t = true).
  { unfold steps_ok. apply forallb_forall. intros [j im] H. apply forallb_forall. intros k Hk. cbn [snd] in *.
    apply need_spec in Hk. destruct (WIL j im H) as [E1 E2]. rewrite E2, E1 in *. cbn in Hk.
    destruct Hk as [Hk _]. apply andb_true_intro. split; apply Nat.ltb_lt; lia. }
  rewrite SO, HM. cbn [negb].
  assert (EA := need_args t).
  rewrite EA.
  rewrite (map_rev (fun a => model1 (fst a) (snd a))).
  rewrite <- (app_nil_r (map (fun a => model1 (fst a) (snd a)) _)).
  rewrite unpack_images_ok.
  2:{ intros j im H. destruct (WIL j im H) as [E1 E2]. split; [lia|]. intros HNE. split.
      - apply Nat.ltb_lt. apply need_nonempty in HNE. destruct (source_list P V t) eqn:ES; [|cbn; lia]. exfalso. apply HF; auto.
        exists (j, im). auto.
      - apply find_mod0 with (ns := need P 0 (im_derivs P V im)). unfold need_list. apply filter_In. split.
        + apply in_map_iff. exists (j, im). auto.
        + cbn [snd]. destruct (need P 0 (im_derivs P V im)); [congruence|reflexivity]. }
  cbn [bind rev length Nat.eqb negb].
  rewrite (map_rev (fun a => so_derivs P (fst a) (snd a))).
  rewrite <- (app_nil_r (map (fun a => so_derivs P (fst a) (snd a)) _)).
  rewrite unpack_sources_ok.
  2:{ unfold source_list. destruct (t_catalog_frozen P V t); [constructor|exact WS]. }
  cbn [bind].
  assert (EI : flat_map (fun p => map (fun d => [d]) (entries (fst p) (im_steps P V (snd p)) 0 (im_derivs P V (snd p)))) (image_list P V t) =
     flat_map (fun p => map (image_row (fst p) (snd p)) (seq 0 (im_np P V (snd p)))) (image_list P V t)).
  { clear -WIL. induction (image_list P V t) as [|[j im] r IH]; [reflexivity|]. cbn [flat_map fst snd].
    destruct (WIL j im (or_introl eq_refl)). rewrite entries_rows by auto. f_equal. apply IH. intros j' im' H'; apply (WIL j'); right; auto. }
  rewrite EI. fold (in_order t).
  assert (EL : length (in_order t) = list_sum (map (fun p => im_np P V (snd p)) (image_list P V t)) + list_sum (map (so_np P) (source_list P V t))).
  { unfold in_order. rewrite app_length. f_equal.
    - clear. induction (image_list P V t) as [|p r IH]; [reflexivity|]. cbn [flat_map map list_sum]. rewrite app_length, map_length, seq_length. cbn. f_equal. apply IH.
    - clear. induction (source_list P V t) as [|p r IH]; [reflexivity|]. cbn [flat_map map list_sum]. rewrite app_length, map_length, seq_length. cbn. f_equal. apply IH. }
  rewrite EL, Nat.eqb_refl. reflexivity.
Qed.
(** As shipped, every call raises: self.mp is never set (and the module does
    not import the names it uses). *)
Theorem C52_shipped_refuted : forall t, as_shipped P V t ->
  mp_get_derivs t = Err AttributeError /\
  mp_get_derivs (mkTractor P V (t_images P V t) (t_images_frozen P V t) (t_sources P V t) (t_catalog_frozen P V t) (t_no_masks P V t) true false) = Err NameError.
Proof. intros t [H1 H2]. unfold MultiprocModel.mp_get_derivs. rewrite H1. auto. Qed.
(** Even then, without thawed sources the name of an image derivative uses an
    unset loop variable. *)
Theorem C52_no_sources_refuted : forall t, well_formed t ->
  t_has_mp P V t = true -> t_has_names P V t = true -> t_no_masks P V t = true ->
  some_false t -> source_list P V t = [] -> mp_get_derivs t = Err UnboundLocalError.
Proof.
  intros t [WI WS] HMP HN HM HF HS. unfold MultiprocModel.mp_get_derivs. rewrite HMP, HN, HS. cbn [negb].
  assert (WIL : forall j im, In (j, im) (image_list P V t) -> length (im_derivs P V im) = im_np P V im /\ length (im_steps P V im) = im_np P V im).
  { intros j im H. rewrite Forall_forall in WI. apply WI. unfold image_list in H. destruct (t_images_frozen P V t); [destruct H|].
    apply filter_In in H. destruct H as [H _]. apply in_combine_r in H. auto. }
  assert (SO : steps_ok P V t = true).
  { unfold steps_ok. apply forallb_forall. intros [j im] H. apply forallb_forall. intros k Hk. cbn [snd] in *.
    apply need_spec in Hk. destruct (WIL j im H) as [E1 E2]. rewrite E2, E1 in *. cbn in Hk.
    destruct Hk as [Hk _]. apply andb_true_intro. split; apply Nat.ltb_lt; lia. }
  rewrite SO, HM. cbn [negb length Nat.ltb Nat.leb].
  assert (EA := need_args t).
  rewrite EA, (map_rev (fun a => model1 (fst a) (snd a))).
  set (mod0s := map _ (need_list P V t)).
  assert (FM : forall j im, In (j, im) (image_list P V t) -> need P 0 (im_derivs P V im) <> [] -> find (fun p => fst p =? j) mod0s = Some (j, model0 j)).
  { intros j im H HNE. apply find_mod0 with (ns := need P 0 (im_derivs P V im)). unfold need_list. apply filter_In. split.
    + apply in_map_iff. exists (j, im). auto.
    + cbn [snd]. destruct (need P 0 (im_derivs P V im)); [congruence|reflexivity]. }
  destruct HF as (p & HP & HD).
  (* one image *)
  assert (G1 : forall j steps ds k q, (need P k ds <> [] -> find (fun p => fst p =? j) mod0s = Some (j, model0 j)) -> k + length ds <= length steps ->
    unpack_image P I V diff j steps mod0s false k ds (rev (map (model1 j) (need P k ds) ++ q)) =
    match need P k ds with [] => Ok (entries j steps k ds, rev q) | _ => Err UnboundLocalError end).
  { intros j steps. induction ds as [|d r IH]; intros k q HX HL; [reflexivity|]. cbn [length] in HL.
    destruct d as [x| |]; cbn [unpack_image need entries] in *.
    - rewrite IH by (auto; lia). destruct (need P (S k) r); reflexivity.
    - rewrite IH by (auto; lia). destruct (need P (S k) r); reflexivity.
    - rewrite HX by discriminate. unfold py_get. destruct (nth_error steps k) eqn:E; [|apply nth_error_None in E; lia].
      cbn [bind map app]. rewrite pop_rev. reflexivity. }
  assert (G2 : forall ims q, (forall j im, In (j, im) ims -> length (im_derivs P V im) <= length (im_steps P V im) /\
      (need P 0 (im_derivs P V im) <> [] -> find (fun p => fst p =? j) mod0s = Some (j, model0 j))) ->
    (exists p, In p ims /\ In (DFalse P) (im_derivs P V (snd p))) ->
    unpack_images P I V diff ims mod0s false
    (rev (map (fun a => model1 (fst a) (snd a)) (flat_map (fun p => map (fun k => (fst p, k)) (need P 0 (im_derivs P V (snd p)))) ims) ++ q)) = Err UnboundLocalError).
  { induction ims as [|[j im] r IH]; intros q HX (p' & HI & HFa); [destruct HI|].
    cbn [unpack_images flat_map fst snd]. rewrite map_app, map_map. cbn [fst snd]. rewrite <- app_assoc.
    destruct (HX j im (or_introl eq_refl)) as [HL HN']. rewrite G1 by (auto; lia).
    destruct (need P 0 (im_derivs P V im)) as [|a b] eqn:E; [|reflexivity]. cbn [bind].
    rewrite IH; [reflexivity|intros; apply HX; right; auto|]. exists p'. destruct HI as [<-|HI]; auto.
    exfalso. apply (need_nonempty _ 0) in HFa. cbn in HFa. congruence. }
  rewrite <- (app_nil_r (map (fun a => model1 (fst a) (snd a)) _)).
  rewrite G2; [reflexivity| |exists p; auto].
  intros j im H. destruct (WIL j im H). split; [lia|]. intros HNE. eapply FM; eauto.
Qed.
End Props.

(** Two images, the second frozen; the first image leaves its second parameter
    to the pool; one source with two parameters. *)
Definition ex_t (mp : bool) : tractor nat nat :=
  mkTractor nat nat [mkImage nat nat true 2 [1; 2] [DPatch nat 7; DFalse nat]; mkImage nat nat false 1 [1] [DNone nat]] false
    [mkSource nat 2 (fun i => [Some (10 + i); if i =? 0 then None else Some 30])] false true mp mp.
Example C52_ex : well_formed (fun _ => true) (ex_t true) /\ as_shipped nat nat (ex_t false) /\ some_false (ex_t true) /\
  mp_get_derivs nat nat nat (fun j => 100 * j) (fun j k => 100 * j + k) (fun a b s => a - b) (fun _ => true) (ex_t true) =
  Ok [[(Some 7, 0)]; [(Some 1, 0)]; [(Some 10, 0); (Some 11, 1)]; [(Some 30, 1)]].
Proof.
  split; [|split; [|split]].
  - split.
    + repeat constructor.
    + constructor; [|constructor]. intros i Hi. split; [reflexivity|auto].
  - split; reflexivity.
  - eexists. split; [left; reflexivity|right; left; reflexivity].
  - reflexivity.
Qed.

Print Assumptions C52_in_order.
Print Assumptions C52_shipped_refuted.
Print Assumptions C52_no_sources_refuted.
