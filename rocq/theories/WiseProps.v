(** C89: which tile the forced photometry of each source comes from. *)
From Coq Require Import String List ZArith Reals Bool Lia Lra.
From Verif Require Import Base WiseModel.
Import ListNotations.
Local Open Scope R_scope.
Local Open Scope list_scope.

(** *** Lists *)
Lemma nth_map2 : forall {A B C} (f : A -> B -> C) l m i, length l = length m ->
  nth_error (map2 f l m) i = match nth_error l i, nth_error m i with Some a, Some b => Some (f a b) | _, _ => None end.
Proof.
  intros A B C f. induction l as [|a l IH]; intros [|b m] [|i] L; try discriminate; try reflexivity. cbn. apply IH. cbn in L. lia.
Qed.
Lemma map2_length : forall {A B C} (f : A -> B -> C) l m, length l = length m -> length (map2 f l m) = length l.
Proof. intros A B C f. induction l as [|a l IH]; intros [|b m] L; try discriminate; cbn in *; [reflexivity|]. f_equal. apply IH. lia. Qed.
Lemma assign_length : forall {A} cut (l v : list A), length (assign cut l v) = length l.
Proof.
  intros A. induction cut as [|[] cut IH]; intros l v; [reflexivity| |]; destruct l as [|x l]; cbn; try reflexivity; [|f_equal; apply IH].
  destruct v; cbn; [reflexivity|]. f_equal. apply IH.
Qed.
(** the number of a kept entry *)
Definition rank (cut : list bool) (i : nat) : nat := count_true (firstn i cut).
Lemma nth_assign : forall {A} cut (l v : list A) i, length cut = length l -> length v = count_true cut ->
  nth_error (assign cut l v) i = match nth_error cut i with Some true => nth_error v (rank cut i) | _ => nth_error l i end.
Proof.
  intros A. unfold rank. induction cut as [|b cut IH]; intros [|x l] v i LC LV; try discriminate; [destruct i; reflexivity|].
  cbn in LC. injection LC as LC. rewrite count_true_cons in LV. destruct b.
  - destruct v as [|y v]; [discriminate|]. cbn in LV. destruct i as [|i]; cbn [assign nth_error firstn]; [reflexivity|].
    rewrite count_true_cons. cbn [Nat.add nth_error]. apply IH; [exact LC|lia].
  - cbn in LV. destruct i as [|i]; cbn [assign nth_error firstn]; [reflexivity|]. rewrite count_true_cons. cbn [Nat.add]. apply IH; [exact LC|lia].
Qed.
Lemma nth_keep : forall {A} cut (l : list A) i, length cut = length l -> nth_error cut i = Some true ->
  nth_error (keep cut l) (rank cut i) = nth_error l i /\ (rank cut i < count_true cut)%nat.
Proof.
  intros A. unfold rank. induction cut as [|b cut IH]; intros [|x l] i LC E; try discriminate; [destruct i; discriminate|].
  cbn in LC. injection LC as LC. destruct i as [|i].
  - cbn in E. injection E as ->. rewrite count_true_cons. cbn [firstn keep nth_error]. split; [reflexivity|]. change (count_true []) with 0%nat. lia.
  - cbn in E. destruct (IH l i LC E) as [IH1 IH2]. cbn [firstn]. rewrite !count_true_cons. destruct b; cbn [keep Nat.add nth_error]; split; try exact IH1; lia.
Qed.
Lemma keep_length : forall {A} cut (l : list A), length cut = length l -> length (keep cut l) = count_true cut.
Proof.
  intros A. induction cut as [|b cut IH]; intros [|x l] LC; try discriminate; [reflexivity|]. cbn in LC. injection LC as LC.
  rewrite count_true_cons. destruct b; cbn; rewrite IH by exact LC; reflexivity.
Qed.
Lemma nth_firstn : forall {A} n (l : list A) i, (i < n)%nat -> nth_error (firstn n l) i = nth_error l i.
Proof. intros A. induction n as [|n IH]; intros [|x l] [|i] L; try lia; try reflexivity. cbn. apply IH. lia. Qed.
Lemma nth_seq0 : forall n i, (i < n)%nat -> nth_error (seq 0 n) i = Some i.
Proof. intros n i L. rewrite (nth_error_nth' _ 0%nat) by (rewrite seq_length; exact L). rewrite seq_nth by exact L. reflexivity. Qed.
Lemma nth_error_ext : forall {A} (l m : list A), (forall i, nth_error l i = nth_error m i) -> l = m.
Proof.
  intros A. induction l as [|a l IH]; intros [|b m] H; [reflexivity|specialize (H 0%nat); discriminate|specialize (H 0%nat); discriminate|].
  f_equal; [specialize (H 0%nat); injection H; auto|apply IH; intros i; apply (H (S i))].
Qed.
Lemma lt_b_true : forall a b, lt_b a b = true <-> a < b.
Proof. intros. unfold lt_b. destruct (Rlt_dec a b); split; intros; try reflexivity; try discriminate; lra. Qed.
Lemma le_b_true : forall a b, le_b a b = true <-> a <= b.
Proof. intros. unfold le_b. destruct (Rle_dec a b); split; intros; try reflexivity; try discriminate; lra. Qed.

Section Props.
Context {src stat : Type} (flux : src -> R) (copy : src -> src) (no_stat : stat).
Notation tim := (tim src stat).
Notation st := (st src stat).
Notation tile_step := (tile_step src stat copy).
Notation tiles_run := (tiles_run src stat copy).
Notation band_start := (band_start src stat no_stat).
Notation rows := (rows src stat flux).

(** *** Specification *)
(** The source lies on a pixel of the image, or within ten pixels of it. *)
Definition on_image (t : tim) (i : nat) : Prop :=
  - / 2 <= t_x _ _ t i < IZR (t_w _ _ t) - / 2 /\ - / 2 <= t_y _ _ t i < IZR (t_h _ _ t) - / 2.
Definition in_margin (t : tim) (i : nat) : Prop :=
  -10 <= t_x _ _ t i < IZR (t_w _ _ t) + 10 /\ -10 <= t_y _ _ t i < IZR (t_h _ _ t) + 10.
(** The photometry returns the sources, in order, with one inverse variance and
    one set of statistics for each, or none at all. *)
Definition good (t : tim) : Prop := forall l l' iv fs, t_phot _ _ t l = Ok (l', iv, fs) ->
  length l' = length l /\ length iv = length l /\ match fs with Some x => length x = length l | None => True end.
(** What the photometry of image t makes of source b, fitted together with others. *)
Definition measured (t : tim) (b b' : src) (iv : R) (x : option stat) : Prop :=
  exists sub sub' ivs fs p, t_phot _ _ t sub = Ok (sub', ivs, fs) /\ nth_error sub p = Some b /\ nth_error sub' p = Some b' /\
  nth_error ivs p = Some iv /\ x = match fs with Some l => nth_error l p | None => None end.
(** Source b is a after photometry in some images. *)
Inductive evolves (a : src) : src -> Prop :=
| ev_same : evolves a a
| ev_step : forall t b b' iv x, evolves a b -> measured t b b' iv x -> evolves a b'.
(** The k-th image t measures source i: it is on it, and nearer to the centre of
    this tile than to that of all earlier ones around it. *)
Definition kept (ts : list (option tim)) (i k : nat) (t : tim) : Prop :=
  nth_error ts k = Some (Some t) /\ on_image t i /\ t_dist _ _ t i < 10 ^ 100 /\
  forall k' t', (k' < k)%nat -> nth_error ts k' = Some (Some t') -> in_margin t' i -> t_dist _ _ t i < t_dist _ _ t' i.
Definition last_kept (ts : list (option tim)) (i k : nat) (t : tim) : Prop :=
  kept ts i k t /\ forall k' t', (k < k')%nat -> ~ kept ts i k' t'.
(** The count of exposures at a pixel of the image nearest to the source. *)
Definition exposures_at (t : tim) (i : nat) (n : Z) : Prop := exists r c,
  (0 <= r < t_h _ _ t)%Z /\ (0 <= c < t_w _ _ t)%Z /\ Rabs (IZR r - t_y _ _ t i) <= / 2 /\ Rabs (IZR c - t_x _ _ t i) <= / 2 /\ n = t_nuims _ _ t r c.

(** *** One image *)
Lemma within_iff : forall t i, within _ _ t i = true <-> in_margin t i.
Proof. intros t i. unfold within, in_margin. rewrite !andb_true_iff, !le_b_true, !lt_b_true. tauto. Qed.
Lemma inbox_iff : forall t i, inbox _ _ t i = true <-> on_image t i.
Proof. intros t i. unfold inbox, on_image. rewrite !andb_true_iff, !le_b_true, !lt_b_true. tauto. Qed.
Lemma on_in : forall t i, on_image t i -> in_margin t i.
Proof. intros t i. unfold on_image, in_margin. intros. lra. Qed.
Lemma round_near : forall x n, - / 2 <= x < IZR n - / 2 -> (0 <= zclip (np_round x) 0 (n - 1) < n)%Z /\ Rabs (IZR (zclip (np_round x) 0 (n - 1)) - x) <= / 2.
Proof.
  intros x n X. destruct (base_Int_part x) as [A B]. assert (N0 : (0 < n)%Z) by (apply lt_IZR; lra).
  assert (RN : Rabs (IZR (np_round x) - x) <= / 2).
  { unfold np_round. set (f := Int_part x) in *. destruct (Rlt_dec _ _); [apply Rabs_le; lra|]. destruct (Rlt_dec _ _); [rewrite plus_IZR; apply Rabs_le; lra|].
    destruct (Z.even f); rewrite ?plus_IZR; apply Rabs_le; lra. }
  assert (RN' : IZR (np_round x) - x <= / 2 /\ - / 2 <= IZR (np_round x) - x) by (unfold Rabs in RN; destruct (Rcase_abs _); lra).
  assert (L : (np_round x < n)%Z) by (apply lt_IZR; lra).
  destruct (Z_le_dec 0 (np_round x)).
  - replace (zclip (np_round x) 0 (n - 1)) with (np_round x) by (unfold zclip; lia). split; [lia|exact RN].
  - assert (M : np_round x = (-1)%Z). { assert (IZR (-2) < IZR (np_round x)) by (change (IZR (-2)) with (-2); lra). apply lt_IZR in H. lia. }
    replace (zclip (np_round x) 0 (n - 1)) with 0%Z by (unfold zclip; lia). split; [lia|]. rewrite M in RN'. change (IZR (-1)) with (-1) in RN'. change (IZR 0) with 0.
    apply Rabs_le. lra.
Qed.
Lemma exposures_ok : forall t i, on_image t i -> exposures_at t i (exposures _ _ t i).
Proof.
  intros t i [X Y]. destruct (round_near _ _ X) as [X1 X2]. destruct (round_near _ _ Y) as [Y1 Y2].
  exists (zclip (np_round (t_y _ _ t i)) 0 (t_h _ _ t - 1)), (zclip (np_round (t_x _ _ t i)) 0 (t_w _ _ t - 1)). unfold exposures. auto.
Qed.
Definition wf (n : nat) (s : st) : Prop := length (s_cat _ _ s) = n /\ length (s_dist _ _ s) = n /\ length (s_iv _ _ s) = n /\
  length (s_stat _ _ s) = n /\ length (s_nexp _ _ s) = n /\ length (s_mjd _ _ s) = n /\ length (s_tile _ _ s) = n.
(** What a state says of source i. *)
Definition says (s : st) (i : nat) : option src * option R * option stat * option Z * option R * option string :=
  (nth_error (s_cat _ _ s) i, nth_error (s_iv _ _ s) i, nth_error (s_stat _ _ s) i, nth_error (s_nexp _ _ s) i, nth_error (s_mjd _ _ s) i, nth_error (s_tile _ _ s) i).

Lemma step_spec : forall n s t s', wf n s -> good t -> tile_step s (Some t) = Ok s' -> wf n s' /\
  forall i d, nth_error (s_dist _ _ s) i = Some d ->
    nth_error (s_dist _ _ s') i = Some (if within _ _ t i && lt_b (t_dist _ _ t i) d then t_dist _ _ t i else d) /\
    if inbox _ _ t i && lt_b (t_dist _ _ t i) d then
      exists b b' iv x y e m, measured t b b' iv x /\ says s i = (Some b, y, e, m, nth_error (s_mjd _ _ s) i, nth_error (s_tile _ _ s) i) /\
        says s' i = (Some b', Some iv, match x with Some x => Some x | None => e end, Some (exposures _ _ t i),
          match t_mjd _ _ t with Some (u, v) => Some ((u + v) / 2) | None => nth_error (s_mjd _ _ s) i end, Some (t_id _ _ t))
    else says s' i = says s i.
Proof.
  intros n s t s' (W1 & W2 & W3 & W4 & W5 & W6 & W7) GT E. unfold WiseModel.tile_step in E. rewrite W1 in E.
  set (ix := seq 0 n) in *. assert (LX : length ix = n) by apply seq_length.
  set (closest := map2 _ ix (s_dist _ _ s)) in *. assert (LC : length closest = n) by (unfold closest; rewrite map2_length; lia).
  set (kept := map2 andb (map (inbox _ _ t) ix) closest) in *. assert (LK : length kept = n) by (unfold kept; rewrite map2_length; rewrite map_length; lia).
  set (dist := assign closest _ _) in *.
  set (margi := map2 _ (map (within _ _ t) ix) kept) in *. assert (LM : length margi = n) by (unfold margi; rewrite map2_length; rewrite map_length; lia).
  assert (NC : forall i d, nth_error (s_dist _ _ s) i = Some d -> nth_error closest i = Some (within _ _ t i && lt_b (t_dist _ _ t i) d)).
  { intros i d D. assert (I : (i < n)%nat) by (rewrite <- W2; apply nth_error_Some; congruence). unfold closest. rewrite nth_map2 by lia. unfold ix. rewrite nth_seq0 by exact I. rewrite D. reflexivity. }
  assert (NK : forall i d, nth_error (s_dist _ _ s) i = Some d -> nth_error kept i = Some (inbox _ _ t i && lt_b (t_dist _ _ t i) d)).
  { intros i d D. assert (I : (i < n)%nat) by (rewrite <- W2; apply nth_error_Some; congruence). unfold kept. rewrite nth_map2 by (rewrite map_length; lia).
    rewrite nth_error_map. unfold ix. rewrite nth_seq0 by exact I. cbn [option_map]. rewrite (NC i d D). f_equal.
    destruct (inbox _ _ t i) eqn:B; [|reflexivity]. apply inbox_iff in B. apply on_in in B. apply within_iff in B. rewrite B. reflexivity. }
  assert (ND : length dist = n /\ forall i d, nth_error (s_dist _ _ s) i = Some d -> nth_error dist i = Some (if within _ _ t i && lt_b (t_dist _ _ t i) d then t_dist _ _ t i else d)).
  { split; [unfold dist; rewrite assign_length; exact W2|]. intros i d D. assert (I : (i < n)%nat) by (rewrite <- W2; apply nth_error_Some; congruence). unfold dist.
    rewrite nth_assign by (try rewrite map_length, keep_length; lia). rewrite (NC i d D). destruct (within _ _ t i && lt_b (t_dist _ _ t i) d) eqn:B; [|exact D].
    rewrite nth_error_map. destruct (nth_keep closest ix i) as [K _]; [lia|rewrite (NC i d D), B; reflexivity|]. rewrite K. unfold ix. rewrite nth_seq0 by exact I. reflexivity. }
  destruct ND as (LD & ND). destruct (count_true kept =? 0)%nat eqn:C0.
  - injection E as <-. split; [repeat split; cbn; lia|]. intros i d D. cbn [s_dist]. split; [apply ND; exact D|].
    assert (NT : nth_error kept i <> Some true).
    { apply Nat.eqb_eq in C0. intros T. destruct (nth_keep kept kept i eq_refl T) as [_ K]. lia. }
    rewrite (NK i d D) in NT. destruct (inbox _ _ t i && lt_b (t_dist _ _ t i) d); [contradiction|reflexivity].
  - clear C0. set (sub := keep kept (s_cat _ _ s) ++ map copy (keep margi (s_cat _ _ s))) in *.
    destruct (t_phot _ _ t sub) as [[[sub' iv] fs]|] eqn:P; [|discriminate]. cbn [bind] in E. destruct (GT _ _ _ _ P) as (L1 & L2 & L3).
    assert (LS : (count_true kept <= length sub)%nat) by (unfold sub; rewrite app_length, keep_length by lia; lia).
    assert (LF : forall {B} (l : list B), length l = length sub -> length (firstn (count_true kept) l) = count_true kept) by (intros B l LL; rewrite firstn_length; lia).
    injection E as <-. split.
    { unfold wf. cbn [s_cat s_dist s_iv s_stat s_nexp s_mjd s_tile]. rewrite !assign_length. repeat split; try assumption.
      - destruct fs; rewrite ?assign_length; assumption.
      - destruct (t_mjd _ _ t) as [[u v]|]; rewrite ?assign_length; assumption. }
    intros i d D. assert (I : (i < n)%nat) by (rewrite <- W2; apply nth_error_Some; congruence). cbn [s_dist]. split; [apply ND; exact D|].
    assert (TI := NK i d D). destruct (inbox _ _ t i && lt_b (t_dist _ _ t i) d) eqn:B.
    + destruct (nth_keep kept (s_cat _ _ s) i) as [KC RK]; [lia|exact TI|]. destruct (nth_keep kept ix i) as [KX _]; [lia|exact TI|].
      unfold ix in KX at 2. rewrite nth_seq0 in KX by exact I. set (r := rank kept i) in *.
      destruct (nth_error (s_cat _ _ s) i) as [b|] eqn:EB; [|apply nth_error_None in EB; lia].
      destruct (nth_error sub' r) as [b'|] eqn:EB'; [|apply nth_error_None in EB'; lia].
      destruct (nth_error iv r) as [v|] eqn:EV; [|apply nth_error_None in EV; lia].
      exists b, b', v, (match fs with Some l => nth_error l r | None => None end), (nth_error (s_iv _ _ s) i), (nth_error (s_stat _ _ s) i), (nth_error (s_nexp _ _ s) i).
      split; [exists sub, sub', iv, fs, r; repeat split; auto; unfold sub; rewrite nth_error_app1 by (rewrite keep_length; lia); exact KC|].
      split; [unfold says; rewrite EB; reflexivity|]. unfold says. cbn [s_cat s_dist s_iv s_stat s_nexp s_mjd s_tile].
      rewrite !nth_assign by (rewrite ?map_length, ?keep_length, ?LF; lia). rewrite TI. fold r. rewrite !nth_firstn by exact RK. rewrite EB', EV. rewrite !nth_error_map, KX. cbn [option_map].
      repeat f_equal.
      * destruct fs as [l|]; [|reflexivity]. rewrite nth_assign by (rewrite ?LF; lia). rewrite TI. fold r. rewrite nth_firstn by exact RK.
        destruct (nth_error l r) eqn:EL; [reflexivity|]. apply nth_error_None in EL. lia.
      * destruct (t_mjd _ _ t) as [[u w]|]; [|reflexivity]. rewrite nth_assign by (rewrite ?map_length, ?keep_length; lia). rewrite TI. fold r. rewrite nth_error_map, KX. reflexivity.
    + unfold says. cbn [s_cat s_dist s_iv s_stat s_nexp s_mjd s_tile].
      assert (Q1 : nth_error (match fs with Some l => assign kept (s_stat _ _ s) (firstn (count_true kept) l) | None => s_stat _ _ s end) i = nth_error (s_stat _ _ s) i).
      { destruct fs as [l|]; [|reflexivity]. rewrite nth_assign by (rewrite ?LF; lia). rewrite TI. reflexivity. }
      assert (Q2 : nth_error (match t_mjd _ _ t with Some (a, b) => assign kept (s_mjd _ _ s) (map (fun _ => (a + b) / 2) (keep kept ix)) | None => s_mjd _ _ s end) i = nth_error (s_mjd _ _ s) i).
      { destruct (t_mjd _ _ t) as [[u w]|]; [|reflexivity]. rewrite nth_assign by (rewrite ?map_length, ?keep_length; lia). rewrite TI. reflexivity. }
      rewrite Q1, Q2. rewrite !nth_assign by (rewrite ?map_length, ?keep_length, ?LF; lia). rewrite TI. reflexivity.
Qed.

(** All sources on or around an image are fitted together, once each: those to
    be kept themselves, the others as copies. *)
Theorem C89_together : forall n s t s' i d, wf n s -> tile_step s (Some t) = Ok s' -> nth_error (s_dist _ _ s) i = Some d -> on_image t i -> t_dist _ _ t i < d ->
  exists sub r, t_phot _ _ t sub = Ok r /\ length sub = length (filter (within _ _ t) (seq 0 n)) /\
  forall j b dj, nth_error (s_cat _ _ s) j = Some b -> nth_error (s_dist _ _ s) j = Some dj -> in_margin t j ->
    exists p, nth_error sub p = Some (if inbox _ _ t j && lt_b (t_dist _ _ t j) dj then b else copy b).
Proof.
  intros n s t s' i d (W1 & W2 & W3 & W4 & W5 & W6 & W7) E D O L. unfold WiseModel.tile_step in E. rewrite W1 in E.
  set (ix := seq 0 n) in *. assert (LX : length ix = n) by apply seq_length.
  set (closest := map2 _ ix (s_dist _ _ s)) in *. assert (LC : length closest = n) by (unfold closest; rewrite map2_length; lia).
  set (kept := map2 andb (map (inbox _ _ t) ix) closest) in *. assert (LK : length kept = n) by (unfold kept; rewrite map2_length; rewrite map_length; lia).
  set (margi := map2 _ (map (within _ _ t) ix) kept) in *. assert (LM : length margi = n) by (unfold margi; rewrite map2_length; rewrite map_length; lia).
  assert (NK : forall j dj, nth_error (s_dist _ _ s) j = Some dj -> nth_error kept j = Some (inbox _ _ t j && lt_b (t_dist _ _ t j) dj)).
  { intros j dj DJ. assert (J : (j < n)%nat) by (rewrite <- W2; apply nth_error_Some; congruence). unfold kept, closest. rewrite nth_map2 by (rewrite map_length, map2_length; lia).
    rewrite nth_error_map, nth_map2 by lia. unfold ix. rewrite nth_seq0, DJ by exact J. cbn [option_map]. f_equal.
    destruct (inbox _ _ t j) eqn:B; [|reflexivity]. apply inbox_iff in B. apply on_in in B. apply within_iff in B. rewrite B. reflexivity. }
  assert (NM : forall j dj, nth_error (s_dist _ _ s) j = Some dj -> nth_error margi j = Some (within _ _ t j && negb (inbox _ _ t j && lt_b (t_dist _ _ t j) dj))).
  { intros j dj DJ. assert (J : (j < n)%nat) by (rewrite <- W2; apply nth_error_Some; congruence). unfold margi. rewrite nth_map2 by (rewrite map_length; lia).
    rewrite nth_error_map. unfold ix. rewrite nth_seq0 by exact J. cbn [option_map]. rewrite (NK j dj DJ). reflexivity. }
  assert (KI : nth_error kept i = Some true). { rewrite (NK i d D). f_equal. apply andb_true_iff. split; [apply inbox_iff, O|apply lt_b_true, L]. }
  destruct (count_true kept =? 0)%nat eqn:C0; [apply Nat.eqb_eq in C0; destruct (nth_keep kept kept i eq_refl KI); lia|].
  set (sub := keep kept (s_cat _ _ s) ++ map copy (keep margi (s_cat _ _ s))) in *. destruct (t_phot _ _ t sub) as [r|] eqn:P; [|discriminate]. exists sub, r. split; [exact P|]. split.
  - unfold sub. rewrite app_length, map_length, !keep_length by lia.
    assert (SUM : forall (f g : nat -> bool) l, (forall x, In x l -> g x = true -> f x = true) ->
      (count_true (map g l) + count_true (map (fun x => f x && negb (g x)) l) = length (filter f l))%nat).
    { intros f g. induction l as [|x l IH]; intros H; [reflexivity|]. cbn [map filter]. rewrite !count_true_cons. assert (IH' := IH (fun y Y => H y (or_intror Y))).
      assert (HX := H x (or_introl eq_refl)). destruct (f x), (g x); cbn [andb negb length]; try (specialize (HX eq_refl); discriminate); lia. }
    set (g := fun j => match nth_error kept j with Some b => b | None => false end).
    assert (K1 : kept = map g ix).
    { apply nth_error_ext. intros j. rewrite nth_error_map. destruct (Nat.lt_ge_cases j n) as [J|J].
      - unfold ix. rewrite nth_seq0 by exact J. cbn. unfold g. destruct (nth_error kept j) eqn:Q; [reflexivity|]. apply nth_error_None in Q. lia.
      - rewrite (proj2 (nth_error_None kept j)) by lia. rewrite (proj2 (nth_error_None ix j)) by lia. reflexivity. }
    assert (M1 : margi = map (fun x => within _ _ t x && negb (g x)) ix).
    { unfold margi. rewrite K1. clear. generalize g, ix. clear. intros g. induction ix as [|x l IH]; [reflexivity|]. cbn. f_equal. exact IH. }
    rewrite M1, K1. apply SUM. intros x X G. apply in_seq in X. unfold g in G. destruct (nth_error (s_dist _ _ s) x) as [dx|] eqn:DX; [|apply nth_error_None in DX; lia].
    rewrite (NK x dx DX) in G. apply andb_true_iff in G. destruct G as [G _]. apply within_iff, on_in, inbox_iff, G.
  - intros j b dj B DJ M. apply within_iff in M. destruct (inbox _ _ t j && lt_b (t_dist _ _ t j) dj) eqn:Q.
    + destruct (nth_keep kept (s_cat _ _ s) j) as [K R]; [lia|rewrite (NK j dj DJ), Q; reflexivity|]. exists (rank kept j). unfold sub. rewrite nth_error_app1 by (rewrite keep_length; lia). rewrite K. exact B.
    + destruct (nth_keep margi (s_cat _ _ s) j) as [K R]; [lia|rewrite (NM j dj DJ), M, Q; reflexivity|]. exists (count_true kept + rank margi j)%nat. unfold sub.
      rewrite nth_error_app2 by (rewrite keep_length; lia). rewrite keep_length by lia. replace (count_true kept + rank margi j - count_true kept)%nat with (rank margi j) by lia.
      rewrite nth_error_map, K, B. reflexivity.
Qed.

(** *** All images *)
Lemma kept_snoc : forall ts o i k t, kept (ts ++ [o]) i k t <->
  kept ts i k t \/ (k = length ts /\ o = Some t /\ on_image t i /\ t_dist _ _ t i < 10 ^ 100 /\
    forall k' t', nth_error ts k' = Some (Some t') -> in_margin t' i -> t_dist _ _ t i < t_dist _ _ t' i).
Proof.
  intros ts o i k t. unfold kept. destruct (Nat.lt_trichotomy k (length ts)) as [L|[L|L]].
  - rewrite nth_error_app1 by exact L. split.
    + intros (A & B & C & D). left. repeat split; try tauto; try apply B. intros k' t' K E. apply (D k' t' K). rewrite nth_error_app1 by lia. exact E.
    + intros [(A & B & C & D)|(A & _)]; [|lia]. repeat split; try tauto; try apply B. intros k' t' K E. rewrite nth_error_app1 in E by lia. eapply D; eauto.
  - subst k. rewrite nth_error_app2, Nat.sub_diag by lia. cbn [nth_error]. split.
    + intros (A & B & C & D). right. injection A as ->. do 4 (split; [auto|]). intros k' t' E. assert (K : (k' < length ts)%nat) by (apply nth_error_Some; congruence).
      apply (D k' t' K). rewrite nth_error_app1 by exact K. exact E.
    + intros [(A & _)|(_ & -> & B & C & D)]; [assert (length ts < length ts)%nat by (apply nth_error_Some; congruence); lia|].
      do 3 (split; [auto|]). intros k' t' K E. rewrite nth_error_app1 in E by lia. eapply D; eauto.
  - split.
    + intros (A & _). assert (k < length (ts ++ [o]))%nat by (apply nth_error_Some; congruence). rewrite app_length in H. cbn in H. lia.
    + intros [(A & _)|(A & _)]; [|lia]. assert (k < length ts)%nat by (apply nth_error_Some; congruence). lia.
Qed.
Lemma run_snoc : forall ts o s, tiles_run s (ts ++ [o]) = (s <- tiles_run s ts ;; tile_step s o).
Proof.
  induction ts as [|t ts IH]; intros o s; cbn [app WiseModel.tiles_run].
  - cbn [bind]. destruct (tile_step s o) as [s'|]; reflexivity.
  - destruct (tile_step s t); cbn [bind]; [apply IH|reflexivity].
Qed.
(** All that is reported of a source comes from its last image: it, its
    statistics if there are any, the date if it has one. *)
Definition reports (s : st) (i : nat) (a : src) (t : tim) : Prop := exists b b' iv x e,
  evolves a b /\ measured t b b' iv x /\ nth_error (s_cat _ _ s) i = Some b' /\ nth_error (s_iv _ _ s) i = Some iv /\
  (forall v, x = Some v -> nth_error (s_stat _ _ s) i = Some v) /\
  nth_error (s_nexp _ _ s) i = Some e /\ exposures_at t i e /\
  (forall u v, t_mjd _ _ t = Some (u, v) -> nth_error (s_mjd _ _ s) i = Some ((u + v) / 2)) /\
  nth_error (s_tile _ _ s) i = Some (t_id _ _ t).
Definition inv (cat : list src) (tile : list string) (ts : list (option tim)) (s : st) : Prop := wf (length cat) s /\
  forall i a, nth_error cat i = Some a ->
  (exists d, nth_error (s_dist _ _ s) i = Some d /\ forall x, x < d <-> x < 10 ^ 100 /\ forall k t, nth_error ts k = Some (Some t) -> in_margin t i -> x < t_dist _ _ t i) /\
  (forall k t, last_kept ts i k t -> reports s i a t) /\
  ((forall k t, ~ kept ts i k t) -> says s i = says (band_start cat tile) i) /\
  exists b, nth_error (s_cat _ _ s) i = Some b /\ evolves a b.
Definition all_good (ts : list (option tim)) : Prop := forall t, In (Some t) ts -> good t.
Lemma run_inv : forall cat tile ts s, length tile = length cat -> all_good ts -> tiles_run (band_start cat tile) ts = Ok s -> inv cat tile ts s.
Proof.
  intros cat tile ts. induction ts as [|o ts IH] using rev_ind; intros s LT G E.
  - injection E as <-. split; [unfold wf, WiseModel.band_start; cbn; rewrite !map_length; auto 10|]. intros i a A. split; [|split; [|split]].
    + exists (10 ^ 100). unfold WiseModel.band_start. cbn [s_dist]. rewrite nth_error_map, A. split; [reflexivity|]. intros x. split; [intros X; split; [exact X|]; intros [|k] t K; discriminate|tauto].
    + intros k t ((K & _) & _). destruct k; discriminate.
    + reflexivity.
    + exists a. split; [exact A|constructor].
  - rewrite run_snoc in E. destruct (tiles_run (band_start cat tile) ts) as [s1|] eqn:E1; [|discriminate]. cbn [bind] in E.
    assert (G1 : all_good ts) by (intros t T; apply G, in_or_app; auto). destruct (IH s1 LT G1 eq_refl) as (W & INV). destruct o as [t|].
    + assert (GT : good t) by (apply G, in_or_app; right; left; reflexivity). destruct (step_spec _ _ _ _ W GT E) as (W' & ST). split; [exact W'|].
      intros i a A. destruct (INV i a A) as ((d & D & DX) & REP & NONE & b & B & EV). destruct (ST i d D) as (D' & SAY). 
      assert (KEY : inbox _ _ t i && lt_b (t_dist _ _ t i) d = true <-> kept (ts ++ [Some t]) i (length ts) t).
      { rewrite andb_true_iff, inbox_iff, lt_b_true, DX, kept_snoc. split.
        - intros (O1 & O2 & O3). right. auto 8.
        - intros [(K & _)|(_ & _ & K1 & K2 & K3)]; [assert (length ts < length ts)%nat by (apply nth_error_Some; congruence); lia|]. auto. }
      split; [|split; [|split]].
      * eexists. split; [exact D'|]. intros x. split.
        -- intros X. assert (XD : x < d) by (destruct (within _ _ t i && lt_b (t_dist _ _ t i) d) eqn:Q; [apply andb_true_iff in Q; destruct Q as [_ Q]; apply lt_b_true in Q; lra|exact X]).
           apply DX in XD. split; [apply XD|]. intros k t' K M. destruct (Nat.lt_ge_cases k (length ts)) as [L|L]; [rewrite nth_error_app1 in K by exact L; eapply (proj2 XD); eauto|].
           assert (k < length (ts ++ [Some t]))%nat by (apply nth_error_Some; congruence). rewrite app_length in H. cbn in H. assert (k = length ts) by lia. subst k.
           rewrite nth_error_app2, Nat.sub_diag in K by lia. injection K as <-. apply within_iff in M. rewrite M in X. cbn [andb] in X.
           destruct (lt_b (t_dist _ _ t i) d) eqn:Q; [exact X|]. assert (~ t_dist _ _ t i < d) by (rewrite <- lt_b_true; congruence). lra.
        -- intros (X1 & X2). assert (XD : x < d) by (apply DX; split; [exact X1|]; intros k t' K M; apply (X2 k t'); [rewrite nth_error_app1 by (apply nth_error_Some; congruence); exact K|exact M]).
           destruct (within _ _ t i && lt_b (t_dist _ _ t i) d) eqn:Q; [|exact XD]. apply andb_true_iff in Q. destruct Q as [Q _]. apply within_iff in Q.
           apply (X2 (length ts) t); [rewrite nth_error_app2, Nat.sub_diag by lia; reflexivity|exact Q].
      * intros k t' (K & LST). destruct (inbox _ _ t i && lt_b (t_dist _ _ t i) d) eqn:Q.
        -- assert (KT := proj1 KEY eq_refl). destruct (Nat.eq_dec k (length ts)) as [->|NK].
           ++ assert (t' = t). { destruct K as (K & _). destruct KT as (KT & _). congruence. } subst t'.
              destruct SAY as (b1 & b' & iv & x & y & e & m & MS & S1 & S2). unfold says in S1, S2. injection S1 as S11 S12 S13 S14. injection S2 as S21 S22 S23 S24 S25 S26.
              exists b1, b', iv, x, (exposures _ _ t i). assert (b1 = b) by congruence. subst b1. split; [exact EV|]. split; [exact MS|]. split; [exact S21|]. split; [exact S22|].
              split; [intros v ->; exact S23|]. split; [exact S24|]. split; [apply exposures_ok; apply KT|]. split; [intros u v M; rewrite M in S25; exact S25|exact S26].
           ++ exfalso. apply (LST (length ts) t); [|exact KT]. assert (k < length (ts ++ [Some t]))%nat by (apply nth_error_Some; destruct K; congruence). rewrite app_length in H. cbn in H. lia.
        -- assert (NT : ~ kept (ts ++ [Some t]) i (length ts) t) by (rewrite <- KEY; discriminate).
           assert (K1 : kept ts i k t'). { apply kept_snoc in K. destruct K as [K|(-> & K1 & K2)]; [exact K|]. exfalso. apply NT. injection K1 as ->. apply kept_snoc. right. tauto. }
           assert (R : reports s1 i a t'). { apply (REP k t'). split; [exact K1|]. intros k2 t2 L2 K2. apply (LST k2 t2 L2). apply kept_snoc. left. exact K2. }
           unfold says in SAY. injection SAY as Q1 Q2 Q3 Q4 Q5 Q6. destruct R as (b2 & b' & iv & x & e & R). exists b2, b', iv, x, e. rewrite Q1, Q2, Q3, Q4, Q5, Q6. exact R.
      * intros NK. destruct (inbox _ _ t i && lt_b (t_dist _ _ t i) d) eqn:Q.
        -- exfalso. apply (NK (length ts) t). apply KEY. reflexivity.
        -- rewrite SAY. apply NONE. intros k t' K. apply (NK k t'). apply kept_snoc. left. exact K.
      * destruct (inbox _ _ t i && lt_b (t_dist _ _ t i) d).
        -- destruct SAY as (b1 & b' & iv & x & y & e & m & MS & S1 & S2). unfold says in S1, S2. injection S1 as S11 S12 S13 S14. injection S2 as S21 S22 S23 S24 S25 S26.
           exists b'. split; [exact S21|]. assert (b1 = b) by congruence. subst b1. econstructor; eauto.
        -- unfold says in SAY. injection SAY as Q1 Q2 Q3 Q4 Q5 Q6. exists b. split; [congruence|exact EV].
    + injection E as <-. split; [exact W|]. intros i a A. destruct (INV i a A) as ((d & D & DX) & REP & NONE & REST).
      assert (KS : forall k t, kept (ts ++ [None]) i k t <-> kept ts i k t) by (intros k t; rewrite kept_snoc; split; [intros [K|(_ & K & _)]; [exact K|discriminate]|auto]).
      split; [|split; [|split; [|exact REST]]].
      * exists d. split; [exact D|]. intros x. rewrite DX. split; intros (X1 & X2); split; try exact X1; intros k t K M.
        -- apply (X2 k t); [|exact M]. destruct (Nat.lt_ge_cases k (length ts)) as [L|L]; [rewrite nth_error_app1 in K by exact L; exact K|].
           rewrite nth_error_app2 in K by exact L. destruct (k - length ts)%nat as [|[|]]; discriminate.
        -- apply (X2 k t); [|exact M]. rewrite nth_error_app1 by (apply nth_error_Some; congruence). exact K.
      * intros k t (K & LST). apply (REP k t). split; [apply KS, K|]. intros k' t' L K'. apply (LST k' t' L). apply KS, K'.
      * intros NK. apply NONE. intros k t K. apply (NK k t). apply KS, K.
Qed.
(** Each source is reported from the last image that measures it. *)
Theorem C89_source : forall cat tile ts s i a, length tile = length cat -> all_good ts -> tiles_run (band_start cat tile) ts = Ok s -> nth_error cat i = Some a ->
  forall k t, last_kept ts i k t -> reports s i a t.
Proof. intros cat tile ts s i a LT G E A. apply (proj2 (run_inv cat tile ts s LT G E) i a A). Qed.
(** A source measured by none is left alone and reported with zero flux, inverse
    variance and exposures, and without magnitude. *)
Theorem C89_outside : forall cat tile ts s i a, length tile = length cat -> all_good ts -> tiles_run (band_start cat tile) ts = Ok s -> nth_error cat i = Some a ->
  (forall k t, ~ kept ts i k t) -> nth_error (s_cat _ _ s) i = Some a /\ nth_error (rows s) i = Some (mkRow _ 0 0 None None no_stat 0%Z) /\ nth_error (s_tile _ _ s) i = nth_error tile i.
Proof.
  intros cat tile ts s i a LT G E A NK. destruct (run_inv cat tile ts s LT G E) as ((W1 & W2 & W3 & W4 & W5 & W6 & W7) & INV). destruct (INV i a A) as (_ & _ & NONE & _). specialize (NONE NK).
  unfold says, WiseModel.band_start in NONE. cbn [s_cat s_iv s_stat s_nexp s_mjd s_tile] in NONE. rewrite !nth_error_map, A in NONE. cbn [option_map] in NONE. injection NONE as Q1 Q2 Q3 Q4 Q5 Q6.
  split; [exact Q1|]. split; [|exact Q6]. unfold WiseModel.rows. rewrite nth_map2 by (rewrite !map2_length; rewrite ?map_length; lia).
  rewrite !nth_map2 by (rewrite ?map_length; lia). rewrite nth_error_map, Q1, Q2, Q3, Q4. cbn [option_map fst snd]. f_equal. unfold make_row.
  destruct (Req_EM_T 0 0) as [_|X]; [|lra]. replace (lt_b 0 0) with false; [reflexivity|]. unfold lt_b. destruct (Rlt_dec 0 0); [lra|reflexivity].
Qed.
(** The images around a source do not compete with those it is on. *)
Definition separated (ts : list (option tim)) (i : nat) : Prop := forall t t', In (Some t) ts -> In (Some t') ts ->
  on_image t i -> in_margin t' i -> ~ on_image t' i -> t_dist _ _ t i < t_dist _ _ t' i.
Lemma on_image_dec : forall t i, {on_image t i} + {~ on_image t i}.
Proof. intros t i. destruct (inbox _ _ t i) eqn:B; [left; apply inbox_iff, B|right; rewrite <- inbox_iff; congruence]. Qed.
Definition first_min (ts : list (option tim)) (i k : nat) (t : tim) : Prop := nth_error ts k = Some (Some t) /\ on_image t i /\
  forall k' t', nth_error ts k' = Some (Some t') -> on_image t' i -> t_dist _ _ t i <= t_dist _ _ t' i /\ ((k' < k)%nat -> t_dist _ _ t i < t_dist _ _ t' i).
Lemma first_min_ex : forall ts i, (exists k t, first_min ts i k t) \/ forall t, In (Some t) ts -> ~ on_image t i.
Proof.
  intros ts i. induction ts as [|o ts IH]; [right; intros t []|].
  assert (SKIP : (forall t, o = Some t -> ~ on_image t i) -> (exists k t, first_min (o :: ts) i k t) \/ forall t, In (Some t) (o :: ts) -> ~ on_image t i).
  { intros NO. destruct IH as [(k & t & A & B & C)|IH].
    - left. exists (S k), t. split; [exact A|]. split; [exact B|]. intros [|k'] t' K O; [injection K as ->; exfalso; eapply NO; eauto|].
      destruct (C k' t' K O) as [C1 C2]. split; [exact C1|]. intros L. apply C2. lia.
    - right. intros t [->|T]; [apply NO; reflexivity|apply IH, T]. }
  destruct o as [t0|]; [|apply SKIP; discriminate]. destruct (on_image_dec t0 i) as [O0|O0]; [|apply SKIP; intros t T; injection T as <-; exact O0]. left.
  destruct IH as [(k & t & A & B & C)|IH].
  - destruct (Rle_lt_dec (t_dist _ _ t0 i) (t_dist _ _ t i)) as [L|L].
    + exists 0%nat, t0. split; [reflexivity|]. split; [exact O0|]. intros [|k'] t' K O; [injection K as <-; split; [lra|lia]|]. destruct (C k' t' K O). split; [lra|lia].
    + exists (S k), t. split; [exact A|]. split; [exact B|]. intros [|k'] t' K O; [injection K as <-; split; [lra|intros _; exact L]|].
      destruct (C k' t' K O) as [C1 C2]. split; [exact C1|]. intros L'. apply C2. lia.
  - exists 0%nat, t0. split; [reflexivity|]. split; [exact O0|]. intros [|k'] t' K O; [injection K as <-; split; [lra|lia]|]. exfalso. eapply IH; [eapply nth_error_In; exact K|exact O].
Qed.
(** Then the report is that of the image with the nearest centre among those
    the source is on, the first if there are several. *)
Theorem C89_nearest : forall ts i, separated ts i -> (forall t, In (Some t) ts -> on_image t i -> t_dist _ _ t i < 10 ^ 100) ->
  (exists t, In (Some t) ts /\ on_image t i) -> exists k t, last_kept ts i k t /\
  forall k' t', nth_error ts k' = Some (Some t') -> on_image t' i -> t_dist _ _ t i <= t_dist _ _ t' i /\ ((k' < k)%nat -> t_dist _ _ t i < t_dist _ _ t' i).
Proof.
  intros ts i SEP FIN (t0 & T0 & O0). destruct (first_min_ex ts i) as [(k & t & A & B & C)|NO]; [|exfalso; eapply NO; eauto].
  exists k, t. split; [|exact C]. assert (T := nth_error_In _ _ A). split.
  - split; [exact A|]. split; [exact B|]. split; [apply FIN; assumption|]. intros k' t' L K M. destruct (on_image_dec t' i) as [O|O]; [apply (C k' t' K O), L|].
    apply SEP; try assumption. eapply nth_error_In; exact K.
  - intros k' t' L (K & O & _ & D). specialize (D k t L A (on_in _ _ B)). destruct (C k' t' K O). lra.
Qed.
(** So it is for whole tiles, unless the source is on the very edge. *)
Definition whole (t : tim) (i : nat) : Prop := t_w _ _ t = 2048%Z /\ t_h _ _ t = 2048%Z /\
  t_dist _ _ t i = Rmax (Rabs (t_x _ _ t i + 1 - (2048 + 1) / 2)) (Rabs (t_y _ _ t i + 1 - (2048 + 1) / 2)).
Theorem C89_whole_tiles : forall ts i, (forall t, In (Some t) ts -> whole t i) ->
  (forall t, In (Some t) ts -> on_image t i -> t_x _ _ t i <> - / 2 /\ t_y _ _ t i <> - / 2) -> 
  separated ts i /\ forall t, In (Some t) ts -> on_image t i -> t_dist _ _ t i < 10 ^ 100.
Proof.
  intros ts i W NE. assert (IN : forall t, In (Some t) ts -> on_image t i -> t_dist _ _ t i < 1024).
  { intros t T O. destruct (W t T) as (W1 & W2 & W3). destruct (NE t T O) as [N1 N2]. destruct O as [[X1 X2] [Y1 Y2]]. rewrite W1 in X2. rewrite W2 in Y2. rewrite W3.
    apply Rmax_lub_lt; apply Rabs_def1; lra. }
  split.
  - intros t t' T T' O M NO. apply Rlt_le_trans with 1024; [apply IN; assumption|]. destruct (W t' T') as (W1 & W2 & W3). rewrite W3.
    destruct (Rle_lt_dec 1024 (Rmax (Rabs (t_x _ _ t' i + 1 - (2048 + 1) / 2)) (Rabs (t_y _ _ t' i + 1 - (2048 + 1) / 2)))) as [L|L]; [exact L|]. exfalso. apply NO.
    assert (AX := Rle_lt_trans _ _ _ (Rmax_l _ _) L). assert (AY := Rle_lt_trans _ _ _ (Rmax_r _ _) L). apply Rabs_def2 in AX. apply Rabs_def2 in AY.
    unfold on_image. rewrite W1, W2. lra.
  - intros t T O. apply Rlt_le_trans with 1024; [apply IN; assumption|]. apply Rle_trans with (10 ^ 4); [lra|]. apply Rle_pow; [lra|lia].
Qed.
(** *** The table *)
(** One row for each source; magnitudes are those of the fluxes and their errors
    the relative errors of the fluxes. *)
Theorem C89_rows : forall n s i b iv x e, wf n s -> says s i = (Some b, Some iv, Some x, Some e, nth_error (s_mjd _ _ s) i, nth_error (s_tile _ _ s) i) -> exists r,
  nth_error (rows s) i = Some r /\ length (rows s) = n /\ r_iv _ r = iv /\ r_stat _ r = x /\ r_nexp _ r = e /\ (iv <> 0 -> r_flux _ r = flux b) /\ (iv = 0 -> r_flux _ r = 0) /\
  match r_mag _ r with Some m => r_flux _ r = Rpower 10 ((45 / 2 - m) / (5 / 2)) | None => r_flux _ r <= 0 end /\
  match r_mag_err _ r with Some d => 0 < iv /\ 0 < r_flux _ r /\ d = 5 / 2 / ln 10 * (/ sqrt iv / r_flux _ r) | None => r_flux _ r <= 0 \/ iv <= 0 end.
Proof.
  intros n s i b iv x e (W1 & W2 & W3 & W4 & W5 & W6 & W7) SAY. unfold says in SAY. injection SAY as Q1 Q2 Q3 Q4.
  exists (make_row _ (flux b) iv x e). split.
  { unfold WiseModel.rows. rewrite nth_map2 by (rewrite !map2_length; rewrite ?map_length; lia). rewrite !nth_map2 by (rewrite ?map_length; lia). rewrite nth_error_map, Q1, Q2, Q3, Q4. reflexivity. }
  split; [unfold WiseModel.rows; rewrite !map2_length; rewrite ?map2_length; rewrite ?map_length; lia|]. unfold make_row. cbn [r_iv r_stat r_nexp r_flux r_mag r_mag_err].
  do 3 (split; [reflexivity|]). set (f := if Req_EM_T iv 0 then 0 else flux b). split; [unfold f; destruct (Req_EM_T iv 0); tauto|]. split; [unfold f; destruct (Req_EM_T iv 0); tauto|].
  assert (L10 : 0 < ln 10) by (rewrite <- ln_1; apply ln_increasing; lra).
  destruct (lt_b 0 f) eqn:LF; cbn [andb].
  - apply lt_b_true in LF. split.
    + unfold nanomaggies_to_mag, log10, Rpower. rewrite <- (exp_ln f LF) at 1. f_equal. field. lra.
    + destruct (lt_b 0 iv) eqn:LI; [|right; assert (~ 0 < iv) by (rewrite <- lt_b_true; congruence); lra]. apply lt_b_true in LI. split; [exact LI|]. split; [exact LF|].
      assert (SQ := sqrt_lt_R0 _ LI).
      replace (- (5 / 2) / ln 10 * (1 / sqrt iv) / f) with (- (5 / 2 / ln 10 * (/ sqrt iv / f))) by (field; repeat split; lra). rewrite Rabs_Ropp. apply Rabs_right. apply Rle_ge.
      apply Rmult_le_pos; apply Rmult_le_pos; try lra; apply Rlt_le; try apply Rinv_0_lt_compat; try assumption.
  - assert (~ 0 < f) by (rewrite <- lt_b_true; congruence). split; [lra|left; lra].
Qed.
(** Bands: one table for each, whose photometry starts from the sources left by
    the bands before. *)
Theorem C89_bands : forall cat bs cat' tile' out, (forall ts, In ts bs -> all_good ts) -> unwise_forcedphot _ _ flux copy no_stat cat bs = Ok (cat', tile', out) ->
  length out = length bs /\ Forall2 evolves cat cat' /\ forall j ts, nth_error bs j = Some ts -> exists c tl s, Forall2 evolves cat c /\ length tl = length c /\
  tiles_run (band_start c tl) ts = Ok s /\ nth_error out j = Some (rows s, mjd_column _ _ s).
Proof.
  intros cat bs cat' tile' out. unfold unwise_forcedphot. set (tile0 := map _ cat). assert (LT : length tile0 = length cat) by (unfold tile0; apply map_length). clearbody tile0. revert cat tile0 cat' tile' out LT.
  assert (TRANS : forall a b c, evolves a b -> evolves b c -> evolves a c) by (intros a b c H1 H2; induction H2; [exact H1|econstructor; eauto]).
  assert (TR2 : forall l1 l2 l3, Forall2 evolves l1 l2 -> Forall2 evolves l2 l3 -> Forall2 evolves l1 l3).
  { intros l1 l2 l3 F. revert l3. induction F; intros l3 F2; inversion F2; subst; constructor; eauto. }
  induction bs as [|b bs IH]; intros cat tile cat' tile' out LT G E; cbn [bands_run] in E.
  - injection E as <- <- <-. split; [reflexivity|]. split; [clear; induction cat; constructor; [constructor|assumption]|]. intros [|j] ts J; discriminate.
  - destruct (tiles_run (band_start cat tile) b) as [s|] eqn:R; [|discriminate]. cbn [bind] in E.
    destruct (bands_run _ _ flux copy no_stat (s_cat _ _ s) (s_tile _ _ s) bs) as [[[c2 t2] o2]|] eqn:E2; [|discriminate]. cbn [bind] in E. injection E as <- <- <-.
    destruct (run_inv cat tile b s LT (G b (or_introl eq_refl)) R) as ((W1 & _ & _ & _ & _ & _ & W7) & INV).
    assert (F1 : Forall2 evolves cat (s_cat _ _ s)).
    { assert (EX : forall i a, nth_error cat i = Some a -> exists b0, nth_error (s_cat _ _ s) i = Some b0 /\ evolves a b0) by (intros i a A; apply (INV i a A)). clear - W1 EX. revert W1 EX. generalize (s_cat _ _ s) as l.
      induction cat as [|a cat IH]; intros [|x l] L EX; try discriminate; constructor; [destruct (EX 0%nat a eq_refl) as (? & Q & V); injection Q as <-; exact V|]. apply IH; [cbn in L; lia|]. intros i. apply (EX (S i)). }
    destruct (IH (s_cat _ _ s) (s_tile _ _ s) c2 t2 o2) as (L & F2 & NX); [lia|intros ts T; apply G; right; exact T|exact E2|].
    split; [cbn; lia|]. split; [eapply TR2; eauto|]. intros [|j] ts J.
    + injection J as <-. exists cat, tile, s. split; [clear; induction cat; constructor; [constructor|assumption]|]. auto.
    + destruct (NX j ts J) as (c & tl & s' & F3 & LL & R' & O). exists c, tl, s'. split; [eapply TR2; eauto|]. auto.
Qed.
(** *** Refutations *)
(** A source beside an image cut to a region, nearer to the centre of its tile,
    is lost to the image it is on if that comes later, but not if it comes first. *)
Theorem C89_region_refuted : forall t1 t2 i, in_margin t1 i -> ~ on_image t1 i -> on_image t2 i -> t_dist _ _ t1 i <= t_dist _ _ t2 i -> t_dist _ _ t2 i < 10 ^ 100 ->
  (forall k t, ~ kept [Some t1; Some t2] i k t) /\ last_kept [Some t2; Some t1] i 0 t2.
Proof.
  intros t1 t2 i M1 N1 O2 D FIN. split.
  - intros [|[|k]] t (K & O & _ & L); cbn in K; [injection K as <-; contradiction| |destruct k; discriminate]. injection K as <-. specialize (L 0%nat t1 ltac:(lia) eq_refl M1). lra.
  - split; [repeat split; try apply O2; [exact FIN|intros; lia]|]. intros [|[|k]] t L (K & O & _); [lia| |destruct k; discriminate]. injection K as <-. contradiction.
Qed.
(** When the nearer image has no dates or statistics, those of the other remain. *)
Theorem C89_mixed_refuted : forall cat tile t1 t2 s s1 i a u v, length tile = length cat -> good t1 -> good t2 -> nth_error cat i = Some a ->
  tiles_run (band_start cat tile) [Some t2; Some t1] = Ok s -> on_image t1 i -> on_image t2 i -> t_dist _ _ t1 i < t_dist _ _ t2 i -> t_dist _ _ t2 i < 10 ^ 100 ->
  t_mjd _ _ t2 = Some (u, v) -> t_mjd _ _ t1 = None -> (forall l l' iv fs, t_phot _ _ t1 l = Ok (l', iv, fs) -> fs = None) -> tile_step (band_start cat tile) (Some t2) = Ok s1 ->
  nth_error (s_tile _ _ s) i = Some (t_id _ _ t1) /\ nth_error (s_mjd _ _ s) i = Some ((u + v) / 2) /\ nth_error (s_stat _ _ s) i = nth_error (s_stat _ _ s1) i.
Proof.
  intros cat tile t1 t2 s s1 i a u v LT G1 G2 A E O1 O2 D FIN M2 M1 NF E1. cbn [WiseModel.tiles_run] in E. rewrite E1 in E. cbn [bind] in E.
  destruct (tile_step s1 (Some t1)) as [s'|] eqn:E2; [|discriminate]. injection E as ->.
  assert (W0 : wf (length cat) (band_start cat tile)) by (unfold wf, WiseModel.band_start; cbn; rewrite !map_length; auto 10).
  destruct (step_spec _ _ _ _ W0 G2 E1) as (W1 & S1). destruct (step_spec _ _ _ _ W1 G1 E2) as (W2 & S2).
  destruct (S1 i (10 ^ 100)) as (D1 & SAY1); [unfold WiseModel.band_start; cbn [s_dist]; rewrite nth_error_map, A; reflexivity|].
  assert (B2 : inbox _ _ t2 i = true) by (apply inbox_iff, O2). assert (I2 : within _ _ t2 i = true) by (apply within_iff, on_in, O2).
  assert (L2 : lt_b (t_dist _ _ t2 i) (10 ^ 100) = true) by (apply lt_b_true, FIN). rewrite I2, L2 in D1. rewrite B2, L2 in SAY1. cbn [andb] in D1, SAY1.
  destruct (S2 i _ D1) as (_ & SAY2). assert (B1 : inbox _ _ t1 i = true) by (apply inbox_iff, O1). assert (L1 : lt_b (t_dist _ _ t1 i) (t_dist _ _ t2 i) = true) by (apply lt_b_true, D).
  rewrite B1, L1 in SAY2. cbn [andb] in SAY2. destruct SAY1 as (b & b' & iv & x & y & e & m & MS & _ & P). destruct SAY2 as (b2 & b2' & iv2 & x2 & y2 & e2 & m2 & MS2 & Q & P2).
  unfold says in P, Q, P2. rewrite M2 in P. rewrite M1 in P2. injection P as P_1 P_2 P_3 P_4 P_5 P_6. injection Q as Q_1 Q_2 Q_3 Q_4. injection P2 as R_1 R_2 R_3 R_4 R_5 R_6.
  assert (x2 = None). { destruct MS2 as (sub & sub' & ivs & fs & p & PH & _ & _ & _ & ->). rewrite (NF _ _ _ _ PH). reflexivity. } subst x2.
  split; [exact R_6|]. split; [congruence|]. congruence.
Qed.
End Props.

(** *** Examples: a source at the centre of one tile and on the border of another. *)
Definition ex_tim (id : string) (x : R) (f : nat) : tim nat nat :=
  mkTim _ _ id 2048 2048 (fun _ => x) (fun _ => 1000) (fun _ => Rmax (Rabs (x + 1 - (2048 + 1) / 2)) (Rabs (1000 + 1 - (2048 + 1) / 2))) (fun _ _ => 3%Z) None
    (fun l => Ok (map (fun _ => f) l, map (fun _ => 4) l, None)).
Lemma ex_good : forall id x f, good (ex_tim id x f).
Proof. intros id x f l l' iv fs E. cbn in E. injection E as <- <- <-. rewrite !map_length. auto. Qed.
Lemma ex_run : exists s, tiles_run nat nat (fun a => a) (band_start nat nat 0%nat [1%nat] [""%string]) [Some (ex_tim "B" 5 7); None; Some (ex_tim "A" 1000 9)] = Ok s.
Proof.
  set (s0 := band_start _ _ _ _ _). assert (OK : forall s t, (forall l, exists l' iv fs, t_phot _ _ t l = Ok (l', iv, fs)) -> exists s', tile_step nat nat (fun a => a) s (Some t) = Ok s').
  { intros s t H. unfold tile_step. destruct (_ =? 0)%nat; [eexists; reflexivity|]. match goal with |- context [t_phot _ _ t ?l] => destruct (H l) as (l' & iv & fs & ->) end. eexists. reflexivity. }
  destruct (OK s0 (ex_tim "B" 5 7)) as (s1 & E1); [intros; cbn; eauto|]. destruct (OK s1 (ex_tim "A" 1000 9)) as (s2 & E2); [intros; cbn; eauto|].
  exists s2. cbn [tiles_run]. rewrite E1. cbn [bind]. change (tile_step nat nat (fun a => a) s1 None) with (Ok s1). cbn [bind]. rewrite E2. reflexivity.
Qed.
Example C89_ex : let ts := [Some (ex_tim "B" 5 7); None; Some (ex_tim "A" 1000 9)] in exists s,
  tiles_run nat nat (fun a => a) (band_start nat nat 0%nat [1%nat] [""%string]) ts = Ok s /\ all_good ts /\ separated ts 0 /\
  last_kept ts 0 2 (ex_tim "A" 1000 9) /\ nth_error (s_cat _ _ s) 0 = Some 9%nat /\ nth_error (s_tile _ _ s) 0 = Some "A"%string /\
  exists r, nth_error (rows nat nat INR s) 0 = Some r /\ r_flux _ r = 9.
Proof.
  intros ts. destruct ex_run as (s & E). exists s. split; [exact E|].
  assert (G : all_good ts) by (intros t [T|[T|[T|[]]]]; try discriminate; injection T as <-; apply ex_good). split; [exact G|].
  assert (WH : forall t, In (Some t) ts -> whole t 0) by (intros t [T|[T|[T|[]]]]; try discriminate; injection T as <-; repeat split).
  destruct (C89_whole_tiles ts 0 WH) as (SEP & FIN); [intros t [T|[T|[T|[]]]]; try discriminate; injection T as <-; cbn; lra|]. split; [exact SEP|].
  assert (OA : on_image (ex_tim "A" 1000 9) 0) by (unfold on_image; cbn; lra).
  assert (LK : last_kept ts 0 2 (ex_tim "A" 1000 9)).
  { split.
    - split; [reflexivity|]. split; [exact OA|]. split; [apply FIN; [right; right; left; reflexivity|exact OA]|].
      intros [|[|k']] t' L K M; [|discriminate|lia]. injection K as <-. cbn. rewrite !Rabs_left by lra. unfold Rmax. repeat destruct (Rle_dec _ _); lra.
    - intros [|[|[|k']]] t' L (K & _); try lia. destruct k'; discriminate. }
  split; [exact LK|]. destruct (C89_source INR (fun a => a) 0%nat [1%nat] [""%string] ts s 0 1%nat eq_refl G E eq_refl 2 _ LK) as (b & b' & iv & x & e & EV & MS & R1 & R2 & R3 & R4 & R5 & R6 & R7).
  destruct MS as (sub & sub' & ivs & fs & p & PH & P1 & P2 & P3 & P4). cbn in PH. injection PH as <- <- <-.
  rewrite nth_error_map, P1 in P2. rewrite nth_error_map, P1 in P3. injection P2 as <-. injection P3 as <-. split; [exact R1|]. split; [exact R7|].
  destruct (run_inv INR (fun a => a) 0%nat [1%nat] [""%string] ts s eq_refl G E) as (W & _). assert (W' := W). destruct W' as (_ & _ & _ & W4 & _).
  destruct (nth_error (s_stat _ _ s) 0) as [x0|] eqn:X0; [|apply nth_error_None in X0; cbn in W4; lia].
  destruct (C89_rows INR (fun a => a) 1 s 0 9%nat 4 x0 e W) as (r & RR & _ & RI & _ & _ & RF & _); [unfold says; rewrite R1, R2, X0, R4; reflexivity|].
  exists r. split; [exact RR|]. rewrite RF by lra. cbn. lra.
Qed.

Print Assumptions C89_source.
Print Assumptions C89_outside.
Print Assumptions C89_nearest.
Print Assumptions C89_whole_tiles.
Print Assumptions C89_rows.
Print Assumptions C89_bands.
Print Assumptions C89_region_refuted.
Print Assumptions C89_mixed_refuted.
Print Assumptions C89_together.
