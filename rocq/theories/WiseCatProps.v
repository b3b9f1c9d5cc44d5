(** C97: reading the WISE catalogues, stored in parts by declination, gives
    exactly the sources asked for (wise/wisecat.py, wise/allwisecat.py). *)
From Coq Require Import List ZArith Reals Bool Lra Lia.
From Verif Require Import Base WiseCatModel.
Import ListNotations.
Local Open Scope R_scope.

(** ** Vocabulary

    A catalogue: for each part its rows, a row being a position (RA, Dec) and
    its columns.  A part is [stored] if its two files have its positions and
    its columns, in the same order; [sorted]: the rows of each part have
    declinations in the range of the part. *)
Definition stored {A} (rd : nat -> res (list (R * R))) (full : nat -> res (list A)) (k : nat) (part : list (R * R * A)) : Prop :=
  rd k = Ok (map fst part) /\ full k = Ok (map snd part).
Definition sorted {A} (ranges : list (R * R)) (cat : list (list (R * R * A))) : Prop :=
  Forall2 (fun rg part => forall row, In row part -> fst rg <= snd (fst row) <= snd rg) ranges cat.
(** the answer: None if there is nothing to report *)
Definition answer {A} (l : list A) : option (list A) := match l with [] => None | _ => Some l end.
Definition boxed (r0 r1 d0 d1 : R) (p : R * R) : Prop := r0 <= fst p <= r1 /\ d0 <= snd p <= d1.

(** ** The loops *)
Lemma le_b_iff a b : le_b a b = true <-> a <= b.
Proof. unfold le_b. destruct (Rle_dec a b); split; intros; auto; discriminate || contradiction. Qed.
Lemma lt_b_iff a b : lt_b a b = true <-> a < b.
Proof. unfold lt_b. destruct (Rlt_dec a b); split; intros; auto; discriminate || contradiction. Qed.

Section Loop.
Context {A C : Type} (column : option (list C) -> A -> A) (rd : nat -> res (list (R * R))) (full : nat -> res (list A))
        (cols : option (list C)) (f : R * R -> bool) (d0 d1 : R).
Fixpoint loop (i : nat) (ranges : list (R * R)) : res (list (list A)) :=
  match ranges with
  | [] => Ok []
  | (dlo, dhi) :: rest =>
      if lt_b d1 dlo || lt_b dhi d0 then loop (S i) rest
      else
        t <- rd (i + 1)%nat ;;
        let I := flatnonzero f 0 t in
        if (length I =? 0)%nat then loop (S i) rest
        else
          t <- read_rows column full cols (i + 1) I ;;
          more <- loop (S i) rest ;;
          Ok (t :: more)
  end.

Lemma rows_ok (part pre : list (R * R * A)) :
  mapr (fun i => a <- py_get (map snd (pre ++ part)) i ;; Ok (column cols a)) (flatnonzero f (length pre) (map fst part))
  = Ok (map (fun row => column cols (snd row)) (filter (fun row => f (fst row)) part)).
Proof.
  revert pre. induction part as [|row part IH]; intros; [reflexivity|].
  cbn [map flatnonzero filter].
  assert (E : mapr (fun i => a <- py_get (map snd (pre ++ row :: part)) i ;; Ok (column cols a)) (flatnonzero f (S (length pre)) (map fst part))
              = Ok (map (fun row => column cols (snd row)) (filter (fun row => f (fst row)) part))).
  { specialize (IH (pre ++ [row])). rewrite <- app_assoc in IH. cbn [app] in IH. rewrite app_length in IH. cbn [length] in IH.
    replace (length pre + 1)%nat with (S (length pre)) in IH by lia. exact IH. }
  destruct (f (fst row)); cbn [mapr map]; auto.
  assert (P : py_get (map snd (pre ++ row :: part)) (length pre) = Ok (snd row)).
  { unfold py_get. rewrite nth_error_map, nth_error_app2, Nat.sub_diag by lia. reflexivity. }
  rewrite P, E. reflexivity.
Qed.
Lemma flat_length i (part : list (R * R * A)) :
  length (flatnonzero f i (map fst part)) = length (filter (fun row => f (fst row)) part).
Proof. revert i. induction part as [|row part IH]; intros; cbn; auto. destruct (f (fst row)); cbn; auto. Qed.

Lemma loop_ok (H : forall p, f p = true -> d0 <= snd p <= d1) ranges cat (HS : sorted ranges cat) : forall i,
  (forall j rg part, nth_error ranges j = Some rg -> nth_error cat j = Some part -> fst rg <= d1 -> d0 <= snd rg ->
                     stored rd full (i + j + 1) part) ->
  exists l, loop i ranges = Ok l /\ Forall (fun t => t <> []) l /\
    concat l = map (fun row => column cols (snd row)) (filter (fun row => f (fst row)) (concat cat)).
Proof.
  induction HS as [|[dlo dhi] part ranges cat HR HS IH]; intros i HF; [exists []; auto|].
  cbn [loop]. cbn [fst snd] in HR.
  destruct (IH (S i)) as (l & El & Nl & Cl).
  { intros j rg p E1 E2 G1 G2. specialize (HF (S j) rg p E1 E2 G1 G2). replace (S i + j + 1)%nat with (i + S j + 1)%nat by lia. auto. }
  assert (EMPTY : filter (fun row => f (fst row)) part = [] ->
     concat l = map (fun row => column cols (snd row)) (filter (fun row => f (fst row)) (concat (part :: cat)))).
  { intros E. cbn [concat]. rewrite filter_app, E. auto. }
  destruct (lt_b d1 dlo || lt_b dhi d0) eqn:EB.
  - exists l. split; [|split]; auto. apply EMPTY.
    assert (forall row, In row part -> f (fst row) = false).
    { intros row HI. specialize (HR row HI). destruct (f (fst row)) eqn:E; auto. specialize (H _ E).
      apply orb_true_iff in EB. rewrite !lt_b_iff in EB. lra. }
    clear - H0. induction part as [|row part IH]; cbn; auto. rewrite (H0 row); [|now left]. apply IH. intros; apply H0; now right.
  - apply orb_false_iff in EB. destruct EB as [B1 B2].
    assert (dlo <= d1) by (apply Rnot_lt_le; intros X; apply lt_b_iff in X; congruence).
    assert (d0 <= dhi) by (apply Rnot_lt_le; intros X; apply lt_b_iff in X; congruence).
    destruct (HF 0%nat (dlo, dhi) part eq_refl eq_refl H0 H1) as [F1 F2].
    rewrite Nat.add_0_r in F1, F2. rewrite F1. cbn [bind].
    rewrite flat_length.
    destruct (length (filter (fun row => f (fst row)) part) =? 0)%nat eqn:EL.
    + apply Nat.eqb_eq, length_zero_iff_nil in EL. exists l. auto.
    + unfold read_rows. rewrite F2. cbn [bind]. pose proof (rows_ok part []) as E. cbn [app length] in E.
      rewrite E, El. cbn [bind]. eexists. split; [reflexivity|]. split.
      * constructor; auto. intros X. apply map_eq_nil in X. rewrite X in EL. discriminate.
      * cbn [concat]. rewrite filter_app, map_app, Cl. reflexivity.
Qed.
Lemma merged_answer (l : list (list A)) : Forall (fun t => t <> []) l -> merged l = answer (concat l).
Proof.
  intros H. destruct l as [|t l]; auto. inversion H as [|? ? H1 H2]; subst.
  destruct l as [|u l].
  - cbn. rewrite app_nil_r. destruct t; [congruence|reflexivity].
  - change (Some (concat (t :: u :: l)) = answer (concat (t :: u :: l))). cbn. destruct t; [congruence|]. reflexivity.
Qed.
End Loop.

Section Both.
Context {A C : Type} (column : option (list C) -> A -> A) (rd : nat -> res (list (R * R))) (full : nat -> res (list A))
        (cols : option (list C)).
Definition in_box (r0 r1 d0 d1 : R) (p : R * R) : bool := le_b r0 (fst p) && le_b (fst p) r1 && le_b d0 (snd p) && le_b (snd p) d1.
Lemma box_is r0 r1 d0 d1 ranges : forall i,
  box_loop column rd full cols r0 r1 d0 d1 i ranges = loop column rd full cols (in_box r0 r1 d0 d1) d0 d1 i ranges.
Proof.
  induction ranges as [|[dlo dhi] ranges IH]; intros; cbn [box_loop loop]; auto.
  rewrite IH. reflexivity.
Qed.
Lemma wcs_is W H to_pixel d0 d1 pm ranges : forall i,
  wcs_loop column rd full cols W H to_pixel d0 d1 pm i ranges
  = loop column rd full cols (fun p => le_b d0 (snd p) && le_b (snd p) d1 && in_margin W H to_pixel pm p) d0 d1 i ranges.
Proof.
  induction ranges as [|[dlo dhi] ranges IH]; intros; cbn [wcs_loop loop]; auto.
  rewrite IH. reflexivity.
Qed.
End Both.

(** ** C97_box: rows in the box, each once, in the order of the parts; None if
    there are none.  Only parts whose range meets the box need be there.  A
    selection [sel] of rows that passes a row exactly when its position is in
    the box, bounds included, says which. *)
Theorem C97_box {A C} (column : option (list C) -> A -> A) rd full cols ranges cat r0 r1 d0 d1 (sel : R * R * A -> bool)
  (S1 : sorted ranges cat)
  (S2 : forall j rg part, nth_error ranges j = Some rg -> nth_error cat j = Some part -> fst rg <= d1 -> d0 <= snd rg ->
        stored rd full (j + 1) part)
  (S3 : forall row, sel row = true <-> boxed r0 r1 d0 d1 (fst row)) :
  read_box column rd full cols ranges r0 r1 d0 d1
  = Ok (answer (map (fun row => column cols (snd row)) (filter sel (concat cat)))).
Proof.
  unfold read_box. rewrite box_is.
  destruct (loop_ok column rd full cols (in_box r0 r1 d0 d1) d0 d1) with (ranges := ranges) (cat := cat) (i := 0%nat) as (l & E & N & Cc); auto.
  { intros p E. unfold in_box in E. rewrite !andb_true_iff, !le_b_iff in E. tauto. }
  rewrite E. cbn [bind]. rewrite merged_answer by auto. rewrite Cc. do 3 f_equal.
  apply filter_ext. intros row. specialize (S3 row). unfold boxed in S3. unfold in_box.
  destruct (sel row) eqn:ES.
  - rewrite !andb_true_iff, !le_b_iff. tauto.
  - destruct (le_b r0 _ && _ && _ && _) eqn:EB; auto. rewrite !andb_true_iff, !le_b_iff in EB. intuition discriminate.
Qed.

(** ** C97_ranges: the ranges of both catalogues start at the south pole, end
    at the north pole, each begins where the one before it ends, and none is
    empty: a declination is in some range, and in two only at a limit. *)
Fixpoint chain (from to_ : R) (l : list (R * R)) : Prop :=
  match l with [] => from = to_ | (a, b) :: l => a = from /\ a < b /\ chain b to_ l end.
Fixpoint zchain (from to_ : Z) (l : list (Z * Z)) : bool :=
  match l with [] => (from =? to_)%Z | (a, b) :: l => (a =? from)%Z && (a <? b)%Z && zchain b to_ l end.
Lemma zchain_chain l : forall a b, zchain a b l = true -> chain (IZR a / 10000) (IZR b / 10000) (degrees l).
Proof.
  induction l as [|[u v] l IH]; intros a b H; cbn in *.
  - apply Z.eqb_eq in H. subst. reflexivity.
  - rewrite !andb_true_iff in H. destruct H as [[H1 H2] H3]. apply Z.eqb_eq in H1. apply Z.ltb_lt in H2. subst u.
    apply IZR_lt in H2. split; [reflexivity|]. split; [lra|]. apply IH. auto.
Qed.
Lemma chain_le l : forall a b, chain a b l -> a <= b.
Proof. induction l as [|[u v] l IH]; intros a b H; cbn in H; [lra|]. destruct H as (-> & H1 & H2). apply IH in H2. lra. Qed.
Lemma chain_cover l : forall a b x, chain a b l -> a <= x <= b -> l <> [] -> exists i rg, nth_error l i = Some rg /\ fst rg <= x <= snd rg.
Proof.
  induction l as [|[u v] l IH]; intros a b x H HX N; [congruence|]. destruct H as (-> & H1 & H2).
  destruct (Rle_dec x v).
  - exists 0%nat, (a, v). cbn. split; auto. lra.
  - destruct l as [|w l]; [cbn in H2; lra|]. destruct (IH v b x H2) as (i & rg & E1 & E2); [lra|congruence|].
    exists (S i), rg. auto.
Qed.
Lemma chain_once l : forall a b x i j ri rj, chain a b l -> nth_error l i = Some ri -> nth_error l j = Some rj -> (i < j)%nat ->
  fst ri <= x <= snd ri -> fst rj <= x <= snd rj -> j = S i /\ x = snd ri.
Proof.
  assert (LOW : forall k a b j rj, chain a b k -> nth_error k j = Some rj -> a <= fst rj /\ ((0 < j)%nat -> a < fst rj)).
  { induction k as [|[u v] k IH]; intros a b j rj H E; [destruct j; discriminate|]. destruct H as (-> & H1 & H2).
    destruct j; cbn in E.
    - injection E as <-. cbn. split; [lra|lia].
    - destruct (IH v b j rj H2 E). split; [lra|intros; lra]. }
  induction l as [|[u v] l IH]; intros a b x i j ri rj H E1 E2 L X1 X2; [destruct i; discriminate|]. destruct H as (-> & H1 & H2).
  destruct i, j; cbn in E1, E2; try lia.
  - injection E1 as <-. cbn in X1. cbn [snd]. destruct (LOW l v b j rj H2 E2) as [G1 G2].
    destruct j; [split; [reflexivity|lra]|]. assert (v < fst rj) by (apply G2; lia). lra.
  - destruct (IH v b x i j ri rj H2 E1 E2) as [J1 J2]; auto; try lia.
Qed.
Theorem C97_ranges :
  Forall (fun l : list (R * R) =>
    (forall dec, -90 <= dec <= 90 -> exists i rg, nth_error l i = Some rg /\ fst rg <= dec <= snd rg) /\
    (forall dec i j ri rj, nth_error l i = Some ri -> nth_error l j = Some rj -> (i < j)%nat ->
       fst ri <= dec <= snd ri -> fst rj <= dec <= snd rj -> j = S i /\ dec = snd ri) /\
    (forall i rg, nth_error l i = Some rg -> -90 <= fst rg /\ fst rg < snd rg /\ snd rg <= 90))
  [degrees wise_ranges; degrees allwise_ranges]
  /\ length (degrees wise_ranges) = 50%nat /\ length (degrees allwise_ranges) = 48%nat.
Proof.
  assert (G : forall l, zchain (-900000) 900000 l = true -> l <> [] ->
    (forall dec, -90 <= dec <= 90 -> exists i rg, nth_error (degrees l) i = Some rg /\ fst rg <= dec <= snd rg) /\
    (forall dec i j ri rj, nth_error (degrees l) i = Some ri -> nth_error (degrees l) j = Some rj -> (i < j)%nat ->
       fst ri <= dec <= snd ri -> fst rj <= dec <= snd rj -> j = S i /\ dec = snd ri) /\
    (forall i rg, nth_error (degrees l) i = Some rg -> -90 <= fst rg /\ fst rg < snd rg /\ snd rg <= 90)).
  { intros l Z N. apply zchain_chain in Z.
    replace (IZR (-900000) / 10000) with (-90) in Z by lra. replace (900000 / 10000) with 90 in Z by lra.
    assert (degrees l <> []) by (destruct l; [congruence|discriminate]).
    split; [|split].
    - intros. eapply chain_cover; eauto.
    - intros. eapply chain_once; eauto.
    - clear - Z. revert Z. generalize (degrees l) (-90). clear l. induction l as [|[u v] l IH]; intros a Z i rg E; [destruct i; discriminate|].
      destruct Z as (-> & H1 & H2). destruct i; cbn in E.
      + injection E as <-. cbn. apply chain_le in H2. lra.
      + destruct (IH v H2 i rg E) as (? & ? & ?). lra. }
  split; [|split; reflexivity].
  constructor; [|constructor; [|constructor]]; apply G; try (vm_compute; reflexivity); discriminate.
Qed.

(** ** C97_wcs: all rows that land within the margin of the image, if
    radec_bounds bounds the declination of the image and declination changes
    along the pixels no faster than the pixel scale says. *)
Definition near (W H : Z) (pm x y : R) : Prop :=
  1 / 2 - pm <= x <= IZR W + 1 / 2 + pm /\ 1 / 2 - pm <= y <= IZR H + 1 / 2 + pm.
Lemma clamp lo hi pm x : lo <= hi -> 0 <= pm -> lo - pm <= x <= hi + pm -> exists x', lo <= x' <= hi /\ Rabs (x - x') <= pm.
Proof.
  intros. destruct (Rlt_dec x lo).
  - exists lo. split; [lra|]. rewrite Rabs_left by lra. lra.
  - destruct (Rlt_dec hi x).
    + exists hi. split; [lra|]. rewrite Rabs_right by lra. lra.
    + exists x. split; [lra|]. replace (x - x) with 0 by lra. rewrite Rabs_R0. auto.
Qed.
Lemma corner a b pm : 0 <= pm -> Rabs a <= pm -> Rabs b <= pm -> sqrt (a * a + b * b) <= sqrt 2 * pm.
Proof.
  intros. replace (sqrt 2 * pm) with (sqrt (2 * (pm * pm))) by (rewrite sqrt_mult by nra; rewrite sqrt_square by auto; reflexivity). apply sqrt_le_1_alt.
  assert (forall c, Rabs c <= pm -> c * c <= pm * pm).
  { intros c Hc. replace (c * c) with (Rabs c * Rabs c).
    - apply Rmult_le_compat; auto using Rabs_pos.
    - rewrite <- Rabs_mult. apply Rabs_right. nra. }
  pose proof (H2 a H0). pose proof (H2 b H1). lra.
Qed.
Theorem C97_wcs {A C} (column : option (list C) -> A -> A) rd full cols ranges cat dmin dmax scale W H to_pixel pm
    (dec : R -> R -> R) (sel : R * R * A -> bool)
  (S0 : (0 <= W)%Z /\ (0 <= H)%Z /\ 0 <= pm /\ 0 <= scale)
  (B1 : forall p x y, to_pixel p = (true, x, y) -> snd p = dec x y)
  (B2 : forall x y, near W H 0 x y -> dmin <= dec x y <= dmax)
  (B3 : forall x y x' y', Rabs (dec x y - dec x' y') <= scale / 3600 * sqrt ((x - x') * (x - x') + (y - y') * (y - y')))
  (S1 : sorted ranges cat)
  (S2 : forall j part, nth_error cat j = Some part -> stored rd full (j + 1) part)
  (S3 : forall row, sel row = true <-> exists x y, to_pixel (fst row) = (true, x, y) /\ near W H pm x y) :
  read_wcs column rd full cols dmin dmax scale W H to_pixel ranges pm
  = Ok (answer (map (fun row => column cols (snd row)) (filter sel (concat cat)))).
Proof.
  unfold read_wcs. rewrite wcs_is. set (m := sqrt 2 * pm * scale / 3600).
  destruct S0 as (W0 & H0 & P0 & SC0). apply IZR_le in W0, H0.
  match goal with |- context [loop _ _ _ _ ?g] => set (f := g) end.
  destruct (loop_ok column rd full cols f (dmin - m) (dmax + m)) with (ranges := ranges) (cat := cat) (i := 0%nat) as (l & E & N & Cc); auto.
  { intros p E. unfold f in E. rewrite !andb_true_iff, !le_b_iff in E. tauto. }
  rewrite E. cbn [bind]. rewrite merged_answer by auto. rewrite Cc. do 3 f_equal.
  apply filter_ext. intros row. specialize (S3 row). unfold f.
  assert (M : in_margin W H to_pixel pm (fst row) = true <-> exists x y, to_pixel (fst row) = (true, x, y) /\ near W H pm x y).
  { unfold in_margin, near. destruct (to_pixel (fst row)) as [[ok x] y]. rewrite !andb_true_iff, !le_b_iff. split.
    - intros ((((-> & ?) & ?) & ?) & ?). exists x, y. auto.
    - intros (x' & y' & E1 & E2). injection E1 as -> -> ->. tauto. }
  assert (D : in_margin W H to_pixel pm (fst row) = true -> dmin - m <= snd (fst row) <= dmax + m).
  { rewrite M. intros (x & y & E1 & [NX NY]). rewrite (B1 _ _ _ E1).
    destruct (clamp (1 / 2) (IZR W + 1 / 2) pm x) as (x' & X1 & X2); [lra|auto|lra|].
    destruct (clamp (1 / 2) (IZR H + 1 / 2) pm y) as (y' & Y1 & Y2); [lra|auto|lra|].
    assert (NN : near W H 0 x' y') by (unfold near; lra). specialize (B2 _ _ NN).
    specialize (B3 x y x' y'). pose proof (corner _ _ _ P0 X2 Y2) as K.
    assert (G : scale / 3600 * sqrt ((x - x') * (x - x') + (y - y') * (y - y')) <= m).
    { unfold m. replace (sqrt 2 * pm * scale / 3600) with (scale / 3600 * (sqrt 2 * pm)) by (unfold Rdiv; ring).
      apply Rmult_le_compat_l; auto. unfold Rdiv. apply Rmult_le_pos; [auto|lra]. }
    assert (Rabs (dec x y - dec x' y') <= m) by lra.
    pose proof (Rle_abs (dec x y - dec x' y')). pose proof (Rle_abs (- (dec x y - dec x' y'))). rewrite Rabs_Ropp in *. lra. }
  destruct (in_margin W H to_pixel pm (fst row)) eqn:EM.
  - destruct (D eq_refl) as [D1 D2]. apply le_b_iff in D1, D2. rewrite D1, D2. cbn. symmetry. apply S3, M. auto.
  - rewrite andb_false_r. destruct (sel row) eqn:ES; auto. exfalso. destruct S3 as [S3 _]. destruct M as [_ M]. specialize (M (S3 eq_refl)). discriminate.
Qed.

(** ** A catalogue to try them on: two parts, three rows. *)
Definition parts3 : list (list (R * R * nat)) := [[((10, -40), 1%nat); ((359.9, -0.1), 2%nat)]; [((0.1, 20), 3%nat)]].
Definition rd3 (k : nat) : res (list (R * R)) := match nth_error parts3 (k - 1) with Some p => Ok (map fst p) | None => Err ValueError end.
Definition full3 (k : nat) : res (list nat) := match nth_error parts3 (k - 1) with Some p => Ok (map snd p) | None => Err ValueError end.
Definition ranges3 : list (R * R) := [(-90, 0); (0, 90)].
Definition plain (c : option (list unit)) (a : nat) : nat := a.
Lemma sorted3 : sorted ranges3 parts3.
Proof.
  constructor; [|constructor; [|constructor]]; intros row HI; cbn [In fst snd] in *; intuition subst; cbn [fst snd]; lra.
Qed.
Lemma stored3 j part : nth_error parts3 j = Some part -> stored rd3 full3 (j + 1) part.
Proof. intros E. unfold stored, rd3, full3. replace (j + 1 - 1)%nat with j by lia. rewrite E. auto. Qed.
Definition pick (l : list nat) (row : R * R * nat) : bool := existsb (Nat.eqb (snd row)) l.
Ltac rows3 := repeat match goal with |- context [Rle_dec ?a ?b] => destruct (Rle_dec a b); try lra end.
Lemma box3 (r0 r1 d0 d1 : R) :
  read_box plain rd3 full3 None ranges3 r0 r1 d0 d1
  = Ok (answer (map snd (filter (fun row => in_box r0 r1 d0 d1 (fst row)) (concat parts3)))).
Proof.
  rewrite (C97_box plain rd3 full3 None ranges3 parts3 r0 r1 d0 d1 (fun row => in_box r0 r1 d0 d1 (fst row))); auto using sorted3.
  - intros. now apply stored3.
  - intros row. unfold in_box, boxed. rewrite !andb_true_iff, !le_b_iff. tauto.
Qed.
Example C97_box_example :
  read_box plain rd3 full3 None ranges3 0 360 (-1) 30 = Ok (Some [2%nat; 3%nat]) /\
  read_box plain rd3 full3 None ranges3 0 5 (-1) 30 = Ok (Some [3%nat]) /\
  read_box plain rd3 full3 None ranges3 0 5 (-1) 10 = Ok None.
Proof.
  rewrite !box3. unfold in_box, le_b. cbn [parts3 concat app filter fst snd].
  repeat split; rows3; reflexivity.
Qed.

(** An image of one pixel per degree, 30 x 25 pixels, and a margin of one. *)
Example C97_wcs_example :
  read_wcs plain rd3 full3 None (-0.5) 25.5 3600 30 25 (fun p => (true, fst p, snd p)) ranges3 1 = Ok (Some [3%nat]).
Proof.
  rewrite (C97_wcs plain rd3 full3 None ranges3 parts3 (-0.5) 25.5 3600 30 25 (fun p => (true, fst p, snd p)) 1 (fun _ y => y)
             (fun row => in_margin 30 25 (fun p => (true, fst p, snd p)) 1 (fst row))).
  - unfold in_margin, le_b. cbn [parts3 concat app filter fst snd andb]. rows3; reflexivity.
  - split; [lia|split; [lia|lra]].
  - intros p x y E. injection E as <- <-. reflexivity.
  - unfold near. intros. lra.
  - intros x y x' y'. replace (3600 / 3600) with 1 by lra. rewrite Rmult_1_l, <- sqrt_Rsqr_abs. unfold Rsqr.
    apply sqrt_le_1_alt. pose proof (Rle_0_sqr (x - x')). unfold Rsqr in *. lra.
  - apply sorted3.
  - intros. now apply stored3.
  - intros row. unfold in_margin, near. rewrite !andb_true_iff, !le_b_iff.
    split; [intros; exists (fst (fst row)), (snd (fst row)); tauto|].
    intros (x & y & E & G). injection E as <- <-. tauto.
Qed.

(** ** Where it fails: boxes and images across RA = 0.  A box from 359.5 to
    0.5, or from -0.5 to 0.5, or from 359.5 to 360.5, loses sources within half
    a degree of RA = 0. *)
Theorem C97_wrap_refuted :
  read_box plain rd3 full3 None ranges3 359.5 0.5 (-90) 90 = Ok None /\
  read_box plain rd3 full3 None ranges3 (-0.5) 0.5 (-90) 90 = Ok (Some [3%nat]) /\
  read_box plain rd3 full3 None ranges3 359.5 360.5 (-90) 90 = Ok (Some [2%nat]).
Proof.
  rewrite !box3. unfold in_box, le_b. cbn [parts3 concat app filter fst snd].
  repeat split; rows3; reflexivity.
Qed.

(** An image around the pole: the declinations of its corners do not bound
    those inside, and if radec_bounds reports the corners, a source at the pole,
    in the middle of the image, is lost.  Pixels of half a degree. *)
Definition polar : list (list (R * R * nat)) := [[((0, 90), 1%nat)]].
Theorem C97_pole_refuted :
  let to_pixel (p : R * R) := (true, 2 + (90 - snd p) * 2 * sin (fst p), 2 + (90 - snd p) * 2 * cos (fst p)) in
  let W := 3%Z in let H := 3%Z in
  in_margin W H to_pixel 0 (0, 90) = true /\
  read_wcs plain (fun _ => Ok (map fst [((0, 90), 1%nat)])) (fun _ => Ok [1%nat]) None 89 89.3 1800 W H to_pixel [(0, 90)] 0 = Ok None.
Proof.
  cbv zeta. split.
  - unfold in_margin, le_b. cbn [fst snd]. replace (90 - 90) with 0 by lra. rewrite !Rmult_0_l, !Rplus_0_r. cbn [andb]. rows3.
  - unfold read_wcs. rewrite wcs_is.
    assert (M : sqrt 2 * 0 * 1800 / 3600 = 0) by (unfold Rdiv; ring). rewrite M.
    cbn [loop bind map fst flatnonzero snd]. unfold lt_b. destruct (Rlt_dec _ 0); [lra|]. destruct (Rlt_dec 90 _); [lra|]. cbn [orb].
    unfold le_b at 1 2. destruct (Rle_dec (89 - 0) 90); [|lra]. destruct (Rle_dec 90 (89.3 + 0)); [lra|]. reflexivity.
Qed.

Print Assumptions C97_box.
Print Assumptions C97_ranges.
Print Assumptions C97_wcs.
Print Assumptions C97_wrap_refuted.
Print Assumptions C97_pole_refuted.
