(** C45: ring-growing rendering. *)
From Coq Require Import List Bool Arith ZArith Lia FinFun.
From Verif Require Import Base Approx3Model.
Import ListNotations.
Open Scope Z_scope.

Ltac conjs := match goal with |- _ /\ _ => split; [|conjs] | _ => idtac end.

(** *** Specification *)
Section Spec.
Context {V : Type} (val : Z -> Z -> V) (below : V -> bool).
Context (x0 x1 y0 y1 minradius xc yc : Z).
Definition inbox (x y : Z) : Prop := x0 <= x < x1 /\ y0 <= y < y1.
(** Number of the ring around the start on which a pixel lies. *)
Definition dist (x y : Z) : Z := Z.max (Z.abs (x - xc)) (Z.abs (y - yc)).
Definition adjacent (x y x' y' : Z) : Prop := Z.abs (x - x') <= 1 /\ Z.abs (y - y') <= 1.
(** Neighbours of the start, of pixels within the minimum radius and of bright
    pixels are looked at. *)
Definition grows (x y : Z) : Prop := dist x y = 0 \/ dist x y <= minradius \/ below (val x y) = false.
(** Pixels reached by walking outward, one ring per step, through such pixels. *)
Inductive reached : Z -> Z -> Prop :=
| reached_start : reached xc yc
| reached_step x y x' y' : reached x y -> grows x y -> inbox x' y' -> adjacent x y x' y' ->
    dist x' y' = dist x y + 1 -> reached x' y'.
End Spec.

Section Proofs.
Context {V : Type} (zero : V) (ev val : Z -> Z -> V) (above : V -> V -> bool) (below : V -> bool).
Context (x0 x1 y0 y1 minradius : Z).
Notation W := (W x0 x1). Notation H := (H y0 y1).
Notation ibox := (inbox x0 x1 y0 y1).
Notation state := (@state V).

Definition on (lo hi : Z) (arr : list bool) (c : Z) : Prop := lo <= c < hi /\ nth (Z.to_nat (c - lo)) arr false = true.
Lemma SET_length lo hi i arr : length (SET lo hi i arr) = length arr.
Proof. unfold SET. destruct (_ && _); [apply upd_length|reflexivity]. Qed.
Lemma nth_upd {A} (d x : A) l i j : (i < length l)%nat -> nth j (upd i x l) d = if (i =? j)%nat then x else nth j l d.
Proof.
  intros Hi. destruct (Nat.eqb_spec i j) as [->|NE].
  - apply nth_error_nth. apply nth_error_upd_same. auto.
  - destruct (nth_error l j) eqn:E.
    + erewrite !nth_error_nth; eauto. rewrite nth_error_upd_other; auto.
    + apply nth_error_None in E. rewrite !nth_overflow; auto. rewrite upd_length. auto.
Qed.
Lemma SET_on lo hi i arr c : length arr = Z.to_nat (hi - lo) ->
  (on lo hi (SET lo hi i arr) c <-> on lo hi arr c \/ (c = i /\ lo <= c < hi)).
Proof.
  intros L. unfold on, SET. destruct (Z.geb_spec i lo); cbn [andb]; [|intuition lia].
  destruct (Z.ltb_spec i hi); [|intuition lia].
  split.
  - intros [B E]. rewrite nth_upd in E by lia. destruct (Nat.eqb_spec (Z.to_nat (i - lo)) (Z.to_nat (c - lo))); [right; split; lia|auto].
  - intros [[B E]|[-> B]]; (split; [auto|]); rewrite nth_upd by lia.
    + destruct (_ =? _)%nat; auto.
    + rewrite Nat.eqb_refl. reflexivity.
Qed.
Lemma on_no lo hi c : ~ on lo hi (repeat false (Z.to_nat (hi - lo))) c.
Proof. intros [B E]. rewrite nth_repeat in E. discriminate. Qed.

Inductive side := T | B | L | R'.
Definition arr_of (sd : side) (m : marks) := match sd with T => mT m | B => mB m | L => mL m | R' => mR m end.
Definition lo_of (sd : side) := match sd with T | B => x0 | _ => y0 end.
Definition hi_of (sd : side) := match sd with T | B => x1 | _ => y1 end.
Definition on4 (sd : side) (m : marks) (c : Z) : Prop := on (lo_of sd) (hi_of sd) (arr_of sd m) c.
Definition wf (m : marks) : Prop := forall sd, length (arr_of sd m) = Z.to_nat (hi_of sd - lo_of sd).
Definition set4 (sd : side) (i : Z) (m : marks) : marks :=
  match sd with T => setT x0 x1 i m | B => setB x0 x1 i m | L => setL y0 y1 i m | R' => setR y0 y1 i m end.
Lemma set4_wf sd i m : wf m -> wf (set4 sd i m).
Proof. intros Hm sd'. specialize (Hm sd'). destruct sd, sd'; cbn in *; rewrite ?SET_length; auto. Qed.
Lemma set4_on sd i m : wf m -> forall sd' c, on4 sd' (set4 sd i m) c <-> on4 sd' m c \/ (sd' = sd /\ c = i /\ lo_of sd <= c < hi_of sd).
Proof.
  intros Hm sd' c. unfold on4. pose proof (Hm sd') as HL.
  destruct sd, sd'; cbn in *; try (rewrite SET_on by auto); intuition (try discriminate; auto).
Qed.
(** A function on marks that adds the marks in A. *)
Definition adds (f : marks -> marks) (A : side -> Z -> Prop) : Prop :=
  forall m, wf m -> wf (f m) /\ forall sd c, on4 sd (f m) c <-> on4 sd m c \/ A sd c.
Definition one (sd : side) (i : Z) : side -> Z -> Prop := fun sd' c => sd' = sd /\ c = i /\ lo_of sd <= c < hi_of sd.
Lemma adds_set sd i : adds (set4 sd i) (one sd i).
Proof. intros m Hm. split; [apply set4_wf; auto|]. intros. apply set4_on. auto. Qed.
Lemma adds_comp f g A A' : adds f A -> adds g A' -> adds (fun m => g (f m)) (fun sd c => A sd c \/ A' sd c).
Proof.
  intros Hf Hg m Hm. destruct (Hf m Hm) as [W1 E1]. destruct (Hg _ W1) as [W2 E2]. split; auto.
  intros sd c. rewrite E2, E1. tauto.
Qed.
Lemma adds_when b f A : adds f A -> adds (when b f) (fun sd c => b = true /\ A sd c).
Proof.
  intros Hf m Hm. destruct b; cbn [when].
  - destruct (Hf m Hm) as [W1 E1]. split; auto. intros. rewrite E1. intuition.
  - split; auto. intros. intuition discriminate.
Qed.
Lemma adds_iff f A A' : adds f A -> (forall sd c, A sd c <-> A' sd c) -> adds f A'.
Proof. intros Hf E m Hm. destruct (Hf m Hm) as [W1 E1]. split; auto. intros. rewrite E1, E. tauto. Qed.

(** *** One row or column *)
Definition row_px (d : list bool) (pix : nat -> Z * Z) (R : Z) (f : nat -> marks -> marks) (s : state) (i : nat) : state :=
  if negb (nth i d false) then s else
  let '(x, y) := pix i in
  let s := put (offset x0 x1 y0 x y, val x y) s in
  if stops below minradius R (val x y) then s else mark (f i) s.
Definition wr (p : Z * Z) : Z * V := (offset x0 x1 y0 (fst p) (snd p), val (fst p) (snd p)).
Definition row_pixels (d : list bool) (pix : nat -> Z * Z) (n : nat) : list (Z * Z) :=
  map pix (filter (fun i => nth i d false) (seq 0 n)).
Lemma row_fold d pix R f A : forall l s, (forall i, In i l -> nth i d false = true -> adds (f i) (A i)) -> wf (nxt s) ->
  let s' := fold_left (row_px d pix R f) l s in
  wf (nxt s') /\
  (forall sd c, on4 sd (nxt s') c <-> on4 sd (nxt s) c \/
     exists i, In i l /\ nth i d false = true /\ stops below minradius R (val (fst (pix i)) (snd (pix i))) = false /\ A i sd c) /\
  writes s' = rev (map wr (map pix (filter (fun i => nth i d false) l))) ++ writes s /\
  any s' = any s || existsb (fun i => nth i d false) l /\
  anyrow s' = anyrow s || existsb (fun i => nth i d false) l /\
  sx0 s' = sx0 s /\ sx1 s' = sx1 s /\ sy0 s' = sy0 s /\ sy1 s' = sy1 s.
Proof.
  induction l as [|i l IH]; intros s HA Hs; cbv zeta.
  - cbn [fold_left filter map rev app existsb]. rewrite !orb_false_r. conjs; auto. intros sd c. split; [auto|]. intros [?|(i & [] & _)]; auto.
  - cbn [fold_left]. set (s1 := row_px d pix R f s i).
    assert (P : wf (nxt s1) /\
      (forall sd c, on4 sd (nxt s1) c <-> on4 sd (nxt s) c \/ (nth i d false = true /\ stops below minradius R (val (fst (pix i)) (snd (pix i))) = false /\ A i sd c)) /\
      writes s1 = (if nth i d false then [wr (pix i)] else []) ++ writes s /\
      any s1 = any s || nth i d false /\ anyrow s1 = anyrow s || nth i d false /\
      sx0 s1 = sx0 s /\ sx1 s1 = sx1 s /\ sy0 s1 = sy0 s /\ sy1 s1 = sy1 s).
    { unfold s1, row_px, wr. specialize (HA i (or_introl eq_refl)). destruct (nth i d false); cbn [negb].
      - destruct (pix i) as [x y]. cbn [fst snd]. destruct (HA eq_refl (nxt s) Hs) as [W1 E1].
        destruct (stops below minradius R (val x y)); cbn; rewrite ?orb_true_r; conjs; auto.
        + intros sd c. split; [auto|]. intros [?|(_ & Q & _)]; [auto|discriminate].
        + intros sd c. rewrite E1. intuition.
      - rewrite !orb_false_r. conjs; auto. intros sd c. split; [auto|]. intros [?|(Q & _)]; [auto|discriminate]. }
    destruct P as (P1 & P2 & P3 & P4 & P5 & P6 & P7 & P8 & P9).
    destruct (IH s1 (fun j Hj => HA j (or_intror Hj)) P1) as (I1 & I2 & I3 & I4 & I5 & I6 & I7 & I8 & I9). cbv zeta in *.
    split; [exact I1|]. split; [|split; [|split; [|split]]].
    + intros sd c. rewrite I2, P2. split.
      * intros [[Q|Q]|(j & Q)]; [left; auto|right; exists i; cbn; intuition|right; exists j; cbn; intuition].
      * intros [Q|(j & [->|Q] & Q')]; [auto|left; right; intuition|right; exists j; intuition].
    + rewrite I3, P3. cbn [filter]. destruct (nth i d false); cbn [map rev]; [rewrite <- app_assoc|]; reflexivity.
    + rewrite I4, P4. cbn [existsb]. rewrite orb_assoc. reflexivity.
    + rewrite I5, P5. cbn [existsb]. rewrite orb_assoc. reflexivity.
    + repeat split; congruence.
Qed.

(** A whole side of a ring. *)
Definition do_row (d : list bool) (pix : nat -> Z * Z) (R : Z) (f : nat -> marks -> marks) (n : nat) (valid : bool)
    (setbox : state -> state) (s : state) : state :=
  if negb valid then s else
  let s := fold_left (row_px d pix R f) (seq 0 n) (clear_row s) in
  if anyrow s then setbox s else s.
Definition keeps (setbox : state -> state) : Prop :=
  forall s, nxt (setbox s) = nxt s /\ writes (setbox s) = writes s /\ any (setbox s) = any s.
Lemma do_row_spec d pix R f n valid setbox A : (forall i, (i < n)%nat -> nth i d false = true -> adds (f i) (A i)) -> keeps setbox ->
  (valid = false -> forall i, (i < n)%nat -> nth i d false = false) ->
  forall s, wf (nxt s) ->
  let s' := do_row d pix R f n valid setbox s in
  wf (nxt s') /\
  (forall sd c, on4 sd (nxt s') c <-> on4 sd (nxt s) c \/
     exists i, (i < n)%nat /\ nth i d false = true /\ stops below minradius R (val (fst (pix i)) (snd (pix i))) = false /\ A i sd c) /\
  writes s' = map wr (rev (row_pixels d pix n)) ++ writes s /\
  (any s' = true <-> any s = true \/ exists i, (i < n)%nat /\ nth i d false = true) /\
  ((exists i, (i < n)%nat /\ nth i d false = true) /\ (exists s1, (sx0 s1, sx1 s1, sy0 s1, sy1 s1) = (sx0 s, sx1 s, sy0 s, sy1 s) /\ s' = setbox s1) \/
   (forall i, (i < n)%nat -> nth i d false = false) /\ (sx0 s', sx1 s', sy0 s', sy1 s') = (sx0 s, sx1 s, sy0 s, sy1 s)).
Proof.
  intros HA HK HV s Hs. cbv zeta. unfold do_row. destruct valid; cbn [negb].
  - destruct (row_fold d pix R f A (seq 0 n) (clear_row s)) as (I1 & I2 & I3 & I4 & I5 & I6 & I7 & I8 & I9); [intros i Hi; apply HA; apply in_seq in Hi; lia|exact Hs|].
    cbv zeta in *. set (s1 := fold_left (row_px d pix R f) (seq 0 n) (clear_row s)) in *.
    assert (X : existsb (fun i => nth i d false) (seq 0 n) = true <-> exists i, (i < n)%nat /\ nth i d false = true).
    { rewrite existsb_exists. split; intros (i & P & Q); exists i; rewrite in_seq in *; split; auto; lia. }
    assert (N : nxt (if anyrow s1 then setbox s1 else s1) = nxt s1 /\ writes (if anyrow s1 then setbox s1 else s1) = writes s1 /\ any (if anyrow s1 then setbox s1 else s1) = any s1).
    { destruct (anyrow s1); [apply HK|auto]. }
    destruct N as (N1 & N2 & N3). rewrite N1, N2, N3. split; [exact I1|]. split; [|split; [|split]].
    + intros sd c. rewrite I2. cbn [clear_row nxt]. split; (intros [Q|(i & Q1 & Q2)]; [left; auto|right; exists i; rewrite in_seq in *; split; auto; lia]).
    + rewrite I3. unfold row_pixels. rewrite <- map_rev. reflexivity.
    + rewrite I4, orb_true_iff, X. reflexivity.
    + cbn [clear_row anyrow sx0 sx1 sy0 sy1] in *. rewrite I5. cbn [orb]. destruct (existsb (fun i => nth i d false) (seq 0 n)) eqn:E.
      * left. split; [apply X; auto|]. exists s1. split; [congruence|reflexivity].
      * right. split; [|congruence]. intros i Hi. destruct (nth i d false) eqn:EN; auto. assert (false = true) by (apply X; eauto). discriminate.
  - specialize (HV eq_refl). split; [auto|]. split; [|split; [|split]].
    + intros sd c. split; [auto|]. intros [Q|(i & Q1 & Q2 & _)]; [auto|]. rewrite HV in Q2 by auto. discriminate.
    + unfold row_pixels. replace (filter (fun i => nth i d false) (seq 0 n)) with (@nil nat); [reflexivity|].
      assert (Q : forall l, (forall i, In i l -> nth i d false = false) -> filter (fun i => nth i d false) l = []).
      { induction l as [|i l IH]; intros Hl; [reflexivity|]. cbn. rewrite Hl by (left; auto). apply IH. intros; apply Hl; right; auto. }
      symmetry. apply Q. intros i Hi. apply in_seq in Hi. apply HV. lia.
    + split; [auto|]. intros [Q|(i & Q1 & Q2)]; [auto|]. rewrite HV in Q2 by auto. discriminate.
    + right. split; auto.
Qed.

Section Start.
Context (xc yc : Z) (HS : ibox xc yc).
Notation dst := (dist xc yc).
Notation rch := (reached val below x0 x1 y0 y1 minradius xc yc).
Notation grw := (grows val below minradius xc yc).
Definition pix4 (sd : side) (R c : Z) : Z * Z :=
  match sd with T => (c, yc + R) | B => (c, yc - R) | L => (xc - R, c) | R' => (xc + R, c) end.
(** Corners belong to the top and bottom rows. *)
Definition proper (sd : side) (R c : Z) : Prop := match sd with T | B => Z.abs (c - xc) <= R | _ => Z.abs (c - yc) < R end.
Definition boxed (p : Z * Z) : Prop := ibox (fst p) (snd p).
Definition next_marks (sd : side) (R c : Z) : side -> Z -> Prop := fun sd' c' =>
  boxed (pix4 sd' (R + 1) c') /\ proper sd' (R + 1) c' /\
  adjacent (fst (pix4 sd R c)) (snd (pix4 sd R c)) (fst (pix4 sd' (R + 1) c')) (snd (pix4 sd' (R + 1) c')).
(** The marks made by one pixel. *)
Definition f4 (sd : side) (R c : Z) (m : marks) : marks :=
  match sd with
  | T => let xx := c in let yy := yc + R in
      when (yy <? y1 - 1) (fun m => set4 T (xx + 1) (set4 T xx (set4 T (xx - 1) m)))
       (when ((xx =? xc + R) && (xx <? x1 - 1)) (fun m => set4 R' (yy - 1) (set4 R' yy m))
         (when ((xx =? xc - R) && (xx >? x0)) (fun m => set4 L (yy - 1) (set4 L yy m)) m))
  | B => let xx := c in let yy := yc - R in
      when (yy >? y0) (fun m => set4 B (xx + 1) (set4 B xx (set4 B (xx - 1) m)))
       (when ((xx =? xc + R) && (xx <? x1 - 1)) (fun m => set4 R' (yy + 1) (set4 R' yy m))
         (when ((xx =? xc - R) && (xx >? x0)) (fun m => set4 L (yy + 1) (set4 L yy m)) m))
  | L => let xx := xc - R in let yy := c in when (xx >? x0) (fun m => set4 L (yy + 1) (set4 L yy (set4 L (yy - 1) m))) m
  | R' => let xx := xc + R in let yy := c in when (xx <? x1 - 1) (fun m => set4 R' (yy + 1) (set4 R' yy (set4 R' (yy - 1) m))) m
  end.
Lemma adds2 sd a b : adds (fun m => set4 sd a (set4 sd b m)) (fun sd' k => sd' = sd /\ lo_of sd <= k < hi_of sd /\ (k = a \/ k = b)).
Proof. eapply adds_iff; [eapply (adds_comp (set4 sd b)); apply adds_set|]. intros sd' k. unfold one. cbv beta. intuition. Qed.
Lemma adds3 sd a b c : adds (fun m => set4 sd a (set4 sd b (set4 sd c m))) (fun sd' k => sd' = sd /\ lo_of sd <= k < hi_of sd /\ (k = a \/ k = b \/ k = c)).
Proof. eapply adds_iff; [eapply (adds_comp (fun m => set4 sd b (set4 sd c m))); [apply adds2|apply adds_set]|]. intros sd' k. unfold one. cbv beta. intuition. Qed.
Ltac bools := repeat match goal with
  | H : andb _ _ = true |- _ => apply andb_true_iff in H; destruct H
  | H : (_ =? _) = true |- _ => apply Z.eqb_eq in H
  | H : (_ <? _) = true |- _ => apply Z.ltb_lt in H
  | H : (_ >? _) = true |- _ => apply Z.gtb_lt in H
  end.
Lemma f4_adds sd R c : 1 <= R -> boxed (pix4 sd R c) -> proper sd R c -> adds (f4 sd R c) (next_marks sd R c).
Proof.
  intros HR HB HP. unfold boxed, inbox in *. destruct HS as [HSx HSy].
  destruct sd; unfold f4; cbv zeta; cbn [pix4 fst snd proper] in *;
    (eapply adds_iff;
      [first [apply adds_when; apply adds3
             | eapply (adds_comp _ (when _ _)); [eapply (adds_comp (when _ _) (when _ _)); apply adds_when; apply adds2|apply adds_when; apply adds3]]|]);
    intros sd' k; unfold next_marks, boxed, inbox, adjacent.
  all: (destruct sd'; cbn [pix4 fst snd proper lo_of hi_of]; rewrite ?andb_true_iff, ?Z.eqb_eq, ?Z.ltb_lt, ?Z.gtb_lt; (split;
      [intros Q; repeat match type of Q with _ \/ _ => destruct Q as [Q|Q] end; destruct Q as (Q1 & Q2 & Q3); try discriminate Q2; lia
      |intros Q;
       try (match goal with |- _ /\ _ => split; [lia|split; [reflexivity|lia]] end);
       try (exfalso; lia);
       first [left; left; split; [lia|split; [reflexivity|lia]] | left; right; split; [lia|split; [reflexivity|lia]] | right; split; [lia|split; [reflexivity|lia]]]])).
Qed.

(** *** The rings *)
Definition rch2 (p : Z * Z) : Prop := rch (fst p) (snd p).
Definition Inv (R : Z) (m : marks) : Prop :=
  wf m /\ forall sd c, on4 sd m c <-> boxed (pix4 sd R c) /\ proper sd R c /\ rch2 (pix4 sd R c).
Definition box (s : state) : Z * Z * Z * Z := (sx0 s, sx1 s, sy0 s, sy1 s).
Definition setb (sd : side) (R : Z) (b : Z * Z * Z * Z) : Z * Z * Z * Z :=
  let '(a0, a1, b0, b1) := b in
  match sd with T => (a0, a1, b0, yc + R - y0) | B => (a0, a1, yc - R - y0, b1) | L => (xc - R - x0, a1, b0, b1) | R' => (a0, xc + R - x0, b0, b1) end.
Definition setbox (sd : side) (R : Z) (s : state) : state :=
  let '(a0, a1, b0, b1) := setb sd R (box s) in mkState (nxt s) (writes s) (any s) (anyrow s) a0 a1 b0 b1.
Definition valid (sd : side) (R : Z) : bool :=
  match sd with T => yc + R <? y1 | B => yc - R >=? y0 | L => xc - R >=? x0 | R' => xc + R <? x1 end.
Definition side_row (sd : side) (R : Z) (d : marks) : state -> state :=
  do_row (arr_of sd d) (fun i => pix4 sd R (lo_of sd + Z.of_nat i)) R (fun i => f4 sd R (lo_of sd + Z.of_nat i))
    (Z.to_nat (hi_of sd - lo_of sd)) (valid sd R) (setbox sd R).
Lemma do_top_eq R d s : do_top val below x0 x1 y0 y1 minradius xc yc R d s = side_row T R d s.
Proof. reflexivity. Qed.
Lemma do_bottom_eq R d s : do_bottom val below x0 x1 y0 y1 minradius xc yc R d s = side_row B R d s.
Proof. reflexivity. Qed.
Lemma do_left_eq R d s : do_left val below x0 x1 y0 y1 minradius xc R d s = side_row L R d s.
Proof. reflexivity. Qed.
Lemma do_right_eq R d s : do_right val below x0 x1 y0 y1 minradius xc R d s = side_row R' R d s.
Proof. reflexivity. Qed.

Lemma on_index lo hi arr c : on lo hi arr c <-> exists i, (i < Z.to_nat (hi - lo))%nat /\ nth i arr false = true /\ c = lo + Z.of_nat i.
Proof.
  unfold on. split.
  - intros [Hc E]. exists (Z.to_nat (c - lo)). split; [lia|]. split; [auto|lia].
  - intros (i & Hi & E & ->). split; [lia|]. replace (Z.to_nat (lo + Z.of_nat i - lo)) with i by lia. auto.
Qed.
Lemma pix4_inj sd R c c' : pix4 sd R c = pix4 sd R c' -> c = c'.
Proof. destruct sd; cbn; congruence. Qed.
Lemma side_spec sd R d s : 1 <= R -> Inv R d -> wf (nxt s) ->
  let s' := side_row sd R d s in
  wf (nxt s') /\
  (forall sd' c', on4 sd' (nxt s') c' <-> on4 sd' (nxt s) c' \/
     exists c, on4 sd d c /\ stops below minradius R (val (fst (pix4 sd R c)) (snd (pix4 sd R c))) = false /\ next_marks sd R c sd' c') /\
  (exists ps, writes s' = map wr ps ++ writes s /\ NoDup ps /\ forall p, In p ps <-> exists c, on4 sd d c /\ p = pix4 sd R c) /\
  (any s' = true <-> any s = true \/ exists c, on4 sd d c) /\
  ((exists c, on4 sd d c) /\ box s' = setb sd R (box s) \/ (forall c, ~ on4 sd d c) /\ box s' = box s).
Proof.
  intros HR [HW HI] Hs. cbv zeta. unfold side_row.
  assert (IX : forall i, (i < Z.to_nat (hi_of sd - lo_of sd))%nat -> nth i (arr_of sd d) false = true -> on4 sd d (lo_of sd + Z.of_nat i)).
  { intros i Hi E. apply on_index. exists i. auto. }
  edestruct (do_row_spec (arr_of sd d) (fun i => pix4 sd R (lo_of sd + Z.of_nat i)) R (fun i => f4 sd R (lo_of sd + Z.of_nat i))
    (Z.to_nat (hi_of sd - lo_of sd)) (valid sd R) (setbox sd R) (fun i => next_marks sd R (lo_of sd + Z.of_nat i))) with (s := s) as (I1 & I2 & I3 & I4 & I5).
  - intros i Hi E. apply IX in E; auto. apply HI in E. apply f4_adds; tauto.
  - intros s1. unfold setbox. destruct (setb sd R (box s1)) as [[[a0 a1] b0] b1]. auto.
  - intros HV i Hi. destruct (nth i (arr_of sd d) false) eqn:E; auto. apply IX in E; auto. apply HI in E. destruct E as [E _]. exfalso.
    unfold boxed, inbox in E. destruct sd; cbn [pix4 fst snd valid] in *; lia.
  - auto.
  - cbv zeta in *. split; [auto|]. split; [|split; [|split]].
    + intros sd' c'. rewrite I2. split; (intros [Q|Q]; [auto|right]).
      * destruct Q as (i & Hi & E & ST & NM). exists (lo_of sd + Z.of_nat i). auto.
      * destruct Q as (c & E & ST & NM). apply on_index in E. destruct E as (i & Hi & E & ->). exists i. auto.
    + eexists. split; [exact I3|]. unfold row_pixels. split.
      * apply NoDup_rev. apply Injective_map_NoDup.
        -- intros i j E. apply pix4_inj in E. lia.
        -- apply NoDup_filter. apply seq_NoDup.
      * intros p. rewrite <- in_rev, in_map_iff. split.
        -- intros (i & <- & Hi). apply filter_In in Hi. destruct Hi as [Hi E]. apply in_seq in Hi. exists (lo_of sd + Z.of_nat i). split; [apply IX; auto; lia|auto].
        -- intros (c & E & ->). apply on_index in E. destruct E as (i & Hi & E & ->). exists i. split; auto. apply filter_In. split; auto. apply in_seq. lia.
    + rewrite I4. split; (intros [Q|Q]; [auto|right]).
      * destruct Q as (i & Hi & E). eauto.
      * destruct Q as (c & E). apply on_index in E. destruct E as (i & Hi & E & ->). eauto.
    + destruct I5 as [[(i & Hi & E) (s1 & E1 & E2)]|[N E]].
      * left. split; [eauto|]. rewrite E2. unfold setbox. replace (box s) with (box s1) by exact E1.
        destruct (setb sd R (box s1)) as [[[a0 a1] b0] b1]. reflexivity.
      * right. split; [|exact E]. intros c Q. apply on_index in Q. destruct Q as (i & Hi & Q & ->). rewrite N in Q by auto. discriminate.
Qed.

(** A reached pixel beyond the start has a reached, growing neighbour one ring
    further in. *)
Lemma rch_inv x y R : 0 <= R -> dst x y = R + 1 -> rch x y ->
  ibox x y /\ exists x' y', rch x' y' /\ dst x' y' = R /\ grw x' y' /\ adjacent x' y' x y.
Proof.
  intros HR HD Hr. inversion Hr as [E1 E2|x' y' x'' y'' H1 H2 H3 H4 H5 E1 E2]; subst.
  - exfalso. unfold dist in HD. lia.
  - split; auto. exists x', y'. split; auto. split; [lia|]. auto.
Qed.
Lemma rch_box x y : rch x y -> ibox x y.
Proof. destruct 1; auto. Qed.
Lemma dist_pix4 sd R c : 0 <= R -> proper sd R c -> dst (fst (pix4 sd R c)) (snd (pix4 sd R c)) = R.
Proof. intros HR HP. unfold dist. destruct sd; cbn [pix4 fst snd proper] in *; lia. Qed.
(** Every pixel of a ring is on exactly one side. *)
Lemma pix4_exists x y R : 1 <= R -> dst x y = R -> exists sd c, pix4 sd R c = (x, y) /\ proper sd R c.
Proof.
  intros HR HD. unfold dist in HD.
  destruct (Z.eq_dec (y - yc) R); [exists T, x; cbn; split; [f_equal; lia|lia]|].
  destruct (Z.eq_dec (y - yc) (- R)); [exists B, x; cbn; split; [f_equal; lia|lia]|].
  destruct (Z.eq_dec (x - xc) R); [exists R', y; cbn; split; [f_equal; lia|lia]|].
  exists L, y. cbn. split; [f_equal; lia|lia].
Qed.
Lemma pix4_disjoint sd sd' R c c' : 1 <= R -> proper sd R c -> proper sd' R c' -> pix4 sd R c = pix4 sd' R c' -> sd = sd'.
Proof.
  intros HR H1 H2 E. assert (E1 := f_equal fst E). assert (E2 := f_equal snd E).
  destruct sd, sd'; cbn [pix4 proper fst snd] in *; auto; exfalso; lia.
Qed.

Definition touched (R : Z) (s : state) : Prop :=
  exists ps, writes s = map wr ps /\ NoDup ps /\ forall p, In p ps <-> rch2 p /\ dst (fst p) (snd p) < R.
Definition on_side (sd : side) (R : Z) : Prop := exists c, boxed (pix4 sd R c) /\ proper sd R c /\ rch2 (pix4 sd R c).
Definition upd_box (sd : side) (R : Z) (b b' : Z * Z * Z * Z) : Prop :=
  on_side sd R /\ b' = setb sd R b \/ ~ on_side sd R /\ b' = b.
Lemma ring_spec R s : 1 <= R -> Inv R (nxt s) -> touched R s ->
  let s' := ring val below x0 x1 y0 y1 minradius xc yc R s in
  Inv (R + 1) (nxt s') /\ touched (R + 1) s' /\
  (any s' = true <-> exists x y, rch x y /\ dst x y = R) /\
  exists b1 b2 b3, upd_box T R (box s) b1 /\ upd_box B R b1 b2 /\ upd_box L R b2 b3 /\ upd_box R' R b3 (box s').
Proof.
  intros HR HI HT. cbv zeta. unfold ring. set (d := nxt s) in *.
  set (s0 := mkState (no_marks x0 x1 y0 y1) (writes s) false (anyrow s) (sx0 s) (sx1 s) (sy0 s) (sy1 s)).
  rewrite do_top_eq, do_bottom_eq, do_left_eq, do_right_eq.
  assert (W0 : wf (nxt s0)) by (intros sd; destruct sd; cbn; apply repeat_length).
  destruct (side_spec T R d s0 HR HI W0) as (T1 & T2 & (pT & T3 & T3n & T3i) & T4 & T5). set (sT := side_row T R d s0) in *. clearbody sT.
  destruct (side_spec B R d sT HR HI T1) as (B1 & B2 & (pB & B3 & B3n & B3i) & B4 & B5). set (sB := side_row B R d sT) in *. clearbody sB.
  destruct (side_spec L R d sB HR HI B1) as (L1 & L2 & (pL & L3 & L3n & L3i) & L4 & L5). set (sL := side_row L R d sB) in *. clearbody sL.
  destruct (side_spec R' R d sL HR HI L1) as (R1 & R2 & (pR & R3 & R3n & R3i) & R4 & R5). set (sR := side_row R' R d sL) in *. clearbody sR.
  destruct HI as [HW HI].
  assert (ALL : forall p, (exists sd c, on4 sd d c /\ p = pix4 sd R c) <-> rch2 p /\ dst (fst p) (snd p) = R).
  { intros p. split.
    - intros (sd & c & Ho & ->). apply HI in Ho. destruct Ho as (Q1 & Q2 & Q3). split; auto. apply dist_pix4; auto. lia.
    - intros [Hr Hd]. destruct (pix4_exists (fst p) (snd p) R HR Hd) as (sd & c & E & P). rewrite <- surjective_pairing in E. subst p.
      exists sd, c. split; auto. apply HI. split; [apply rch_box; exact Hr|]. auto. }
  split; [|split; [|split]].
  - split; auto. intros sd' c'. rewrite R2, L2, B2, T2.
    assert (N0 : ~ on4 sd' (nxt s0) c') by (destruct sd'; apply on_no).
    assert (ST : forall sd c, on4 sd d c -> (stops below minradius R (val (fst (pix4 sd R c)) (snd (pix4 sd R c))) = false <-> grw (fst (pix4 sd R c)) (snd (pix4 sd R c)))).
    { intros sd c Ho. apply HI in Ho. destruct Ho as (Q1 & Q2 & Q3). unfold grows, stops. rewrite dist_pix4 by (auto; lia).
      rewrite andb_false_iff, Z.gtb_ltb, Z.ltb_ge. split; [intros [?|?]; [right; left; auto|right; right; auto]|]. intros [?|[?|?]]; [lia|left; auto|right; auto]. }
    split.
    + intros Q. assert (Q' : exists sd c, on4 sd d c /\ grw (fst (pix4 sd R c)) (snd (pix4 sd R c)) /\ next_marks sd R c sd' c').
      { destruct Q as [[[[Q|(c & Q1 & Q2 & Q3)]|(c & Q1 & Q2 & Q3)]|(c & Q1 & Q2 & Q3)]|(c & Q1 & Q2 & Q3)]; [contradiction|exists T|exists B|exists L|exists R'];
          exists c; (split; [auto|split; [apply ST; auto|auto]]). }
      destruct Q' as (sd & c & Q1 & Q2 & Q3 & Q4 & Q5). split; auto. split; auto.
      apply HI in Q1. destruct Q1 as (P1 & P2 & P3).
      eapply reached_step; [exact P3|exact Q2|exact Q3|exact Q5|]. rewrite !dist_pix4; auto; lia.
    + intros (Q1 & Q2 & Q3). destruct (rch_inv _ _ R ltac:(lia) (dist_pix4 sd' (R + 1) c' ltac:(lia) Q2) Q3) as (_ & x' & y' & P1 & P2 & P3 & P4).
      assert (exists sd c, on4 sd d c /\ (x', y') = pix4 sd R c) as (sd & c & O1 & O2) by (apply ALL; auto).
      assert (O3 : stops below minradius R (val (fst (pix4 sd R c)) (snd (pix4 sd R c))) = false) by (apply ST; auto; rewrite <- O2; auto).
      assert (O4 : next_marks sd R c sd' c') by (split; [auto|split; [auto|rewrite <- O2; auto]]).
      destruct sd; [do 3 left|do 2 left|left|]; right; exists c; auto.
  - destruct HT as (ps & E & ND & IN). exists (pR ++ pL ++ pB ++ pT ++ ps). split; [|split].
    + rewrite !map_app, R3, L3, B3, T3. cbn [s0 writes]. rewrite E. rewrite ?app_assoc. reflexivity.
    + assert (PD : forall sd sd' p, sd <> sd' -> (exists c, on4 sd d c /\ p = pix4 sd R c) -> (exists c, on4 sd' d c /\ p = pix4 sd' R c) -> False).
      { intros sd sd' p NE (c & O1 & ->) (c' & O2 & E'). apply HI in O1. apply HI in O2. apply NE. eapply pix4_disjoint; [exact HR|apply O1|apply O2|auto]. }
      assert (PO : forall sd p, (exists c, on4 sd d c /\ p = pix4 sd R c) -> In p ps -> False).
      { intros sd p (c & O1 & ->) Q. apply IN in Q. apply HI in O1. rewrite dist_pix4 in Q by (try apply O1; lia). lia. }
      assert (NA : forall (a b : list (Z * Z)), NoDup a -> NoDup b -> (forall p, In p a -> In p b -> False) -> NoDup (a ++ b)).
      { clear. induction a as [|x a IH]; intros b Ha Hb Hd; [auto|]. inversion Ha as [|? ? N1 N2]; subst. cbn. constructor.
        - rewrite in_app_iff. intros [?|?]; [auto|]. apply (Hd x); [left; auto|auto].
        - apply IH; auto. intros p P1 P2. apply (Hd p); [right; auto|auto]. }
      apply NA; [exact R3n|apply NA; [exact L3n|apply NA; [exact B3n|apply NA; [exact T3n|exact ND|]|]|]|].
      * intros p P1 P2. apply T3i in P1. eapply PO; eauto.
      * intros p P1 P2. apply B3i in P1. rewrite in_app_iff, T3i in P2. destruct P2 as [P2|P2]; [apply (PD B T p); auto; discriminate|eapply PO; eauto].
      * intros p P1 P2. apply L3i in P1. rewrite !in_app_iff, T3i, B3i in P2.
        destruct P2 as [P2|[P2|P2]]; [apply (PD L B p); auto; discriminate|apply (PD L T p); auto; discriminate|eapply PO; eauto].
      * intros p P1 P2. apply R3i in P1. rewrite !in_app_iff, T3i, B3i, L3i in P2.
        destruct P2 as [P2|[P2|[P2|P2]]]; [apply (PD R' L p); auto; discriminate|apply (PD R' B p); auto; discriminate|apply (PD R' T p); auto; discriminate|eapply PO; eauto].
    + intros p. rewrite !in_app_iff, R3i, L3i, B3i, T3i, IN. split.
      * intros Q. assert (Q' : (exists sd c, on4 sd d c /\ p = pix4 sd R c) \/ (rch2 p /\ dst (fst p) (snd p) < R)).
        { destruct Q as [Q|[Q|[Q|[Q|Q]]]]; [left; exists R'; auto|left; exists L; auto|left; exists B; auto|left; exists T; auto|right; auto]. }
        destruct Q' as [Q'|[Q1 Q2]]; [apply ALL in Q'; destruct Q' as [Q1 Q2]|]; (split; [exact Q1|lia]).
      * intros [Q1 Q2]. destruct (Z.eq_dec (dst (fst p) (snd p)) R) as [Q3|Q3]; [|do 4 right; split; auto; lia].
        assert (exists sd c, on4 sd d c /\ p = pix4 sd R c) as (sd & c & O) by (apply ALL; auto).
        destruct sd; [do 3 right; left|do 2 right; left|right; left|left]; exists c; auto.
  - rewrite R4, L4, B4, T4. cbn [s0 any]. split.
    + intros Q. assert (Q' : exists sd c, on4 sd d c).
      { destruct Q as [[[[Q|Q]|Q]|Q]|Q]; [discriminate|exists T; auto|exists B; auto|exists L; auto|exists R'; auto]. }
      destruct Q' as (sd & c & O). assert (Q' : rch2 (pix4 sd R c) /\ dst (fst (pix4 sd R c)) (snd (pix4 sd R c)) = R) by (apply ALL; eauto).
      exists (fst (pix4 sd R c)), (snd (pix4 sd R c)). exact Q'.
    + intros (x & y & Q1 & Q2). assert (exists sd c, on4 sd d c /\ (x, y) = pix4 sd R c) as (sd & c & O & _) by (apply ALL; auto).
      destruct sd; [do 3 left|do 2 left|left|]; right; exists c; auto.
  - assert (UB : forall sd b b', ((exists c, on4 sd d c) /\ b' = setb sd R b \/ (forall c, ~ on4 sd d c) /\ b' = b) -> upd_box sd R b b').
    { intros sd b b' [[(c & O) E]|[N E]]; [left|right]; (split; [|auto]).
      - exists c. apply HI. auto.
      - intros (c & O). apply HI in O. apply (N c). auto. }
    exists (box sT), (box sB), (box sL). split; [apply UB; exact T5|]. split; [apply UB; exact B5|]. split; apply UB; auto.
Qed.

(** *** The first marks *)
Lemma rch_near x y : dst x y = 1 -> (rch x y <-> ibox x y).
Proof.
  intros HD. split; [apply rch_box|]. intros HB. unfold dist in HD.
  apply (reached_step _ _ _ _ _ _ _ _ _ xc yc); [constructor|left; unfold dist; lia|auto|unfold adjacent; lia|unfold dist; lia].
Qed.
Lemma first_inv : Inv 1 (first_marks x0 x1 y0 y1 xc yc).
Proof.
  assert (A : adds (fun m => when (xc <? x1 - 1) (set4 R' yc) (when (xc >? x0) (set4 L yc)
      (when (yc <? y1 - 1) (fun m => set4 T (xc - 1) (set4 T (xc + 1) (set4 T xc m)))
        (when (yc >? y0) (fun m => set4 B (xc - 1) (set4 B xc (set4 B (xc + 1) m))) m)))) (fun sd c => boxed (pix4 sd 1 c) /\ proper sd 1 c)).
  { eapply adds_iff.
    - eapply (adds_comp _ (when _ _)); [eapply (adds_comp _ (when _ _)); [eapply (adds_comp (when _ _) (when _ _)); apply adds_when; apply adds3|apply adds_when; apply adds_set]|apply adds_when; apply adds_set].
    - intros sd c. unfold one, boxed, inbox. destruct HS as [HSx HSy].
      destruct sd; cbn [pix4 fst snd proper lo_of hi_of]; rewrite ?Z.ltb_lt, ?Z.gtb_lt; (split;
      [intros Q; repeat match type of Q with _ \/ _ => destruct Q as [Q|Q] end; destruct Q as (Q1 & Q2 & Q3); try discriminate Q2; lia
      |intros Q; first [left; left; left; split; [lia|split; [reflexivity|lia]] | left; left; right; split; [lia|split; [reflexivity|lia]] | left; right; split; [lia|split; [reflexivity|lia]] | right; split; [lia|split; [reflexivity|lia]]]]). }
  assert (W0 : wf (no_marks x0 x1 y0 y1)) by (intros sd; destruct sd; cbn; apply repeat_length).
  destruct (A _ W0) as [A1 A2].
  assert (E : first_marks x0 x1 y0 y1 xc yc = when (xc <? x1 - 1) (set4 R' yc) (when (xc >? x0) (set4 L yc)
      (when (yc <? y1 - 1) (fun m => set4 T (xc - 1) (set4 T (xc + 1) (set4 T xc m)))
        (when (yc >? y0) (fun m => set4 B (xc - 1) (set4 B xc (set4 B (xc + 1) m))) (no_marks x0 x1 y0 y1))))).
  { unfold first_marks. cbv zeta. destruct (xc <? x1 - 1), (xc >? x0), (yc <? y1 - 1), (yc >? y0); reflexivity. }
  rewrite <- E in A1, A2. split; [exact A1|]. intros sd c.
  rewrite A2. split.
  - intros [Q|[Q1 Q2]]; [exfalso; revert Q; destruct sd; apply on_no|]. split; auto. split; auto.
    apply rch_near; [apply dist_pix4; auto; lia|exact Q1].
  - intros (Q1 & Q2 & _). auto.
Qed.
Lemma dist0 x y : dst x y < 1 -> x = xc /\ y = yc.
Proof. unfold dist. lia. Qed.
Lemma first_touched : touched 1 (first_state val x0 x1 y0 y1 xc yc).
Proof.
  exists [(xc, yc)]. split; [reflexivity|]. split; [repeat constructor; auto|]. intros [x y]. cbn [In fst snd]. split.
  - intros [E|[]]. injection E as <- <-. split; [constructor|unfold dist; lia].
  - intros [_ D]. apply dist0 in D. destruct D as [-> ->]. auto.
Qed.

(** *** The reported box *)
Definition box_inv (R : Z) (b : Z * Z * Z * Z) : Prop :=
  let '(a0, a1, b0, b1) := b in
  (0 <= a0 <= xc - x0 /\ xc - x0 <= a1 < W /\ 0 <= b0 <= yc - y0 /\ yc - y0 <= b1 < H) /\
  (xc - x0 - R < a0 /\ a1 < xc - x0 + R /\ yc - y0 - R < b0 /\ b1 < yc - y0 + R) /\
  ((exists y, rch (x0 + a0) y) /\ (exists y, rch (x0 + a1) y) /\ (exists x, rch x (y0 + b0)) /\ (exists x, rch x (y0 + b1))) /\
  forall x y, rch x y -> dst x y < R ->
    (Z.abs (y - yc) < Z.abs (x - xc) -> a0 <= x - x0 <= a1) /\ (Z.abs (x - xc) <= Z.abs (y - yc) -> b0 <= y - y0 <= b1).
Lemma box_first : box_inv 1 (box (first_state val x0 x1 y0 y1 xc yc)).
Proof.
  cbn. destruct HS as [HSx HSy]. unfold Approx3Model.W, Approx3Model.H. split; [lia|]. split; [lia|]. split.
  - replace (x0 + (xc - x0)) with xc by lia. replace (y0 + (yc - y0)) with yc by lia. repeat split; eexists; constructor.
  - intros x y Hr D. apply dist0 in D. destruct D as [-> ->]. lia.
Qed.
Lemma box_ring R b b1 b2 b3 b4 : 1 <= R -> box_inv R b ->
  upd_box T R b b1 -> upd_box B R b1 b2 -> upd_box L R b2 b3 -> upd_box R' R b3 b4 -> box_inv (R + 1) b4.
Proof.
  intros HR HB UT UB UL UR. destruct HS as [HSx HSy]. destruct b as [[[a0 a1] c0] c1].
  destruct HB as (I1 & I2 & (E1 & E2 & E3 & E4) & I3). unfold Approx3Model.W, Approx3Model.H in *.
  assert (NT : ~ on_side T R -> forall x y, rch x y -> dst x y = R -> y - yc = R -> False).
  { intros N x y Hr D Q. apply N. exists x. cbn [pix4 proper]. replace (yc + R) with y by lia. split; [apply rch_box; auto|split; [unfold dist in D; lia|exact Hr]]. }
  assert (NB : ~ on_side B R -> forall x y, rch x y -> dst x y = R -> yc - y = R -> False).
  { intros N x y Hr D Q. apply N. exists x. cbn [pix4 proper]. replace (yc - R) with y by lia. split; [apply rch_box; auto|split; [unfold dist in D; lia|exact Hr]]. }
  assert (NL : ~ on_side L R -> forall x y, rch x y -> xc - x = R -> Z.abs (y - yc) < R -> False).
  { intros N x y Hr Q D. apply N. exists y. cbn [pix4 proper]. replace (xc - R) with x by lia. split; [apply rch_box; auto|split; [lia|exact Hr]]. }
  assert (NR : ~ on_side R' R -> forall x y, rch x y -> x - xc = R -> Z.abs (y - yc) < R -> False).
  { intros N x y Hr Q D. apply N. exists y. cbn [pix4 proper]. replace (xc + R) with x by lia. split; [apply rch_box; auto|split; [lia|exact Hr]]. }
  assert (YT : on_side T R -> yc + R < y1 /\ exists x, rch x (y0 + (yc + R - y0))).
  { intros (c & Q1 & Q2 & Q3). cbn [pix4] in *. unfold boxed, inbox in Q1. cbn [fst snd] in Q1. split; [lia|]. exists c. replace (y0 + (yc + R - y0)) with (yc + R) by lia. exact Q3. }
  assert (YB : on_side B R -> y0 <= yc - R /\ exists x, rch x (y0 + (yc - R - y0))).
  { intros (c & Q1 & Q2 & Q3). cbn [pix4] in *. unfold boxed, inbox in Q1. cbn [fst snd] in Q1. split; [lia|]. exists c. replace (y0 + (yc - R - y0)) with (yc - R) by lia. exact Q3. }
  assert (YL : on_side L R -> x0 <= xc - R /\ exists y, rch (x0 + (xc - R - x0)) y).
  { intros (c & Q1 & Q2 & Q3). cbn [pix4] in *. unfold boxed, inbox in Q1. cbn [fst snd] in Q1. split; [lia|]. exists c. replace (x0 + (xc - R - x0)) with (xc - R) by lia. exact Q3. }
  assert (YR : on_side R' R -> xc + R < x1 /\ exists y, rch (x0 + (xc + R - x0)) y).
  { intros (c & Q1 & Q2 & Q3). cbn [pix4] in *. unfold boxed, inbox in Q1. cbn [fst snd] in Q1. split; [lia|]. exists c. replace (x0 + (xc + R - x0)) with (xc + R) by lia. exact Q3. }
  assert (P : exists a0' a1' c0' c1', b4 = (a0', a1', c0', c1') /\
    (on_side L R /\ a0' = xc - R - x0 \/ ~ on_side L R /\ a0' = a0) /\ (on_side R' R /\ a1' = xc + R - x0 \/ ~ on_side R' R /\ a1' = a1) /\
    (on_side B R /\ c0' = yc - R - y0 \/ ~ on_side B R /\ c0' = c0) /\ (on_side T R /\ c1' = yc + R - y0 \/ ~ on_side T R /\ c1' = c1)).
  { destruct UT as [[QT ->]|[QT ->]], UB as [[QB ->]|[QB ->]], UL as [[QL ->]|[QL ->]], UR as [[QR ->]|[QR ->]]; cbn [setb];
      (do 4 eexists; split; [reflexivity|]); auto 10. }
  destruct P as (a0' & a1' & c0' & c1' & -> & PL & PR & PB & PT). clear UT UB UL UR. cbn [box_inv]. unfold Approx3Model.W, Approx3Model.H.
  split; [|split; [|split]].
  - split; [|split; [|split]]; [destruct PL as [[Q ->]|[Q ->]]; [apply YL in Q|]|destruct PR as [[Q ->]|[Q ->]]; [apply YR in Q|]|destruct PB as [[Q ->]|[Q ->]]; [apply YB in Q|]|destruct PT as [[Q ->]|[Q ->]]; [apply YT in Q|]]; lia.
  - split; [|split; [|split]]; [destruct PL as [[Q ->]|[Q ->]]|destruct PR as [[Q ->]|[Q ->]]|destruct PB as [[Q ->]|[Q ->]]|destruct PT as [[Q ->]|[Q ->]]]; lia.
  - split; [|split; [|split]]; [destruct PL as [[Q ->]|[Q ->]]; [apply YL in Q; apply Q|exact E1]|destruct PR as [[Q ->]|[Q ->]]; [apply YR in Q; apply Q|exact E2]|destruct PB as [[Q ->]|[Q ->]]; [apply YB in Q; apply Q|exact E3]|destruct PT as [[Q ->]|[Q ->]]; [apply YT in Q; apply Q|exact E4]].
  - intros x y Hr D. destruct (Z.eq_dec (dst x y) R) as [DR|DR].
    + split; intros Q.
      * assert (QX : Z.abs (x - xc) = R) by (unfold dist in DR; lia). split.
        -- destruct PL as [[QL ->]|[QL ->]]; [lia|]. destruct (Z.eq_dec (xc - x) R); [exfalso; apply (NL QL x y); auto; lia|lia].
        -- destruct PR as [[QL ->]|[QL ->]]; [lia|]. destruct (Z.eq_dec (x - xc) R); [exfalso; apply (NR QL x y); auto; lia|lia].
      * assert (QY : Z.abs (y - yc) = R) by (unfold dist in DR; lia). split.
        -- destruct PB as [[QL ->]|[QL ->]]; [lia|]. destruct (Z.eq_dec (yc - y) R); [exfalso; apply (NB QL x y); auto|lia].
        -- destruct PT as [[QL ->]|[QL ->]]; [lia|]. destruct (Z.eq_dec (y - yc) R); [exfalso; apply (NT QL x y); auto|lia].
    + destruct (I3 x y Hr ltac:(lia)) as [J1 J2]. split; intros Q; [specialize (J1 Q)|specialize (J2 Q)].
      * destruct PL as [[_ ->]|[_ ->]], PR as [[_ ->]|[_ ->]]; lia.
      * destruct PB as [[_ ->]|[_ ->]], PT as [[_ ->]|[_ ->]]; lia.
Qed.

(** *** The loop *)
Lemma rch_down R x y : 1 <= R -> rch x y -> R <= dst x y -> exists x' y', rch x' y' /\ dst x' y' = R.
Proof.
  intros HR Hr D. assert (exists k, dst x y = R + Z.of_nat k) as [k Hk] by (exists (Z.to_nat (dst x y - R)); lia). clear D.
  revert x y Hr Hk. induction k as [|k IH]; intros x y Hr Hk; [exists x, y; split; auto; lia|].
  destruct (rch_inv x y (R + Z.of_nat k) ltac:(lia) ltac:(lia) Hr) as (_ & x' & y' & P1 & P2 & _). apply (IH x' y'); auto.
Qed.
Lemma dist_bound x y : ibox x y -> dst x y < Z.max W H.
Proof. destruct HS as [A1 A2]. intros [A3 A4]. unfold dist, Approx3Model.W, Approx3Model.H. lia. Qed.
Lemma rings_spec : forall fuel R s, 1 <= R -> Z.max W H < R + Z.of_nat fuel -> (0 < fuel)%nat ->
  Inv R (nxt s) -> touched R s -> box_inv R (box s) ->
  exists s', rings val below x0 x1 y0 y1 minradius fuel xc yc R s = Some s' /\
    (exists ps, writes s' = map wr ps /\ NoDup ps /\ forall p, In p ps <-> rch2 p) /\
    exists R2, (forall x y, rch x y -> dst x y < R2) /\ box_inv R2 (box s').
Proof.
  induction fuel as [|fuel IH]; intros R s HR HF H0 HI HT HB; [lia|]. cbn [rings].
  destruct (ring_spec R s HR HI HT) as (I1 & I2 & I3 & b1 & b2 & b3 & U1 & U2 & U3 & U4).
  set (s' := ring val below x0 x1 y0 y1 minradius xc yc R s) in *.
  assert (HB' := box_ring R _ _ _ _ _ HR HB U1 U2 U3 U4).
  destruct (any s') eqn:EA.
  - assert (exists x y, rch x y /\ dst x y = R) as (x & y & Q1 & Q2) by (apply I3; auto).
    pose proof (dist_bound x y (rch_box _ _ Q1)). apply IH; auto; try lia.
  - assert (NO : forall x y, rch x y -> dst x y < R).
    { intros x y Hr. destruct (Z.lt_ge_cases (dst x y) R) as [?|Q]; auto. exfalso.
      assert (false = true); [|discriminate]. apply I3. apply (rch_down R x y); auto. }
    exists s'. split; [reflexivity|]. split.
    + destruct I2 as (ps & E1 & E2 & E3). exists ps. split; auto. split; auto. intros p. rewrite E3. split; [intros [Q _]; auto|].
      intros Q. split; auto. specialize (NO _ _ Q). lia.
    + exists (R + 1). split; auto. intros x y Hr. specialize (NO x y Hr). lia.
Qed.
End Start.

Lemma offset_inj x y x' y' : ibox x y -> ibox x' y' -> offset x0 x1 y0 x y = offset x0 x1 y0 x' y' -> x = x' /\ y = y'.
Proof.
  unfold inbox, offset, Approx3Model.W. intros [A1 A2] [A3 A4] E.
  assert (x - x0 = x' - x0 /\ y - y0 = y' - y0); [|lia].
  assert (M : forall w a b, 0 <= b < w -> (a * w + b) / w = a) by (intros w a b Hb; rewrite Z.div_add_l by lia; rewrite Z.div_small; lia).
  pose proof (M (x1 - x0) (y - y0) (x - x0) ltac:(lia)) as M1. pose proof (M (x1 - x0) (y' - y0) (x' - x0) ltac:(lia)) as M2.
  rewrite E, M2 in M1. rewrite <- M1 in E. lia.
Qed.
Lemma offset_range x y : ibox x y -> 0 <= offset x0 x1 y0 x y < W * H.
Proof. unfold inbox, offset, Approx3Model.W, Approx3Model.H. intros [A1 A2]. nia. Qed.
Lemma store_spec : forall (ps : list (Z * Z)) (arr : list V), NoDup ps -> (forall p, In p ps -> ibox (fst p) (snd p)) ->
  Z.of_nat (length arr) = W * H ->
  exists arr', store (map wr ps) arr = Some arr' /\ length arr' = length arr /\
    forall x y, ibox x y -> (In (x, y) ps -> nth (Z.to_nat (offset x0 x1 y0 x y)) arr' zero = val x y) /\
      (~ In (x, y) ps -> nth (Z.to_nat (offset x0 x1 y0 x y)) arr' zero = nth (Z.to_nat (offset x0 x1 y0 x y)) arr zero).
Proof.
  induction ps as [|[x y] ps IH]; intros arr ND HB L; [exists arr; cbn; split; [auto|split; [auto|split; [contradiction|auto]]]|].
  inversion ND as [|? ? N1 N2]; subst. cbn [map store wr fst snd].
  pose proof (HB (x, y) (or_introl eq_refl)) as B0. cbn in B0. pose proof (offset_range _ _ B0).
  destruct (Z.leb_spec 0 (offset x0 x1 y0 x y)); [|lia]. destruct (Z.ltb_spec (offset x0 x1 y0 x y) (Z.of_nat (length arr))); [|lia]. cbn [andb].
  destruct (IH (upd (Z.to_nat (offset x0 x1 y0 x y)) (val x y) arr) N2) as (arr' & E1 & E2 & E3).
  - intros p Hp. apply HB. right. auto.
  - rewrite upd_length. auto.
  - exists arr'. split; [exact E1|]. rewrite upd_length in E2. split; [auto|]. intros x' y' B1. destruct (E3 x' y' B1) as [F1 F2]. pose proof (offset_range _ _ B1).
    split.
    + intros [Q|Q]; [|auto]. injection Q as <- <-. rewrite F2 by auto. rewrite nth_upd by lia. rewrite Nat.eqb_refl. reflexivity.
    + intros Q. rewrite F2 by (intros ?; apply Q; right; auto). rewrite nth_upd by lia.
      destruct (Nat.eqb_spec (Z.to_nat (offset x0 x1 y0 x y)) (Z.to_nat (offset x0 x1 y0 x' y'))) as [E|E]; [|reflexivity].
      exfalso. apply Q. left. destruct (offset_inj x y x' y' B0 B1 ltac:(lia)) as [-> ->]. reflexivity.
Qed.

(** *** C45 *)
Notation rchf := (reached val below x0 x1 y0 y1 minradius).
(** Each pixel reached is evaluated once, nothing else is. *)
Theorem C45_once : forall fuel xc yc, ibox xc yc -> Z.max W H <= Z.of_nat fuel ->
  exists s, rings val below x0 x1 y0 y1 minradius fuel xc yc 1 (first_state val x0 x1 y0 y1 xc yc) = Some s /\
    NoDup (map fst (writes s)) /\
    forall o v, In (o, v) (writes s) <-> exists x y, rchf xc yc x y /\ o = (y - y0) * (x1 - x0) + (x - x0) /\ v = val x y.
Proof.
  intros fuel xc yc HB HF. assert (F0 : 1 <= Z.max W H) by (unfold inbox, Approx3Model.W, Approx3Model.H in *; lia).
  destruct (rings_spec xc yc HB fuel 1 (first_state val x0 x1 y0 y1 xc yc)) as (s & E & (ps & P1 & P2 & P3) & _); try lia.
  - apply first_inv; auto.
  - apply first_touched; auto.
  - apply box_first; auto.
  - exists s. split; [auto|]. rewrite P1. split.
    + rewrite map_map. clear P1.
      assert (G : forall l, (forall p, In p l -> ibox (fst p) (snd p)) -> NoDup l -> NoDup (map (fun p => fst (wr p)) l)).
      { induction l as [|p l IH]; intros Hl Hn; [constructor|]. inversion Hn as [|? ? N1 N2]; subst. cbn. constructor.
        - intros Q. apply in_map_iff in Q. destruct Q as (q & Q1 & Q2). apply N1. unfold wr in Q1. cbn in Q1.
          apply offset_inj in Q1; [|apply Hl; right; auto|apply Hl; left; auto].
          destruct p, q; cbn in *; destruct Q1 as [<- <-]. auto.
        - apply IH; auto. intros. apply Hl. right. auto. }
      apply G; auto. intros p Hp. apply P3 in Hp. eapply rch_box; eauto.
    + intros o v. rewrite in_map_iff. unfold wr, offset, Approx3Model.W. split.
      * intros ([x y] & Q1 & Q2). apply P3 in Q2. injection Q1 as <- <-. exists x, y. auto.
      * intros (x & y & Q1 & -> & ->). exists (x, y). split; auto. apply P3. auto.
Qed.
(** The array: reached pixels hold their value, the others zero; no write is
    outside.  And the box. *)
Theorem C45_render : forall fuel xc yc sx sy, start zero ev above x0 x1 y0 y1 xc yc = (sx, sy) -> ibox sx sy ->
  Z.max W H <= Z.of_nat fuel ->
  exists arr a0 a1 b0 b1, approx3 zero ev val above below x0 x1 y0 y1 minradius fuel xc yc = Done (arr, (a0, a1, b0, b1)) /\
    Z.of_nat (length arr) = (x1 - x0) * (y1 - y0) /\
    (forall x y, ibox x y ->
      (rchf sx sy x y -> nth (Z.to_nat ((y - y0) * (x1 - x0) + (x - x0))) arr zero = val x y) /\
      (~ rchf sx sy x y -> nth (Z.to_nat ((y - y0) * (x1 - x0) + (x - x0))) arr zero = zero)) /\
    (0 <= a0 <= sx - x0 /\ sx - x0 < a1 <= x1 - x0 /\ 0 <= b0 <= sy - y0 /\ sy - y0 < b1 <= y1 - y0) /\
    ((exists y, rchf sx sy (x0 + a0) y) /\ (exists y, rchf sx sy (x0 + a1 - 1) y) /\
     (exists x, rchf sx sy x (y0 + b0)) /\ (exists x, rchf sx sy x (y0 + b1 - 1))) /\
    (forall x y, rchf sx sy x y ->
      (Z.abs (y - sy) < Z.abs (x - sx) -> x0 + a0 <= x < x0 + a1) /\ (Z.abs (x - sx) <= Z.abs (y - sy) -> y0 + b0 <= y < y0 + b1)).
Proof.
  intros fuel xc yc sx sy HSt HB HF. assert (F0 : 1 <= Z.max W H) by (unfold inbox, Approx3Model.W, Approx3Model.H in *; lia).
  unfold approx3. rewrite HSt.
  destruct (rings_spec sx sy HB fuel 1 (first_state val x0 x1 y0 y1 sx sy)) as (s & E & (ps & P1 & P2 & P3) & R2 & Q1 & Q2); try lia.
  - apply first_inv; auto.
  - apply first_touched; auto.
  - apply box_first; auto.
  - rewrite E, P1, <- map_rev.
    destruct (store_spec (rev ps) (repeat zero (Z.to_nat W * Z.to_nat H))) as (arr & S1 & S2 & S3).
    + apply NoDup_rev. auto.
    + intros p Hp. apply in_rev in Hp. apply P3 in Hp. eapply rch_box; eauto.
    + rewrite repeat_length. unfold inbox, Approx3Model.W, Approx3Model.H in *. nia.
    + rewrite S1. unfold box, box_inv in Q2. destruct Q2 as (J1 & J2 & (E1 & E2 & E3 & E4) & J3). unfold Approx3Model.W, Approx3Model.H in *.
      do 5 eexists. split; [reflexivity|]. split; [rewrite S2, repeat_length; unfold inbox in HB; nia|]. split; [|split; [lia|split]].
      * intros x y Hxy. destruct (S3 x y Hxy) as [F1 F2]. unfold offset, Approx3Model.W in F1, F2. split.
        -- intros Q. apply F1. apply in_rev. rewrite rev_involutive. apply P3. exact Q.
        -- intros Q. rewrite F2; [apply nth_repeat|]. intros Q'. apply in_rev in Q'. apply P3 in Q'. auto.
      * replace (x0 + (sx1 s + 1) - 1) with (x0 + sx1 s) by lia. replace (y0 + (sy1 s + 1) - 1) with (y0 + sy1 s) by lia. auto.
      * intros x y Hr. destruct (J3 x y Hr (Q1 x y Hr)) as [G1 G2]. split; intros Q; [specialize (G1 Q)|specialize (G2 Q)]; lia.
Qed.
(** When every rendered pixel has the pixels of its row and column through the
    start rendered too (sources not tilted), the box holds all of them. *)
Theorem C45_box : forall fuel xc yc sx sy arr a0 a1 b0 b1, start zero ev above x0 x1 y0 y1 xc yc = (sx, sy) -> ibox sx sy ->
  Z.max W H <= Z.of_nat fuel ->
  approx3 zero ev val above below x0 x1 y0 y1 minradius fuel xc yc = Done (arr, (a0, a1, b0, b1)) ->
  (forall x y, rchf sx sy x y -> rchf sx sy x sy /\ rchf sx sy sx y) ->
  forall x y, rchf sx sy x y -> x0 + a0 <= x < x0 + a1 /\ y0 + b0 <= y < y0 + b1.
Proof.
  intros fuel xc yc sx sy arr a0 a1 b0 b1 HSt HB HF E HC x y Hr.
  destruct (C45_render fuel xc yc sx sy HSt HB HF) as (arr' & a0' & a1' & b0' & b1' & E' & _ & _ & R1 & _ & R2).
  rewrite E in E'. injection E' as <- <- <- <- <-. destruct (HC x y Hr) as [C1 C2].
  destruct (R2 _ _ C1) as [P1 _]. destruct (R2 _ _ C2) as [_ P2].
  split.
  - destruct (Z.eq_dec x sx) as [->|]; [lia|]. apply P1. lia.
  - apply P2. lia.
Qed.
Lemma step_in c cc k lo hi : 0 <= k -> lo <= c < hi -> lo <= cc < hi -> Z.abs (c - cc) <= k + 1 ->
  exists c', lo <= c' < hi /\ Z.abs (c' - c) <= 1 /\ Z.abs (c' - cc) <= k /\ (Z.abs (c - cc) = k + 1 -> Z.abs (c' - cc) = k).
Proof.
  intros Hk H1 H2 H3. destruct (Z.eq_dec (c - cc) (k + 1)); [exists (c - 1); lia|]. destruct (Z.eq_dec (cc - c) (k + 1)); [exists (c + 1); lia|].
  exists c. lia.
Qed.
(** Every pixel of the box within the minimum radius (plus one) is rendered. *)
Theorem C45_minradius : forall xc yc x y, ibox xc yc -> ibox x y -> dist xc yc x y <= Z.max minradius 0 + 1 -> rchf xc yc x y.
Proof.
  intros xc yc x y HC HB HD. assert (exists k, dist xc yc x y = Z.of_nat k) as [k Hk] by (exists (Z.to_nat (dist xc yc x y)); unfold dist in *; lia).
  revert x y HB HD Hk. induction k as [|k IH]; intros x y HB HD Hk.
  - assert (x = xc /\ y = yc) as [-> ->] by (unfold dist in Hk; lia). constructor.
  - unfold inbox in *.
    destruct (step_in x xc (Z.of_nat k) x0 x1) as (x' & X1 & X2 & X3 & X4); [lia|lia|lia|unfold dist in *; lia|].
    destruct (step_in y yc (Z.of_nat k) y0 y1) as (y' & Y1 & Y2 & Y3 & Y4); [lia|lia|lia|unfold dist in *; lia|].
    assert (D : dist xc yc x' y' = Z.of_nat k).
    { unfold dist in *. clear - Hk X3 X4 Y3 Y4. destruct (Z.max_spec (Z.abs (x - xc)) (Z.abs (y - yc))) as [[_ M]|[_ M]]; rewrite M in Hk; [rewrite Y4 by lia|rewrite X4 by lia]; lia. }
    apply (reached_step _ _ _ _ _ _ _ _ _ x' y').
    + apply IH; [lia|lia|auto].
    + unfold grows. rewrite D. destruct k; [left; auto|right; left; lia].
    + unfold inbox. lia.
    + unfold adjacent. lia.
    + rewrite D, Hk. lia.
Qed.
(** Every bright pixel is rendered when the bright region is star-shaped about
    the start: each bright pixel has a bright neighbour one ring further in. *)
Theorem C45_star : forall xc yc, ibox xc yc ->
  (forall x y, ibox x y -> below (val x y) = false -> 2 <= dist xc yc x y ->
     exists x' y', ibox x' y' /\ below (val x' y') = false /\ adjacent x' y' x y /\ dist xc yc x' y' + 1 = dist xc yc x y) ->
  forall x y, ibox x y -> below (val x y) = false -> rchf xc yc x y.
Proof.
  intros xc yc HC HS x y HB HV. assert (exists k, dist xc yc x y = Z.of_nat k) as [k Hk] by (exists (Z.to_nat (dist xc yc x y)); unfold dist in *; lia).
  revert x y HB HV Hk. induction k as [|k IH]; intros x y HB HV Hk.
  - apply C45_minradius; auto. lia.
  - destruct (Z.le_gt_cases 2 (dist xc yc x y)) as [Q|Q].
    + destruct (HS x y HB HV Q) as (x' & y' & P1 & P2 & P3 & P4). eapply reached_step; [apply (IH x' y'); auto; lia|right; right; auto|auto|auto|lia].
    + apply C45_minradius; auto. lia.
Qed.

(** The start pixel. *)
Theorem C45_start_inside : forall xc yc, ibox xc yc -> start zero ev above x0 x1 y0 y1 xc yc = (xc, yc).
Proof.
  intros xc yc [A1 A2]. unfold start. destruct (Z.ltb_spec xc x0); [lia|]. destruct (Z.ltb_spec yc y0); [lia|].
  destruct (Z.geb_spec xc x1); [lia|]. destruct (Z.geb_spec yc y1); [lia|]. reflexivity.
Qed.
Lemma try_fold (coord : Z -> Z * Z) : (forall a b c, above a b = true -> above b c = true -> above a c = true) ->
  forall l s, let '(m, nx, ny) := s in
  let '(m', nx', ny') := fold_left (fun s c => try_pixel ev above s (fst (coord c)) (snd (coord c))) l s in
  (m' = m /\ nx' = nx /\ ny' = ny /\ (forall c, In c l -> above (ev (fst (coord c)) (snd (coord c))) m' = false) \/
   (exists c, In c l /\ nx' = fst (coord c) /\ ny' = snd (coord c) /\ m' = ev nx' ny') /\ above m' m = true /\
   ((forall a, above a a = false) -> forall c, In c l -> above (ev (fst (coord c)) (snd (coord c))) m' = false)).
Proof.
  intros TR. induction l as [|c l IH]; intros [[m nx] ny].
  - cbn. left. repeat split; auto. contradiction.
  - cbn [fold_left]. unfold try_pixel at 2. destruct (above (ev (fst (coord c)) (snd (coord c))) m) eqn:E.
    + specialize (IH (ev (fst (coord c)) (snd (coord c)), fst (coord c), snd (coord c))). cbv beta iota in IH.
      destruct (fold_left _ l _) as [[m' nx'] ny']. right.
      destruct IH as [(-> & -> & -> & N)|((c' & C1 & C2 & C3 & C4) & A & N)].
      * split; [exists c; cbn; auto|]. split; auto. intros IR c' [<-|Hc]; [apply IR|auto].
      * split; [exists c'; cbn; auto|]. split; [eapply TR; eauto|]. intros IR c'' [<-|Hc]; [|auto].
        destruct (above (ev (fst (coord c)) (snd (coord c))) m') eqn:E'; auto. rewrite <- (IR m'). symmetry. eapply TR; eauto.
    + specialize (IH (m, nx, ny)). cbv beta iota in IH. destruct (fold_left _ l _) as [[m' nx'] ny'].
      destruct IH as [(-> & -> & -> & N)|((c' & C1 & C2 & C3 & C4) & A & N)].
      * left. repeat split; auto. intros c' [<-|Hc]; auto.
      * right. split; [exists c'; cbn; auto|]. split; auto. intros IR c'' [<-|Hc]; [|auto].
        destruct (above (ev (fst (coord c)) (snd (coord c))) m') eqn:E'; auto. rewrite (TR _ _ _ E' A) in E. discriminate.
Qed.
Lemma in_zrange lo hi c : In c (zrange lo hi) <-> lo <= c < hi.
Proof.
  unfold zrange. rewrite in_map_iff. split.
  - intros (k & <- & Hk). apply in_seq in Hk. lia.
  - intros Hc. exists (Z.to_nat (c - lo)). split; [lia|]. apply in_seq. lia.
Qed.
(** A start outside is moved inside, except for a box of width or height one at
    negative coordinates and for empty boxes. *)
Theorem C45_start_moved : forall xc yc sx sy, (forall a b c, above a b = true -> above b c = true -> above a c = true) ->
  x0 < x1 -> y0 < y1 -> (0 <= x0 \/ x0 + 2 <= x1) -> (0 <= y0 \/ y0 + 2 <= y1) ->
  start zero ev above x0 x1 y0 y1 xc yc = (sx, sy) -> ibox sx sy.
Proof.
  intros xc yc sx sy TR HX HY NX NY E. unfold start in E.
  assert (MX : x0 <= Z.quot (x0 + x1) 2 < x1) by (Z.quot_rem_to_equations; lia).
  assert (MY : y0 <= Z.quot (y0 + y1) 2 < y1) by (Z.quot_rem_to_equations; lia).
  destruct ((xc <? x0) || (yc <? y0) || (xc >=? x1) || (yc >=? y1)) eqn:EO.
  - set (ix := if xc <? x0 then x0 else x1 - 1) in E. set (iy := if yc <? y0 then y0 else y1 - 1) in E.
    assert (BX : x0 <= ix < x1) by (unfold ix; destruct (xc <? x0); lia). assert (BY : y0 <= iy < y1) by (unfold iy; destruct (yc <? y0); lia).
    pose proof (try_fold (fun c => (ix, c)) TR (zrange y0 y1) (zero, Z.quot (x0 + x1) 2, Z.quot (y0 + y1) 2)) as F1. cbn [fst snd] in F1.
    set (s1 := if (xc <? x0) || (xc >=? x1) then fold_left (fun s iy => try_pixel ev above s ix iy) (zrange y0 y1) (zero, Z.quot (x0 + x1) 2, Z.quot (y0 + y1) 2) else (zero, Z.quot (x0 + x1) 2, Z.quot (y0 + y1) 2)) in *.
    assert (B1 : ibox (snd (fst s1)) (snd s1)).
    { unfold s1. destruct ((xc <? x0) || (xc >=? x1)); [|split; cbn; lia]. destruct (fold_left _ (zrange y0 y1) _) as [[m' nx'] ny']. cbn [fst snd].
      destruct F1 as [(_ & -> & -> & _)|((c & C1 & -> & -> & _) & _)]; [split; lia|]. apply in_zrange in C1. split; lia. }
    destruct s1 as [[m1 nx1] ny1]. cbn [fst snd] in B1.
    pose proof (try_fold (fun c => (c, iy)) TR (zrange x0 x1) (m1, nx1, ny1)) as F2. cbn [fst snd] in F2.
    destruct ((yc <? y0) || (yc >=? y1)); [|injection E as <- <-; auto].
    destruct (fold_left _ (zrange x0 x1) _) as [[m' nx'] ny']. injection E as <- <-.
    destruct F2 as [(_ & -> & -> & _)|((c & C1 & -> & -> & _) & _)]; [auto|]. apply in_zrange in C1. split; lia.
  - injection E as <- <-. split; lia.
Qed.
End Proofs.

(** *** Examples and refutations *)
Definition dim (r : Z) : bool := r <? 5.
(** A round source of radius 6 in a 20 x 15 box, start at (9, 7). *)
Definition disc (x y : Z) : Z := if (x - 9) * (x - 9) + (y - 7) * (y - 7) <? 36 then 10 else 1.
Example C45_ex : inbox 0 20 0 15 9 7 /\
  (forall x y, inbox 0 20 0 15 x y -> dim (disc x y) = false -> reached disc dim 0 20 0 15 2 9 7 x y) /\
  exists arr, approx3 0 disc disc Z.gtb dim 0 20 0 15 2 20 9 7 = Done (arr, (3, 16, 1, 14)).
Proof.
  split; [split; lia|]. split.
  - apply C45_star; [split; lia|]. intros x y _ HV HD. unfold dim, disc in *. unfold dist in HD.
    destruct (Z.ltb_spec ((x - 9) * (x - 9) + (y - 7) * (y - 7)) 36) as [Q|Q]; [|discriminate].
    exists (if Z.abs (y - 7) <=? Z.abs (x - 9) then x - Z.sgn (x - 9) else x), (if Z.abs (x - 9) <=? Z.abs (y - 7) then y - Z.sgn (y - 7) else y).
    assert (RX : 3 < x < 15) by nia. assert (RY : 1 < y < 13) by nia.
    assert (CX : In x [4;5;6;7;8;9;10;11;12;13;14]) by (cbn; lia). assert (CY : In y [2;3;4;5;6;7;8;9;10;11;12]) by (cbn; lia).
    clear HV. unfold dist, inbox, adjacent.
    repeat (destruct CX as [<-|CX]; [repeat (destruct CY as [<-|CY]; [cbn in *; try lia; repeat split; (lia || reflexivity)|]); destruct CY|]). destruct CX.
  - eexists. vm_compute. reflexivity.
Qed.
(** Refutation of the box: a thin tilted source (values 10 near the line
    y = 3x), default minimum radius 3.  The pixel (-6, -15) is rendered and lies
    outside the reported box; with doslice it is cut off. *)
Definition tilted (x y : Z) : Z := if Z.abs (y - 3 * x) <=? 3 then 10 else 0.
Theorem C45_box_refuted : exists arr a0 a1 b0 b1,
  approx3 0 tilted tilted Z.gtb dim (-10) 11 (-15) 16 3 40 0 0 = Done (arr, (a0, a1, b0, b1)) /\
  nth (Z.to_nat ((-15 - -15) * (11 - -10) + (-6 - -10))) arr 0 = 10 /\ ~ (-10 + a0 <= -6 < -10 + a1).
Proof. do 5 eexists. split; [vm_compute; reflexivity|]. split; [vm_compute; reflexivity|]. lia. Qed.
(** Refutation of rendering everything connected: an L-shaped region that turns
    back towards the start's column. *)
Definition hook (x y : Z) : Z :=
  if ((y =? 0) && (0 <=? x) && (x <=? 3)) || ((x =? 3) && (0 <=? y) && (y <=? 3)) || ((y =? 3) && (0 <=? x) && (x <=? 3)) then 10 else 0.
Theorem C45_connected_refuted : exists path arr b,
  path = [(0, 0); (1, 0); (2, 0); (3, 0); (3, 1); (3, 2); (3, 3); (2, 3); (1, 3); (0, 3)] /\
  (forall p, In p path -> inbox (-6) 7 (-6) 7 (fst p) (snd p) /\ dim (hook (fst p) (snd p)) = false) /\
  (forall i, (i < 9)%nat -> let p := nth i path (0, 0) in let q := nth (S i) path (0, 0) in adjacent (fst p) (snd p) (fst q) (snd q)) /\
  approx3 0 hook hook Z.gtb dim (-6) 7 (-6) 7 0 40 0 0 = Done (arr, b) /\
  nth (Z.to_nat ((3 - -6) * 13 + (0 - -6))) arr 0 = 0 /\ hook 0 3 = 10.
Proof.
  do 3 eexists. split; [reflexivity|]. split; [|split; [|split; [vm_compute; reflexivity|split; vm_compute; reflexivity]]].
  - intros p Hp. cbn in Hp. repeat (destruct Hp as [<-|Hp]; [unfold inbox; cbn; split; [lia|reflexivity]|]). destruct Hp.
  - intros i Hi. unfold adjacent. do 9 (destruct i as [|i]; [cbn; lia|]). lia.
Qed.
(** Refutation of memory safety: a box of one row at a negative coordinate, the
    start outside and no pixel of the edge bright (far away source): the centre
    (-1 + 0) / 2 rounds up to 0, one row past the end.  The same for an empty
    box. *)
Theorem C45_safe_refuted :
  start 0 (fun _ _ => 0) Z.gtb 0 4 (-1) 0 0 30 = (2, 0) /\
  approx3 0 (fun _ _ => 0) (fun _ _ => 0) Z.gtb dim 0 4 (-1) 0 3 40 0 30 = Undefined /\
  approx3 0 disc disc Z.gtb dim 3 3 0 5 3 40 3 2 = Undefined.
Proof. vm_compute. auto. Qed.

(** *** The patch returned to Python *)
(** Inside the reported box the patch holds the rendered values; without
    slicing it is the whole requested box. *)
Theorem C45_patch : forall {V : Type} (zero : V) ev val above below x0 x1 y0 y1 minradius fuel cx cy maxmargin doslice sx sy,
  start zero ev above x0 x1 y0 y1 cx cy = (sx, sy) -> inbox x0 x1 y0 y1 sx sy ->
  Z.max (x1 - x0) (y1 - y0) <= Z.of_nat fuel ->
  x0 - maxmargin <= cx <= x1 + maxmargin -> y0 - maxmargin <= cy <= y1 + maxmargin ->
  exists px py w h pix,
    grid zero ev val above below x0 x1 y0 y1 minradius fuel cx cy maxmargin doslice = Done (Some (px, py, w, h, pix)) /\
    x0 <= px /\ px + w <= x1 /\ y0 <= py /\ py + h <= y1 /\ px <= sx < px + w /\ py <= sy < py + h /\
    (doslice = false -> px = x0 /\ py = y0 /\ w = x1 - x0 /\ h = y1 - y0) /\
    forall i j, 0 <= i < w -> 0 <= j < h ->
      (reached val below x0 x1 y0 y1 minradius sx sy (px + i) (py + j) -> pix i j = val (px + i) (py + j)) /\
      (~ reached val below x0 x1 y0 y1 minradius sx sy (px + i) (py + j) -> pix i j = zero).
Proof.
  intros V zero ev val above below x0 x1 y0 y1 minradius fuel cx cy maxmargin doslice sx sy HSt HB HF HX HY.
  destruct (C45_render zero ev val above below x0 x1 y0 y1 minradius fuel cx cy sx sy HSt HB HF) as (arr & a0 & a1 & b0 & b1 & E & L & A & R & _ & _).
  unfold grid. rewrite E.
  destruct (Z.ltb_spec cx (x0 - maxmargin)); [lia|]. destruct (Z.gtb_spec cx (x1 + maxmargin)); [lia|].
  destruct (Z.ltb_spec cy (y0 - maxmargin)); [lia|]. destruct (Z.gtb_spec cy (y1 + maxmargin)); [lia|]. cbn [orb].
  unfold inbox in HB. destruct doslice.
  - do 5 eexists. split; [reflexivity|]. conjs; try lia; try discriminate. intros i j Hi Hj.
    destruct (A (x0 + a0 + i) (y0 + b0 + j) ltac:(unfold inbox; lia)) as [A1 A2]. unfold Approx3Model.W.
    replace ((b0 + j) * (x1 - x0) + (a0 + i)) with ((y0 + b0 + j - y0) * (x1 - x0) + (x0 + a0 + i - x0)) by lia. auto.
  - do 5 eexists. split; [reflexivity|]. unfold Approx3Model.W, Approx3Model.H. conjs; try lia. intros i j Hi Hj.
    destruct (A (x0 + i) (y0 + j) ltac:(unfold inbox; lia)) as [A1 A2].
    replace (j * (x1 - x0) + i) with ((y0 + j - y0) * (x1 - x0) + (x0 + i - x0)) by lia. auto.
Qed.

Print Assumptions C45_once.
Print Assumptions C45_render.
Print Assumptions C45_box.
Print Assumptions C45_minradius.
Print Assumptions C45_star.
Print Assumptions C45_start_inside.
Print Assumptions C45_start_moved.
Print Assumptions C45_box_refuted.
Print Assumptions C45_connected_refuted.
Print Assumptions C45_safe_refuted.
Print Assumptions C45_patch.
