(** C46: the 7-tap separable correlation. *)
From Coq Require Import List Bool Arith Lia Ring ZArith.
From Verif Require Import Base Corr7Model.
Import ListNotations.

Section Props.
Context {V : Type} (zero : V) (add mul : V -> V -> V).
Notation dot := (dot zero add mul).
Notation pass_row := (pass_row zero add mul).
Notation pass := (pass zero add mul).

(** *** Specification *)
(** Correlation of a row of [w] numbers with a 7-tap filter at position i:
    the taps that fall on the row, summed from left to right. *)
Definition corr1 (f : nat -> V) (w : nat) (row : nat -> V) (i : nat) : V :=
  fold_left (fun s k => if (3 <=? i + k) && (i + k <? w + 3) then add s (mul (f k) (row (i + k - 3))) else s) (seq 0 7) zero.
(** Rows first, then columns. *)
Definition corr2 (fx fy : nat -> V) (h w : nat) (im : nat -> nat -> V) (y x : nat) : V :=
  corr1 fy h (fun y' => corr1 fx w (im y') x) y.
(** A flat array read as a picture. *)
Definition pic (w : nat) (b : list V) (y x : nat) : V := nth (y * w + x) b zero.

(** *** Writing *)
Definition written (P : nat -> bool) (c : nat -> V) (d d' : list V) : Prop :=
  length d' = length d /\ forall x, nth_error d' x = if P x then Some (c x) else nth_error d x.
Lemma wr_ok (b : list V) i v : i < length b -> exists b', wr b i v = Ok b' /\
  length b' = length b /\ forall x, nth_error b' x = if x =? i then Some v else nth_error b x.
Proof.
  intros H. unfold wr. rewrite (proj2 (Nat.ltb_lt _ _) H). eexists. split; [reflexivity|].
  assert (LF : length (firstn i b) = i) by (rewrite firstn_length; lia).
  split.
  - rewrite app_length, LF. cbn [length]. rewrite skipn_length. lia.
  - intros x. destruct (Nat.eqb_spec x i) as [->|N].
    + rewrite nth_error_app2 by lia. rewrite LF, Nat.sub_diag. reflexivity.
    + destruct (Nat.lt_ge_cases x i).
      * rewrite nth_error_app1 by lia. rewrite <- (firstn_skipn i b) at 2. rewrite nth_error_app1 by lia. reflexivity.
      * rewrite nth_error_app2 by lia. rewrite LF. destruct (x - i) as [|m] eqn:E; [lia|]. cbn [nth_error].
        rewrite <- (firstn_skipn (S i) b) at 2. rewrite nth_error_app2; rewrite firstn_length; [|lia].
        f_equal. lia.
Qed.
Lemma rd_ok (b : list V) i : i < length b -> rd b i = Ok (nth i b zero).
Proof. intros H. unfold rd. rewrite (nth_error_nth' b zero H). reflexivity. Qed.
Lemma written_one c d p v : p < length d -> v = c p -> exists d', wr d p v = Ok d' /\ written (fun x => x =? p) c d d'.
Proof.
  intros HP ->. destruct (wr_ok d p (c p) HP) as (d' & E & L & N). exists d'. split; auto. split; auto.
  intros x. rewrite N. destruct (Nat.eqb_spec x p) as [->|]; auto.
Qed.
Lemma written_trans P Q c d1 d2 d3 : written P c d1 d2 -> written Q c d2 d3 -> written (fun x => P x || Q x) c d1 d3.
Proof.
  intros [L1 N1] [L2 N2]. split; [congruence|]. intros x. rewrite N2, N1. destruct (P x), (Q x); reflexivity.
Qed.
Lemma written_ext P Q c d1 d2 : written P c d1 d2 -> (forall x, P x = Q x) -> written Q c d1 d2.
Proof. intros [L N] E. split; auto. intros x. rewrite N, E. reflexivity. Qed.
(** A loop that writes the positions P i. *)
Lemma for_written N c (P : nat -> nat -> bool) body : forall n i d, length d = N ->
  (forall m d, i <= m < i + n -> length d = N -> exists d', body m d = Ok d' /\ written (P m) c d d') ->
  exists d', for_ n i body d = Ok d' /\ written (fun x => existsb (fun m => P m x) (seq i n)) c d d'.
Proof.
  induction n as [|n IH]; intros i d HL H.
  - exists d. split; [reflexivity|]. split; auto.
  - destruct (H i d ltac:(lia) HL) as (d1 & E1 & W1). cbn [for_]. rewrite E1. cbn [bind].
    destruct (IH (S i) d1) as (d2 & E2 & W2).
    + destruct W1; congruence.
    + intros m d' Hm Hd. apply H; auto. lia.
    + exists d2. split; auto. eapply written_ext; [eapply written_trans; eauto|]. intros x. reflexivity.
Qed.

(** *** Taps *)
Lemma dot_ok n f foff src soff : foff + n <= length f -> soff + n <= length src ->
  dot n f foff src soff = Ok (fold_left (fun s k => add s (mul (nth (foff + k) f zero) (nth (soff + k) src zero))) (seq 0 n) zero).
Proof.
  intros HF HS. unfold Corr7Model.dot. generalize zero at 1 4 as s.
  assert (G : forall m i s, i + m = n -> for_ m i (fun k sum => f0 <- rd f (foff + k);; x <- rd src (soff + k);; Ok (add sum (mul f0 x))) s =
    Ok (fold_left (fun s k => add s (mul (nth (foff + k) f zero) (nth (soff + k) src zero))) (seq i m) s)).
  { induction m as [|m IH]; intros i s E; [reflexivity|]. cbn [for_ seq fold_left].
    rewrite (rd_ok f) by lia. cbn [bind]. rewrite (rd_ok src) by lia. cbn [bind]. apply IH. lia. }
  intros s. apply G. reflexivity.
Qed.

Ltac bools := repeat match goal with
  | |- context [if ?a <=? ?b then _ else _] => destruct (Nat.leb_spec a b); try lia
  | |- context [(?a <=? ?b) && _] => destruct (Nat.leb_spec a b); try lia; cbn [andb]
  | |- context [?a <? ?b] => destruct (Nat.ltb_spec a b); try lia
  end.
Ltac nths := repeat apply f_equal; repeat (apply f_equal2; [|]); try reflexivity.

Lemma corr1_left f w row i : 8 < w -> i < 3 ->
  corr1 f w row i = fold_left (fun s k => add s (mul (f (3 - i + k)) (row k))) (seq 0 (4 + i)) zero.
Proof.
  intros HW Hi. unfold corr1.
  assert (C : i = 0 \/ i = 1 \/ i = 2) by lia.
  destruct C as [->|[->| ->]]; cbn [seq fold_left Nat.add Nat.sub Nat.leb andb]; bools; reflexivity.
Qed.
Lemma corr1_middle f w row i : i + 7 <= w ->
  corr1 f w row (i + 3) = fold_left (fun s k => add s (mul (f k) (row (i + k)))) (seq 0 7) zero.
Proof.
  intros HW. unfold corr1. cbn [seq fold_left].
  assert (G : forall k, k < 7 -> (3 <=? i + 3 + k) && (i + 3 + k <? w + 3) = true /\ i + 3 + k - 3 = i + k).
  { intros k Hk. split; [|lia]. apply andb_true_intro. split; [apply Nat.leb_le|apply Nat.ltb_lt]; lia. }
  repeat match goal with |- context [(3 <=? i + 3 + ?k) && _] => let A := fresh in let B := fresh in
    destruct (G k ltac:(lia)) as [A B]; rewrite A, B; clear A B end.
  reflexivity.
Qed.
Lemma corr1_right f w row i : 8 < w -> i < 3 ->
  corr1 f w row (w - 1 - i) = fold_left (fun s k => add s (mul (f k) (row (w - (4 + i) + k)))) (seq 0 (4 + i)) zero.
Proof.
  intros HW Hi. unfold corr1.
  assert (G : forall k, k < 7 -> (3 <=? w - 1 - i + k) && (w - 1 - i + k <? w + 3) = (k <? 4 + i) /\ w - 1 - i + k - 3 = w - (4 + i) + k).
  { intros k Hk. split; [|lia]. destruct (Nat.leb_spec 3 (w - 1 - i + k)); [|lia]. cbn [andb].
    destruct (Nat.ltb_spec (w - 1 - i + k) (w + 3)), (Nat.ltb_spec k (4 + i)); auto; lia. }
  cbn [seq fold_left].
  repeat match goal with |- context [(3 <=? w - 1 - i + ?k) && _] => let A := fresh in let B := fresh in
    destruct (G k ltac:(lia)) as [A B]; rewrite A, B; clear A B end.
  assert (C : i = 0 \/ i = 1 \/ i = 2) by lia.
  destruct C as [->|[->| ->]]; reflexivity.
Qed.

(** *** One pass *)
Lemma fold_left_ext {A} (f g : A -> nat -> A) l a : (forall s k, In k l -> f s k = g s k) -> fold_left f l a = fold_left g l a.
Proof.
  revert a. induction l as [|x r IH]; intros a H; [reflexivity|]. cbn. rewrite H by (left; auto). apply IH. intros; apply H; right; auto.
Qed.
(** The value that belongs at position p of the transposed result. *)
Definition cell (w h : nat) (f src : list V) (p : nat) : V :=
  corr1 (fun k => nth k f zero) w (pic w src (p mod h)) (p / h).
Lemma cell_at w h f src i j : j < h -> cell w h f src (i * h + j) = corr1 (fun k => nth k f zero) w (pic w src j) i.
Proof.
  intros H. unfold cell. rewrite Nat.div_add_l, Nat.div_small, Nat.add_0_r by lia.
  rewrite Nat.add_comm, Nat.mod_add, Nat.mod_small by lia. reflexivity.
Qed.

Lemma pass_row_ok w h j f src d : length f = 7 -> 8 < w -> j < h -> h * w <= length src -> w * h <= length d ->
  exists d', pass_row w h j f src d = Ok d' /\
    written (fun p => (p <? w * h) && (p mod h =? j)) (cell w h f src) d d'.
Proof.
  intros HF HW HJ HS HD. unfold Corr7Model.pass_row. cbv zeta.
  assert (RO : j * w + w <= length src) by nia.
  destruct (for_written (length d) (cell w h f src) (fun i x => x =? i * h + j)
     (fun i dst => sum <- dot (4 + i) f (3 - i) src (j * w);; wr dst (i * h + j) sum) 3 0 d eq_refl) as (d1 & E1 & W1).
  { intros m e Hm He. rewrite dot_ok by lia. cbn [bind]. apply written_one; [nia|].
    rewrite cell_at by lia. rewrite corr1_left by lia. apply fold_left_ext. intros. reflexivity. }
  rewrite E1. cbn [bind].
  destruct (for_written (length d) (cell w h f src) (fun i x => x =? (i + 3) * h + j)
     (fun i dst => sum <- dot 7 f 0 src (j * w + i);; wr dst ((i + 3) * h + j) sum) (w - 6) 0 d1) as (d2 & E2 & W2).
  { destruct W1; congruence. }
  { intros m e Hm He. rewrite dot_ok by lia. cbn [bind]. apply written_one; [nia|].
    rewrite cell_at by lia. rewrite corr1_middle by lia. apply fold_left_ext. intros s k _.
    unfold pic. rewrite Nat.add_assoc. reflexivity. }
  rewrite E2. cbn [bind].
  destruct (for_written (length d) (cell w h f src) (fun i x => x =? (w - 1 - i) * h + j)
     (fun i dst => sum <- dot (4 + i) f 0 src (j * w + (w - (4 + i)));; wr dst ((w - 1 - i) * h + j) sum) 3 0 d2) as (d3 & E3 & W3).
  { destruct W1, W2; congruence. }
  { intros m e Hm He. rewrite dot_ok by lia. cbn [bind]. apply written_one; [nia|].
    rewrite cell_at by lia. rewrite corr1_right by lia. apply fold_left_ext. intros s k _.
    unfold pic. rewrite Nat.add_assoc. reflexivity. }
  exists d3. split; [exact E3|]. eapply written_ext; [eapply written_trans; [eapply written_trans; eauto|exact W3]|].
  intros x. apply eq_true_iff_eq. rewrite !orb_true_iff, andb_true_iff, !existsb_exists, Nat.ltb_lt, Nat.eqb_eq. split.
  - intros H. assert (exists i, i < w /\ x = i * h + j) as (i & Hi & ->).
    { destruct H as [[(i & Hi & E)|(i & Hi & E)]|(i & Hi & E)]; apply in_seq in Hi; apply Nat.eqb_eq in E; subst x.
      - exists i. split; [lia|auto].
      - exists (i + 3). split; [lia|auto].
      - exists (w - 1 - i). split; [lia|auto]. }
    split; [nia|]. rewrite Nat.add_comm, Nat.mod_add, Nat.mod_small by lia. auto.
  - intros [HX HM]. pose proof (Nat.div_mod x h ltac:(lia)) as DM. rewrite HM in DM.
    assert (HI : x / h < w) by (apply Nat.div_lt_upper_bound; lia).
    set (i := x / h) in *.
    destruct (Nat.lt_ge_cases i 3) as [C|C]; [|destruct (Nat.lt_ge_cases i (w - 3)) as [C'|C']].
    + left. left. exists i. split; [apply in_seq; lia|]. apply Nat.eqb_eq. lia.
    + left. right. exists (i - 3). split; [apply in_seq; lia|]. apply Nat.eqb_eq. replace (i - 3 + 3) with i by lia. lia.
    + right. exists (w - 1 - i). split; [apply in_seq; lia|]. apply Nat.eqb_eq. replace (w - 1 - (w - 1 - i)) with i by lia. lia.
Qed.
Lemma pass_ok w h f src d : length f = 7 -> 8 < w -> 0 < h -> h * w <= length src -> w * h <= length d ->
  exists d', pass w h f src d = Ok d' /\ written (fun p => p <? w * h) (cell w h f src) d d'.
Proof.
  intros HF HW HH HS HD. unfold Corr7Model.pass.
  destruct (for_written (length d) (cell w h f src) (fun j p => (p <? w * h) && (p mod h =? j))
    (fun j dst => pass_row w h j f src dst) h 0 d eq_refl) as (d' & E & W).
  { intros m e Hm He. apply pass_row_ok; auto; lia. }
  exists d'. split; [exact E|]. eapply written_ext; [exact W|]. intros x. apply eq_true_iff_eq. rewrite existsb_exists. split.
  - intros (j & _ & H). apply andb_true_iff in H. tauto.
  - intros H. exists (x mod h). split; [|rewrite H, Nat.eqb_refl; reflexivity]. apply in_seq. pose proof (Nat.mod_upper_bound x h). lia.
Qed.

Lemma cell_pic w h f src d d' i j : written (fun p => p <? w * h) (cell w h f src) d d' -> i < w -> j < h ->
  pic h d' i j = corr1 (fun k => nth k f zero) w (pic w src j) i.
Proof.
  intros [L N] Hi Hj. unfold pic. assert (X : i * h + j < w * h) by nia.
  specialize (N (i * h + j)). rewrite (proj2 (Nat.ltb_lt _ _) X) in N.
  rewrite (nth_error_nth d' _ zero N). apply cell_at. auto.
Qed.
Lemma corr1_ext f w r1 r2 i : (forall k, k < w -> r1 k = r2 k) -> corr1 f w r1 i = corr1 f w r2 i.
Proof.
  intros H. unfold corr1. apply fold_left_ext. intros s k _.
  destruct ((3 <=? i + k) && (i + k <? w + 3)) eqn:E; auto. apply andb_true_iff in E. destruct E as [A B].
  apply Nat.leb_le in A. apply Nat.ltb_lt in B. rewrite H by lia. reflexivity.
Qed.

Lemma two_passes W H fx fy src work out : length fx = 7 -> length fy = 7 -> 8 < W -> 8 < H ->
  H * W <= length src -> H * W <= length work -> length out = H * W ->
  exists work' out', pass W H fx src work = Ok work' /\ pass H W fy work' out = Ok out' /\
    length out' = H * W /\ length work' = length work /\
    (forall y x, y < H -> x < W -> pic W out' y x = corr2 (fun k => nth k fx zero) (fun k => nth k fy zero) H W (pic W src) y x) /\
    (forall p, W * H <= p -> nth_error work' p = nth_error work p).
Proof.
  intros LX LY HW HH HS HK HO.
  destruct (pass_ok W H fx src work) as (wk & E1 & W1); auto; try lia.
  destruct (pass_ok H W fy wk out) as (o & E2 & W2); auto; try lia.
  { destruct W1 as [L _]. nia. }
  exists wk, o. split; auto. split; auto. split; [destruct W2; congruence|]. split; [destruct W1; auto|]. split.
  - intros y x Hy Hx. rewrite (cell_pic _ _ _ _ _ _ _ _ W2 Hy Hx). unfold corr2. apply corr1_ext. intros k Hk.
    apply (cell_pic _ _ _ _ _ _ _ _ W1 Hx Hk).
  - intros p Hp. destruct W1 as [_ N]. rewrite N. destruct (Nat.ltb_spec p (W * H)); auto; lia.
Qed.

(** *** C46 *)
(** Every image of at least 9 x 9, with a scratch array at least as large: the
    call succeeds (no access outside a buffer), each output pixel is the
    separable zero-padded correlation, and the scratch array is only used up to
    its first W*H entries. *)
Theorem C46_inout : forall inimg H W outimg fx fy work w1 w2,
  length inimg = H * W -> length outimg = H * W -> length work = w1 * w2 ->
  length fx = 7 -> length fy = 7 -> H <= w1 -> W <= w2 -> 9 <= H -> 9 <= W ->
  exists out' work', correlate7_inout zero add mul inimg H W outimg H W fx fy work w1 w2 = Ok (out', work') /\
    length out' = H * W /\ length work' = length work /\
    (forall y x, y < H -> x < W ->
       pic W out' y x = corr2 (fun k => nth k fx zero) (fun k => nth k fy zero) H W (pic W inimg) y x) /\
    (forall p, W * H <= p -> nth_error work' p = nth_error work p).
Proof.
  intros inimg H W outimg fx fy work w1 w2 LI LO LK LX LY H1 H2 HH HW. unfold correlate7_inout.
  rewrite LX, LY, !Nat.eqb_refl. cbn [Nat.eqb negb].
  rewrite (proj2 (Nat.leb_le _ _) H1), (proj2 (Nat.leb_le _ _) H2). cbn [negb].
  rewrite (proj2 (Nat.ltb_lt 8 H)), (proj2 (Nat.ltb_lt 8 W)) by lia. cbn [negb].
  destruct (two_passes W H fx fy inimg work outimg) as (wk & o & E1 & E2 & R); auto; try lia; [nia|].
  rewrite E1. cbn [bind]. rewrite E2. cbn [bind]. exists o, wk. tauto.
Qed.
Theorem C46_inplace : forall img H W fx fy work w1 w2,
  length img = H * W -> length work = w1 * w2 ->
  length fx = 7 -> length fy = 7 -> H <= w1 -> W <= w2 -> 9 <= H -> 9 <= W ->
  exists img' work', correlate7 zero add mul img H W fx fy work w1 w2 = Ok (img', work') /\
    length img' = H * W /\ length work' = length work /\
    (forall y x, y < H -> x < W ->
       pic W img' y x = corr2 (fun k => nth k fx zero) (fun k => nth k fy zero) H W (pic W img) y x) /\
    (forall p, W * H <= p -> nth_error work' p = nth_error work p).
Proof.
  intros img H W fx fy work w1 w2 LI LK LX LY H1 H2 HH HW. unfold correlate7.
  rewrite LX, LY. cbn [Nat.eqb negb].
  rewrite (proj2 (Nat.leb_le _ _) H1), (proj2 (Nat.leb_le _ _) H2). cbn [negb].
  rewrite (proj2 (Nat.ltb_lt 8 H)), (proj2 (Nat.ltb_lt 8 W)) by lia. cbn [negb].
  destruct (two_passes W H fx fy img work img) as (wk & o & E1 & E2 & R); auto; try lia; [nia|].
  rewrite E1. cbn [bind]. rewrite E2. cbn [bind]. exists o, wk. tauto.
Qed.
(** Smaller images, a scratch array that is too small, filters of another
    length: refused. *)
Theorem C46_refuses : forall inimg H W outimg fx fy work w1 w2,
  H < 9 \/ W < 9 \/ w1 < H \/ w2 < W \/ length fx <> 7 \/ length fy <> 7 ->
  correlate7_inout zero add mul inimg H W outimg H W fx fy work w1 w2 = Err AssertionError /\
  correlate7 zero add mul inimg H W fx fy work w1 w2 = Err AssertionError.
Proof.
  intros inimg H W outimg fx fy work w1 w2 C. unfold correlate7_inout, correlate7. rewrite !Nat.eqb_refl.
  destruct (Nat.eqb_spec (length fx) 7); [|auto]. destruct (Nat.eqb_spec (length fy) 7); [|auto]. cbn [negb].
  destruct (Nat.leb_spec H w1); [|auto]. destruct (Nat.leb_spec W w2); [|auto]. cbn [negb].
  destruct (Nat.ltb_spec 8 H), (Nat.ltb_spec 8 W); cbn [negb]; auto. lia.
Qed.
End Props.

(** *** Exact arithmetic: one sum over the 7 x 7 neighbourhood *)
Section Ring.
Context {V : Type} (zero one : V) (add mul sub : V -> V -> V) (opp : V -> V).
Hypothesis rt : ring_theory zero one add mul sub opp (@eq V).
Add Ring R : rt.

Definition vsum (l : list V) : V := fold_right add zero l.
(** The image, zero outside. *)
Definition padded (h w : nat) (im : nat -> nat -> V) (y x : Z) : V :=
  if (0 <=? y)%Z && (y <? Z.of_nat h)%Z && (0 <=? x)%Z && (x <? Z.of_nat w)%Z then im (Z.to_nat y) (Z.to_nat x) else zero.
Definition neighbourhood (fx fy : nat -> V) (h w : nat) (im : nat -> nat -> V) (y x : nat) : V :=
  vsum (map (fun ky => vsum (map (fun kx =>
    mul (mul (fy ky) (fx kx)) (padded h w im (Z.of_nat (y + ky) - 3) (Z.of_nat (x + kx) - 3))) (seq 0 7))) (seq 0 7)).

Lemma fold_vsum (g : nat -> V) l s : fold_left (fun s k => add s (g k)) l s = add s (vsum (map g l)).
Proof.
  revert s. induction l as [|k r IH]; intros s; cbn.
  - ring.
  - rewrite IH. unfold vsum. ring.
Qed.
Lemma corr1_sum f w row i : corr1 zero add mul f w row i =
  vsum (map (fun k => mul (f k) (if (3 <=? i + k) && (i + k <? w + 3) then row (i + k - 3) else zero)) (seq 0 7)).
Proof.
  unfold corr1. rewrite (fold_left_ext _ (fun s k => add s (mul (f k) (if (3 <=? i + k) && (i + k <? w + 3) then row (i + k - 3) else zero)))).
  - rewrite fold_vsum. ring.
  - intros s k _. destruct ((3 <=? i + k) && (i + k <? w + 3)); ring.
Qed.
Lemma vsum_mul a l : mul a (vsum l) = vsum (map (mul a) l).
Proof.
  induction l as [|x r IH]; [cbn; ring|]. cbn [map]. change (vsum (x :: r)) with (add x (vsum r)).
  change (vsum (mul a x :: map (mul a) r)) with (add (mul a x) (vsum (map (mul a) r))). rewrite <- IH. ring.
Qed.
Lemma vsum_zero {A} (l : list A) : vsum (map (fun _ => zero) l) = zero.
Proof. induction l; cbn; [reflexivity|]. change (add zero (vsum (map (fun _ => zero) l)) = zero). rewrite IHl. ring. Qed.

Theorem C46_neighbourhood : forall fx fy h w im y x,
  corr2 zero add mul fx fy h w im y x = neighbourhood fx fy h w im y x.
Proof.
  intros. unfold corr2, neighbourhood. rewrite corr1_sum. f_equal. apply map_ext. intros ky.
  assert (B : forall (a n : nat), ((3 <=? a) && (a <? n + 3)) = ((0 <=? Z.of_nat a - 3)%Z && (Z.of_nat a - 3 <? Z.of_nat n)%Z)).
  { intros a n. destruct (Nat.leb_spec 3 a), (Nat.ltb_spec a (n + 3)), (Z.leb_spec 0 (Z.of_nat a - 3)), (Z.ltb_spec (Z.of_nat a - 3) (Z.of_nat n)); auto; lia. }
  unfold padded. rewrite B.
  destruct ((0 <=? Z.of_nat (y + ky) - 3)%Z && (Z.of_nat (y + ky) - 3 <? Z.of_nat h)%Z) eqn:E.
  - rewrite corr1_sum, vsum_mul, map_map. f_equal. apply map_ext. intros kx. rewrite B. cbn [andb].
    replace (Z.to_nat (Z.of_nat (y + ky) - 3)) with (y + ky - 3) by lia.
    replace (Z.to_nat (Z.of_nat (x + kx) - 3)) with (x + kx - 3) by lia.
    destruct ((0 <=? Z.of_nat (x + kx) - 3)%Z && (Z.of_nat (x + kx) - 3 <? Z.of_nat w)%Z); ring.
  - cbn [andb]. rewrite (map_ext _ (fun _ => zero)) by (intros; ring). rewrite vsum_zero. ring.
Qed.
End Ring.

(** A 9 x 10 image with two different filters; a scratch array of 10 x 11 with
    garbage in it. *)
Definition ex_img : list Z := map (fun n => Z.of_nat (n * n mod 13)) (seq 0 90).
Definition ex_fx : list Z := [1; 2; 3; 4; 5; 6; 7]%Z.
Definition ex_fy : list Z := [2; 0; 1; 5; -1; 3; 1]%Z.
Example C46_ex : exists out work,
  correlate7_inout 0%Z Z.add Z.mul ex_img 9 10 (repeat 99%Z 90) 9 10 ex_fx ex_fy (repeat 77%Z 110) 10 11 = Ok (out, work) /\
  pic 0%Z 10 out 0 0 = neighbourhood 0%Z Z.add Z.mul (fun k => nth k ex_fx 0%Z) (fun k => nth k ex_fy 0%Z) 9 10 (pic 0%Z 10 ex_img) 0 0 /\
  pic 0%Z 10 out 0 0 = 1143%Z /\ pic 0%Z 10 out 8 9 = 509%Z /\ nth 90 work 0%Z = 77%Z.
Proof. eexists. eexists. split; [vm_compute; reflexivity|]. vm_compute. repeat split. Qed.

Print Assumptions C46_inout.
Print Assumptions C46_inplace.
Print Assumptions C46_refuses.
Print Assumptions C46_neighbourhood.
