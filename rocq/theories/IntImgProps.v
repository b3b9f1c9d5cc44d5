(** C39, C40: integral images give box sums. *)
From Coq Require Import List ZArith Bool Lia Ring.
From Verif Require Import Base IntImgModel IntImgSpec.
Import ListNotations.
Open Scope Z_scope.

Lemma seq_add k n : forall s, seq (k + s) n = map (Nat.add k) (seq s n).
Proof. induction n as [|n IH]; intros s; simpl; auto. f_equal. rewrite <- IH. f_equal. lia. Qed.
Lemma zrange_split a b c : a <= b <= c -> zrange a c = zrange a b ++ zrange b c.
Proof.
  intros H. unfold zrange. replace (Z.to_nat (c - a)) with (Z.to_nat (b - a) + Z.to_nat (c - b))%nat by lia.
  rewrite seq_app, map_app. f_equal. rewrite Nat.add_0_l, <- (Nat.add_0_r (Z.to_nat (b - a))), seq_add, map_map.
  apply map_ext. intros k. lia.
Qed.
Lemma zrange_nil a b : b <= a -> zrange a b = [].
Proof. intros H. unfold zrange. replace (Z.to_nat (b - a)) with 0%nat by lia. auto. Qed.
Lemma zrange_one a : zrange a (a + 1) = [a].
Proof. unfold zrange. replace (Z.to_nat (a + 1 - a)) with 1%nat by lia. simpl. f_equal. lia. Qed.
Lemma zrange_in a b i : In i (zrange a b) <-> a <= i < b.
Proof.
  unfold zrange. rewrite in_map_iff. split.
  - intros (k & <- & H). apply in_seq in H. lia.
  - intros H. exists (Z.to_nat (i - a)). split; [lia|]. apply in_seq. lia.
Qed.
(** Reflection of a range. *)
Lemma zrange_reflect c a b : map (fun i => c - i) (zrange a b) = rev (zrange (c - b + 1) (c - a + 1)).
Proof.
  destruct (Z.le_gt_cases b a); [rewrite !zrange_nil by lia; auto|].
  remember (Z.to_nat (b - a)) as n eqn:E. revert b E H. induction n as [|n IH]; intros b E H; [lia|].
  destruct (Z.eq_dec b (a + 1)) as [->|NE].
  - rewrite zrange_one. replace (c - (a + 1) + 1) with (c - a) by lia. rewrite zrange_one. auto.
  - rewrite (zrange_split a (b - 1) b) by lia. replace (zrange (b - 1) b) with [b - 1] by (replace b with (b - 1 + 1) at 3 by lia; rewrite zrange_one; auto).
    rewrite map_app, IH by lia. simpl.
    rewrite (zrange_split (c - b + 1) (c - b + 1 + 1) (c - a + 1)) by lia. rewrite zrange_one. rewrite rev_app_distr. simpl.
    replace (c - (b - 1) + 1) with (c - b + 1 + 1) by lia. f_equal. f_equal. lia.
Qed.

Section Props.
Context {V : Type} (zero one : V) (vadd mul vsub : V -> V -> V) (opp : V -> V).
Context (RT : ring_theory zero one vadd mul vsub opp (@eq V)).
Add Ring VRing : RT.
Notation total := (total zero vadd).
Notation box_sum := (box_sum zero vadd).
Notation pixel := (pixel zero).
Notation mirrored := (mirrored zero).
Notation integral_image := (integral_image V zero vadd).
Notation intimg_rect := (intimg_rect V vadd vsub).
Notation symm_intimg_rect := (symm_intimg_rect V zero vadd vsub).
Notation symm_intimg_ref := (symm_intimg_ref V vadd vsub).

Lemma total_app a b : total (a ++ b) = vadd (total a) (total b).
Proof. induction a; simpl; [ring|]. rewrite IHa. ring. Qed.
Lemma total_rev a : total (rev a) = total a.
Proof. induction a; simpl; auto. rewrite total_app, IHa. simpl. ring. Qed.
Lemma total_add {A} (f g : A -> V) l : total (map (fun x => vadd (f x) (g x)) l) = vadd (total (map f l)) (total (map g l)).
Proof. induction l; simpl; [ring|]. rewrite IHl. ring. Qed.
Lemma total_sub {A} (f g : A -> V) l : total (map (fun x => vsub (f x) (g x)) l) = vsub (total (map f l)) (total (map g l)).
Proof. induction l; simpl; [ring|]. rewrite IHl. ring. Qed.
Lemma total_zero {A} (f : A -> V) l : (forall x, In x l -> f x = zero) -> total (map f l) = zero.
Proof. induction l; simpl; intros H; auto. rewrite IHl, H; auto. ring. Qed.
Lemma total_ext {A} (f g : A -> V) l : (forall x, In x l -> f x = g x) -> total (map f l) = total (map g l).
Proof. intros H. f_equal. apply map_ext_in. auto. Qed.
Lemma total_swap {A B} (f : A -> B -> V) la lb :
  total (map (fun a => total (map (fun b => f a b) lb)) la) = total (map (fun b => total (map (fun a => f a b) la)) lb).
Proof.
  induction la as [|a r IH]; simpl.
  - symmetry. apply total_zero. auto.
  - rewrite IH, <- total_add. reflexivity.
Qed.

Definition cumul (g : Z -> V) (b : Z) : V := total (map g (zrange 0 (b + 1))).

Lemma range_diff g a b : (forall i, i < 0 -> g i = zero) -> a <= b ->
  total (map g (zrange (a + 1) (b + 1))) = vsub (cumul g b) (cumul g a).
Proof.
  intros HG H. unfold cumul. destruct (Z.le_gt_cases (-1) a).
  - rewrite (zrange_split 0 (a + 1) (b + 1)) by lia. rewrite map_app, total_app. ring.
  - rewrite (zrange_nil 0 (a + 1)) by lia. simpl. destruct (Z.le_gt_cases b (-1)).
    + rewrite (zrange_nil 0) by lia. rewrite total_zero; [simpl; ring|].
      intros x Hx. apply zrange_in in Hx. apply HG. lia.
    + rewrite (zrange_split (a + 1) 0 (b + 1)) by lia. rewrite map_app, total_app.
      rewrite (total_zero g (zrange (a + 1) 0)); [ring|]. intros x Hx. apply zrange_in in Hx. apply HG. lia.
Qed.

(** The value an integral image should hold. *)
Definition II (f : Z -> Z -> V) (x y : Z) : V := cumul (fun i => cumul (fun j => f i j) y) x.
Definition vanishes (f : Z -> Z -> V) : Prop := forall x y, x < 0 \/ y < 0 -> f x y = zero.

Lemma cumul_zero g b : (forall i, g i = zero) -> cumul g b = zero.
Proof. intros H. apply total_zero. auto. Qed.
Lemma cumul_neg g b : b < 0 -> cumul g b = zero.
Proof. intros H. unfold cumul. rewrite zrange_nil by lia. auto. Qed.

Lemma box_diff f x0 x1 y0 y1 : vanishes f -> x0 <= x1 -> y0 <= y1 ->
  box_sum f x0 x1 y0 y1 = vadd (vsub (vsub (II f x1 y1) (II f x0 y1)) (II f x1 y0)) (II f x0 y0).
Proof.
  intros HF HX HY. unfold box_sum.
  rewrite (total_swap (fun y x => f x y)).
  rewrite (total_ext _ (fun x => vsub (cumul (fun j => f x j) y1) (cumul (fun j => f x j) y0))).
  2:{ intros x _. apply (range_diff (fun j => f x j)); auto. }
  rewrite total_sub.
  rewrite !range_diff; auto.
  - unfold II. ring.
  - intros i Hi. apply cumul_zero. auto.
  - intros i Hi. apply cumul_zero. auto.
Qed.

Lemma box_II f x y : box_sum f (-1) x (-1) y = II f x y.
Proof. unfold box_sum, II, cumul. rewrite (total_swap (fun y x => f x y)). reflexivity. Qed.

(** ** What integral_image holds *)
Lemma cumul_nat g n : cumul g (Z.of_nat n) = total (map (fun k => g (Z.of_nat k)) (seq 0 (S n))).
Proof.
  unfold cumul, zrange. replace (Z.to_nat (Z.of_nat n + 1 - 0)) with (S n) by lia.
  rewrite map_map. f_equal. 
Qed.
Lemma cumul_S g n : cumul g (Z.of_nat (S n)) = vadd (cumul g (Z.of_nat n)) (g (Z.of_nat (S n))).
Proof. rewrite !cumul_nat. rewrite (seq_S (S n)), map_app, total_app. simpl. ring. Qed.

Lemma cumsum_row_nth r : forall acc i, (i < length r)%nat ->
  nth_error (cumsum_row V vadd acc r) i = Some (vadd acc (total (firstn (S i) r))).
Proof.
  induction r as [|v r IH]; simpl; intros acc i Hi; [lia|]. destruct i as [|i]; simpl.
  - f_equal. ring.
  - rewrite IH by lia. f_equal. destruct r; simpl in *; [lia|]. ring.
Qed.
Lemma cumsum_row_len r : forall acc, length (cumsum_row V vadd acc r) = length r.
Proof. induction r; simpl; auto. Qed.

Lemma add_rows_nth a b i u v : nth_error a i = Some u -> nth_error b i = Some v ->
  nth_error (add_rows V vadd a b) i = Some (vadd u v).
Proof.
  unfold add_rows. revert b i. induction a as [|x a IH]; destruct b as [|y b]; destruct i; simpl; intros H1 H2; try discriminate.
  - congruence.
  - apply IH; auto.
Qed.
Lemma add_rows_len a b : length a = length b -> length (add_rows V vadd a b) = length a.
Proof. intros H. unfold add_rows. rewrite map_length, combine_length. lia. Qed.

Lemma cumsum_cols_nth w rows : forall acc j i u, length acc = w -> Forall (fun r => length r = w) rows ->
  (j < length rows)%nat -> nth_error acc i = Some u ->
  exists r, nth_error (cumsum_cols V vadd acc rows) j = Some r /\ length r = w /\
    nth_error r i = Some (vadd u (total (map (fun r => nth i r zero) (firstn (S j) rows)))).
Proof.
  induction rows as [|r rows IH]; simpl; intros acc j i u HA HF HJ HU; [lia|].
  inversion HF as [|? ? HR HF' E1]; subst.
  assert (HI : (i < length acc)%nat) by (apply nth_error_Some; congruence).
  assert (HV : nth_error r i = Some (nth i r zero)) by (apply nth_error_nth'; lia).
  assert (HN := add_rows_nth acc r i u _ HU HV).
  destruct j as [|j]; simpl.
  - eexists. split; [reflexivity|]. split; [apply add_rows_len; lia|]. rewrite HN. f_equal. ring.
  - destruct (IH (add_rows V vadd acc r) j i (vadd u (nth i r zero))) as (q & E & L & H); [apply add_rows_len; lia|auto|lia|eauto|].
    exists q. split; auto. split; auto. rewrite H. f_equal.
    destruct rows; simpl in *; [lia|]. ring.
Qed.
Lemma cumsum_cols_len rows : forall acc, length (cumsum_cols V vadd acc rows) = length rows.
Proof. induction rows; simpl; auto. Qed.

Lemma firstn_total (r : list V) n : (n < length r)%nat -> total (firstn (S n) r) = cumul (fun k => nth (Z.to_nat k) r zero) (Z.of_nat n).
Proof.
  intros H. rewrite cumul_nat. f_equal.
  rewrite (map_ext _ (fun k => nth k r zero)) by (intros; rewrite Nat2Z.id; auto).
  revert r H. induction n as [|n IH]; intros [|v r] H; simpl in *; try lia; auto.
  f_equal. specialize (IH r). rewrite IH by lia. rewrite <- !seq_shift, !map_map. simpl. rewrite ?map_map. reflexivity.
Qed.

Lemma rows_total (rows : list (list V)) n i : (n < length rows)%nat ->
  total (map (fun r => nth i r zero) (firstn (S n) rows)) = cumul (fun k => nth i (nth (Z.to_nat k) rows []) zero) (Z.of_nat n).
Proof.
  intros H. rewrite cumul_nat. f_equal.
  rewrite (map_ext (fun k => nth i (nth (Z.to_nat (Z.of_nat k)) rows []) zero) (fun k => nth i (nth k rows []) zero)) by (intros; rewrite Nat2Z.id; auto).
  revert rows H. induction n as [|n IH]; intros [|v r] H; simpl in *; try lia; auto.
  f_equal. specialize (IH r). rewrite IH by lia. rewrite <- !seq_shift, !map_map. simpl. rewrite ?map_map. reflexivity.
Qed.

Lemma pixel_nat (img : list (list V)) i j : pixel img (Z.of_nat i) (Z.of_nat j) = nth i (nth j img []) zero.
Proof.
  unfold IntImgSpec.pixel. destruct (Z.leb_spec 0 (Z.of_nat i)); [|lia]. destruct (Z.leb_spec 0 (Z.of_nat j)); [|lia].
  simpl. rewrite !Nat2Z.id. auto.
Qed.

Lemma integral_entry img w h x y : rectangular img w h -> 0 <= x < Z.of_nat w -> 0 <= y < Z.of_nat h ->
  idx V (integral_image img) y x = Ok (II (pixel img) x y).
Proof.
  intros [HH HW] HX HY.
  assert (HF : length (map (fun _ => zero) (hd [] img)) = w).
  { rewrite map_length. destruct img as [|r rs]; simpl in *; [lia|]. inversion HW; auto. }
  unfold idx, IntImgModel.integral_image.
  set (C := cumsum_cols V vadd (map (fun _ => zero) (hd [] img)) img).
  assert (LC : length C = h) by (unfold C; rewrite cumsum_cols_len; auto).
  assert (HC : forall i j, (i < w)%nat -> (j < h)%nat -> exists r, nth_error C j = Some r /\ length r = w /\
      nth_error r i = Some (cumul (fun k => nth i (nth (Z.to_nat k) img []) zero) (Z.of_nat j))).
  { intros i j Hi Hj. destruct (cumsum_cols_nth w img (map (fun _ => zero) (hd [] img)) j i zero) as (r & E & L & H); auto.
    - lia.
    - rewrite nth_error_map. destruct (nth_error (hd [] img) i) eqn:EN; auto. apply nth_error_None in EN. rewrite map_length in HF. lia.
    - exists r. split; auto. split; auto. rewrite H. f_equal. rewrite rows_total by lia. ring. }
  rewrite map_length, LC. unfold py_index.
  destruct (Z.leb_spec 0 y); [|lia]. destruct (Z.ltb_spec y (Z.of_nat h)); [|lia].
  rewrite nth_error_map.
  destruct (HC 0%nat (Z.to_nat y)) as (r & E & L & _); [lia|lia|].
  rewrite E. simpl. rewrite cumsum_row_len, L.
  destruct (Z.leb_spec 0 x); [|lia]. destruct (Z.ltb_spec x (Z.of_nat w)); [|lia].
  unfold py_get. rewrite cumsum_row_nth by lia. f_equal. rewrite firstn_total by lia.
  unfold II. rewrite Z2Nat.id by lia.
  transitivity (cumul (fun k => nth (Z.to_nat k) r zero) x); [ring|].
  apply total_ext. intros i Hi. apply zrange_in in Hi.
  destruct (HC (Z.to_nat i) (Z.to_nat y)) as (r' & E' & L' & H'); [lia|lia|].
  rewrite E in E'. injection E' as <-. rewrite (nth_error_nth _ _ _ H'). rewrite Z2Nat.id by lia.
  apply total_ext. intros j Hj. apply zrange_in in Hj.
  rewrite <- pixel_nat. f_equal; lia.
Qed.

Lemma pixel_vanishes img : vanishes (pixel img).
Proof.
  intros x y [H|H]; unfold IntImgSpec.pixel; destruct (Z.leb_spec 0 x), (Z.leb_spec 0 y); simpl; auto; lia.
Qed.

(** Boxes accepted by intimg_rect: upper corner inside the image, lower corner
    anywhere left of and above it (negative: from the edge). *)
Definition fits (w h : nat) (b : box) : Prop :=
  let '(x0, x1, y0, y1) := b in
  0 <= x1 < Z.of_nat w /\ 0 <= y1 < Z.of_nat h /\ x0 < x1 /\ y0 < y1.

Lemma rect1_ok img w h b : rectangular img w h -> fits w h b ->
  rect1 V vadd vsub (integral_image img) b = Ok (let '(x0, x1, y0, y1) := b in box_sum (pixel img) x0 x1 y0 y1).
Proof.
  intros HR. destruct b as [[[x0 x1] y0] y1]. intros (HX & HY & HX0 & HY0). unfold rect1.
  rewrite box_diff; [|apply pixel_vanishes|lia|lia].
  rewrite (integral_entry img w h) by (auto; lia). cbn [bind].
  assert (NX : x0 < 0 -> forall y, II (pixel img) x0 y = zero) by (intros H y; apply cumul_neg; auto).
  assert (NY : y0 < 0 -> forall x, II (pixel img) x y0 = zero) by (intros H x; apply cumul_zero; intros; apply cumul_neg; auto).
  destruct (Z.leb_spec 0 x0), (Z.leb_spec 0 y0); simpl andb; cbv iota; cbn [bind];
    repeat (rewrite (integral_entry img w h) by (auto; lia); cbn [bind]); apply f_equal;
    rewrite ?NX, ?NY by auto; ring.
Qed.

(** *** C39 *)
Theorem C39_rectangle_sums : forall img w h bs, rectangular img w h -> Forall (fits w h) bs ->
  intimg_rect (integral_image img) bs =
    Ok (map (fun b => let '(x0, x1, y0, y1) := b in box_sum (pixel img) x0 x1 y0 y1) bs).
Proof.
  intros img w h bs HR HF. unfold IntImgModel.intimg_rect.
  replace (forallb _ bs) with true.
  - induction HF as [|b bs HB HF IH]; simpl; auto. rewrite (rect1_ok img w h) by auto. cbn [bind]. rewrite IH. reflexivity.
  - symmetry. apply forallb_forall. intros b Hb. rewrite Forall_forall in HF. apply HF in Hb.
    destruct b as [[[x0 x1] y0] y1]. destruct Hb as (? & ? & ? & ?). repeat (apply andb_true_intro; split); try (apply Z.leb_le; lia); apply Z.ltb_lt; lia.
Qed.

(** Anything else is refused. *)
Theorem C39_refuses : forall img w h bs, rectangular img w h -> ~ Forall (fits w h) bs ->
  exists e, intimg_rect (integral_image img) bs = Err e.
Proof.
  intros img w h bs HR HN. unfold IntImgModel.intimg_rect.
  match goal with |- context [forallb ?f bs] => destruct (forallb f bs) eqn:EA end; [|eauto].
  rewrite forallb_forall in EA.
  induction bs as [|b bs IH]; [exfalso; apply HN; constructor|]. simpl.
  assert (HB := EA b (or_introl eq_refl)). destruct b as [[[x0 x1] y0] y1].
  rewrite !andb_true_iff, !Z.leb_le, !Z.ltb_lt in HB. destruct HB as [[[B1 B2] B3] B4].
  assert (D : fits w h (x0, x1, y0, y1) \/ exists e, rect1 V vadd vsub (integral_image img) (x0, x1, y0, y1) = Err e).
  { destruct (Z.lt_ge_cases x1 (Z.of_nat w)), (Z.lt_ge_cases y1 (Z.of_nat h)); [left; repeat split; auto; lia|right|right|right];
      exists IndexError; unfold rect1;
      assert (LI : length (integral_image img) = h) by (unfold IntImgModel.integral_image; rewrite map_length, cumsum_cols_len; apply HR).
    1,3: unfold idx at 1; rewrite LI; unfold py_index at 1; destruct (Z.leb_spec 0 y1); [|lia]; destruct (Z.ltb_spec y1 (Z.of_nat h)); [lia|]; reflexivity.
    unfold idx at 1; rewrite LI; unfold py_index at 1; destruct (Z.leb_spec 0 y1); [|lia]; destruct (Z.ltb_spec y1 (Z.of_nat h)); [|lia].
    destruct (nth_error (integral_image img) (Z.to_nat y1)) as [r|] eqn:EN; [|reflexivity].
    assert (LR : length r = w \/ length r = 0%nat).
    { unfold IntImgModel.integral_image in EN. rewrite nth_error_map in EN.
      destruct (nth_error (cumsum_cols V vadd (map (fun _ => zero) (hd [] img)) img) (Z.to_nat y1)) as [q|] eqn:EQ; [|discriminate].
      simpl in EN. injection EN as <-. rewrite cumsum_row_len.
      destruct w as [|w'].
      - assert (forall rows acc, length acc = 0%nat -> Forall (fun r : list V => length r = 0%nat) rows -> Forall (fun r => length r = 0%nat) (cumsum_cols V vadd acc rows)).
        { induction rows as [|r0 rows IHr]; simpl; intros acc HA HFr; constructor; inversion HFr; subst.
          - rewrite add_rows_len; lia.
          - apply IHr; auto. rewrite add_rows_len; lia. }
        destruct HR as [HR1 HR2]. right.
        assert (FF : Forall (fun r => length r = 0%nat) (cumsum_cols V vadd (map (fun _ => zero) (hd [] img)) img)).
        { apply H3; auto. rewrite map_length. destruct img; simpl in *; auto. inversion HR2; auto. }
        rewrite Forall_forall in FF. apply FF. eapply nth_error_In; eauto.
      - left. destruct HR as [HR1 HR2].
        destruct (cumsum_cols_nth (S w') img (map (fun _ => zero) (hd [] img)) (Z.to_nat y1) 0 zero) as (q' & E' & L' & _); auto.
        + rewrite map_length. destruct img; simpl in *; [lia|]. inversion HR2; auto.
        + lia.
        + destruct img as [|r0 ?]; simpl in *; [lia|]. inversion HR2; subst. destruct r0; simpl in *; [lia|]. auto.
        + congruence. }
    unfold py_index. destruct (Z.leb_spec 0 x1); [|lia]. destruct (Z.ltb_spec x1 (Z.of_nat (length r))); [lia|]. reflexivity. }
  destruct D as [D|[e D]].
  - rewrite (rect1_ok img w h) by auto. cbn [bind].
    destruct IH as [e E].
    + intros HF. apply HN. constructor; auto.
    + intros x Hx. apply EA. right. auto.
    + exists e. rewrite E. reflexivity.
  - exists e. rewrite D. reflexivity.
Qed.

(** ** The symmetric image *)

(** One dimension: a sum over a symmetric range is folded at the midline. *)
Lemma fold_range g m a b : (forall i, g (2 * m - i) = g i) -> a < b ->
  total (map g (zrange (a + 1) (b + 1))) =
  vadd (if a <? m then total (map g (zrange (a + 1) (Z.min b m + 1))) else zero)
       (if m <? b then total (map g (zrange (2 * m - b - 1 + 1) (2 * m - Z.max (m + 1) (a + 1) + 1))) else zero).
Proof.
  intros HS HAB.
  assert (HF : forall c d, total (map g (zrange c d)) = total (map g (zrange (2 * m - d + 1) (2 * m - c + 1)))).
  { intros c d. symmetry. rewrite <- total_rev, <- map_rev, <- zrange_reflect, map_map. apply total_ext. intros; auto. }
  destruct (Z.ltb_spec a m), (Z.ltb_spec m b); try lia.
  - rewrite (zrange_split (a + 1) (m + 1) (b + 1)) by lia. rewrite map_app, total_app. rewrite (HF (m + 1)).
    replace (Z.min b m) with m by lia. replace (Z.max (m + 1) (a + 1)) with (m + 1) by lia.
    replace (2 * m - (b + 1) + 1) with (2 * m - b - 1 + 1) by lia. reflexivity.
  - replace (Z.min b m) with b by lia. ring.
  - rewrite (HF (a + 1)). replace (Z.max (m + 1) (a + 1)) with (a + 1) by lia.
    replace (2 * m - (b + 1) + 1) with (2 * m - b - 1 + 1) by lia. ring.
Qed.

Lemma mirrored_x img m x y : mirrored img m (2 * m - x) y = mirrored img m x y.
Proof.
  unfold IntImgSpec.mirrored. replace (2 * m - (2 * m - x)) with x by lia. rewrite (Z.min_comm (2 * m - x)).
  destruct (Z.leb_spec 0 (2 * m - x)), (Z.leb_spec (2 * m - x) (2 * m)), (Z.leb_spec 0 x), (Z.leb_spec x (2 * m)); simpl; auto; lia.
Qed.
Lemma mirrored_y img m x y : mirrored img m x (2 * m - y) = mirrored img m x y.
Proof.
  unfold IntImgSpec.mirrored. replace (2 * m - (2 * m - y)) with y by lia. rewrite (Z.min_comm (2 * m - y)).
  destruct (Z.leb_spec 0 (2 * m - y)), (Z.leb_spec (2 * m - y) (2 * m)), (Z.leb_spec 0 y), (Z.leb_spec y (2 * m)); rewrite ?andb_true_r, ?andb_false_r; auto; lia.
Qed.
Lemma mirrored_quadrant img m x y : x <= m -> y <= m -> 0 <= m -> mirrored img m x y = pixel img x y.
Proof.
  intros. unfold IntImgSpec.mirrored. replace (Z.min x (2 * m - x)) with x by lia. replace (Z.min y (2 * m - y)) with y by lia.
  destruct (Z.leb_spec x (2 * m)); [|lia]. destruct (Z.leb_spec y (2 * m)); [|lia]. rewrite andb_true_r.
  unfold IntImgSpec.pixel. destruct (Z.leb_spec 0 x), (Z.leb_spec 0 y); auto.
Qed.
Lemma mirrored_vanishes img m : vanishes (mirrored img m).
Proof.
  intros x y [H|H]; unfold IntImgSpec.mirrored; destruct (Z.leb_spec 0 x), (Z.leb_spec 0 y); try lia; simpl; rewrite ?andb_false_r; auto.
Qed.

Lemma box_sum_quadrant img m x0 x1 y0 y1 : x1 <= m -> y1 <= m -> 0 <= m ->
  box_sum (mirrored img m) x0 x1 y0 y1 = box_sum (pixel img) x0 x1 y0 y1.
Proof.
  intros HX HY HM. apply total_ext. intros y Hy. apply zrange_in in Hy. apply total_ext. intros x Hx. apply zrange_in in Hx.
  apply mirrored_quadrant; lia.
Qed.

Lemma fold_box img m x0 x1 y0 y1 : x0 < x1 -> y0 < y1 -> 0 <= m ->
  let fx0 := 2 * m - x1 - 1 in let fx1 := 2 * m - Z.max (m + 1) (x0 + 1) in
  let fy0 := 2 * m - y1 - 1 in let fy1 := 2 * m - Z.max (m + 1) (y0 + 1) in
  let S := box_sum (pixel img) in
  box_sum (mirrored img m) x0 x1 y0 y1 =
  vadd (vadd (vadd
    (if (y0 <? m) && (x0 <? m) then S x0 (Z.min x1 m) y0 (Z.min y1 m) else zero)
    (if (m <? x1) && (y0 <? m) then S fx0 fx1 y0 (Z.min y1 m) else zero))
    (if (m <? y1) && (x0 <? m) then S x0 (Z.min x1 m) fy0 fy1 else zero))
    (if (m <? y1) && (m <? x1) then S fx0 fx1 fy0 fy1 else zero).
Proof.
  intros HX HY HM fx0 fx1 fy0 fy1 S.
  assert (HS : forall a b c d, b <= m -> d <= m -> S a b c d = box_sum (mirrored img m) a b c d) by (intros; symmetry; apply box_sum_quadrant; auto).
  rewrite !HS by (unfold fx1, fy1; lia). unfold IntImgSpec.box_sum.
  rewrite (fold_range (fun y => total (map (fun x => mirrored img m x y) (zrange (x0 + 1) (x1 + 1)))) m y0 y1); auto.
  2:{ intros i. apply total_ext. intros. apply mirrored_y. }
  fold fy0 fy1.
  assert (HY2 : forall l, total (map (fun y => total (map (fun x => mirrored img m x y) (zrange (x0 + 1) (x1 + 1)))) l) =
     vadd (if x0 <? m then total (map (fun y => total (map (fun x => mirrored img m x y) (zrange (x0 + 1) (Z.min x1 m + 1)))) l) else zero)
          (if m <? x1 then total (map (fun y => total (map (fun x => mirrored img m x y) (zrange (fx0 + 1) (fx1 + 1)))) l) else zero)).
  { intros l. rewrite (total_ext _ (fun y => vadd (if x0 <? m then total (map (fun x => mirrored img m x y) (zrange (x0 + 1) (Z.min x1 m + 1))) else zero)
        (if m <? x1 then total (map (fun x => mirrored img m x y) (zrange (fx0 + 1) (fx1 + 1))) else zero))).
    2:{ intros y _. apply (fold_range (fun x => mirrored img m x y) m x0 x1); auto. intros. apply mirrored_x. }
    rewrite total_add. destruct (x0 <? m), (m <? x1); simpl; rewrite ?(total_zero (fun _ => zero)) by auto; auto. }
  rewrite !HY2. destruct (y0 <? m), (m <? y1), (x0 <? m), (m <? x1); simpl; ring.
Qed.

Lemma scatter_map mask (g : box -> V) bs : forall R, length R = length bs ->
  scatter_add V vadd mask bs R (map g (filter mask bs)) =
  map (fun p => if mask (fst p) then vadd (snd p) (g (fst p)) else snd p) (combine bs R).
Proof.
  induction bs as [|b bs IH]; intros [|r R] HL; simpl in *; auto; try lia.
  destruct (mask b) eqn:EM; simpl; rewrite ?EM; rewrite IH by lia; auto.
Qed.

Lemma quadrant_ok img w h mask flip bs (g : box -> V) : rectangular img w h ->
  (forall b, In b bs -> mask b = true -> fits w h (flip b)) ->
  quadrant V vadd vsub (integral_image img) mask flip bs (map g bs) =
  Ok (map (fun b => vadd (g b) (if mask b then let '(x0, x1, y0, y1) := flip b in box_sum (pixel img) x0 x1 y0 y1 else zero)) bs).
Proof.
  intros HR HF. unfold quadrant.
  assert (HC : forall f : box -> V -> V, map (fun p => f (fst p) (snd p)) (combine bs (map g bs)) = map (fun b => f b (g b)) bs).
  { intros f. clear. induction bs as [|b bs IH]; simpl; auto. f_equal. auto. }
  destruct (existsb mask bs) eqn:EX.
  - rewrite (C39_rectangle_sums img w h); auto.
    2:{ rewrite Forall_forall. intros b Hb. apply in_map_iff in Hb. destruct Hb as (b' & <- & Hb). apply filter_In in Hb. apply HF; tauto. }
    cbn [bind]. rewrite map_map, scatter_map by (rewrite map_length; auto).
    rewrite (HC (fun b r => if mask b then vadd r (let '(x0, x1, y0, y1) := flip b in box_sum (pixel img) x0 x1 y0 y1) else r)).
    apply f_equal. apply map_ext. intros b. destruct (mask b); [reflexivity|ring].
  - apply f_equal. apply map_ext_in. intros b Hb.
    assert (EM : mask b = false).
    { destruct (mask b) eqn:E; auto. exfalso. assert (existsb mask bs = true) by (apply existsb_exists; eauto). congruence. }
    rewrite EM. ring.
Qed.

(** Boxes accepted by symm_intimg_rect: not empty, not entirely outside the
    (2m+1) x (2m+1) image; for a one-pixel image, inside it. *)
Definition symm_fits (m : Z) (b : box) : Prop :=
  let '(x0, x1, y0, y1) := b in
  x0 < x1 /\ y0 < y1 /\ 0 <= x1 /\ 0 <= y1 /\
  (1 <= m /\ x0 < 2 * m /\ y0 < 2 * m \/ x1 <= 0 /\ y1 <= 0).

(** *** C40 *)
Theorem C40_symmetric_rectangles : forall img w h m bs,
  rectangular img w h -> 0 <= m -> m < Z.of_nat w -> m < Z.of_nat h ->
  Forall (symm_fits m) bs ->
  symm_intimg_rect (integral_image img) m bs =
    Ok (map (fun b => let '(x0, x1, y0, y1) := b in box_sum (mirrored img m) x0 x1 y0 y1) bs).
Proof.
  intros img w h m bs HR HM HW HH HF. rewrite Forall_forall in HF.
  unfold IntImgModel.symm_intimg_rect.
  match goal with |- context [forallb ?f bs] => replace (forallb f bs) with true end.
  2:{ symmetry. apply forallb_forall. intros b Hb. apply HF in Hb. destruct b as [[[x0 x1] y0] y1].
      destruct Hb as (? & ? & _). apply andb_true_intro; split; apply Z.leb_le; lia. }
  cbv zeta.
  rewrite (quadrant_ok img w h) by (auto; intros [[[x0 x1] y0] y1] Hb E; apply HF in Hb; unfold symm_fits in Hb;
     rewrite andb_true_iff, !Z.ltb_lt in E; repeat split; lia). cbn [bind].
  rewrite (quadrant_ok img w h) by (auto; intros [[[x0 x1] y0] y1] Hb E; apply HF in Hb; unfold symm_fits in Hb;
     rewrite andb_true_iff, !Z.ltb_lt in E; repeat split; lia). cbn [bind].
  rewrite (quadrant_ok img w h) by (auto; intros [[[x0 x1] y0] y1] Hb E; apply HF in Hb; unfold symm_fits in Hb;
     rewrite andb_true_iff, !Z.ltb_lt in E; repeat split; lia). cbn [bind].
  rewrite (quadrant_ok img w h) by (auto; intros [[[x0 x1] y0] y1] Hb E; apply HF in Hb; unfold symm_fits in Hb;
     rewrite andb_true_iff, !Z.ltb_lt in E; repeat split; lia).
  apply f_equal. apply map_ext_in. intros [[[x0 x1] y0] y1] Hb. apply HF in Hb. destruct Hb as (? & ? & _).
  rewrite fold_box by auto. cbv zeta. ring.
Qed.

(** Empty boxes pass the function's own assertion but are refused further in. *)
Theorem C40_empty_box_refuted : forall img m x y0 y1, x < m -> y0 < y1 -> y0 < m ->
  symm_intimg_rect img m [(x, x, y0, y1)] = Err AssertionError.
Proof.
  intros img m x y0 y1 HX HY HY0. unfold IntImgModel.symm_intimg_rect. simpl.
  rewrite Z.leb_refl. destruct (Z.leb_spec y0 y1); [|lia]. simpl.
  unfold quadrant at 1. simpl. destruct (Z.ltb_spec y0 m); [|lia]. destruct (Z.ltb_spec x m); [|lia]. simpl.
  unfold IntImgModel.intimg_rect. simpl. replace (Z.min x m) with x by lia. rewrite Z.ltb_irrefl, !andb_false_r. reflexivity.
Qed.

(** One dimension: running sums of a symmetric function past the midline. *)
Lemma cumul_fold g m b : (forall i, g (2 * m - i) = g i) -> (forall i, i < 0 -> g i = zero) -> 0 <= m -> m < b ->
  cumul g b = vsub (vadd (cumul g m) (cumul g (m - 1))) (cumul g (2 * m - b - 1)).
Proof.
  intros HS HZ HM HB.
  assert (H1 : cumul g b = vadd (cumul g m) (total (map g (zrange (m + 1) (b + 1))))).
  { rewrite range_diff by (auto; lia). ring. }
  rewrite H1. rewrite (fold_range g m m b) by auto.
  destruct (Z.ltb_spec m m); [lia|]. destruct (Z.ltb_spec m b); [|lia].
  replace (2 * m - Z.max (m + 1) (m + 1)) with (m - 1) by lia.
  rewrite range_diff by (auto; lia). ring.
Qed.

Theorem C40_symmetric_reference : forall img w h m x y,
  rectangular img w h -> 0 <= m -> m < Z.of_nat w -> m < Z.of_nat h ->
  0 <= x -> 0 <= y -> (1 <= m \/ x <= 0 /\ y <= 0) ->
  symm_intimg_ref (integral_image img) x y m = Ok (box_sum (mirrored img m) (-1) x (-1) y).
Proof.
  intros img w h m x y HR HM HW HH HX HY HD. rewrite box_II.
  assert (HI : forall a b, 0 <= a <= m -> 0 <= b <= m -> idx V (integral_image img) b a = Ok (II (mirrored img m) a b)).
  { intros a b Ha Hb. rewrite (integral_entry img w h) by (auto; lia). rewrite <- !box_II. rewrite box_sum_quadrant by lia. auto. }
  assert (HFX : forall a b, m < a -> II (mirrored img m) a b =
     vsub (vadd (II (mirrored img m) m b) (II (mirrored img m) (m - 1) b)) (II (mirrored img m) (2 * m - a - 1) b)).
  { intros a b Ha. apply (cumul_fold (fun i => cumul (fun j => mirrored img m i j) b)); auto.
    - intros i. apply total_ext. intros. apply mirrored_x.
    - intros i Hi. apply cumul_zero. intros. apply mirrored_vanishes. auto. }
  assert (HSW : forall a b, II (mirrored img m) a b = cumul (fun j => cumul (fun i => mirrored img m i j) a) b) by (intros; apply total_swap).
  assert (HFY : forall a b, m < b -> II (mirrored img m) a b =
     vsub (vadd (II (mirrored img m) a m) (II (mirrored img m) a (m - 1))) (II (mirrored img m) a (2 * m - b - 1))).
  { intros a b Hb. rewrite !HSW. apply (cumul_fold (fun j => cumul (fun i => mirrored img m i j) a)); auto.
    - intros i. apply total_ext. intros. apply mirrored_y.
    - intros i Hi. apply cumul_zero. intros. apply mirrored_vanishes. auto. }
  assert (NX : forall a b, a < 0 -> II (mirrored img m) a b = zero) by (intros; apply cumul_neg; auto).
  assert (NY : forall a b, b < 0 -> II (mirrored img m) a b = zero) by (intros; apply cumul_zero; intros; apply cumul_neg; auto).
  unfold IntImgModel.symm_intimg_ref.
  destruct (Z.leb_spec x m), (Z.leb_spec y m), (Z.ltb_spec m y), (Z.ltb_spec m x); try lia; cbn [andb]; cbv iota zeta.
  - apply HI; lia.
  - rewrite (HFY x y) by auto. rewrite !HI by lia. cbn [bind].
    destruct (Z.ltb_spec 0 (2 * m - y)); [rewrite HI by lia; reflexivity|]. rewrite (NY x (2 * m - y - 1)) by lia. apply f_equal. ring.
  - rewrite (HFX x y) by auto. rewrite !HI by lia. cbn [bind].
    destruct (Z.ltb_spec 0 (2 * m - x)); [rewrite HI by lia; reflexivity|]. rewrite (NX (2 * m - x - 1)) by lia. apply f_equal. ring.
  - rewrite (HFX x y) by auto. rewrite !(fun a => HFY a y) by auto. rewrite !HI by lia. cbn [bind].
    destruct (Z.ltb_spec 0 (2 * m - x)), (Z.ltb_spec 0 (2 * m - y)); cbn [andb]; cbv iota; cbn [bind]; rewrite ?HI by lia; cbn [bind]; rewrite ?HI by lia; cbn [bind]; apply f_equal;
      repeat (match goal with
        | |- context [II ?f (2 * m - x - 1) ?b] => rewrite (NX (2 * m - x - 1) b) by lia
        | |- context [II ?f ?a (2 * m - y - 1)] => rewrite (NY a (2 * m - y - 1)) by lia end); ring.
Qed.
End Props.

(** Concrete cases. *)
Definition ex_img : list (list Z) := [[1; 2; 3]; [4; 5; 6]; [7; 8; 10]].
Example C39_ex : rectangular ex_img 3 3 /\
  intimg_rect Z Z.add Z.sub (integral_image Z 0 Z.add ex_img) [(0, 2, -1, 1); (-1, 2, -1, 2); (1, 2, 1, 2)] = Ok [16; 46; 10].
Proof. split; [split; [reflexivity|repeat constructor]|reflexivity]. Qed.
(** The mirrored image is 5 x 5, with 10 in the centre. *)
Example C40_ex : symm_intimg_rect Z 0 Z.add Z.sub (integral_image Z 0 Z.add ex_img) 2 [(0, 3, 1, 4); (-1, 4, -1, 4)] =
    Ok [ (8 + 10 + 8) + (5 + 6 + 5) + (2 + 3 + 2); (1 + 2 + 3 + 2 + 1) * 2 + (4 + 5 + 6 + 5 + 4) * 2 + (7 + 8 + 10 + 8 + 7)] /\
  symm_intimg_ref Z Z.add Z.sub (integral_image Z 0 Z.add ex_img) 3 1 2 = Ok (1 + 2 + 3 + 2 + 4 + 5 + 6 + 5) /\
  symm_fits 2 (0, 3, 1, 4).
Proof. repeat split; lia. Qed.

Print Assumptions C39_rectangle_sums.
Print Assumptions C39_refuses.
Print Assumptions C40_symmetric_rectangles.
Print Assumptions C40_empty_box_refuted.
Print Assumptions C40_symmetric_reference.
