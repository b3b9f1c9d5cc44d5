(** C76: forced photometry with Ceres minimises the chi-squared of the images. *)
From Coq Require Import List ZArith Bool Reals Lra Lia Psatz Permutation.
From Verif Require Import Base PatchModel PatchSpec PatchProps GpuMixModel CompositeModel CompositeProps CeresModel.
Import ListNotations.
Open Scope R_scope.
From Verif Require ForcedModel.
Local Notation reqb := CompositeModel.reqb.
Local Notation pmul := CompositeModel.pmul.

(** ** What is claimed *)

(** The image that parameters [th] (by their number in the tractor) predict in
    image [n]: the frozen model plus, for every unit-flux model of that image,
    its parameter times scale times unit-flux model. *)
Definition entry_image (th : nat -> R) (e : entry) (X Y : Z) : R :=
  rsum (fun ku => th (e_off e + fst ku)%nat * (e_scale e * value (snd ku) X Y))
       (combine (seq 0 (length (e_umods e))) (e_umods e)).
Definition predicted (es : list entry) (im : fim) (n : nat) (th : nat -> R) (X Y : Z) : R :=
  px (f_mod0 im) Y X + rsum (fun e => if (e_img e =? n)%nat then entry_image th e X Y else 0) es.
Definition chi (es : list entry) (im : fim) (n : nat) (th : nat -> R) (X Y : Z) : R :=
  (px (f_img im) Y X - predicted es im n th X Y) * px (f_ie im) Y X.
(** Chi-squared: over all pixels of all images. *)
Definition no_fim : fim := mkFim 0 0 (mkArr 0 0 (fun _ _ => 0)) (mkArr 0 0 (fun _ _ => 0)) (mkArr 0 0 (fun _ _ => 0)).
Definition chi2_image (es : list entry) (im : fim) (n : nat) (th : nat -> R) : R :=
  rsum (fun Y => rsum (fun X => chi es im n th X Y * chi es im n th X Y) (zlist 0 (f_W im))) (zlist 0 (f_H im)).
Definition chi2 (imgs : list fim) (es : list entry) (th : nat -> R) : R :=
  rsum (fun n => chi2_image es (nth n imgs no_fim) n th) (seq 0 (length imgs)).

(** Images have pixels and arrays of their shape; patches have shapes. *)
Definition has_shape (a : arr R) (H W : Z) : Prop := ah a = H /\ aw a = W.
Definition good_im (im : fim) : Prop :=
  (0 < f_H im)%Z /\ (0 < f_W im)%Z /\ has_shape (f_img im) (f_H im) (f_W im)
  /\ has_shape (f_mod0 im) (f_H im) (f_W im) /\ has_shape (f_ie im) (f_H im) (f_W im).
Definition good_umod (u : option (patch R)) : Prop := match u with None => True | Some p => wf_patch p end.

(** ** Sums *)
Lemma rsum_ext {A} (f g : A -> R) l : (forall a, In a l -> f a = g a) -> rsum f l = rsum g l.
Proof. induction l as [|a l IH]; intros H; [reflexivity|]. cbn. rewrite (H a (or_introl eq_refl)). f_equal. apply IH. intros; apply H; right; auto. Qed.
Lemma rsum_add {A} (f g : A -> R) l : rsum (fun a => f a + g a) l = rsum f l + rsum g l.
Proof. induction l as [|a l IH]; cbn; [ring|]. unfold rsum in *. rewrite IH. ring. Qed.
Lemma rsum_zero {A} (l : list A) : rsum (fun _ => 0) l = 0.
Proof. induction l as [|a l IH]; cbn; [reflexivity|]. unfold rsum in IH. rewrite IH. ring. Qed.
Lemma rsum_swap {A B} (f : A -> B -> R) l m : rsum (fun a => rsum (f a) m) l = rsum (fun b => rsum (fun a => f a b) l) m.
Proof. induction l as [|a l IH]; cbn; [rewrite rsum_zero; reflexivity|]. rewrite rsum_add. f_equal. exact IH. Qed.
Lemma rsum_map {A B} (f : B -> R) (g : A -> B) l : rsum f (map g l) = rsum (fun a => f (g a)) l.
Proof. induction l as [|a l IH]; cbn; [reflexivity|]. f_equal. exact IH. Qed.
Lemma rsum_app {A} (f : A -> R) l m : rsum f (l ++ m) = rsum f l + rsum f m.
Proof. induction l as [|a l IH]; cbn; [unfold rsum; ring|]. unfold rsum in *. rewrite IH. ring. Qed.
Lemma rsum_flat_map {A B} (f : B -> R) (g : A -> list B) l : rsum f (flat_map g l) = rsum (fun a => rsum f (g a)) l.
Proof. induction l as [|a l IH]; cbn [flat_map]; [reflexivity|]. rewrite rsum_app, IH. reflexivity. Qed.
Lemma rsum_filter {A} (f : A -> R) (b : A -> bool) l : rsum (fun a => if b a then f a else 0) l = rsum f (filter b l).
Proof. induction l as [|a l IH]; cbn; [reflexivity|]. destruct (b a); cbn; unfold rsum in *; rewrite IH; ring. Qed.

Lemma in_zlist : forall lo hi z, In z (zlist lo hi) <-> (lo <= z < hi)%Z.
Proof.
  intros lo hi z. unfold zlist. rewrite in_map_iff. split.
  - intros (i & <- & I). apply in_seq in I. lia.
  - intros H. exists (Z.to_nat (z - lo)). split; [lia|]. apply in_seq. lia.
Qed.
Lemma zlist_app : forall a b c, (a <= b <= c)%Z -> zlist a b ++ zlist b c = zlist a c.
Proof.
  intros a b c H. unfold zlist.
  replace (Z.to_nat (c - a)) with (Z.to_nat (b - a) + Z.to_nat (c - b))%nat by lia.
  rewrite seq_app, map_app. f_equal. simpl.
  rewrite <- (Nat.add_0_r (Z.to_nat (b - a))) at 1.
  generalize (Z.to_nat (c - b)). generalize O. intros s n. revert s.
  induction n as [|n IH]; intros s; [reflexivity|]. cbn [seq map]. f_equal; [lia|].
  rewrite (IH (S s)). f_equal. f_equal. lia.
Qed.
Lemma zlist_empty : forall a b, (b <= a)%Z -> zlist a b = [].
Proof. intros a b H. unfold zlist. replace (Z.to_nat (b - a)) with O by lia. reflexivity. Qed.
Lemma zlist_shift : forall (f : Z -> R) a b c, rsum f (zlist (a + c) (b + c)) = rsum (fun z => f (z + c)%Z) (zlist a b).
Proof.
  intros. unfold zlist. rewrite !rsum_map. replace (b + c - (a + c))%Z with (b - a)%Z by lia.
  apply rsum_ext. intros i _. f_equal. lia.
Qed.
(** A sum with one term. *)
Lemma rsum_single : forall (f : Z -> R) lo hi c, (forall z, (lo <= z < hi)%Z -> z <> c -> f z = 0) ->
  rsum f (zlist lo hi) = if ((lo <=? c) && (c <? hi))%Z then f c else 0.
Proof.
  intros f lo hi c H. destruct ((lo <=? c) && (c <? hi))%Z eqn:E.
  - apply andb_true_iff in E. destruct E as (E1 & E2). apply Z.leb_le in E1. apply Z.ltb_lt in E2.
    rewrite <- (zlist_app lo c hi) by lia. rewrite <- (zlist_app c (c + 1) hi) by lia.
    rewrite !rsum_app.
    rewrite (rsum_ext f (fun _ => 0) (zlist lo c)), rsum_zero by (intros z I; apply in_zlist in I; apply H; lia).
    rewrite (rsum_ext f (fun _ => 0) (zlist (c + 1) hi)), rsum_zero by (intros z I; apply in_zlist in I; apply H; lia).
    unfold zlist. replace (Z.to_nat (c + 1 - c)) with 1%nat by lia. cbn. rewrite Z.add_0_r. ring.
  - rewrite (rsum_ext f (fun _ => 0)), rsum_zero; [reflexivity|].
    intros z I. apply in_zlist in I. apply H; [exact I|]. intros ->.
    apply andb_false_iff in E. destruct E as [E|E]; [apply Z.leb_gt in E|apply Z.ltb_ge in E]; lia.
Qed.
(** Rows of equal length, flattened. *)
Lemma rsum_flat : forall (g : Z -> R) w h, (0 <= w)%Z -> (0 <= h)%Z ->
  rsum g (zlist 0 (w * h)) = rsum (fun j => rsum (fun i => g (j * w + i)%Z) (zlist 0 w)) (zlist 0 h).
Proof.
  intros g w h Hw Hh. rewrite <- (Z2Nat.id h) by lia. clear Hh. generalize (Z.to_nat h) as n. clear h.
  induction n as [|n IH]; [rewrite Z.mul_0_r; reflexivity|].
  rewrite Nat2Z.inj_succ, <- Z.add_1_r.
  rewrite <- (zlist_app 0 (Z.of_nat n) (Z.of_nat n + 1)) by lia. rewrite rsum_app, <- IH.
  rewrite <- (zlist_app 0 (w * Z.of_nat n) (w * (Z.of_nat n + 1))) by nia. rewrite rsum_app. f_equal.
  rewrite (rsum_single _ (Z.of_nat n) (Z.of_nat n + 1) (Z.of_nat n)) by (intros; lia).
  replace ((Z.of_nat n <=? Z.of_nat n) && (Z.of_nat n <? Z.of_nat n + 1))%Z with true
    by (symmetry; apply andb_true_intro; split; [apply Z.leb_le|apply Z.ltb_lt]; lia).
  replace (w * (Z.of_nat n + 1))%Z with (w + w * Z.of_nat n)%Z by ring.
  rewrite <- (Z.add_0_l (w * Z.of_nat n)) at 1. rewrite zlist_shift.
  apply rsum_ext. intros i _. f_equal. ring.
Qed.
(** Chunks of size B cover 0..H-1 once. *)
Lemma rsum_chunks : forall (f : Z -> R) B H n, (0 < B)%Z -> (0 <= H)%Z ->
  rsum (fun b => rsum f (zlist (Z.of_nat b * B) (Z.min (Z.of_nat b * B + B) H))) (seq 0 n)
  = rsum f (zlist 0 (Z.min (Z.of_nat n * B) H)).
Proof.
  intros f B H n HB HH. induction n as [|n IH].
  - simpl. rewrite zlist_empty; [reflexivity|]. apply Z.le_min_l.
  - rewrite seq_S, rsum_app, IH. cbn [plus]. unfold rsum at 2. cbn [fold_right]. rewrite Rplus_0_r.
    destruct (Z_le_gt_dec H (Z.of_nat n * B)) as [G|G].
    + rewrite (Z.min_r (Z.of_nat n * B) H) by lia. rewrite (Z.min_r (Z.of_nat n * B + B) H) by lia.
      rewrite (Z.min_r (Z.of_nat (S n) * B) H) by nia.
      rewrite (zlist_empty (Z.of_nat n * B) H) by lia. unfold rsum. cbn. ring.
    + rewrite (Z.min_l (Z.of_nat n * B) H) by lia.
      replace (Z.of_nat (S n) * B)%Z with (Z.of_nat n * B + B)%Z by nia.
      rewrite <- rsum_app, zlist_app; [reflexivity|].
      split; [nia|]. apply Z.min_glb; lia.
Qed.
Lemma cdiv_spec : forall a b, (0 < b)%Z -> (a <= cdiv a b * b)%Z /\ (cdiv a b * b < a + b)%Z.
Proof. intros a b H. unfold cdiv. pose proof (Z.div_mod (- a) b ltac:(lia)). pose proof (Z.mod_pos_bound (- a) b H). nia. Qed.

(** ** One block *)
Lemma flat_at : forall a j i, (0 <= i < aw a)%Z -> flat a (j * aw a + i) = px a j i.
Proof.
  intros a j i H. unfold flat. rewrite (Z.add_comm (j * aw a)).
  rewrite Z.div_add, Z.mod_add by lia. rewrite Z.div_small, Z.mod_small by lia. reflexivity.
Qed.

Lemma fold_put_add : forall (val : Z -> R) l m k,
  fold_left (fun m kk => put m (fst kk) (m (fst kk) + val (snd kk))) l m k
  = m k + rsum (fun kk : Z * Z => if (k =? fst kk)%Z then val (snd kk) else 0) l.
Proof.
  intros val l. induction l as [|kk l IH]; intros m k; cbn; [ring|].
  rewrite IH. unfold put. destruct (k =? fst kk)%Z eqn:E; unfold rsum; [|ring].
  apply Z.eqb_eq in E. subst k. ring.
Qed.

Lemma overlap_sum : forall b X0 Y0 a (val : Z -> R) i j,
  (0 <= i < aw (b_img b))%Z -> (0 <= j < ah (b_img b))%Z -> (0 <= ah a)%Z -> (0 <= aw a)%Z ->
  rsum (fun kk : Z * Z => if ((j * aw (b_img b) + i) =? fst kk)%Z then val (snd kk) else 0) (overlap b X0 Y0 a)
  = let X := (b_x0 b + i)%Z in let Y := (b_y0 b + j)%Z in
    if ((X0 <=? X) && (X <? X0 + aw a) && (Y0 <=? Y) && (Y <? Y0 + ah a))%Z
    then val ((Y - Y0) * aw a + (X - X0))%Z else 0.
Proof.
  intros b X0 Y0 a val i j Hi Hj Ha Hb. cbv zeta. set (X := (b_x0 b + i)%Z). set (Y := (b_y0 b + j)%Z). unfold overlap.
  set (w := aw (b_img b)) in *. set (h := ah (b_img b)) in *.
  set (xlo := Z.max X0 (b_x0 b)). set (xhi := Z.min (X0 + aw a) (b_x0 b + w)).
  set (ylo := Z.max Y0 (b_y0 b)). set (yhi := Z.min (Y0 + ah a) (b_y0 b + h)).
  assert (Hx : (b_x0 b <= xlo /\ X0 <= xlo /\ xhi <= b_x0 b + w /\ xhi <= X0 + aw a)%Z)
    by (unfold xlo, xhi; lia).
  assert (Hx2 : (xlo <= X <-> X0 <= X)%Z) by (unfold xlo, X; lia).
  assert (Hx3 : (X < xhi <-> X < X0 + aw a)%Z) by (unfold xhi, X; lia).
  assert (Hy2 : (ylo <= Y <-> Y0 <= Y)%Z) by (unfold ylo, Y; lia).
  assert (Hy3 : (Y < yhi <-> Y < Y0 + ah a)%Z) by (unfold yhi, Y; lia).
  assert (Hy : (b_y0 b <= ylo /\ yhi <= b_y0 b + h)%Z) by (unfold ylo, yhi; lia).
  clearbody xlo xhi ylo yhi.
  rewrite rsum_flat_map.
  rewrite (rsum_single _ ylo yhi Y).
  - rewrite rsum_map. cbn [fst snd].
    rewrite (rsum_single _ 0 (xhi - xlo) (X - xlo)).
    + replace (j * w + i =? (Y - b_y0 b) * w + (xlo - b_x0 b) + (X - xlo))%Z with true
        by (symmetry; apply Z.eqb_eq; unfold X, Y; ring).
      replace ((Y - Y0) * aw a + (xlo - X0) + (X - xlo))%Z with ((Y - Y0) * aw a + (X - X0))%Z by ring.
      assert (L1 : ((ylo <=? Y) = (Y0 <=? Y))%Z) by (apply Bool.eq_iff_eq_true; rewrite !Z.leb_le; exact Hy2).
      assert (L2 : ((Y <? yhi) = (Y <? Y0 + ah a))%Z) by (apply Bool.eq_iff_eq_true; rewrite !Z.ltb_lt; exact Hy3).
      assert (L3 : ((0 <=? X - xlo) = (X0 <=? X))%Z) by (apply Bool.eq_iff_eq_true; rewrite !Z.leb_le, <- Hx2; lia).
      assert (L4 : ((X - xlo <? xhi - xlo) = (X <? X0 + aw a))%Z) by (apply Bool.eq_iff_eq_true; rewrite !Z.ltb_lt, <- Hx3; lia).
      rewrite L1, L2, L3, L4.
      destruct (X0 <=? X)%Z, (X <? X0 + aw a)%Z, (Y0 <=? Y)%Z, (Y <? Y0 + ah a)%Z; reflexivity.
    + intros z Hz Hne. destruct (_ =? _)%Z eqn:E; [|reflexivity]. apply Z.eqb_eq in E. exfalso. apply Hne.
      unfold X, Y in *. nia.
  - intros y Hy' Hne. rewrite rsum_map. cbn [fst snd].
    rewrite (rsum_ext _ (fun _ => 0)), rsum_zero; [reflexivity|].
    intros x Ix. apply in_zlist in Ix. destruct (_ =? _)%Z eqn:E; [|reflexivity]. apply Z.eqb_eq in E. exfalso.
    assert (0 <= xlo - b_x0 b + x < w)%Z by lia.
    assert (y - b_y0 b <> j)%Z by (unfold Y in Hne; lia).
    assert ((y - b_y0 b < j)%Z \/ (j < y - b_y0 b)%Z) as [C|C] by lia; nia.
Qed.

Lemma img_at_some : forall X0 Y0 a X Y, img_at 0 (mkPatch X0 Y0 (Some a)) X Y
  = if ((X0 <=? X) && (X <? X0 + aw a) && (Y0 <=? Y) && (Y <? Y0 + ah a))%Z then px a (Y - Y0) (X - X0) else 0.
Proof. intros. unfold img_at, val_at. simpl. destruct (_ && _); reflexivity. Qed.

Lemma add_model_at : forall b nonneg m s p i j, wf_patch s ->
  (0 <= i < aw (b_img b))%Z -> (0 <= j < ah (b_img b))%Z ->
  add_model b nonneg m (s, p) (j * aw (b_img b) + i)%Z
  = m (j * aw (b_img b) + i)%Z + flux_of nonneg p * img_at 0 s (b_x0 b + i) (b_y0 b + j).
Proof.
  intros b nonneg m [X0 Y0 [a|]] p i j W Hi Hj; unfold add_model; cbn [fst snd pimg x0 y0].
  2:{ unfold img_at, val_at. simpl. ring. }
  destruct W as (W1 & W2).
  rewrite (fold_put_add (fun k => flat a k * flux_of nonneg p)).
  rewrite (overlap_sum b X0 Y0 a (fun k => flat a k * flux_of nonneg p) i j Hi Hj W1 W2). cbv zeta.
  rewrite img_at_some. destruct (_ && _) eqn:E; [|ring].
  repeat rewrite andb_true_iff in E. repeat rewrite Z.leb_le in E. repeat rewrite Z.ltb_lt in E.
  rewrite flat_at by lia. ring.
Qed.

Lemma model_fold : forall b nonneg l m i j, Forall (fun sp : patch R * R => wf_patch (fst sp)) l ->
  (0 <= i < aw (b_img b))%Z -> (0 <= j < ah (b_img b))%Z ->
  fold_left (add_model b nonneg) l m (j * aw (b_img b) + i)%Z
  = m (j * aw (b_img b) + i)%Z
    + rsum (fun sp => flux_of nonneg (snd sp) * img_at 0 (fst sp) (b_x0 b + i) (b_y0 b + j)) l.
Proof.
  intros b nonneg l. induction l as [|[s p] l IH]; intros m i j F Hi Hj; cbn [fold_left]; [unfold rsum; cbn; ring|].
  inversion_clear F as [|? ? W F']. rewrite IH by assumption. rewrite add_model_at by assumption.
  unfold rsum. cbn. ring.
Qed.

(** The block's arrays have one shape. *)
Definition good_block (b : block) : Prop :=
  (0 <= ah (b_img b))%Z /\ (0 <= aw (b_img b))%Z /\ aw (b_mod0 b) = aw (b_img b) /\ aw (b_ie b) = aw (b_img b)
  /\ Forall (fun s => wf_patch (snd s)) (b_srcs b).

Lemma combine_fst_wf : forall (l : list (nat * patch R)) (ps : list R), Forall (fun s => wf_patch (snd s)) l ->
  Forall (fun sp : patch R * R => wf_patch (fst sp)) (combine (map snd l) ps).
Proof.
  intros l. induction l as [|s l IH]; intros ps F; [constructor|]. inversion_clear F.
  destruct ps; cbn; constructor; auto.
Qed.

(** The residuals of one block, as an image. *)
Lemma residual_at : forall b nonneg ps i j, good_block b ->
  (0 <= i < aw (b_img b))%Z -> (0 <= j < ah (b_img b))%Z ->
  residual b nonneg ps (j * aw (b_img b) + i)%Z
  = (px (b_img b) j i
     - (px (b_mod0 b) j i
        + rsum (fun sp => flux_of nonneg (snd sp) * img_at 0 (fst sp) (b_x0 b + i) (b_y0 b + j))
               (combine (map snd (b_srcs b)) ps))) * px (b_ie b) j i.
Proof.
  intros b nonneg ps i j (_ & _ & W1 & W2 & F) Hi Hj. unfold residual, model.
  rewrite model_fold; [|apply combine_fst_wf; exact F|assumption|assumption].
  rewrite (flat_at (b_img b)) by assumption.
  replace (flat (b_mod0 b) (j * aw (b_img b) + i)) with (px (b_mod0 b) j i)
    by (rewrite <- W1; symmetry; apply flat_at; rewrite W1; assumption).
  replace (flat (b_ie b) (j * aw (b_img b) + i)) with (px (b_ie b) j i)
    by (rewrite <- W2; symmetry; apply flat_at; rewrite W2; assumption).
  reflexivity.
Qed.

(** ** Grids of blocks *)
Definition grid {A : Type} (n m : nat) (g : nat -> nat -> A) : list A :=
  flat_map (fun y => map (g y) (seq 0 m)) (seq 0 n).

Lemma upd_at_app_r {A} (f : A -> A) : forall l m n, upd_at (length l + n) f (l ++ m) = l ++ upd_at n f m.
Proof. induction l as [|a l IH]; intros m n; [reflexivity|]. cbn. rewrite IH. reflexivity. Qed.
Lemma upd_at_app_l {A} (f : A -> A) : forall l m n, (n < length l)%nat -> upd_at n f (l ++ m) = upd_at n f l ++ m.
Proof.
  induction l as [|a l IH]; intros m n H; [cbn in H; lia|].
  destruct n; cbn; [reflexivity|]. rewrite IH by (cbn in H; lia). reflexivity.
Qed.
Lemma upd_map_seq {A} (f : A -> A) (g : nat -> A) : forall m s i, (i < m)%nat ->
  upd_at i f (map g (seq s m)) = map (fun x => if (x =? s + i)%nat then f (g x) else g x) (seq s m).
Proof.
  induction m as [|m IH]; intros s i H; [lia|]. destruct i as [|i]; cbn [seq map upd_at].
  - rewrite Nat.add_0_r, Nat.eqb_refl. f_equal. apply map_ext_in. intros x I. apply in_seq in I.
    destruct (x =? s)%nat eqn:E; [apply Nat.eqb_eq in E; lia|reflexivity].
  - replace (s =? s + S i)%nat with false by (symmetry; apply Nat.eqb_neq; lia). f_equal.
    rewrite IH by lia. apply map_ext. intros x. replace (s + S i)%nat with (S s + i)%nat by lia. reflexivity.
Qed.
Lemma grid_length_s {A} (g : nat -> nat -> A) m : forall n s,
  length (flat_map (fun y => map (g y) (seq 0 m)) (seq s n)) = (n * m)%nat.
Proof. induction n as [|n IH]; intros s; [reflexivity|]. cbn. rewrite app_length, map_length, seq_length, IH. reflexivity. Qed.
Lemma grid_length {A} n m (g : nat -> nat -> A) : length (grid n m g) = (n * m)%nat.
Proof. apply grid_length_s. Qed.
Lemma grid_ext {A} n m (g h : nat -> nat -> A) : (forall y x, (y < n)%nat -> (x < m)%nat -> g y x = h y x) -> grid n m g = grid n m h.
Proof.
  intros H. unfold grid. rewrite !flat_map_concat_map. f_equal. apply map_ext_in. intros y Iy.
  apply map_ext_in. intros x Ix. apply in_seq in Iy, Ix. apply H; lia.
Qed.
Lemma upd_grid {A} (f : A -> A) (g : nat -> nat -> A) n m iy ix : (iy < n)%nat -> (ix < m)%nat ->
  upd_at (iy * m + ix) f (grid n m g)
  = grid n m (fun y x => if ((y =? iy) && (x =? ix))%nat then f (g y x) else g y x).
Proof.
  unfold grid. enough (G : forall n s iy, (iy < n)%nat -> (ix < m)%nat ->
    upd_at (iy * m + ix) f (flat_map (fun y => map (g y) (seq 0 m)) (seq s n))
    = flat_map (fun y => map (fun x => if ((y =? s + iy) && (x =? ix))%nat then f (g y x) else g y x) (seq 0 m)) (seq s n))
    by (intros; rewrite (G n 0%nat iy) by assumption; reflexivity).
  clear n iy. induction n as [|n IH]; intros s iy Hy Hx; [lia|]. cbn [seq flat_map].
  destruct iy as [|iy].
  - cbn [mult plus]. rewrite upd_at_app_l by (rewrite map_length, seq_length; exact Hx).
    rewrite upd_map_seq by exact Hx. rewrite Nat.add_0_r, Nat.eqb_refl. f_equal.
    rewrite !flat_map_concat_map. f_equal. apply map_ext_in. intros y Iy. apply in_seq in Iy.
    replace (y =? s)%nat with false by (symmetry; apply Nat.eqb_neq; lia). reflexivity.
  - replace (S iy * m + ix)%nat with (length (map (g s) (seq 0 m)) + (iy * m + ix))%nat
      by (rewrite map_length, seq_length; cbn; lia).
    rewrite upd_at_app_r, IH by lia. replace (s =? s + S iy)%nat with false by (symmetry; apply Nat.eqb_neq; lia).
    f_equal. rewrite !flat_map_concat_map. f_equal. apply map_ext. intros y.
    replace (s + S iy)%nat with (S s + iy)%nat by lia. reflexivity.
Qed.

Definition within (lo n x : nat) : bool := ((lo <=? x) && (x <? lo + n))%nat.
Lemma within_S lo n x : within lo (S n) x = (within lo n x || (x =? lo + n)%nat)%bool.
Proof.
  apply Bool.eq_iff_eq_true. unfold within.
  rewrite orb_true_iff, !andb_true_iff, !Nat.leb_le, !Nat.ltb_lt, Nat.eqb_eq. lia.
Qed.
Lemma within_last lo n : within lo n (lo + n) = false.
Proof. unfold within. apply andb_false_iff. right. apply Nat.ltb_ge. lia. Qed.

Section Spread.
Variable s : nat * patch R.
Variables A B : list block.
Variables n m : nat.

Lemma spread_row : forall (g : nat -> nat -> block) iy lo c, (iy < n)%nat -> (lo + c <= m)%nat ->
  fold_left (fun bl bx => upd_at (length A + (iy * m + bx)) (add_src s) bl) (seq lo c) (A ++ grid n m g ++ B)
  = A ++ grid n m (fun y x => if ((y =? iy)%nat && within lo c x)%bool then add_src s (g y x) else g y x) ++ B.
Proof.
  intros g iy lo c Hy. induction c as [|c IH]; intros Hc.
  - cbn [seq fold_left]. f_equal. f_equal. apply grid_ext. intros y x _ _.
    replace (within lo 0 x) with false; [rewrite andb_false_r; reflexivity|].
    symmetry. unfold within. apply andb_false_iff. destruct (Nat.le_gt_cases lo x);
      [right; apply Nat.ltb_ge; lia|left; apply Nat.leb_gt; lia].
  - rewrite seq_S, fold_left_app, IH by lia. cbn [fold_left].
    rewrite upd_at_app_r, upd_at_app_l by (rewrite grid_length; nia).
    rewrite upd_grid by lia. f_equal. f_equal. apply grid_ext. intros y x _ _.
    rewrite within_S. destruct (y =? iy)%nat; cbn; [|reflexivity].
    destruct (x =? lo + c)%nat eqn:E; [|rewrite orb_false_r; reflexivity].
    apply Nat.eqb_eq in E. subst x. rewrite within_last. reflexivity.
Qed.

Lemma spread_rows : forall (g : nat -> nat -> block) lo c lo' c', (lo + c <= n)%nat -> (lo' + c' <= m)%nat ->
  fold_left (fun bl by_ => fold_left (fun bl bx => upd_at (length A + (by_ * m + bx)) (add_src s) bl) (seq lo' c') bl)
    (seq lo c) (A ++ grid n m g ++ B)
  = A ++ grid n m (fun y x => if (within lo c y && within lo' c' x)%bool then add_src s (g y x) else g y x) ++ B.
Proof.
  intros g lo c lo' c' Hc Hc'. induction c as [|c IH].
  - cbn [seq fold_left]. f_equal. f_equal. apply grid_ext. intros y x _ _.
    replace (within lo 0 y) with false; [reflexivity|].
    symmetry. unfold within. apply andb_false_iff. destruct (Nat.le_gt_cases lo y);
      [right; apply Nat.ltb_ge; lia|left; apply Nat.leb_gt; lia].
  - rewrite seq_S, fold_left_app, IH by lia. cbn [fold_left]. rewrite spread_row by lia.
    f_equal. f_equal. apply grid_ext. intros y x _ _. rewrite within_S.
    destruct (y =? lo + c)%nat eqn:E; [|rewrite orb_false_r; reflexivity].
    apply Nat.eqb_eq in E. subst y. rewrite within_last. cbn.
    destruct (within lo' c' x); reflexivity.
Qed.
End Spread.

(** ** What the setup builds *)
(** One source of an image, with the blocks it is given to. *)
Record item : Type := mkItem { it_src : nat * patch R; it_y : nat * nat; it_x : nat * nat }.
Definition hit (it : item) (iy ix : nat) : bool :=
  within (fst (it_y it)) (snd (it_y it)) iy && within (fst (it_x it)) (snd (it_x it)) ix.

Lemma index_spec : forall p l k, index p l = Some k -> (k < length l)%nat /\ nth k l O = p.
Proof.
  induction l as [|q l IH]; intros k H; cbn in H; [discriminate|].
  destruct (q =? p)%nat eqn:E.
  - apply Nat.eqb_eq in E. injection H as <-. cbn. split; [lia|exact E].
  - destruct (index p l) as [i|]; [|discriminate]. injection H as <-. destruct (IH i eq_refl). cbn. split; [lia|assumption].
Qed.

Section Setup.
Variables BW BH : Z.
Hypothesis HBW : (0 < BW)%Z.
Hypothesis HBH : (0 < BH)%Z.
Variable imgs : list fim.
Hypothesis Himgs : Forall good_im imgs.

Let imn (n : nat) : fim := nth n imgs no_fim.
Definition block_of (im : fim) (L : list item) (iy ix : nat) : block :=
  let b := new_block BW BH im iy ix in
  mkBlock (b_x0 b) (b_y0 b) (b_img b) (b_mod0 b) (b_ie b) (map it_src (filter (fun it => hit it iy ix) L)).
Definition seg (im : fim) (L : list item) : list block := grid (nbh BH im) (nbw BW im) (block_of im L).

(** Pixel (X, Y) lies in block (iy, ix). *)
Definition in_block (iy ix : nat) (X Y : Z) : Prop :=
  (Z.of_nat ix * BW <= X < Z.of_nat ix * BW + BW /\ Z.of_nat iy * BH <= Y < Z.of_nat iy * BH + BH)%Z.

(** [D th n X Y] is what the sources given so far add to the model of image n. *)
Record Inv (order : list nat) (Ls : nat -> list item) (D : (nat -> R) -> nat -> Z -> Z -> R) (st : dst) : Prop := mkInv {
  i_blocks : d_blocks st = flat_map (fun n => seg (imn n) (Ls n)) order;
  i_nodup : NoDup order;
  i_range : forall n, In n order -> (n < length imgs)%nat;
  i_in : forall O1 n O2, order = O1 ++ n :: O2 ->
         lookup n (d_start st) = Some (length (flat_map (fun n => seg (imn n) (Ls n)) O1), nbw BW (imn n), nbh BH (imn n));
  i_out : forall n, ~ In n order -> lookup n (d_start st) = None;
  i_used : NoDup (d_used st);
  i_items : forall n it, In it (Ls n) -> wf_patch (snd (it_src it)) /\ (fst (it_src it) < length (d_used st))%nat
            /\ forall iy ix X Y, (iy < nbh BH (imn n))%nat -> (ix < nbw BW (imn n))%nat ->
                 in_block iy ix X Y -> hit it iy ix = false -> img_at 0 (snd (it_src it)) X Y = 0;
  i_sum : forall th n X Y, In n order -> in_box 0 (f_W (imn n)) 0 (f_H (imn n)) X Y = true ->
          rsum (fun it => th (nth (fst (it_src it)) (d_used st) O) * img_at 0 (snd (it_src it)) X Y) (Ls n)
          = D th n X Y }.

Lemma good_imn : forall n, (n < length imgs)%nat -> good_im (imn n).
Proof. intros n H. unfold imn. rewrite Forall_forall in Himgs. apply Himgs, nth_In, H. Qed.

Lemma nb_pos : forall n, (n < length imgs)%nat -> (0 < nbw BW (imn n))%nat /\ (0 < nbh BH (imn n))%nat.
Proof.
  intros n H. destruct (good_imn n H) as (G1 & G2 & _). unfold nbw, nbh.
  pose proof (cdiv_spec (f_W (imn n)) BW HBW). pose proof (cdiv_spec (f_H (imn n)) BH HBH).
  assert (0 < cdiv (f_W (imn n)) BW)%Z by nia. assert (0 < cdiv (f_H (imn n)) BH)%Z by nia. lia.
Qed.

Lemma trim_wf : forall (p : patch R) isz, wf_patch p -> wf_patch (trim isz p).
Proof.
  intros [X0 Y0 [a|]] isz W; unfold trim; cbn [pimg]; [|exact W].
  destruct (_ || _); [exact W|]. destruct (_ && _); [exact W|].
  unfold wf_patch. cbn [pimg]. destruct (_ || _); [exact Logic.I|].
  unfold wf_arr, asub, sl_len. cbn [ah aw]. split; apply Z.le_max_l.
Qed.

Lemma seg_length : forall im L L', length (seg im L) = length (seg im L').
Proof. intros. unfold seg. rewrite !grid_length. reflexivity. Qed.

Definition ext_at (Ls : nat -> list item) (n : nat) (it : item) : nat -> list item :=
  fun m => if (m =? n)%nat then Ls m ++ [it] else Ls m.

Lemma segs_other : forall Ls n it l, ~ In n l ->
  flat_map (fun k => seg (imn k) (ext_at Ls n it k)) l = flat_map (fun k => seg (imn k) (Ls k)) l.
Proof.
  intros Ls n it l H. rewrite !flat_map_concat_map. f_equal. apply map_ext_in. intros k Ik.
  unfold ext_at. destruct (k =? n)%nat eqn:E; [apply Nat.eqb_eq in E; subst k; contradiction|reflexivity].
Qed.
Lemma segs_length : forall Ls Ls' l,
  length (flat_map (fun k => seg (imn k) (Ls k)) l) = length (flat_map (fun k => seg (imn k) (Ls' k)) l).
Proof.
  intros Ls Ls' l. induction l as [|k l IH]; [reflexivity|]. cbn. rewrite !app_length, IH.
  rewrite (seg_length _ (Ls k) (Ls' k)). reflexivity.
Qed.

Lemma block_ext : forall im L it y x,
  block_of im (L ++ [it]) y x = if hit it y x then add_src (it_src it) (block_of im L y x) else block_of im L y x.
Proof.
  intros. unfold block_of, add_src. cbn. rewrite filter_app, map_app. cbn.
  destruct (hit it y x); cbn; [reflexivity|]. rewrite app_nil_r. reflexivity.
Qed.

Lemma add_umod_inv : forall order Ls D st n scale parami um,
  Inv order Ls D st -> In n order -> good_umod um ->
  forall b0 nw nh, lookup n (d_start st) = Some (b0, nw, nh) ->
  exists st' Ls', add_umod BW BH (imn n) scale parami b0 nw nh um st = Ok st' /\ d_start st' = d_start st /\
    Inv order Ls' (fun th m X Y => D th m X Y + (if (m =? n)%nat then th parami * (scale * value um X Y) else 0)) st'.
Proof.
  intros order Ls D st n scale parami um IV In_n GU b0 nw nh HL.
  assert (Skip : (forall X Y, in_box 0 (f_W (imn n)) 0 (f_H (imn n)) X Y = true -> value um X Y = 0) ->
     Inv order Ls (fun th m X Y => D th m X Y + (if (m =? n)%nat then th parami * (scale * value um X Y) else 0)) st).
  { intros Hz. destruct IV. constructor; auto. intros th m X Y Im HB. rewrite (i_sum0 th m X Y Im HB).
    destruct (m =? n)%nat eqn:E; [|ring]. apply Nat.eqb_eq in E. subst m. rewrite (Hz X Y HB). ring. }
  destruct um as [p|]; cbn [add_umod].
  2:{ exists st, Ls. split; [reflexivity|]. split; [reflexivity|]. apply Skip. reflexivity. }
  pose proof (i_range _ _ _ _ IV n In_n) as Hn.
  destruct (good_imn n Hn) as (GH & GW & _).
  destruct (C17_clip_to R p (f_W (imn n)) (f_H (imn n)) GU ltac:(lia) ltac:(lia)) as (p1 & bb & Ec & W1 & V1 & _ & _).
  rewrite Ec. cbn [bind]. set (p2 := trim (fun v => reqb v 0) p1).
  assert (W2 : wf_patch p2) by (apply trim_wf; exact W1).
  assert (V2 : forall X Y, in_box 0 (f_W (imn n)) 0 (f_H (imn n)) X Y = true -> img_at 0 p2 X Y = img_at 0 p X Y).
  { intros X Y HB. unfold p2. rewrite (C20_trim_keeps_image R (fun v => reqb v 0) 0 p1 W1);
      [|intros v Hv; apply reqb_true; exact Hv].
    unfold img_at. rewrite (V1 X Y), HB. reflexivity. }
  clearbody p2.
  destruct (pimg p2) as [a|] eqn:Ea.
  2:{ exists st, Ls. split; [reflexivity|]. split; [reflexivity|]. apply Skip. intros X Y HB. cbn [value].
      rewrite <- (V2 X Y HB). unfold img_at, val_at. rewrite Ea. reflexivity. }
  destruct (in_split n order In_n) as (O1 & O2 & EO).
  pose proof (i_in _ _ _ _ IV O1 n O2 EO) as HL'. rewrite HL in HL'. injection HL' as Eb Enw Enh.
  destruct (nb_pos n Hn) as (Pw & Ph).
  assert (KU : exists k used, (match index parami (d_used st) with
                  | Some k => (k, d_used st)
                  | None => (length (d_used st), d_used st ++ [parami]) end) = (k, used)
                /\ (k < length used)%nat /\ nth k used O = parami /\ NoDup used
                /\ (exists tl, used = d_used st ++ tl)).
  { destruct (index parami (d_used st)) as [k|] eqn:Ei.
    - exists k, (d_used st). destruct (index_spec _ _ _ Ei). split; [reflexivity|]. split; [assumption|].
      split; [assumption|]. split; [exact (i_used _ _ _ _ IV)|]. exists []. rewrite app_nil_r. reflexivity.
    - exists (length (d_used st)), (d_used st ++ [parami]). split; [reflexivity|].
      rewrite app_length. cbn. split; [lia|]. split; [rewrite app_nth2, Nat.sub_diag by lia; reflexivity|].
      split; [|exists [parami]; reflexivity].
      assert (NI : ~ In parami (d_used st)).
      { clear -Ei. induction (d_used st) as [|q l IH]; [intros []|]. cbn in Ei.
        destruct (q =? parami)%nat eqn:E; [discriminate|]. apply Nat.eqb_neq in E.
        destruct (index parami l); [discriminate|]. intros [H|H]; [contradiction|]. exact (IH eq_refl H). }
      pose proof (i_used _ _ _ _ IV) as ND. clear -NI ND.
      induction (d_used st) as [|q l IH]; [repeat constructor; intros []|].
      inversion_clear ND. cbn. constructor.
      + intros H1. apply in_app_or in H1. destruct H1 as [H1|[H1|[]]]; [contradiction|]. apply NI. left. symmetry. exact H1.
      + apply IH; [|assumption]. intros H1. apply NI. right. exact H1. }
  destruct KU as (k & used & EK & Hk & Hku & NDu & tl & Etl). rewrite EK.
  set (clip := fun z m => Z.to_nat (np_clip z 0 (Z.of_nat m - 1))).
  assert (HC : forall z m, (0 < m)%nat -> (clip z m < m)%nat) by (intros z m Hm; unfold clip, np_clip; lia).
  fold (clip (x0 p2 / BW)%Z nw) (clip (cdiv (x0 p2 + aw a) BW) nw) (clip (y0 p2 / BH)%Z nh) (clip (cdiv (y0 p2 + ah a) BH) nh).
  set (bx0 := clip (x0 p2 / BW)%Z nw). set (bx1 := clip (cdiv (x0 p2 + aw a) BW) nw).
  set (by0 := clip (y0 p2 / BH)%Z nh). set (by1 := clip (cdiv (y0 p2 + ah a) BH) nh).
  set (it := mkItem (k, pmul p2 scale) (by0, (S by1 - by0)%nat) (bx0, (S bx1 - bx0)%nat)).
  assert (Bx : (bx0 + (S bx1 - bx0) <= nw)%nat).
  { pose proof (HC (x0 p2 / BW)%Z nw ltac:(lia)). pose proof (HC (cdiv (x0 p2 + aw a) BW) nw ltac:(lia)).
    fold bx0 in H. fold bx1 in H0. lia. }
  assert (By : (by0 + (S by1 - by0) <= nh)%nat).
  { pose proof (HC (y0 p2 / BH)%Z nh ltac:(lia)). pose proof (HC (cdiv (y0 p2 + ah a) BH) nh ltac:(lia)).
    fold by0 in H. fold by1 in H0. lia. }
  eexists. exists (ext_at Ls n it). split; [reflexivity|]. split; [reflexivity|].
  pose proof (i_nodup _ _ _ _ IV) as ND.
  assert (N1 : ~ In n O1 /\ ~ In n O2).
  { rewrite EO in ND. apply NoDup_remove_2 in ND. split; intros H; apply ND; apply in_or_app; auto. }
  destruct N1 as (N1 & N2).
  constructor; cbn [d_blocks d_start d_used].
  - unfold spread. rewrite (i_blocks _ _ _ _ IV), EO. rewrite !flat_map_app. cbn [flat_map].
    rewrite (segs_other Ls n it O1 N1), (segs_other Ls n it O2 N2).
    unfold seg at 2. unfold nbw, nbh in *. rewrite <- Enw, <- Enh, Eb.
    rewrite spread_rows by assumption. f_equal. f_equal.
    unfold seg. unfold nbw, nbh. rewrite <- Enw, <- Enh. apply grid_ext. intros y x _ _.
    unfold ext_at. rewrite Nat.eqb_refl, block_ext. reflexivity.
  - exact ND.
  - exact (i_range _ _ _ _ IV).
  - intros A1 m A2 EO'. rewrite (i_in _ _ _ _ IV A1 m A2 EO').
    rewrite (segs_length Ls (ext_at Ls n it) A1). reflexivity.
  - exact (i_out _ _ _ _ IV).
  - exact NDu.
  - intros m it' I'.
    assert (I2 : In it' (Ls m) \/ (m = n /\ it' = it)).
    { unfold ext_at in I'. destruct (m =? n)%nat eqn:E; [|left; exact I'].
      apply Nat.eqb_eq in E. apply in_app_or in I'. destruct I' as [I'|[I'|[]]]; [left; exact I'|right; auto]. }
    destruct I2 as [I2|(-> & ->)].
    + destruct (i_items _ _ _ _ IV m it' I2) as (Q1 & Q2 & Q3). split; [exact Q1|]. split; [|exact Q3].
      rewrite Etl, app_length. lia.
    + split; [|split].
      * unfold wf_patch in *. cbn. rewrite Ea in W2. unfold pmul. rewrite Ea. exact W2.
      * exact Hk.
      * intros iy ix X Y Hy Hx (IX & IY) HN. cbn [it it_src snd]. rewrite img_pmul.
        unfold img_at, val_at. rewrite Ea.
        destruct ((x0 p2 <=? X) && (X <? x0 p2 + aw a) && (y0 p2 <=? Y) && (Y <? y0 p2 + ah a))%Z eqn:E; [|ring].
        exfalso. repeat rewrite andb_true_iff in E. repeat rewrite Z.leb_le in E. repeat rewrite Z.ltb_lt in E.
        destruct E as (((E1 & E2) & E3) & E4).
        enough (hit it iy ix = true) by congruence.
        assert (T : forall x0' B' n' w' i' Z', (0 < B')%Z -> (i' < n')%nat -> (x0' <= Z' < x0' + w')%Z ->
                   (Z.of_nat i' * B' <= Z' < Z.of_nat i' * B' + B')%Z ->
                   (clip (x0' / B')%Z n' <= i' <= clip (cdiv (x0' + w') B') n')%nat).
        { clear. intros x0' B' n' w' i' Z' HB Hi HZ HI. unfold clip, np_clip.
          assert (x0' / B' <= Z.of_nat i')%Z.
          { apply Z.lt_succ_r. apply Z.div_lt_upper_bound; nia. }
          pose proof (cdiv_spec (x0' + w') B' HB) as (C1 & _).
          assert (Z.of_nat i' < cdiv (x0' + w') B')%Z by nia. lia. }
        assert (T1 := T (x0 p2) BW nw (aw a) ix X HBW ltac:(lia) ltac:(lia) IX).
        assert (T2 := T (y0 p2) BH nh (ah a) iy Y HBH ltac:(lia) ltac:(lia) IY).
        fold bx0 bx1 in T1. fold by0 by1 in T2.
        unfold hit, within. cbn [it it_y it_x fst snd].
        rewrite !andb_true_iff, !Nat.leb_le, !Nat.ltb_lt. lia.
  - intros th m X Y Im HB.
    assert (Old : rsum (fun it0 => th (nth (fst (it_src it0)) used O) * img_at 0 (snd (it_src it0)) X Y) (Ls m) = D th m X Y).
    { rewrite <- (i_sum _ _ _ _ IV th m X Y Im HB). apply rsum_ext. intros it' I'.
      destruct (i_items _ _ _ _ IV m it' I') as (_ & Q2 & _). rewrite Etl, app_nth1 by exact Q2. reflexivity. }
    unfold ext_at. destruct (m =? n)%nat eqn:E.
    + apply Nat.eqb_eq in E. subst m. rewrite rsum_app, Old. f_equal. unfold rsum. cbn [fold_right it it_src fst snd].
      rewrite Hku, img_pmul, (V2 X Y HB). cbn [value]. ring.
    + rewrite Old. ring.
Qed.

Lemma Inv_ext : forall order Ls D D' st, (forall th n X Y, D th n X Y = D' th n X Y) -> Inv order Ls D st -> Inv order Ls D' st.
Proof. intros order Ls D D' st H []. constructor; auto. intros th n X Y Hn HB. rewrite <- H. auto. Qed.

Definition umods_image (th : nat -> R) (off s : nat) (scale : R) (ums : list (option (patch R))) (X Y : Z) : R :=
  rsum (fun ku => th (off + fst ku)%nat * (scale * value (snd ku) X Y)) (combine (seq s (length ums)) ums).

Lemma add_umods_inv : forall ums order Ls D st n scale off s,
  Inv order Ls D st -> In n order -> Forall good_umod ums ->
  forall b0 nw nh, lookup n (d_start st) = Some (b0, nw, nh) ->
  exists st' Ls', CeresModel.add_umods BW BH (imn n) scale (off + s) b0 nw nh ums st = Ok st' /\
    Inv order Ls' (fun th m X Y => D th m X Y + (if (m =? n)%nat then umods_image th off s scale ums X Y else 0)) st'.
Proof.
  induction ums as [|um ums IH]; intros order Ls D st n scale off s IV Hn GU b0 nw nh HL.
  - exists st, Ls. split; [reflexivity|]. apply (Inv_ext order Ls D); [|exact IV].
    intros. unfold umods_image, rsum. cbn. destruct (_ =? _)%nat; ring.
  - inversion_clear GU as [|? ? G1 G2].
    destruct (add_umod_inv order Ls D st n scale (off + s) um IV Hn G1 b0 nw nh HL) as (st1 & Ls1 & E1 & ES & IV1).
    cbn [CeresModel.add_umods]. rewrite E1. cbn [bind].
    rewrite <- ES in HL.
    destruct (IH order Ls1 _ st1 n scale off (S s) IV1 Hn G2 b0 nw nh HL) as (st2 & Ls2 & E2 & IV2).
    replace (S (off + s)) with (off + S s)%nat by lia.
    exists st2, Ls2. split; [exact E2|]. refine (Inv_ext _ _ _ _ _ _ IV2). intros th m X Y. cbv beta.
    destruct (m =? n)%nat; [|ring]. unfold umods_image, rsum. cbn. ring.
Qed.

Lemma add_entry_inv : forall order Ls D st e,
  Inv order Ls D st -> (e_img e < length imgs)%nat -> Forall good_umod (e_umods e) ->
  (forall th n X Y, ~ In n order -> D th n X Y = 0) ->
  exists st' order' Ls', add_entry BW BH imgs e st = Ok st' /\ incl order order' /\ In (e_img e) order' /\
    Inv order' Ls' (fun th m X Y => D th m X Y + (if (e_img e =? m)%nat then entry_image th e X Y else 0)) st'.
Proof.
  intros order Ls D st e IV He GU D0. unfold add_entry.
  rewrite (nth_error_nth' imgs no_fim He). fold (imn (e_img e)). set (n := e_img e) in *.
  assert (Sum : forall th m X Y, (if (m =? n)%nat then umods_image th (e_off e) 0 (e_scale e) (e_umods e) X Y else 0)
                = (if (n =? m)%nat then entry_image th e X Y else 0)).
  { intros. rewrite (Nat.eqb_sym m n). reflexivity. }
  destruct (in_dec Nat.eq_dec n order) as [Hn|Hn].
  - destruct (in_split n order Hn) as (O1 & O2 & EO). pose proof (i_in _ _ _ _ IV O1 n O2 EO) as HL. rewrite HL.
    destruct (add_umods_inv (e_umods e) order Ls D st n (e_scale e) (e_off e) 0 IV Hn GU _ _ _ HL) as (st' & Ls' & E & IV').
    rewrite Nat.add_0_r in E. exists st', order, Ls'. split; [exact E|].
    split; [apply incl_refl|]. split; [exact Hn|].
    refine (Inv_ext _ _ _ _ _ _ IV'). intros. cbv beta. rewrite Sum. reflexivity.
  - rewrite (i_out _ _ _ _ IV n Hn).
    set (st1 := mkDst _ _ _). set (Ls1 := fun m => if (m =? n)%nat then [] else Ls m).
    assert (S1 : forall l, ~ In n l -> flat_map (fun k => seg (imn k) (Ls1 k)) l = flat_map (fun k => seg (imn k) (Ls k)) l).
    { intros l H. rewrite !flat_map_concat_map. f_equal. apply map_ext_in. intros k Ik. unfold Ls1.
      destruct (k =? n)%nat eqn:E; [apply Nat.eqb_eq in E; subst k; contradiction|reflexivity]. }
    assert (NDn : NoDup (order ++ [n])).
    { pose proof (i_nodup _ _ _ _ IV) as ND. clear -ND Hn. induction order as [|q l IH]; [repeat constructor; intros []|].
      inversion_clear ND. cbn. constructor.
      + intros H1. apply in_app_or in H1. destruct H1 as [H1|[H1|[]]]; [contradiction|]. apply Hn. left. symmetry. exact H1.
      + apply IH; [|assumption]. intros H1. apply Hn. right. exact H1. }
    assert (IV1 : Inv (order ++ [n]) Ls1 D st1).
    { constructor; unfold st1; cbn [d_blocks d_start d_used].
      - rewrite flat_map_app. rewrite (S1 order Hn), (i_blocks _ _ _ _ IV). f_equal. cbn. rewrite app_nil_r.
        unfold dice, seg, grid, block_of, Ls1. rewrite Nat.eqb_refl. cbn [filter map].
        rewrite !flat_map_concat_map. f_equal.
      - exact NDn.
      - intros m Hm. apply in_app_or in Hm. destruct Hm as [Hm|[<-|[]]]; [exact (i_range _ _ _ _ IV m Hm)|exact He].
      - intros O1 m O2 EO.
        destruct (exists_last (l := m :: O2) ltac:(discriminate)) as (l' & x & El).
        rewrite El, app_assoc in EO. apply app_inj_tail in EO. destruct EO as (EO & <-).
        destruct l' as [|m' l'].
        + cbn in El. injection El as -> _. rewrite app_nil_r in EO. subst O1. cbn [lookup]. rewrite Nat.eqb_refl.
          rewrite (i_blocks _ _ _ _ IV), (S1 order Hn). reflexivity.
        + cbn in El. injection El as <- _. cbn [lookup].
          assert (n <> m) by (intros <-; apply Hn; rewrite EO; apply in_or_app; right; left; reflexivity).
          replace (n =? m)%nat with false by (symmetry; apply Nat.eqb_neq; assumption).
          rewrite (i_in _ _ _ _ IV O1 m l' EO), (segs_length Ls Ls1 O1). reflexivity.
      - intros m Hm. cbn [lookup]. destruct (n =? m)%nat eqn:E.
        + apply Nat.eqb_eq in E. subst m. exfalso. apply Hm. apply in_or_app. right. left. reflexivity.
        + apply (i_out _ _ _ _ IV). intros H. apply Hm. apply in_or_app. left. exact H.
      - exact (i_used _ _ _ _ IV).
      - intros m it I'. unfold Ls1 in I'. destruct (m =? n)%nat; [destruct I'|]. exact (i_items _ _ _ _ IV m it I').
      - intros th m X Y Hm HB. unfold Ls1. destruct (m =? n)%nat eqn:E.
        + apply Nat.eqb_eq in E. subst m. rewrite (D0 th n X Y Hn). reflexivity.
        + apply (i_sum _ _ _ _ IV); [|exact HB]. apply in_app_or in Hm. destruct Hm as [Hm|[<-|[]]]; [exact Hm|].
          rewrite Nat.eqb_refl in E. discriminate. }
    assert (Hin : In n (order ++ [n])) by (apply in_or_app; right; left; reflexivity).
    destruct (add_umods_inv (e_umods e) (order ++ [n]) Ls1 D st1 n (e_scale e) (e_off e) 0 IV1 Hin GU
               (length (d_blocks st)) (nbw BW (imn n)) (nbh BH (imn n))) as (st' & Ls' & E & IV').
    { unfold st1. cbn. rewrite Nat.eqb_refl. reflexivity. }
    rewrite Nat.add_0_r in E. exists st', (order ++ [n]), Ls'. split; [exact E|].
    split; [apply incl_appl, incl_refl|]. split; [exact Hin|].
    refine (Inv_ext _ _ _ _ _ _ IV'). intros. cbv beta. rewrite Sum. reflexivity.
Qed.

Definition good_entry (e : entry) : Prop := (e_img e < length imgs)%nat /\ Forall good_umod (e_umods e).

Lemma add_entries_inv : forall es order Ls D st, Inv order Ls D st -> Forall good_entry es ->
  (forall th n X Y, ~ In n order -> D th n X Y = 0) ->
  exists st' order' Ls', add_entries BW BH imgs es st = Ok st' /\ incl order order' /\
    (forall e, In e es -> In (e_img e) order') /\
    Inv order' Ls' (fun th m X Y => D th m X Y + rsum (fun e => if (e_img e =? m)%nat then entry_image th e X Y else 0) es) st'.
Proof.
  induction es as [|e es IH]; intros order Ls D st IV G D0.
  - exists st, order, Ls. split; [reflexivity|]. split; [apply incl_refl|]. split; [intros e []|].
    refine (Inv_ext _ _ _ _ _ _ IV). intros. unfold rsum. cbn. ring.
  - inversion_clear G as [|? ? (G1 & G1') G2].
    destruct (add_entry_inv order Ls D st e IV G1 G1' D0) as (st1 & o1 & L1 & E1 & Inc & Ie & IV1).
    cbn [add_entries]. rewrite E1. cbn [bind].
    destruct (IH o1 L1 _ st1 IV1 G2) as (st2 & o2 & L2 & E2 & Inc2 & Ie2 & IV2).
    { intros th n X Y Hn. cbv beta. rewrite D0 by (intros H; apply Hn, Inc, H).
      destruct (e_img e =? n)%nat eqn:E; [|ring]. apply Nat.eqb_eq in E. subst n. contradiction. }
    exists st2, o2, L2. split; [exact E2|]. split; [exact (incl_tran Inc Inc2)|].
    split; [intros e' [<-|I']; [apply Inc2, Ie|apply Ie2, I']|].
    refine (Inv_ext _ _ _ _ _ _ IV2). intros. unfold rsum. cbn. ring.
Qed.

(** ** The cost of the blocks of one image *)
Lemma norm_in : forall n i, (0 <= i <= n)%Z -> norm_idx n i = i.
Proof.
  intros n i H. unfold norm_idx. destruct (i <? 0)%Z eqn:E; [apply Z.ltb_lt in E; lia|]. apply Z.min_l. lia.
Qed.
Lemma asub_shape : forall (a : arr R) y0 y1 x0 x1, (0 <= y0 <= y1)%Z -> (y1 <= ah a)%Z -> (0 <= x0 <= x1)%Z -> (x1 <= aw a)%Z ->
  ah (asub a (mkSl y0 y1) (mkSl x0 x1)) = (y1 - y0)%Z /\ aw (asub a (mkSl y0 y1) (mkSl x0 x1)) = (x1 - x0)%Z /\
  forall j i, px (asub a (mkSl y0 y1) (mkSl x0 x1)) j i = px a (y0 + j)%Z (x0 + i)%Z.
Proof.
  intros a y0 y1 x0 x1 H1 H2 H3 H4. unfold asub, sl_len, sl_start. cbn [ah aw px sstart sstop].
  rewrite !norm_in by lia. split; [lia|]. split; [lia|]. intros. f_equal; lia.
Qed.

Lemma block_good : forall im L iy ix, good_im im -> (iy < nbh BH im)%nat -> (ix < nbw BW im)%nat ->
  (forall it, In it L -> wf_patch (snd (it_src it))) -> good_block (block_of im L iy ix).
Proof.
  intros im L iy ix (GH & GW & (A1 & A2) & (A3 & A4) & (A5 & A6)) Iy Ix HL.
  pose proof (cdiv_spec (f_H im) BH HBH) as (CH1 & CH2). pose proof (cdiv_spec (f_W im) BW HBW) as (CW1 & CW2).
  assert (NH : Z.of_nat (nbh BH im) = cdiv (f_H im) BH) by (unfold nbh; rewrite Z2Nat.id; nia).
  assert (NW : Z.of_nat (nbw BW im) = cdiv (f_W im) BW) by (unfold nbw; rewrite Z2Nat.id; nia).
  set (bx := (Z.of_nat ix * BW)%Z). set (by_ := (Z.of_nat iy * BH)%Z).
  assert (Bx : (0 <= bx < f_W im)%Z) by (unfold bx; nia).
  assert (By : (0 <= by_ < f_H im)%Z) by (unfold by_; nia).
  destruct (asub_shape (f_img im) by_ (Z.min (by_ + BH) (f_H im)) bx (Z.min (bx + BW) (f_W im))) as (S1 & S2 & S3); [lia..|].
  destruct (asub_shape (f_mod0 im) by_ (Z.min (by_ + BH) (f_H im)) bx (Z.min (bx + BW) (f_W im))) as (S4 & S5 & S6); [lia..|].
  destruct (asub_shape (f_ie im) by_ (Z.min (by_ + BH) (f_H im)) bx (Z.min (bx + BW) (f_W im))) as (S7 & S8 & S9); [lia..|].
  unfold good_block, block_of, new_block. cbn [b_img b_mod0 b_ie b_srcs]. fold bx by_. rewrite S1, S2, S5, S8.
  split; [lia|]. split; [lia|]. split; [reflexivity|]. split; [reflexivity|].
  apply Forall_forall. intros s Is. apply in_map_iff in Is. destruct Is as (it & <- & Ii).
  apply filter_In in Ii. exact (HL it (proj1 Ii)).
Qed.

Lemma inv_good : forall order Ls D st, Inv order Ls D st -> Forall good_block (d_blocks st).
Proof.
  intros order Ls D st IV. rewrite (i_blocks _ _ _ _ IV). apply Forall_forall. intros b Ib.
  apply in_flat_map in Ib. destruct Ib as (n & Hn & Ib). unfold seg, grid in Ib.
  apply in_flat_map in Ib. destruct Ib as (iy & Iy & Ib). apply in_map_iff in Ib. destruct Ib as (ix & <- & Ix).
  apply in_seq in Iy, Ix. apply block_good; [apply good_imn, (i_range _ _ _ _ IV n Hn)|lia|lia|].
  intros it It. exact (proj1 (i_items _ _ _ _ IV n it It)).
Qed.

Lemma combine_params : forall (l : list (nat * patch R)) v,
  combine (map snd l) (map (fun s => nth (fst s) v 0) l) = map (fun s => (snd s, nth (fst s) v 0)) l.
Proof. intros l v. induction l as [|s l IH]; [reflexivity|]. cbn. f_equal. exact IH. Qed.

Definition sq (f : Z -> Z -> R) (X Y : Z) : R := f X Y * f X Y.

Lemma seg_cost : forall nn im L (used : list nat) th (P : Z -> Z -> R), good_im im ->
  (forall it, In it L -> wf_patch (snd (it_src it)) /\ (fst (it_src it) < length used)%nat
            /\ forall iy ix X Y, (iy < nbh BH im)%nat -> (ix < nbw BW im)%nat ->
                 in_block iy ix X Y -> hit it iy ix = false -> img_at 0 (snd (it_src it)) X Y = 0) ->
  (forall X Y, in_box 0 (f_W im) 0 (f_H im) X Y = true ->
     rsum (fun it => flux_of nn (th (nth (fst (it_src it)) used O)) * img_at 0 (snd (it_src it)) X Y) L = P X Y) ->
  rsum (fun b => rsum (fun k => residual b nn (block_params b (map th used)) k
                                * residual b nn (block_params b (map th used)) k) (zlist 0 (npix b))) (seg im L)
  = rsum (fun Y => rsum (fun X =>
      sq (fun X Y => (px (f_img im) Y X - (px (f_mod0 im) Y X + P X Y)) * px (f_ie im) Y X) X Y)
      (zlist 0 (f_W im))) (zlist 0 (f_H im)).
Proof.
  intros nn im L used th P (GH & GW & (A1 & A2) & (A3 & A4) & (A5 & A6)) HL HP.
  set (F := fun X Y => (px (f_img im) Y X - (px (f_mod0 im) Y X + P X Y)) * px (f_ie im) Y X).
  unfold seg, grid. rewrite rsum_flat_map.
  pose proof (cdiv_spec (f_H im) BH HBH) as (CH1 & CH2). pose proof (cdiv_spec (f_W im) BW HBW) as (CW1 & CW2).
  assert (NH : Z.of_nat (nbh BH im) = cdiv (f_H im) BH) by (unfold nbh; rewrite Z2Nat.id; nia).
  assert (NW : Z.of_nat (nbw BW im) = cdiv (f_W im) BW) by (unfold nbw; rewrite Z2Nat.id; nia).
  rewrite (rsum_ext _ (fun iy => rsum (fun Y => rsum (fun X => sq F X Y) (zlist 0 (f_W im)))
             (zlist (Z.of_nat iy * BH) (Z.min (Z.of_nat iy * BH + BH) (f_H im))))).
  { rewrite rsum_chunks by lia. f_equal. f_equal. rewrite NH. apply Z.min_r. exact CH1. }
  intros iy Iy. apply in_seq in Iy. rewrite rsum_map.
  rewrite (rsum_ext _ (fun ix => rsum (fun Y => rsum (fun X => sq F X Y)
             (zlist (Z.of_nat ix * BW) (Z.min (Z.of_nat ix * BW + BW) (f_W im))))
             (zlist (Z.of_nat iy * BH) (Z.min (Z.of_nat iy * BH + BH) (f_H im))))).
  { rewrite rsum_swap. apply rsum_ext. intros Y _. rewrite rsum_chunks by lia. f_equal. f_equal. rewrite NW. apply Z.min_r. exact CW1. }
  intros ix Ix. apply in_seq in Ix.
  set (bx := (Z.of_nat ix * BW)%Z). set (by_ := (Z.of_nat iy * BH)%Z).
  assert (Bx : (0 <= bx < f_W im)%Z) by (unfold bx; nia).
  assert (By : (0 <= by_ < f_H im)%Z) by (unfold by_; nia).
  set (x1 := Z.min (bx + BW) (f_W im)). set (y1 := Z.min (by_ + BH) (f_H im)).
  assert (X1 : (bx <= x1 /\ x1 <= f_W im /\ x1 <= bx + BW)%Z) by (unfold x1; lia).
  assert (Y1 : (by_ <= y1 /\ y1 <= f_H im /\ y1 <= by_ + BH)%Z) by (unfold y1; lia).
  destruct (asub_shape (f_img im) by_ y1 bx x1) as (S1 & S2 & S3); [lia..|].
  destruct (asub_shape (f_mod0 im) by_ y1 bx x1) as (S4 & S5 & S6); [lia..|].
  destruct (asub_shape (f_ie im) by_ y1 bx x1) as (S7 & S8 & S9); [lia..|].
  set (b := block_of im L iy ix).
  assert (B1 : b_x0 b = bx) by reflexivity. assert (B2 : b_y0 b = by_) by reflexivity.
  assert (B3 : b_img b = asub (f_img im) (mkSl by_ y1) (mkSl bx x1)) by reflexivity.
  assert (B4 : b_mod0 b = asub (f_mod0 im) (mkSl by_ y1) (mkSl bx x1)) by reflexivity.
  assert (B5 : b_ie b = asub (f_ie im) (mkSl by_ y1) (mkSl bx x1)) by reflexivity.
  assert (B6 : b_srcs b = map it_src (filter (fun it => hit it iy ix) L)) by reflexivity.
  clearbody b x1 y1. 
  assert (GB : good_block b).
  { unfold good_block. rewrite B3, B4, B5, S1, S2, S5, S8. split; [lia|]. split; [lia|]. split; [reflexivity|]. split; [reflexivity|].
    rewrite B6. apply Forall_forall. intros s Is. apply in_map_iff in Is. destruct Is as (it & <- & Ii).
    apply filter_In in Ii. exact (proj1 (HL it (proj1 Ii))). }
  unfold npix.
  rewrite rsum_flat by (rewrite B3, ?S1, ?S2; lia).
  rewrite B3, S1, S2.
  replace (zlist by_ y1) with (zlist (0 + by_) (y1 - by_ + by_)) by (f_equal; lia).
  rewrite zlist_shift. apply rsum_ext. intros j Ij. apply in_zlist in Ij.
  replace (zlist bx x1) with (zlist (0 + bx) (x1 - bx + bx)) by (f_equal; lia).
  rewrite zlist_shift. apply rsum_ext. intros i Ii. apply in_zlist in Ii.
  assert (E : residual b nn (block_params b (map th used)) (j * (x1 - bx) + i) = F (i + bx)%Z (j + by_)%Z).
  { rewrite <- S2, <- B3.
    rewrite residual_at; [|exact GB|rewrite B3, S2; lia|rewrite B3, S1; lia].
    rewrite B3, B4, B5, S3, S6, S9, B1, B2. unfold F. unfold block_params. rewrite combine_params, rsum_map.
    rewrite (Z.add_comm i bx), (Z.add_comm j by_). f_equal. f_equal. f_equal.
    rewrite <- (HP (bx + i)%Z (by_ + j)%Z)
      by (unfold in_box; rewrite !andb_true_iff, !Z.leb_le, !Z.ltb_lt; lia).
    rewrite B6, rsum_map, <- rsum_filter. apply rsum_ext. intros it It. cbn [fst snd].
    destruct (HL it It) as (_ & Hk & Hz).
    rewrite (nth_indep (map th used) 0 (th O)) by (rewrite map_length; exact Hk). rewrite map_nth.
    destruct (hit it iy ix) eqn:Eh; [reflexivity|].
    rewrite (Hz iy ix (bx + i)%Z (by_ + j)%Z); [ring|lia|lia|unfold in_block; fold bx by_; lia|exact Eh]. }
  rewrite E. reflexivity.
Qed.

Lemma rsum_perm {A} (f : A -> R) l l' : Permutation l l' -> rsum f l = rsum f l'.
Proof. intros P. induction P; unfold rsum in *; cbn; lra. Qed.

Lemma setup_inv : forall es, Forall good_entry es -> (forall n, (n < length imgs)%nat -> exists e, In e es /\ e_img e = n) ->
  exists st order Ls, setup BW BH imgs es = Ok st /\ Permutation order (seq 0 (length imgs)) /\
    Inv order Ls (fun th m X Y => rsum (fun e => if (e_img e =? m)%nat then entry_image th e X Y else 0) es) st.
Proof.
  intros es G All.
  destruct (add_entries_inv es [] (fun _ => []) (fun _ _ _ _ => 0) (mkDst [] [] [])) as (st & order & Ls & E & _ & Ie & IV).
  - constructor; cbn; auto; try (intros; contradiction).
    + constructor.
    + intros O1 n O2 H. destruct O1; discriminate.
    + constructor.
  - exact G.
  - reflexivity.
  - exists st, order, Ls. split; [exact E|]. split.
    + apply NoDup_Permutation; [exact (i_nodup _ _ _ _ IV)|apply seq_NoDup|].
      intros n. rewrite in_seq. split; [intros H; pose proof (i_range _ _ _ _ IV n H); lia|].
      intros H. destruct (All n ltac:(lia)) as (e & Hin & <-). exact (Ie e Hin).
    + refine (Inv_ext _ _ _ _ _ _ IV). intros. cbv beta. ring.
Qed.

Lemma inv_cost : forall es order Ls st, Permutation order (seq 0 (length imgs)) ->
  Inv order Ls (fun th m X Y => rsum (fun e => if (e_img e =? m)%nat then entry_image th e X Y else 0) es) st ->
  forall nn th, ceres_cost nn (d_blocks st) (map th (d_used st)) = / 2 * chi2 imgs es (fun i => flux_of nn (th i)).
Proof.
  intros es order Ls st P IV nn th. unfold ceres_cost, chi2. f_equal.
  rewrite (i_blocks _ _ _ _ IV), rsum_flat_map, <- (rsum_perm _ _ _ P).
  apply rsum_ext. intros n Hn. pose proof (i_range _ _ _ _ IV n Hn) as Hr.
  rewrite (seg_cost nn (imn n) (Ls n) (d_used st) th
             (fun X Y => rsum (fun e => if (e_img e =? n)%nat then entry_image (fun i => flux_of nn (th i)) e X Y else 0) es)).
  - reflexivity.
  - exact (good_imn n Hr).
  - intros it It. exact (i_items _ _ _ _ IV n it It).
  - intros X Y HB. exact (i_sum _ _ _ _ IV (fun i => flux_of nn (th i)) n X Y Hn HB).
Qed.
End Setup.

(** ** Which parameters are used *)
Section Used.
Variable P : nat -> Prop.
Lemma add_umod_used : forall BW BH im scale parami b0 nw nh um st st',
  add_umod BW BH im scale parami b0 nw nh um st = Ok st' ->
  (um <> None -> P parami) -> Forall P (d_used st) -> Forall P (d_used st').
Proof.
  intros BW BH im scale parami b0 nw nh [p|] st st' H HP F; cbn [add_umod] in H; [|injection H as <-; exact F].
  destruct (clip_to p (f_W im) (f_H im)) as [[p1 bb]|]; [|discriminate]. cbn [bind] in H.
  destruct (pimg _); [|injection H as <-; exact F].
  destruct (index parami (d_used st)); injection H as <-; cbn [d_used]; [exact F|].
  apply Forall_app. split; [exact F|]. constructor; [apply HP; discriminate|constructor].
Qed.
Lemma add_umods_used : forall BW BH im scale b0 nw nh ums parami st st',
  CeresModel.add_umods BW BH im scale parami b0 nw nh ums st = Ok st' ->
  (forall k p, nth_error ums k = Some (Some p) -> P (parami + k)%nat) -> Forall P (d_used st) -> Forall P (d_used st').
Proof.
  intros BW BH im scale b0 nw nh ums. induction ums as [|um ums IH]; intros parami st st' H HP F; cbn in H.
  - injection H as <-. exact F.
  - destruct (add_umod BW BH im scale parami b0 nw nh um st) as [st1|] eqn:E; [|discriminate]. cbn [bind] in H.
    apply (IH (S parami) st1 st' H).
    + intros k p Hk. replace (S parami + k)%nat with (parami + S k)%nat by lia. exact (HP (S k) p Hk).
    + apply (add_umod_used _ _ _ _ _ _ _ _ _ _ _ E); [|exact F].
      intros Hn. destruct um as [p|]; [|congruence]. rewrite <- (Nat.add_0_r parami). exact (HP O p eq_refl).
Qed.
Lemma add_entries_used : forall BW BH imgs es st st', add_entries BW BH imgs es st = Ok st' ->
  (forall e k p, In e es -> nth_error (e_umods e) k = Some (Some p) -> P (e_off e + k)%nat) ->
  Forall P (d_used st) -> Forall P (d_used st').
Proof.
  intros BW BH imgs es. induction es as [|e es IH]; intros st st' H HP F; cbn in H.
  - injection H as <-. exact F.
  - destruct (add_entry BW BH imgs e st) as [st1|] eqn:E; [|discriminate]. cbn [bind] in H.
    apply (IH st1 st' H); [intros e' k p I'; apply HP; right; exact I'|].
    unfold add_entry in E. destruct (nth_error imgs (e_img e)) as [im|]; [|discriminate].
    destruct (lookup (e_img e) (d_start st)) as [[[b0 nw] nh]|];
      (apply (add_umods_used _ _ _ _ _ _ _ _ _ _ _ E);
        [intros k p Hk; exact (HP e k p (or_introl eq_refl) Hk)|exact F]).
Qed.
End Used.

Lemma index_of_nth : forall (l : list nat) k, NoDup l -> (k < length l)%nat -> index (nth k l O) l = Some k.
Proof.
  induction l as [|q l IH]; intros k ND Hk; [cbn in Hk; lia|]. inversion_clear ND as [|? ? Nq NDl]. destruct k; cbn.
  - rewrite Nat.eqb_refl. reflexivity.
  - cbn in Hk. destruct (q =? nth k l O)%nat eqn:E.
    + apply Nat.eqb_eq in E. exfalso. apply Nq. rewrite E. apply nth_In. lia.
    + rewrite (IH k NDl) by lia. reflexivity.
Qed.
Lemma index_none : forall (l : list nat) n, ~ In n l -> index n l = None.
Proof.
  induction l as [|q l IH]; intros n H; [reflexivity|]. cbn. destruct (q =? n)%nat eqn:E.
  - apply Nat.eqb_eq in E. exfalso. apply H. left. exact E.
  - rewrite IH; [reflexivity|]. intros H2. apply H. right. exact H2.
Qed.

(** ** C76 *)
(** The calls: blocks of positive size, images and patches with shapes, an item
    for every image. *)
Definition every_image (imgs : list fim) (es : list entry) : Prop :=
  forall n, (n < length imgs)%nat -> exists e, In e es /\ e_img e = n.
Definition good_call (BW BH : Z) (imgs : list fim) (es : list entry) : Prop :=
  (0 < BW)%Z /\ (0 < BH)%Z /\ Forall good_im imgs /\ Forall (good_entry imgs) es /\ every_image imgs es.

(** The objective handed to the solver is half the chi-squared of all pixels of
    all images, whatever the size of the blocks: no pixel is lost or counted
    twice and every source is in every block that it touches. *)
Theorem C76_cost : forall BW BH imgs es, good_call BW BH imgs es ->
  exists st, setup BW BH imgs es = Ok st /\ Forall good_block (d_blocks st) /\
    forall nonneg th, ceres_cost nonneg (d_blocks st) (map th (d_used st))
                      = / 2 * chi2 imgs es (fun i => flux_of nonneg (th i)).
Proof.
  intros BW BH imgs es (H1 & H2 & G1 & G2 & All).
  destruct (setup_inv BW BH H1 H2 imgs G1 es G2 All) as (st & order & Ls & E & P & IV).
  exists st. split; [exact E|]. split; [exact (inv_good BW BH H1 H2 imgs G1 _ _ _ _ IV)|].
  exact (inv_cost BW BH H1 H2 imgs G1 es order Ls st P IV).
Qed.

Definition is_min (cost : list R -> R) (v : list R) : Prop := forall v', length v' = length v -> cost v <= cost v'.
Definition keeps_length (solve : (list R -> R) -> list R -> list R) : Prop :=
  forall cost start, length (solve cost start) = length start.
(** A solver that never makes the objective worse, and one that finds a minimum
    where there is one. *)
Definition descends (solve : (list R -> R) -> list R -> list R) : Prop :=
  forall cost start, cost (solve cost start) <= cost start.
Definition finds_min (solve : (list R -> R) -> list R -> list R) : Prop :=
  forall cost start, (exists v, length v = length start /\ is_min cost v) -> is_min cost (solve cost start).

Definition params_fit (es : list entry) (N : nat) : Prop :=
  forall e k, In e es -> (k < length (e_umods e))%nat -> (e_off e + k < N)%nat.

Lemma rsum_ext_all {A} (f g : A -> R) l : (forall a, f a = g a) -> rsum f l = rsum g l.
Proof. intros H. apply rsum_ext. intros; apply H. Qed.

Lemma chi2_ext : forall imgs es th th', (forall i, th i = th' i) -> chi2 imgs es th = chi2 imgs es th'.
Proof.
  intros imgs es th th' H. unfold chi2, chi2_image, chi, predicted, entry_image.
  apply rsum_ext_all; intros n. apply rsum_ext_all; intros Y. apply rsum_ext_all; intros X.
  assert (E : rsum (fun e => if (e_img e =? n)%nat then rsum (fun ku => th (e_off e + fst ku)%nat * (e_scale e * value (snd ku) X Y))
                (combine (seq 0 (length (e_umods e))) (e_umods e)) else 0) es
            = rsum (fun e => if (e_img e =? n)%nat then rsum (fun ku => th' (e_off e + fst ku)%nat * (e_scale e * value (snd ku) X Y))
                (combine (seq 0 (length (e_umods e))) (e_umods e)) else 0) es).
  { apply rsum_ext_all; intros e. destruct (e_img e =? n)%nat; [|reflexivity]. apply rsum_ext_all; intros ku. rewrite H. reflexivity. }
  rewrite E. reflexivity.
Qed.

Lemma photom_cases : forall solve BW BH imgs es p0, good_call BW BH imgs es -> params_fit es (length p0) -> keeps_length solve ->
  (forced_photom solve BW BH imgs es false p0 = Ok None /\ forall th th', chi2 imgs es th = chi2 imgs es th')
  \/ exists used cost p', forced_photom solve BW BH imgs es false p0 = Ok (Some p') /\ length p' = length p0
       /\ used <> [] /\ NoDup used
       /\ Forall (fun i => exists e k p, In e es /\ nth_error (e_umods e) k = Some (Some p) /\ i = (e_off e + k)%nat) used
       /\ (forall th, cost (map th used) = / 2 * chi2 imgs es th)
       /\ map (fun i => nth i p' 0) used = solve cost (map (fun i => nth i p0 0) used)
       /\ (forall i, ~ In i used -> nth i p' 0 = 0).
Proof.
  intros solve BW BH imgs es p0 (H1 & H2 & G1 & G2 & All) PF KL.
  destruct (setup_inv BW BH H1 H2 imgs G1 es G2 All) as (st & order & Ls & E & P & IV).
  pose proof (inv_cost BW BH H1 H2 imgs G1 es order Ls st P IV false) as HC. cbn [flux_of] in HC.
  unfold forced_photom. rewrite E. cbn [bind].
  assert (HU : Forall (fun i => exists e k p, In e es /\ nth_error (e_umods e) k = Some (Some p) /\ i = (e_off e + k)%nat) (d_used st)).
  { apply (add_entries_used _ _ _ _ _ _ _ E); [|constructor].
    intros e k p Ie Ek. exists e, k, p. auto. }
  destruct ((length (d_blocks st) =? 0)%nat || (length (d_used st) =? 0)%nat)%bool eqn:E0.
  - left. split; [reflexivity|]. intros th th'.
    pose proof (HC th) as C1. pose proof (HC th') as C2.
    assert (chi2 imgs es th = 2 * ceres_cost false (d_blocks st) (map th (d_used st))) as ->.
    { rewrite C1. rewrite (chi2_ext imgs es th (fun i => th i)) by reflexivity. lra. }
    assert (chi2 imgs es th' = 2 * ceres_cost false (d_blocks st) (map th' (d_used st))) as ->.
    { rewrite C2. rewrite (chi2_ext imgs es th' (fun i => th' i)) by reflexivity. lra. }
    apply orb_true_iff in E0. destruct E0 as [E0|E0]; apply Nat.eqb_eq, length_zero_iff_nil in E0; rewrite E0; reflexivity.
  - right. apply orb_false_iff in E0. destruct E0 as (_ & E0). apply Nat.eqb_neq in E0.
    pose proof (i_used _ _ _ _ _ _ _ IV) as ND.
    set (v := solve (ceres_cost false (d_blocks st)) (map (fun i => nth i p0 0) (d_used st))).
    assert (Lv : length v = length (d_used st)) by (unfold v; rewrite KL, map_length; reflexivity).
    set (g := fun i => match index i (d_used st) with Some k => nth k v 0 | None => 0 end).
    assert (Np : forall i, (i < length p0)%nat -> nth i (map g (seq 0 (length p0))) 0 = g i).
    { intros i Hi. rewrite (nth_indep _ 0 (g O)) by (rewrite map_length, seq_length; exact Hi).
      rewrite map_nth, seq_nth by exact Hi. reflexivity. }
    exists (d_used st), (ceres_cost false (d_blocks st)), (map g (seq 0 (length p0))).
    split; [reflexivity|]. split; [rewrite map_length, seq_length; reflexivity|].
    split; [intros H; rewrite H in E0; apply E0; reflexivity|]. split; [exact ND|]. split; [exact HU|].
    split; [exact HC|]. split.
    + fold v. apply (nth_ext _ _ 0 0); [rewrite map_length; symmetry; exact Lv|].
      intros k Hk. rewrite map_length in Hk.
      rewrite (nth_indep _ 0 ((fun i => nth i (map g (seq 0 (length p0))) 0) O)) by (rewrite map_length; exact Hk).
      rewrite (map_nth (fun i => nth i (map g (seq 0 (length p0))) 0)).
      rewrite Np.
      * unfold g. rewrite index_of_nth by assumption. reflexivity.
      * rewrite Forall_forall in HU. destruct (HU _ (nth_In _ O Hk)) as (e & k' & p & Ie & Ek & ->).
        apply PF; [exact Ie|]. apply nth_error_Some. rewrite Ek. discriminate.
    + intros i Hi. destruct (Nat.lt_ge_cases i (length p0)) as [L|L].
      * rewrite Np by exact L. unfold g. rewrite index_none by exact Hi. reflexivity.
      * apply nth_overflow. rewrite map_length, seq_length. exact L.
Qed.

(** If there is nothing to fit, chi-squared does not depend on the parameters;
    otherwise the parameters set at the end are no worse than the old ones if
    the solver never makes its objective worse ... *)
Theorem C76_descends : forall solve BW BH imgs es p0, good_call BW BH imgs es -> params_fit es (length p0) ->
  keeps_length solve -> descends solve ->
  exists r, forced_photom solve BW BH imgs es false p0 = Ok r /\
    match r with
    | None => forall th th', chi2 imgs es th = chi2 imgs es th'
    | Some p' => length p' = length p0 /\
                 chi2 imgs es (fun i => nth i p' 0) <= chi2 imgs es (fun i => nth i p0 0)
    end.
Proof.
  intros solve BW BH imgs es p0 G PF KL HD.
  destruct (photom_cases solve BW BH imgs es p0 G PF KL) as [(E & C)|(used & cost & p' & E & L & _ & _ & _ & HC & Hv & _)].
  - exists None. auto.
  - exists (Some p'). split; [exact E|]. split; [exact L|].
    pose proof (HD cost (map (fun i => nth i p0 0) used)) as H. rewrite <- Hv, !HC in H. lra.
Qed.

(** ... and are the best of all if the solver finds the best. *)
Theorem C76_minimises : forall solve BW BH imgs es p0, good_call BW BH imgs es -> params_fit es (length p0) ->
  keeps_length solve -> finds_min solve ->
  (exists best, forall th, chi2 imgs es best <= chi2 imgs es th) ->
  exists r, forced_photom solve BW BH imgs es false p0 = Ok r /\
    match r with
    | None => forall th th', chi2 imgs es th = chi2 imgs es th'
    | Some p' => forall th, chi2 imgs es (fun i => nth i p' 0) <= chi2 imgs es th
    end.
Proof.
  intros solve BW BH imgs es p0 G PF KL HM (best & HB).
  destruct (photom_cases solve BW BH imgs es p0 G PF KL) as [(E & C)|(used & cost & p' & E & L & _ & ND & _ & HC & Hv & _)].
  - exists None. auto.
  - exists (Some p'). split; [exact E|]. intros th.
    assert (M : is_min cost (solve cost (map (fun i => nth i p0 0) used))).
    { apply HM. exists (map best used). split; [rewrite !map_length; reflexivity|].
      intros v' Lv. rewrite map_length in Lv.
      assert (V : v' = map (fun i => match index i used with Some k => nth k v' 0 | None => 0 end) used).
      { apply (nth_ext _ _ 0 0); [rewrite map_length; exact Lv|]. intros k Hk. rewrite Lv in Hk.
        set (g := fun i => match index i used with Some k => nth k v' 0 | None => 0 end).
        rewrite (nth_indep (map g used) 0 (g O)) by (rewrite map_length; exact Hk). rewrite map_nth.
        unfold g. rewrite index_of_nth by assumption. reflexivity. }
      rewrite V, !HC. pose proof (HB (fun i => match index i used with Some k => nth k v' 0 | None => 0 end)). lra. }
    specialize (M (map th used)). rewrite <- Hv, !HC in M. rewrite !map_length in M. specialize (M eq_refl). lra.
Qed.

(** With nonneg there is no result: the return value of the first run is
    compared with 0 but is a dict. *)
Theorem C76_nonneg_refuted : forall solve BW BH imgs es p0, good_call BW BH imgs es ->
  (exists th th', chi2 imgs es th <> chi2 imgs es th') ->
  forced_photom solve BW BH imgs es true p0 = Err AssertionError.
Proof.
  intros solve BW BH imgs es p0 G (th & th' & N).
  destruct (C76_cost BW BH imgs es G) as (st & E & _ & HC). specialize (HC false). cbn [flux_of] in HC.
  unfold forced_photom. rewrite E. cbn [bind].
  destruct ((length (d_blocks st) =? 0)%nat || (length (d_used st) =? 0)%nat)%bool eqn:E0; [|reflexivity].
  exfalso. apply N. pose proof (HC th) as C1. pose proof (HC th') as C2.
  rewrite (chi2_ext imgs es th (fun i => th i)), (chi2_ext imgs es th' (fun i => th' i)) by reflexivity.
  assert (S : ceres_cost false (d_blocks st) (map th (d_used st)) = ceres_cost false (d_blocks st) (map th' (d_used st))).
  { apply orb_true_iff in E0. destruct E0 as [E0|E0]; apply Nat.eqb_eq, length_zero_iff_nil in E0; rewrite E0; reflexivity. }
  lra.
Qed.

(** ** The derivatives handed to the solver *)
Lemma fold_put_same : forall (val : Z * Z -> R) v l m k, (forall kk, In kk l -> fst kk = k -> val kk = v) ->
  fold_left (fun m kk => put m (fst kk) (val kk)) l m k
  = if existsb (fun kk : Z * Z => (k =? fst kk)%Z) l then v else m k.
Proof.
  intros val v l. induction l as [|kk l IH]; intros m k H; [reflexivity|]. cbn [fold_left existsb].
  rewrite IH by (intros; apply H; [right|]; assumption).
  destruct (existsb _ l); [rewrite orb_true_r; reflexivity|]. rewrite orb_false_r. unfold put.
  destruct (k =? fst kk)%Z eqn:E; [|reflexivity]. apply Z.eqb_eq in E. apply H; [left; reflexivity|symmetry; exact E].
Qed.

Lemma overlap_in : forall b X0 Y0 a i j kk, (0 <= i < aw (b_img b))%Z -> (0 <= j < ah (b_img b))%Z ->
  In kk (overlap b X0 Y0 a) -> fst kk = (j * aw (b_img b) + i)%Z ->
  let X := (b_x0 b + i)%Z in let Y := (b_y0 b + j)%Z in
  (X0 <= X < X0 + aw a)%Z /\ (Y0 <= Y < Y0 + ah a)%Z /\ snd kk = ((Y - Y0) * aw a + (X - X0))%Z.
Proof.
  intros b X0 Y0 a i j kk Hi Hj I E. unfold overlap in I. apply in_flat_map in I. destruct I as (y & Iy & I).
  apply in_map_iff in I. destruct I as (x & <- & Ix). apply in_zlist in Iy, Ix. cbn [fst snd] in *.
  set (w := aw (b_img b)) in *. set (xlo := Z.max X0 (b_x0 b)) in *.
  assert (xlo >= X0 /\ xlo >= b_x0 b)%Z by (unfold xlo; lia).
  assert (0 <= xlo - b_x0 b + x < w)%Z by lia.
  assert (y - b_y0 b = j)%Z.
  { assert ((y - b_y0 b < j)%Z \/ (j < y - b_y0 b)%Z \/ (y - b_y0 b = j)%Z) as [C|[C|C]] by lia; [nia|nia|exact C]. }
  assert (xlo - b_x0 b + x = i)%Z by nia.
  assert (y = b_y0 b + j)%Z by lia. subst y.
  replace (b_x0 b + i)%Z with (xlo + x)%Z by lia. cbv zeta. split; [lia|]. split; [lia|]. ring.
Qed.
Lemma overlap_ex : forall b X0 Y0 a i j, (0 <= i < aw (b_img b))%Z -> (0 <= j < ah (b_img b))%Z ->
  let X := (b_x0 b + i)%Z in let Y := (b_y0 b + j)%Z in
  (X0 <= X < X0 + aw a)%Z -> (Y0 <= Y < Y0 + ah a)%Z ->
  exists kk, In kk (overlap b X0 Y0 a) /\ fst kk = (j * aw (b_img b) + i)%Z.
Proof.
  intros b X0 Y0 a i j Hi Hj X Y HX HY. unfold overlap. eexists. split.
  - apply in_flat_map. exists Y. split; [apply in_zlist; unfold X, Y in *; lia|].
    apply in_map_iff. exists (X - Z.max X0 (b_x0 b))%Z. split; [reflexivity|]. apply in_zlist. unfold X in *. lia.
  - cbn [fst]. unfold X, Y. ring.
Qed.

Lemma jacobian_at : forall b nonneg s p i j, good_block b -> wf_patch s ->
  (0 <= i < aw (b_img b))%Z -> (0 <= j < ah (b_img b))%Z ->
  jacobian b nonneg s p (j * aw (b_img b) + i)%Z
  = - ((if nonneg then exp p else 1) * img_at 0 s (b_x0 b + i) (b_y0 b + j)) * px (b_ie b) j i.
Proof.
  intros b nonneg [X0 Y0 [a|]] p i j (_ & _ & _ & W2 & _) W Hi Hj; unfold jacobian; cbn [pimg x0 y0].
  2:{ unfold img_at, val_at. simpl. ring. }
  assert (Fie : flat (b_ie b) (j * aw (b_img b) + i) = px (b_ie b) j i)
    by (rewrite <- W2; apply flat_at; rewrite W2; assumption).
  set (v := - ((if nonneg then exp p else 1) * px a (b_y0 b + j - Y0) (b_x0 b + i - X0)) * px (b_ie b) j i).
  rewrite (fold_put_same (fun kk => if nonneg then -1 * (flat a (snd kk) * flux_of nonneg p) * flat (b_ie b) (fst kk)
                      else -1 * flat a (snd kk) * flat (b_ie b) (fst kk)) v).
  - rewrite img_at_some. destruct (existsb _ _) eqn:E.
    + apply existsb_exists in E. destruct E as (kk & Ik & Ek). apply Z.eqb_eq in Ek.
      destruct (overlap_in b X0 Y0 a i j kk Hi Hj Ik (eq_sym Ek)) as (Q1 & Q2 & _).
      replace ((X0 <=? b_x0 b + i) && (b_x0 b + i <? X0 + aw a) && (Y0 <=? b_y0 b + j) && (b_y0 b + j <? Y0 + ah a))%Z with true.
      * reflexivity.
      * symmetry. rewrite !andb_true_iff, !Z.leb_le, !Z.ltb_lt. lia.
    + destruct (_ && _) eqn:E2; [|ring]. exfalso.
      rewrite !andb_true_iff, !Z.leb_le, !Z.ltb_lt in E2.
      destruct (overlap_ex b X0 Y0 a i j Hi Hj) as (kk & Ik & Ek); [lia|lia|].
      assert (T : existsb (fun kk : Z * Z => (j * aw (b_img b) + i =? fst kk)%Z) (overlap b X0 Y0 a) = true).
      { apply existsb_exists. exists kk. split; [exact Ik|]. apply Z.eqb_eq. symmetry. exact Ek. }
      congruence.
  - intros kk Ik Ek. destruct (overlap_in b X0 Y0 a i j kk Hi Hj Ik Ek) as (Q1 & Q2 & ->). rewrite Ek, Fie.
    rewrite flat_at by lia. unfold v, flux_of. destruct nonneg; ring.
Qed.

(** The Jacobian of a block is the derivative of its residuals in the parameter
    of a source, for fluxes and for their logarithms. *)
Theorem C76_jacobian : forall b nonneg S1 s S2 ps1 p ps2 i j, good_block b ->
  b_srcs b = S1 ++ s :: S2 -> length ps1 = length S1 ->
  (0 <= i < aw (b_img b))%Z -> (0 <= j < ah (b_img b))%Z ->
  let k := (j * aw (b_img b) + i)%Z in
  derivable_pt_lim (fun t => residual b nonneg (ps1 ++ t :: ps2) k) p (jacobian b nonneg (snd s) p k).
Proof.
  intros b nonneg S1 s S2 ps1 p ps2 i j GB ES L Hi Hj k.
  assert (Ws : wf_patch (snd s)).
  { destruct GB as (_ & _ & _ & _ & F). rewrite ES, Forall_app in F. destruct F as (_ & F). inversion_clear F. assumption. }
  unfold k. rewrite jacobian_at by assumption.
  assert (C : forall t, combine (map snd (S1 ++ s :: S2)) (ps1 ++ t :: ps2)
                        = combine (map snd S1) ps1 ++ (snd s, t) :: combine (map snd S2) ps2).
  { intros t. clear -L. revert ps1 L. induction S1 as [|q l IH]; intros [|r ps1] L; try discriminate; [reflexivity|].
    cbn. f_equal. apply IH. cbn in L. lia. }
  set (v := img_at 0 (snd s) (b_x0 b + i) (b_y0 b + j)). set (ie := px (b_ie b) j i).
  set (g := fun sp : patch R * R => flux_of nonneg (snd sp) * img_at 0 (fst sp) (b_x0 b + i) (b_y0 b + j)).
  set (c := px (b_img b) j i - px (b_mod0 b) j i - rsum g (combine (map snd S1) ps1) - rsum g (combine (map snd S2) ps2)).
  assert (EQ : forall t, (c - flux_of nonneg t * v) * ie = residual b nonneg (ps1 ++ t :: ps2) (j * aw (b_img b) + i)).
  { intros t. rewrite residual_at by assumption. rewrite ES, C, rsum_app.
    fold g. unfold c, v, ie. unfold rsum at 4. cbn [fold_right]. fold (rsum g (combine (map snd S2) ps2)).
    unfold g at 4. cbn [fst snd]. ring. }
  assert (D : derivable_pt_lim (flux_of nonneg) p (if nonneg then exp p else 1)).
  { destruct nonneg; [apply derivable_pt_lim_exp|apply derivable_pt_lim_id]. }
  assert (D2 : derivable_pt_lim (fun t => (c - flux_of nonneg t * v) * ie) p (- ((if nonneg then exp p else 1) * v) * ie)).
  { replace (- ((if nonneg then exp p else 1) * v) * ie)
      with (((0 - ((if nonneg then exp p else 1) * v + flux_of nonneg p * 0)) * ie
             + (c - flux_of nonneg p * v) * 0)) by (destruct nonneg; ring).
    apply (derivable_pt_lim_mult (fun t => c - flux_of nonneg t * v) (fun _ => ie)).
    - apply (derivable_pt_lim_minus (fun _ => c) (fun t => flux_of nonneg t * v)); [apply derivable_pt_lim_const|].
      apply (derivable_pt_lim_mult (flux_of nonneg) (fun _ => v)); [exact D|apply derivable_pt_lim_const].
    - apply derivable_pt_lim_const. }
  intros eps He. destruct (D2 eps He) as (delta & Hd). exists delta. intros h Hh Hl.
  rewrite <- !EQ. exact (Hd h Hh Hl).
Qed.

(** ** The parameters of sky and sources *)
Definition mods_of (sky : list (patch R * nat)) (n : nat) : list (option (patch R)) :=
  map (fun s => Some (fst s)) (filter (fun s => (snd s =? n)%nat) sky).
(** The number of sky parameters of the images before image [n]. *)
Definition sky_before (sky : list (patch R * nat)) (n : nat) : nat :=
  list_sum (map (fun m => length (mods_of sky m)) (seq 0 n)).

Lemma sky_entries_spec : forall sky c s, sky_entries sky (seq s c) (sky_before sky s)
  = (map (fun n => mkEntry (mods_of sky n) n 1 (sky_before sky n)) (seq s c), sky_before sky (s + c)).
Proof.
  intros sky c. induction c as [|c IH]; intros s; cbn [seq sky_entries map].
  - rewrite Nat.add_0_r. reflexivity.
  - replace (sky_before sky s + length (map (fun s0 : patch R * nat => Some (fst s0)) (filter (fun s0 => (snd s0 =? s)%nat) sky)))%nat
      with (sky_before sky (S s)).
    + rewrite IH. replace (S s + c)%nat with (s + S c)%nat by lia. reflexivity.
    + unfold sky_before. rewrite seq_S, map_app, list_sum_app. cbn. fold (mods_of sky s). lia.
Qed.
Lemma src_entries_spec : forall us off s, src_entries us s off
  = map (fun ku => mkEntry (fst (snd ku)) (fst ku) (snd (snd ku)) off) (combine (seq s (length us)) us).
Proof.
  intros us off. induction us as [|[u c] us IH]; intros s; [reflexivity|]. cbn. f_equal. apply IH.
Qed.

(** The contribution of one image's list of models. *)
Definition models_image (th : nat -> R) (off : nat) (scale : R) (ums : list (option (patch R))) (X Y : Z) : R :=
  rsum (fun k => th (off + k)%nat * (scale * value (nth k ums None) X Y)) (seq 0 (length ums)).

Lemma combine_seq_nth {A} (d : A) : forall (l : list A) s, combine (seq s (length l)) l = map (fun k => (s + k, nth k l d)%nat) (seq 0 (length l)).
Proof.
  induction l as [|a l IH]; intros s; [reflexivity|]. cbn [length seq combine map]. f_equal; [rewrite Nat.add_0_r; reflexivity|].
  rewrite (IH (S s)), <- seq_shift, map_map. apply map_ext. intros k. cbn. f_equal. lia.
Qed.

Lemma entry_models : forall th e X Y, entry_image th e X Y = models_image th (e_off e) (e_scale e) (e_umods e) X Y.
Proof.
  intros. unfold entry_image, models_image. rewrite (combine_seq_nth None), rsum_map. reflexivity.
Qed.

Lemma pick_seq : forall (f : nat -> R) n N, (n < N)%nat -> rsum (fun m => if (m =? n)%nat then f m else 0) (seq 0 N) = f n.
Proof.
  intros f n N. induction N as [|N IH]; intros H; [lia|]. rewrite seq_S, rsum_app. cbn [plus].
  unfold rsum at 2. cbn [fold_right]. destruct (N =? n)%nat eqn:E.
  - apply Nat.eqb_eq in E. subst N. rewrite (rsum_ext _ (fun _ => 0)), rsum_zero; [ring|].
    intros m Im. apply in_seq in Im. replace (m =? n)%nat with false by (symmetry; apply Nat.eqb_neq; lia). reflexivity.
  - apply Nat.eqb_neq in E. rewrite IH by lia. ring.
Qed.

Definition no_models : list (option (patch R)) * R := ([], 0).
(** The predicted image, read off the arguments: the frozen model, the sky
    models of the image with the image's own sky parameters, and the sources'
    unit-flux models times the image's scale with parameters that all images share. *)
Theorem C76_predicted : forall (imgs : list fim) sky us im n th X Y, length us = length imgs -> (n < length imgs)%nat ->
  let '(ums, scale) := nth n us no_models in
  predicted (entries (length imgs) sky us) im n th X Y
  = px (f_mod0 im) Y X
    + match sky with
      | None => models_image th 0 scale ums X Y
      | Some sky => models_image th (sky_before sky n) 1 (mods_of sky n) X Y
                    + models_image th (sky_before sky (length imgs)) scale ums X Y
      end.
Proof.
  intros imgs sky us im n th X Y Lu Hn. destruct (nth n us no_models) as [ums scale] eqn:En.
  assert (Src : forall off, rsum (fun e => if (e_img e =? n)%nat then entry_image th e X Y else 0) (src_entries us 0 off)
                = models_image th off scale ums X Y).
  { intros off. rewrite src_entries_spec, rsum_map, (combine_seq_nth no_models), rsum_map. cbn [fst snd e_img].
    rewrite (rsum_ext _ (fun m => if (m =? n)%nat then models_image th off (snd (nth m us no_models)) (fst (nth m us no_models)) X Y else 0)).
    - rewrite (pick_seq (fun m => models_image th off (snd (nth m us no_models)) (fst (nth m us no_models)) X Y)) by lia.
      rewrite En. reflexivity.
    - intros m _. rewrite entry_models. reflexivity. }
  unfold predicted, entries. f_equal. destruct sky as [sky|]; [|apply Src].
  change (sky_entries sky (seq 0 (length imgs)) 0) with (sky_entries sky (seq 0 (length imgs)) (sky_before sky 0)).
  rewrite sky_entries_spec. rewrite rsum_app, Src. f_equal.
  rewrite rsum_map. cbn [e_img].
  rewrite (rsum_ext _ (fun m => if (m =? n)%nat then models_image th (sky_before sky m) 1 (mods_of sky m) X Y else 0)).
  - apply (pick_seq (fun m => models_image th (sky_before sky m) 1 (mods_of sky m) X Y)). exact Hn.
  - intros m _. rewrite entry_models. reflexivity.
Qed.

(** The hypotheses of the theorems above hold for the lists built from sky and
    sources. *)
Theorem C76_entries : forall BW BH imgs sky us, (0 < BW)%Z -> (0 < BH)%Z -> Forall good_im imgs ->
  length us = length imgs -> Forall (fun u => Forall good_umod (fst u)) us ->
  match sky with None => True | Some sky => Forall (fun s => wf_patch (fst s)) sky end ->
  good_call BW BH imgs (entries (length imgs) sky us).
Proof.
  intros BW BH imgs sky us H1 H2 G Lu Gu Gs.
  assert (Src : forall off, Forall (good_entry imgs) (src_entries us 0 off) /\
            forall n, (n < length imgs)%nat -> exists e, In e (src_entries us 0 off) /\ e_img e = n).
  { intros off. rewrite src_entries_spec, (combine_seq_nth no_models), map_map. split.
    - apply Forall_forall. intros e Ie. apply in_map_iff in Ie. destruct Ie as (k & <- & Ik). apply in_seq in Ik.
      split; cbn; [lia|]. rewrite Forall_forall in Gu. apply (Gu (nth k us no_models)). apply nth_In. lia.
    - intros n Hn. eexists. split; [apply in_map_iff; exists n; split; [reflexivity|apply in_seq; lia]|reflexivity]. }
  split; [exact H1|]. split; [exact H2|]. split; [exact G|]. unfold every_image, entries.
  destruct sky as [sky|]; [|destruct (Src O) as (S1 & S2); split; assumption].
  change (sky_entries sky (seq 0 (length imgs)) 0) with (sky_entries sky (seq 0 (length imgs)) (sky_before sky 0)).
  rewrite sky_entries_spec. destruct (Src (sky_before sky (0 + length imgs))) as (S1 & S2). split.
  - apply Forall_app. split; [|exact S1]. apply Forall_forall. intros e Ie. apply in_map_iff in Ie.
    destruct Ie as (k & <- & Ik). apply in_seq in Ik. split; cbn; [lia|].
    apply Forall_forall. intros u Iu. unfold mods_of in Iu. apply in_map_iff in Iu. destruct Iu as (s & <- & Is).
    apply filter_In in Is. cbn. rewrite Forall_forall in Gs. exact (Gs s (proj1 Is)).
  - intros n Hn. destruct (S2 n Hn) as (e & Ie & Ee). exists e. split; [apply in_or_app; right; exact Ie|exact Ee].
Qed.

(** ** A case *)
(** A 12x11 image of ones, blocks of 10x10, and a 3x3 source over the corner of
    four blocks; a second source has no model. *)
Definition ones (h w : Z) : arr R := mkArr h w (fun _ _ => 1).
Definition ex_im : fim := mkFim 12 11 (ones 12 11) (mkArr 12 11 (fun _ _ => 0)) (ones 12 11).
Definition ex_us : list (list (option (patch R)) * R) := [([Some (mkPatch 8 8 (Some (ones 3 3))); None], 2)].
Example C76_ex_call : good_call 10 10 [ex_im] (entries 1 None ex_us).
Proof.
  apply (C76_entries 10 10 [ex_im] None ex_us); try lia; try exact Logic.I; try reflexivity.
  - repeat constructor.
  - repeat constructor; cbn; lia.
Qed.
Example C76_ex_depends : exists th th', chi2 [ex_im] (entries 1 None ex_us) th <> chi2 [ex_im] (entries 1 None ex_us) th'.
Proof.
  exists (fun _ => 0), (fun _ => 1 / 2). cbv -[Rplus Rmult Rminus Ropp Rinv IZR Rdiv]. lra.
Qed.
Example C76_ex_fit : params_fit (entries 1 None ex_us) 2.
Proof. intros e k [<-|[]] Hk. cbn in *. lia. Qed.
(** A solver as the theorems ask for (it does nothing). *)
Example C76_ex_solver : keeps_length (fun _ v => v) /\ descends (fun _ v => v).
Proof. split; [intros ? ?; reflexivity|intros ? ?; apply Rle_refl]. Qed.

(** Parameters that no image knows are set to zero, whatever they were. *)
Theorem C76_unused_refuted : ~ (forall solve BW BH imgs es p0 p', good_call BW BH imgs es -> params_fit es (length p0) ->
  keeps_length solve -> descends solve -> forced_photom solve BW BH imgs es false p0 = Ok (Some p') ->
  forall i, (forall e k p, In e es -> nth_error (e_umods e) k = Some (Some p) -> i <> (e_off e + k)%nat) ->
  nth i p' 0 = nth i p0 0).
Proof.
  intros H. pose proof C76_ex_call as G. destruct C76_ex_solver as (K & D).
  destruct (photom_cases (fun _ v => v) 10 10 [ex_im] (entries 1 None ex_us) [3; 7] G C76_ex_fit K)
    as [(_ & C)|(used & cost & p' & E & L & _ & _ & U & _ & _ & Z0)].
  - destruct C76_ex_depends as (th & th' & N). exact (N (C th th')).
  - assert (N : forall e k p, In e (entries 1 None ex_us) -> nth_error (e_umods e) k = Some (Some p) -> 1%nat <> (e_off e + k)%nat).
    { intros e k p [<-|[]] Hk. cbn in *. destruct k as [|[|[|k]]]; cbn in Hk; discriminate || lia. }
    specialize (H _ _ _ _ _ [3; 7] _ G C76_ex_fit K D E 1%nat N).
    rewrite Z0 in H; [cbn in H; lra|]. intros I1. rewrite Forall_forall in U.
    destruct (U 1%nat I1) as (e & k & p & Ie & Ek & E1). exact (N e k p Ie Ek E1).
Qed.
(** What holds: exactly the parameters without a pixel model are zeroed. *)
Theorem C76_unused : forall solve BW BH imgs es p0 p', good_call BW BH imgs es -> params_fit es (length p0) ->
  keeps_length solve -> forced_photom solve BW BH imgs es false p0 = Ok (Some p') ->
  forall i, (forall e k p, In e es -> nth_error (e_umods e) k = Some (Some p) -> i <> (e_off e + k)%nat) ->
  nth i p' 0 = 0.
Proof.
  intros solve BW BH imgs es p0 p' G PF K E i N.
  destruct (photom_cases solve BW BH imgs es p0 G PF K) as [(E' & _)|(used & cost & p2 & E' & _ & _ & _ & U & _ & _ & Z0)];
    rewrite E in E'; [discriminate|]. injection E' as <-. apply Z0. intros I1.
  rewrite Forall_forall in U. destruct (U i I1) as (e & k & p & Ie & Ek & E1). exact (N e k p Ie Ek E1).
Qed.

(** With the sky fitted, the images reported afterwards are not those of the
    result: sky level 5 and flux 2 over a 1x1 unit-flux model predict 7 but the
    image reported is 10, because the list of all parameters is read as the
    fluxes. *)
Theorem C76_ims_sky_refuted :
  let one := mkArr 1 1 (fun _ _ => 1%Z) in
  let im := ForcedModel.mkFimg one one (mkArr 1 1 (fun _ _ => 0%Z)) 1%Z None [Some (mkPatch 0 0 (Some one))] in
  exists r, result_ims [5; 2]%Z [im] true = Ok [r] /\ px (ForcedModel.ri_mod r) 0 0 = 10%Z
            /\ (0 + 5 + 2 * 1 * px one 0 0 <> 10)%Z.
Proof. eexists. split; [reflexivity|]. split; [reflexivity|]. cbn. lia. Qed.
(** Without sky the reported image is that of the result. *)
Example C76_ims_nosky :
  let one := mkArr 1 1 (fun _ _ => 1%Z) in
  let im := ForcedModel.mkFimg one one (mkArr 1 1 (fun _ _ => 0%Z)) 1%Z None [Some (mkPatch 0 0 (Some one))] in
  exists r, result_ims [2]%Z [im] false = Ok [r] /\ px (ForcedModel.ri_mod r) 0 0 = 2%Z.
Proof. eexists. split; reflexivity. Qed.

Print Assumptions C76_cost.
Print Assumptions C76_descends.
Print Assumptions C76_minimises.
Print Assumptions C76_nonneg_refuted.
Print Assumptions C76_jacobian.
Print Assumptions C76_predicted.
Print Assumptions C76_entries.
Print Assumptions C76_unused_refuted.
Print Assumptions C76_unused.
Print Assumptions C76_ims_sky_refuted.
