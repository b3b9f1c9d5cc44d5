(** C99: a rebinned image shows the same intensities at the same places
    (sdss.py scale_sdss_image). *)
From Coq Require Import List Arith Reals Bool Lia Lra.
From Verif Require Import Base SdssImgModel SdssImgProps GaussPsfModel ShiftModel RebinModel.
Import ListNotations.
Local Open Scope list_scope.
Local Open Scope R_scope.

(** ** Vocabulary *)
(** Sum over the S x S pixels of a bin. *)
Definition bin_sum (S : nat) (f : nat -> nat -> R) : R :=
  fold_right (fun ij s => f (fst ij) (snd ij) + s) 0 (list_prod (seq 0 S) (seq 0 S)).
Definition at_ (a : arr) (i j : nat) : R := match pix a i j with Some v => v | None => 0 end.
(** The model of a point source of brightness [b] at [p], at (real) pixel
    coordinates. *)
Definition star {B} (t : @img B) (p : pos) (b : B) (x y : R) : R :=
  let c := position_to_pixel (i_wcs t) p in
  i_counts t b * grid_val (i_psf t) (x - fst c) (y - snd c) + i_sky t.
Definition nondegenerate (c : gcomp) : Prop := 0 < g_xx c * g_yy c - g_xy c * g_yx c.

(** ** Arrays as tables *)
Definition tab (h w : nat) (f : nat -> nat -> R) : arr := map (fun i => map (fun j => f i j) (seq 0 w)) (seq 0 h).
Lemma map_nth_seq {A} (d : A) (l : list A) : map (fun i => nth i l d) (seq 0 (length l)) = l.
Proof. induction l as [|a l IH]; auto. cbn [length seq map nth]. f_equal. rewrite <- seq_shift, map_map. exact IH. Qed.
Lemma tab_ext h w f g : (forall i j, (i < h)%nat -> (j < w)%nat -> f i j = g i j) -> tab h w f = tab h w g.
Proof.
  intros E. unfold tab. apply map_ext_in. intros i Hi. apply map_ext_in. intros j Hj. apply in_seq in Hi, Hj. apply E; lia.
Qed.
Lemma tab_of a h w : shape a h w -> a = tab h w (at_ a).
Proof.
  intros (A1 & A2). rewrite <- (map_nth_seq [] a) at 1. rewrite A1. unfold tab. apply map_ext_in. intros i Hi. apply in_seq in Hi.
  destruct (nth_error a i) as [r|] eqn:E; [|apply nth_error_None in E; lia].
  rewrite (nth_error_nth a i [] E). rewrite Forall_forall in A2. assert (L := A2 r (nth_error_In _ _ E)).
  rewrite <- (map_nth_seq 0 r) at 1. rewrite L. apply map_ext_in. intros j Hj. apply in_seq in Hj.
  unfold at_, pix. rewrite E. destruct (nth_error r j) as [v|] eqn:E2; [|apply nth_error_None in E2; lia]. now apply nth_error_nth.
Qed.
Lemma nth_map_seq {A} (d : A) (f : nat -> A) n i : (i < n)%nat -> nth i (map f (seq 0 n)) d = f i.
Proof. intros L. rewrite (nth_indep _ d (f 0%nat)) by (rewrite map_length, seq_length; lia). rewrite map_nth, seq_nth; auto. Qed.
Lemma shape_tab h w f : shape (tab h w f) h w.
Proof.
  split; [unfold tab; now rewrite map_length, seq_length|]. apply Forall_forall. intros r I. apply in_map_iff in I.
  destruct I as (i & <- & _). now rewrite map_length, seq_length.
Qed.
Lemma pix_tab h w f i j : (i < h)%nat -> (j < w)%nat -> pix (tab h w f) i j = Some (f i j).
Proof.
  intros I J. unfold pix, tab. rewrite (map_nth_error _ i (seq 0 h) (d := i)).
  - rewrite (map_nth_error _ j (seq 0 w) (d := j)); auto. rewrite (nth_error_nth' _ 0%nat), seq_nth; auto. now rewrite seq_length.
  - rewrite (nth_error_nth' _ 0%nat), seq_nth; auto. now rewrite seq_length.
Qed.
Lemma cols_tab h w f : (0 < h)%nat -> cols (tab h w f) = w.
Proof. intros H. destruct h; [lia|]. cbn. now rewrite map_length, seq_length. Qed.
Lemma zipw_map {A B C D} (f : B -> C -> D) (g : A -> B) (k : A -> C) l : zipw f (map g l) (map k l) = map (fun a => f (g a) (k a)) l.
Proof. induction l; cbn; f_equal; auto. Qed.
Lemma op_tab o h w f g : arr_op o (tab h w f) (tab h w g) = tab h w (fun i j => o (f i j) (g i j)).
Proof. unfold arr_op, tab. rewrite zipw_map. apply map_ext. intros i. apply zipw_map. Qed.
Lemma zeros_tab h w : repeat (repeat 0 w) h = tab h w (fun _ _ => 0).
Proof.
  assert (R : forall A (a : A) n, repeat a n = map (fun _ => a) (seq 0 n)).
  { intros A a n. generalize 0%nat. induction n; cbn; intros; f_equal; auto. }
  unfold tab. rewrite R. apply map_ext. intros _. apply R.
Qed.
Lemma strided_tab {A} (d : A) (f : nat -> A) S n i : (i < S)%nat -> strided d i S (map f (seq 0 (n * S))) = map (fun k => f (i + k * S)%nat) (seq 0 n).
Proof.
  intros L. unfold strided. rewrite map_length, seq_length.
  assert (D : ((n * S - i + S - 1) / S = n)%nat).
  { destruct n as [|n].
    - cbn. apply Nat.div_small. lia.
    - symmetry. apply Nat.div_unique with (r := (S - 1 - i)%nat); nia. }
  rewrite D. apply map_ext_in. intros k Hk. apply in_seq in Hk. apply nth_map_seq. nia.
Qed.
Lemma block_tab i j S h w f : (i < S)%nat -> (j < S)%nat ->
  block i j S (tab (h * S) (w * S) f) = tab h w (fun I J => f (i + I * S)%nat (j + J * S)%nat).
Proof.
  intros I J. unfold block, tab. rewrite strided_tab by auto. rewrite map_map. apply map_ext. intros k. now rewrite strided_tab.
Qed.
Lemma firstn_map_seq {A} (f : nat -> A) n m : (m <= n)%nat -> firstn m (map f (seq 0 n)) = map f (seq 0 m).
Proof.
  intros L. rewrite firstn_map. f_equal. replace n with (m + (n - m))%nat by lia. rewrite seq_app, firstn_app, seq_length, Nat.sub_diag. cbn.
  rewrite app_nil_r. rewrite <- (seq_length m 0) at 1. apply firstn_all.
Qed.
Lemma crop_tab S h w f : (0 < S)%nat -> (0 < h)%nat -> crop S (tab h w f) = tab (h / S * S) (w / S * S) f.
Proof.
  intros HS H. unfold crop. rewrite cols_tab by auto.
  assert (E1 : forall n, (n - n mod S = n / S * S)%nat) by (intros n; pose proof (Nat.div_mod n S); lia).
  assert (E2 : drop_rem S (tab h w f) = tab (h / S * S) w f).
  { unfold drop_rem. replace (length (tab h w f)) with h by (unfold tab; now rewrite map_length, seq_length).
    destruct (Nat.eqb_spec (h mod S) 0) as [E|_]; [|unfold slice; cbn [skipn]; rewrite Nat.sub_0_r, E1; apply firstn_map_seq; rewrite <- E1; lia].
    rewrite <- E1, E, Nat.sub_0_r. reflexivity. }
  rewrite E2. destruct (Nat.eqb_spec (w mod S) 0) as [E|_]; [rewrite <- (E1 w), E, Nat.sub_0_r; reflexivity|].
  unfold tab. rewrite map_map. apply map_ext. intros i. unfold slice. cbn [skipn]. rewrite Nat.sub_0_r, E1. apply firstn_map_seq. rewrite <- E1. lia.
Qed.
Lemma alike_tab h w f g : alike (tab h w f) (tab h w g) = true.
Proof.
  unfold alike. destruct (shape_tab h w f) as (A1 & A2). destruct (shape_tab h w g) as (N1 & N2).
  rewrite A1, N1, Nat.eqb_refl. cbn [andb]. apply forallb_forall. intros [u v] I.
  apply in_combine_l in I as I1. apply in_combine_r in I as I2. rewrite Forall_forall in *. cbn [fst snd]. rewrite (A2 _ I1), (N2 _ I2). apply Nat.eqb_refl.
Qed.
Lemma fold_right_acc {A} (f : A -> R) l s : fold_right (fun a s => f a + s) s l = fold_right (fun a s => f a + s) 0 l + s.
Proof. induction l; cbn; [ring|]. rewrite IHl. ring. Qed.
Lemma rebin_loop S h w (f g : nat -> nat -> R) : forall l u v, (forall ij, In ij l -> (fst ij < S)%nat /\ (snd ij < S)%nat) ->
  fold_left (fun (acc : arr * arr) (ij : nat * nat) =>
      let v := block (fst ij) (snd ij) S (tab (h * S) (w * S) g) in
      (arr_op Rplus (fst acc) (arr_op Rmult (block (fst ij) (snd ij) S (tab (h * S) (w * S) f)) v), arr_op Rplus (snd acc) v)) l (tab h w u, tab h w v)
  = (tab h w (fun I J => u I J + fold_right (fun ij s => f (fst ij + I * S)%nat (snd ij + J * S)%nat * g (fst ij + I * S)%nat (snd ij + J * S)%nat + s) 0 l),
     tab h w (fun I J => v I J + fold_right (fun ij s => g (fst ij + I * S)%nat (snd ij + J * S)%nat + s) 0 l)).
Proof.
  induction l as [|[i j] l IH]; intros u v H.
  - cbn. f_equal; apply tab_ext; intros; ring.
  - cbn [fold_left fst snd]. cbv zeta. destruct (H (i, j) (or_introl eq_refl)) as [HI HJ]. cbn in HI, HJ.
    rewrite !block_tab, !op_tab by auto. rewrite IH by (intros; apply H; now right).
    f_equal; apply tab_ext; intros; cbn [fold_right fst snd]; ring.
Qed.

Section Thms.
Context {B : Type}.
Implicit Types t : @img B.

(** ** C99_rebin: with integer division, a pixel of the result is the weighted
    mean of its bin (zero if the bin has no weight), its weight the sum of the
    weights; pixels that fill no bin are dropped. *)
Theorem C99_rebin : forall t S h w, (0 < S)%nat -> (0 < h)%nat -> shape (i_data t) h w -> shape (i_iv t) h w ->
  exists u, scale_image true S t = Ok u /\ shape (i_data u) (h / S) (w / S) /\ shape (i_iv u) (h / S) (w / S) /\
    forall I J, (I < h / S)%nat -> (J < w / S)%nat ->
      let d i j := at_ (i_data t) (i + I * S) (j + J * S) in
      let v i j := at_ (i_iv t) (i + I * S) (j + J * S) in
      pix (i_iv u) I J = Some (bin_sum S v) /\
      (bin_sum S v <> 0 -> pix (i_data u) I J = Some (bin_sum S (fun i j => d i j * v i j) / bin_sum S v)) /\
      (bin_sum S v = 0 -> pix (i_data u) I J = Some 0).
Proof.
  intros t S h w HS H SD SV. unfold scale_image. destruct (Nat.eqb_spec S 0); [lia|]. cbn [negb].
  assert (ED : crop S (i_data t) = tab (h / S * S) (w / S * S) (at_ (i_data t))) by (rewrite (tab_of _ h w SD) at 1; apply crop_tab; auto).
  assert (EV : crop S (i_iv t) = tab (h / S * S) (w / S * S) (at_ (i_iv t))) by (rewrite (tab_of _ h w SV) at 1; apply crop_tab; auto).
  rewrite ED, EV, alike_tab. cbn [negb].
  destruct (Nat.eq_dec (h / S) 0) as [Z|NZ].
  { unfold rebin. rewrite Z. cbn [Nat.mul tab map seq length cols Nat.div]. rewrite Nat.div_0_l by lia. cbn [repeat].
    assert (E : forall l, fold_left (fun (acc : arr * arr) (ij : nat * nat) =>
      let v := block (fst ij) (snd ij) S [] in
      (arr_op Rplus (fst acc) (arr_op Rmult (block (fst ij) (snd ij) S []) v), arr_op Rplus (snd acc) v)) l ([], []) = ([], [])).
    { induction l; auto. }
    unfold tab. cbn [seq map]. rewrite E. eexists. split; [reflexivity|]. cbn. split; [split; auto|]. split; [split; auto|]. intros; lia. }
  rewrite (cols_tab (h / S * S) (w / S * S)) by nia.
  replace (length (tab (h / S * S) (w / S * S) (at_ (i_data t)))) with (h / S * S)%nat by (unfold tab; now rewrite map_length, seq_length).
  unfold rebin. rewrite !Nat.div_mul by lia. rewrite zeros_tab.
  rewrite rebin_loop.
  2:{ intros [i j] I. apply in_prod_iff in I. destruct I as [I J]. apply in_seq in I, J. cbn. lia. }
  rewrite !op_tab. eexists. split; [reflexivity|]. cbn [i_data i_iv]. split; [apply shape_tab|]. split; [apply shape_tab|].
  intros I J LI LJ. cbv zeta. rewrite !pix_tab by auto. fold (bin_sum S (fun i j => at_ (i_iv t) (i + I * S) (j + J * S))).
  fold (bin_sum S (fun i j => at_ (i_data t) (i + I * S) (j + J * S) * at_ (i_iv t) (i + I * S) (j + J * S))).
  rewrite !Rplus_0_l. split; [reflexivity|]. unfold is0.
  destruct (Req_EM_T _ 0) as [E|E]; split; intros K; try contradiction; auto. f_equal. rewrite Rmult_0_l, Rplus_0_r. reflexivity.
Qed.
(** So a constant image stays what it is. *)
Theorem C99_flat : forall t S h w c, (0 < S)%nat -> (0 < h)%nat -> shape (i_data t) h w -> shape (i_iv t) h w ->
  (forall i j, (i < h)%nat -> (j < w)%nat -> pix (i_data t) i j = Some c) ->
  exists u, scale_image true S t = Ok u /\
    forall I J, (I < h / S)%nat -> (J < w / S)%nat -> pix (i_iv u) I J <> Some 0 -> pix (i_data u) I J = Some c.
Proof.
  intros t S h w c HS H SD SV HC. destruct (C99_rebin t S h w HS H SD SV) as (u & E & _ & _ & P). exists u. split; auto.
  intros I J LI LJ NZ. destruct (P I J LI LJ) as (P1 & P2 & _). rewrite P1 in NZ.
  assert (NZ' : bin_sum S (fun i j => at_ (i_iv t) (i + I * S) (j + J * S)) <> 0) by congruence.
  rewrite (P2 NZ'). f_equal.
  assert (Q : bin_sum S (fun i j => at_ (i_data t) (i + I * S) (j + J * S) * at_ (i_iv t) (i + I * S) (j + J * S))
            = c * bin_sum S (fun i j => at_ (i_iv t) (i + I * S) (j + J * S))).
  { unfold bin_sum.
    assert (G : forall ij, In ij (list_prod (seq 0 S) (seq 0 S)) -> at_ (i_data t) (fst ij + I * S) (snd ij + J * S) = c).
    { intros [i j] K. apply in_prod_iff in K. destruct K as [K1 K2]. apply in_seq in K1, K2. cbn [fst snd]. unfold at_.
      assert (MH := Nat.mul_div_le h S ltac:(lia)). assert (MW := Nat.mul_div_le w S ltac:(lia)). rewrite HC; auto; nia. }
    revert G. generalize (list_prod (seq 0 S) (seq 0 S)). induction l as [|ij l IH]; intros G; cbn [fold_right]; [ring|].
    rewrite (G ij) by now left. rewrite IH by (intros; apply G; now right). ring. }
  rewrite Q. field. exact NZ'.
Qed.

(** ** C99_model: a star drawn into the rebinned image has, at the middle of
    each bin, the value it has there in the original. *)
Lemma scale_comp_val k c dx dy : 0 < k -> nondegenerate c -> k ^ 2 * grid_comp (scale_comp k c) (k * dx) (k * dy) = grid_comp c dx dy.
Proof.
  intros K N. unfold nondegenerate in N. unfold grid_comp, scale_comp. cbn [g_amp g_mx g_my g_xx g_xy g_yx g_yy].
  set (det := g_xx c * g_yy c - g_xy c * g_yx c) in *.
  replace (g_xx c * k ^ 2 * (g_yy c * k ^ 2) - g_xy c * k ^ 2 * (g_yx c * k ^ 2)) with (det * (k ^ 2) ^ 2) by (unfold det; ring).
  assert (K2 : 0 < k ^ 2) by (apply pow_lt; auto).
  match goal with |- k ^ 2 * (if Rle_dec 100 ?a then _ else _) = (if Rle_dec 100 ?b then _ else _) => replace a with b by (field; lra) end.
  destruct (Rle_dec 100 _); [ring|].
  replace ((2 * PI) ^ 2 * (det * (k ^ 2) ^ 2)) with (((2 * PI) ^ 2 * det) * ((k ^ 2) * (k ^ 2))) by ring.
  assert (P : 0 < (2 * PI) ^ 2 * det) by (apply Rmult_lt_0_compat; auto; apply pow_lt; pose proof PI_RGT_0; lra).
  rewrite sqrt_mult by nra. rewrite sqrt_square by lra. pose proof (sqrt_lt_R0 _ P). field. lra.
Qed.
Lemma grid_val_scaled k m dx dy : 0 < k -> Forall nondegenerate m ->
  k ^ 2 * grid_val (map (scale_comp k) m) (k * dx) (k * dy) = grid_val m dx dy.
Proof.
  intros K N. unfold grid_val.
  assert (G : forall s, k ^ 2 * fold_left (fun r c => r + grid_comp c (k * dx) (k * dy)) (map (scale_comp k) m) s
              = fold_left (fun r c => r + grid_comp c dx dy) m (k ^ 2 * s)).
  { induction N as [|c m N1 N IH]; intros s; cbn [map fold_left]; auto. rewrite IH, Rmult_plus_distr_l, scale_comp_val; auto. }
  rewrite G, Rmult_0_r. reflexivity.
Qed.
Theorem C99_model : forall t u S p b X Y, scale_image true S t = Ok u -> Forall nondegenerate (i_psf t) ->
  let k := INR S in
  star u p b X Y = star t p b ((X + 1 / 2) * k - 1 / 2) ((Y + 1 / 2) * k - 1 / 2).
Proof.
  intros t u S p b X Y E N k. unfold scale_image in E. destruct (Nat.eqb_spec S 0) as [|NS]; [discriminate|]. cbn [negb] in E.
  destruct (negb (alike _ _)); [discriminate|]. destruct (rebin _ _ _ _ _) as [nd ni]. injection E as <-.
  assert (K : 0 < k) by (apply lt_0_INR; lia). unfold star. cbn [i_counts i_psf i_wcs i_sky position_to_pixel fst snd]. fold k.
  destruct (position_to_pixel (i_wcs t) p) as [px py]. cbn [fst snd]. f_equal.
  rewrite Rmult_comm, <- Rmult_assoc, (Rmult_comm (grid_val _ _ _)), (Rmult_comm _ (i_counts t b)). f_equal.
  set (dx := (X + 1 / 2) * k - 1 / 2 - px). set (dy := (Y + 1 / 2) * k - 1 / 2 - py).
  replace 0.5 with (1 / 2) by lra. change (1 / k * (1 / k * 1)) with ((1 / k) ^ 2).
  replace (X - ((px + 1 / 2) * (1 / k) - 1 / 2)) with (1 / k * dx) by (unfold dx; field; lra).
  replace (Y - ((py + 1 / 2) * (1 / k) - 1 / 2)) with (1 / k * dy) by (unfold dy; field; lra).
  apply grid_val_scaled; auto. apply Rdiv_lt_0_compat; lra.
Qed.
(** ** C99_place: a position is in the pixel of the result whose bin holds the
    pixel it is in. *)
Theorem C99_place : forall t u S p (I : nat), scale_image true S t = Ok u ->
  let x := fst (position_to_pixel (i_wcs t) p) in
  let X := fst (position_to_pixel (i_wcs u) p) in
  let y := snd (position_to_pixel (i_wcs t) p) in
  let Y := snd (position_to_pixel (i_wcs u) p) in
  (INR I - 1 / 2 <= X < INR I + 1 / 2 <-> INR (I * S) - 1 / 2 <= x < INR (I * S + S) - 1 / 2) /\
  (INR I - 1 / 2 <= Y < INR I + 1 / 2 <-> INR (I * S) - 1 / 2 <= y < INR (I * S + S) - 1 / 2).
Proof.
  intros t u S p I E x X y Y. unfold scale_image in E. destruct (Nat.eqb_spec S 0) as [|NS]; [discriminate|]. cbn [negb] in E.
  destruct (negb (alike _ _)); [discriminate|]. destruct (rebin _ _ _ _ _) as [nd ni]. injection E as <-.
  unfold X, Y, x, y. cbn [i_wcs position_to_pixel fst snd]. destruct (position_to_pixel (i_wcs t) p) as [px py]. cbn [fst snd].
  rewrite !plus_INR, !mult_INR. assert (K : 0 < INR S) by (apply lt_0_INR; lia). set (k := INR S) in *. set (i := INR I).
  assert (G : forall z, i - 1 / 2 <= (z + 0.5) * (1 / k) - 0.5 < i + 1 / 2 <-> i * k - 1 / 2 <= z < i * k + k - 1 / 2).
  { intros z. assert (Z : z + 0.5 = (z + 0.5) * (1 / k) * k) by (field; lra). set (q := (z + 0.5) * (1 / k)) in *.
    split; intros [A1 A2]; split.
    - assert (i * k <= q * k) by (apply Rmult_le_compat_r; lra). lra.
    - assert (q * k < (i + 1) * k) by (apply Rmult_lt_compat_r; lra). lra.
    - assert (i <= q) by (apply (Rmult_le_reg_r k); lra). lra.
    - assert (q < i + 1) by (apply (Rmult_lt_reg_r k); lra). lra. }
  split; apply G.
Qed.

(** ** C99_python3_refuted: in Python 3 the function always fails. *)
Theorem C99_python3_refuted : forall t S, (0 < S)%nat -> scale_image false S t = Err TypeError.
Proof. intros t S H. unfold scale_image. destruct (Nat.eqb_spec S 0); [lia|]. reflexivity. Qed.
(** Galaxies cannot be drawn into the result (nor into images with a WCS from
    wcslib or a shifted one): there is no cdInverseAtPixel. *)
Theorem C99_galaxies_refuted : forall t u S, scale_image true S t = Ok u -> has_cd_inverse (i_wcs u) = false.
Proof.
  intros t u S E. unfold scale_image in E. destruct (Nat.eqb_spec S 0) as [|NS]; [discriminate|]. cbn [negb] in E.
  destruct (negb (alike _ _)); [discriminate|]. destruct (rebin _ _ _ _ _) as [nd ni]. injection E as <-. reflexivity.
Qed.
End Thms.

(** Three rows of five pixels become one of two; a bin has no weight. *)
Definition small_img : @img unit := mkImg [[1; 2; 3; 4; 5]; [5; 6; 7; 8; 9]; [0; 0; 0; 0; 0]] [[1; 1; 0; 0; 0]; [2; 0; 0; 0; 1]; [1; 1; 1; 1; 1]]
  [mkG 1 0 0 2 0 0 2] (NullWCS 1 0 0) 3 (fun _ => 100).
Example C99_ex : shape (i_data small_img) 3 5 /\ shape (i_iv small_img) 3 5 /\ Forall nondegenerate (i_psf small_img) /\
  exists u, scale_image true 2 small_img = Ok u /\ pix (i_data u) 0 0 = Some (13 / 4) /\ pix (i_data u) 0 1 = Some 0 /\ pix (i_data u) 1 0 = None.
Proof.
  assert (H1 : shape (i_data small_img) 3 5) by (split; cbn; auto). assert (H2 : shape (i_iv small_img) 3 5) by (split; cbn; auto).
  split; auto. split; auto. split; [constructor; [unfold nondegenerate; cbn; lra|constructor]|].
  destruct (C99_rebin small_img 2 3 5 ltac:(lia) ltac:(lia) H1 H2) as (u & E & (S1 & S2) & _ & P). exists u. split; auto.
  change (3 / 2)%nat with 1%nat in *. change (5 / 2)%nat with 2%nat in *.
  destruct (P 0%nat 0%nat) as (_ & P1 & _); [lia|lia|]. destruct (P 0%nat 1%nat) as (_ & _ & P2); [lia|lia|].
  split; [|split].
  - rewrite P1; unfold bin_sum, at_, pix; cbn; [f_equal; field|lra].
  - apply P2. unfold bin_sum, at_, pix. cbn. lra.
  - unfold pix. destruct (nth_error (i_data u) 1) eqn:N; auto. assert (nth_error (i_data u) 1 <> None) by congruence. apply nth_error_Some in H. lia.
Qed.

Print Assumptions C99_rebin.
Print Assumptions C99_flat.
Print Assumptions C99_model.
Print Assumptions C99_place.
Print Assumptions C99_python3_refuted.
Print Assumptions C99_galaxies_refuted.
