(** C47: the smoothness prior of the spline sky. *)
From Coq Require Import List ZArith QArith Bool Lia Arith Psatz.
From Verif Require Import Base PriorModel PriorProps SplineModel.
Import ListNotations.
Open Scope Q_scope.

(** *** Specification *)
(** || b - A d ||^2 for a matrix given by its entries (row, column, value),
    rows nrows .. nrows + length b. *)
Definition row_dot (entries : list (nat * nat * Q)) (d : nat -> Q) (r : nat) : Q :=
  qsum (map (fun e => snd e * d (snd (fst e))) (filter (fun e => (fst (fst e) =? r)%nat) entries)).
Definition objective (entries : list (nat * nat * Q)) (b : list Q) (nrows : nat) (d : nat -> Q) : Q :=
  qsum (map (fun r => qsq (nth r b 0 - row_dot entries d (nrows + r))) (seq 0 (length b))).
(** The sky after a step: parameter k of the sky moves by d (c0 + k). *)
Definition step_sky (s : spline) (c0 : nat) (d : nat -> Q) : spline :=
  mkSpline (sp_W s) (sp_H s) (map (fun k => nth k (sp_vals s) 0 + d (c0 + k)%nat) (seq 0 (length (sp_vals s))))
           (sp_liquid s) (sp_sigma s) (sp_x0 s) (sp_y0 s).

(** *** Lemmas *)
Lemma seq_shift_add o n : seq o n = map (fun k => (o + k)%nat) (seq 0 n).
Proof.
  replace (seq o n) with (seq (o + 0) n) by (f_equal; lia). generalize 0%nat as z. induction n as [|n IH]; intros z; [reflexivity|].
  cbn [seq map]. f_equal. rewrite <- IH. f_equal. lia.
Qed.
Lemma ravel_map {A} h w (f : nat -> nat -> A) :
  ravel h w f = map (fun r => f (r / w)%nat (r mod w)%nat) (seq 0 (h * w)).
Proof.
  unfold ravel. induction h as [|h IH]; [reflexivity|].
  rewrite seq_S, flat_map_app, IH. cbn [flat_map Nat.add]. rewrite app_nil_r.
  replace (S h * w)%nat with (h * w + w)%nat by lia. rewrite seq_app, map_app. f_equal.
  cbn [Nat.add]. destruct w as [|w]; [reflexivity|].
  rewrite (seq_shift_add (h * S w)), map_map. apply map_ext_in. intros j Hj. apply in_seq in Hj. f_equal.
  - rewrite Nat.div_add_l by lia. rewrite Nat.div_small by lia. lia.
  - rewrite Nat.add_comm, Nat.mod_add by lia. rewrite Nat.mod_small by lia. reflexivity.
Qed.
Lemma combine_map2 {A B C} (f : A -> B) (g : A -> C) l : combine (map f l) (map g l) = map (fun x => (f x, g x)) l.
Proof. induction l; simpl; congruence. Qed.
Lemma repeat_map {A} (v : A) n o : repeat v n = map (fun _ => v) (seq o n).
Proof. revert o. induction n; intros o; simpl; auto. f_equal. apply IHn. Qed.
(** The entries of one block. *)
Lemma block_entries nrows c0 o n (g : nat -> nat) (v : Q) :
  combine (combine (map (Nat.add nrows) (seq o n)) (map (Nat.add c0) (map g (seq 0 n)))) (repeat v n) =
  map (fun k => ((nrows + (o + k))%nat, (c0 + g k)%nat, v)) (seq 0 n).
Proof.
  rewrite (seq_shift_add o), !map_map, combine_map2, (repeat_map v n 0), combine_map2. reflexivity.
Qed.
Lemma row_dot_app a b d r : row_dot (a ++ b) d r == row_dot a d r + row_dot b d r.
Proof. unfold row_dot. rewrite filter_app, map_app. apply qsum_app. Qed.
Lemma row_dot_block nrows c0 o n g v d r :
  row_dot (map (fun k => ((nrows + (o + k))%nat, (c0 + g k)%nat, v)) (seq 0 n)) d (nrows + r) ==
  if ((o <=? r) && (r <? o + n))%nat then v * d (c0 + g (r - o))%nat else 0.
Proof.
  induction n as [|n IH].
  - destruct (Nat.leb_spec o r), (Nat.ltb_spec r (o + 0)); cbn [andb]; try lia; reflexivity.
  - rewrite seq_S, map_app, row_dot_app, IH. cbn [map Nat.add]. unfold row_dot; cbn [filter fst snd].
    destruct (Nat.eqb_spec (nrows + (o + n)) (nrows + r)) as [E|N].
    + assert (r = (o + n)%nat) by lia. subst r. cbn [map snd fst qsum fold_right].
      destruct (Nat.leb_spec o (o + n)), (Nat.ltb_spec (o + n) (o + n)), (Nat.ltb_spec (o + n) (o + S n)); cbn [andb]; try lia.
      replace (o + n - o)%nat with n by lia. ring.
    + cbn [map qsum fold_right].
      destruct (Nat.leb_spec o r), (Nat.ltb_spec r (o + n)), (Nat.ltb_spec r (o + S n)); cbn [andb]; try lia; ring.
Qed.

Lemma nth_map_seq (f : nat -> Q) n k : (k < n)%nat -> nth k (map f (seq 0 n)) 0 = f k.
Proof. intros H. rewrite (nth_indep _ 0 (f 0%nat)) by (rewrite map_length, seq_length; lia). rewrite map_nth, seq_nth by lia. reflexivity. Qed.
Lemma rows_seq o n : fold_right Nat.max 0%nat (map S (seq o n)) = match n with O => 0%nat | _ => (o + n)%nat end.
Proof.
  revert o. induction n as [|n IH]; intros o; [reflexivity|]. cbn [seq map fold_right]. rewrite IH. destruct n; lia.
Qed.
Lemma div_mod_lt h w r : (r < h * w)%nat -> (r / w < h)%nat /\ (r mod w < w)%nat.
Proof.
  intros H. assert (w <> 0)%nat by lia. split; [apply Nat.div_lt_upper_bound; lia|apply Nat.mod_upper_bound; auto].
Qed.

(** *** C47: with unscaled columns the prior rows reproduce the log prior *)
Theorem C47_prior_rows : forall s sig nrows c0,
  sp_sigma s = Some sig -> ~ sig == 0 -> length (sp_vals s) = (sp_W s * sp_H s)%nat ->
  exists bs pb entries b,
    sp_prior_rows s = Ok (Some (bs, pb)) /\
    assemble false nrows (offset_cols c0 bs) pb = Ok (Some (entries, b)) /\
    (forall r c v, In (r, c, v) entries ->
       (nrows <= r < nrows + length b)%nat /\ (c0 <= c < c0 + length (sp_vals s))%nat) /\
    forall d, exists l, sp_log_prior (step_sky s c0 d) = Ok l /\
      l == (-1 # 2) * objective entries b nrows d.
Proof.
  intros s sig nrows c0 HS HN HL. unfold sp_prior_rows, sp_log_prior, param_grid, step_sky. rewrite HS, HL, Nat.eqb_refl. cbn [bind sp_sigma sp_W sp_H sp_vals].
  set (W := sp_W s) in *. set (H := sp_H s) in *. set (p := fun i j => nth (i * W + j) (sp_vals s) 0).
  rewrite !ravel_map, !map_length, !seq_length. set (NX := (H * (W - 1))%nat). set (NY := ((H - 1) * W)%nat).
  eexists; eexists; eexists; eexists. split; [reflexivity|].
  assert (EL : length (concat [map (fun x => x / sig) (map (fun r => p (r / (W - 1))%nat (r mod (W - 1) + 1)%nat - p (r / (W - 1))%nat (r mod (W - 1))) (seq 0 NX));
      map (fun x => x / sig) (map (fun r => p (r / W + 1)%nat (r mod W) - p (r / W)%nat (r mod W)) (seq 0 NY))]) = (NX + NY)%nat).
  { cbn [concat]. rewrite !app_length, !map_length, !seq_length. simpl. lia. }
  unfold p in EL; cbv beta in EL.
  split.
  { unfold assemble, offset_cols. cbn [map fst snd flat_map]. rewrite EL.
    assert (ER : rows_needed (offset_cols c0 [(seq 0 NX, map (fun r => (r / (W - 1) * W + r mod (W - 1))%nat) (seq 0 NX), repeat (1 / sig) NX);
        (seq 0 NX, map (fun r => (r / (W - 1) * W + (r mod (W - 1) + 1))%nat) (seq 0 NX), repeat (- (1) / sig) NX);
        (seq NX NY, map (fun r => (r / W * W + r mod W)%nat) (seq 0 NY), repeat (1 / sig) NY);
        (seq NX NY, map (fun r => ((r / W + 1) * W + r mod W)%nat) (seq 0 NY), repeat (- (1) / sig) NY)]) = (NX + NY)%nat).
    { unfold rows_needed, offset_cols. cbn [map fst snd fold_right]. rewrite !rows_seq. destruct NX, NY; lia. }
    unfold offset_cols in ER. cbn [map fst snd] in ER. rewrite ER, Nat.eqb_refl. cbn [negb].
    rewrite !block_entries. reflexivity. }
  split.
  { rewrite EL. intros r c v HI. cbn [app] in HI. rewrite app_nil_r in HI.
    repeat (apply in_app_or in HI; destruct HI as [HI|HI]); apply in_map_iff in HI; destruct HI as (k & E & HK);
      inversion E as [[E1 E2 E3]]; subst; apply in_seq in HK.
    - destruct (div_mod_lt H (W - 1) k ltac:(lia)). split; nia.
    - destruct (div_mod_lt H (W - 1) k ltac:(lia)). split; nia.
    - destruct (div_mod_lt (H - 1) W k ltac:(lia)). split; nia.
    - destruct (div_mod_lt (H - 1) W k ltac:(lia)). split; nia. }
  intros d. rewrite map_length, seq_length, Nat.eqb_refl. cbn [bind]. rewrite !ravel_map. fold NX NY. eexists. split; [reflexivity|].
  unfold objective. rewrite EL. rewrite seq_app, map_app, qsum_app. cbn [Nat.add].
  set (q := fun k => nth k (map (fun k => nth k (sp_vals s) 0 + d (c0 + k)%nat) (seq 0 (W * H))) 0).
  assert (EQ : forall k, (k < W * H)%nat -> q k = nth k (sp_vals s) 0 + d (c0 + k)%nat).
  { intros k Hk. unfold q. apply (nth_map_seq (fun k => nth k (sp_vals s) 0 + d (c0 + k)%nat)). auto. }
  assert (DOT : forall r, row_dot (map (fun k => ((nrows + (0 + k))%nat, (c0 + (k / (W - 1) * W + k mod (W - 1)))%nat, 1 / sig)) (seq 0 NX) ++
     map (fun k => ((nrows + (0 + k))%nat, (c0 + (k / (W - 1) * W + (k mod (W - 1) + 1)))%nat, - (1) / sig)) (seq 0 NX) ++
     map (fun k => ((nrows + (NX + k))%nat, (c0 + (k / W * W + k mod W))%nat, 1 / sig)) (seq 0 NY) ++
     map (fun k => ((nrows + (NX + k))%nat, (c0 + ((k / W + 1) * W + k mod W))%nat, - (1) / sig)) (seq 0 NY) ++ []) d (nrows + r) ==
     (if (r <? NX)%nat then 1 / sig * d (c0 + (r / (W - 1) * W + r mod (W - 1)))%nat + - (1) / sig * d (c0 + (r / (W - 1) * W + (r mod (W - 1) + 1)))%nat else 0) +
     (if ((NX <=? r) && (r <? NX + NY))%nat then 1 / sig * d (c0 + ((r - NX) / W * W + (r - NX) mod W))%nat + - (1) / sig * d (c0 + (((r - NX) / W + 1) * W + (r - NX) mod W))%nat else 0)).
  { intros r. rewrite app_nil_r, !row_dot_app.
    rewrite (row_dot_block nrows c0 0 NX (fun k => (k / (W - 1) * W + k mod (W - 1))%nat)).
    rewrite (row_dot_block nrows c0 0 NX (fun k => (k / (W - 1) * W + (k mod (W - 1) + 1))%nat)).
    rewrite (row_dot_block nrows c0 NX NY (fun k => (k / W * W + k mod W)%nat)).
    rewrite (row_dot_block nrows c0 NX NY (fun k => ((k / W + 1) * W + k mod W)%nat)).
    rewrite Nat.sub_0_r. cbn [Nat.leb andb Nat.add]. destruct (r <? NX)%nat, ((NX <=? r) && (r <? NX + NY))%nat; ring. }
  assert (NB : forall r, nth r (concat [map (fun x => x / sig) (map (fun r => p (r / (W - 1))%nat (r mod (W - 1) + 1)%nat - p (r / (W - 1))%nat (r mod (W - 1))) (seq 0 NX));
      map (fun x => x / sig) (map (fun r => p (r / W + 1)%nat (r mod W) - p (r / W)%nat (r mod W)) (seq 0 NY))]) 0 =
      if (r <? NX)%nat then (p (r / (W - 1))%nat (r mod (W - 1) + 1)%nat - p (r / (W - 1))%nat (r mod (W - 1))) / sig
      else if (r <? NX + NY)%nat then (p ((r - NX) / W + 1)%nat ((r - NX) mod W) - p ((r - NX) / W)%nat ((r - NX) mod W)) / sig else 0).
  { intros r. cbn [concat]. rewrite app_nil_r, !map_map. destruct (Nat.ltb_spec r NX) as [L|L].
    - rewrite app_nth1 by (rewrite map_length, seq_length; auto). apply nth_map_seq with (f := fun r => (p (r / (W - 1))%nat (r mod (W - 1) + 1)%nat - p (r / (W - 1))%nat (r mod (W - 1))) / sig). auto.
    - rewrite app_nth2 by (rewrite map_length, seq_length; auto). rewrite map_length, seq_length. destruct (Nat.ltb_spec r (NX + NY)).
      + apply nth_map_seq with (f := fun r => (p (r / W + 1)%nat (r mod W) - p (r / W)%nat (r mod W)) / sig). lia.
      + apply nth_overflow. rewrite map_length, seq_length. lia. }
  unfold p in NB; cbv beta in NB.
  set (ent := map _ _ ++ _) in *. set (bb := concat _) in *.
  assert (SC : forall (f : nat -> Q) l, qsum (map (fun r => qsq (f r) / qsq sig) l) == qsum (map (fun r => qsq (f r)) l) / qsq sig).
  { intros f l. induction l as [|x l IH]; cbn [map qsum fold_right]; [unfold Qdiv; ring|]. fold (qsum (map (fun r => qsq (f r) / qsq sig) l)) (qsum (map (fun r => qsq (f r)) l)).
    rewrite IH. unfold Qdiv. ring. }
  assert (PX : qsum (map (fun r => qsq (nth r bb 0 - row_dot ent d (nrows + r))) (seq 0 NX)) ==
     qsum (map (fun r => qsq (q (r / (W - 1) * W + (r mod (W - 1) + 1))%nat - q (r / (W - 1) * W + r mod (W - 1))%nat)) (seq 0 NX)) / qsq sig).
  { rewrite <- SC. apply qsum_ext. intros r Hr. apply in_seq in Hr. unfold qsq at 1. rewrite !DOT, NB.
    destruct (Nat.ltb_spec r NX); [|lia]. destruct (Nat.leb_spec NX r); [lia|]. cbn [andb].
    destruct (div_mod_lt H (W - 1) r ltac:(lia)). rewrite !EQ by nia. unfold p, qsq.
    set (u := nth _ _ 0). set (v := nth _ _ 0). field. auto. }
  assert (PY : qsum (map (fun r => qsq (nth r bb 0 - row_dot ent d (nrows + r))) (seq NX NY)) ==
     qsum (map (fun r => qsq (q ((r / W + 1) * W + r mod W)%nat - q (r / W * W + r mod W)%nat)) (seq 0 NY)) / qsq sig).
  { rewrite <- SC. rewrite (seq_shift_add NX NY), map_map. apply qsum_ext. intros r Hr. apply in_seq in Hr. unfold qsq at 1. rewrite !DOT, NB.
    destruct (Nat.ltb_spec (NX + r) NX); [lia|]. destruct (Nat.leb_spec NX (NX + r)); [|lia]. destruct (Nat.ltb_spec (NX + r) (NX + NY)); [|lia]. cbn [andb].
    replace (NX + r - NX)%nat with r by lia.
    destruct (div_mod_lt (H - 1) W r ltac:(lia)). rewrite !EQ by nia. unfold p, qsq.
    set (u := nth _ _ 0). set (v := nth _ _ 0). field. auto. }
  rewrite PX, PY. unfold q. unfold Qdiv. ring.
Qed.

(** With column scaling, which getUpdateDirection uses by default, the same
    rows make it raise: every grid with a row or column of at least three
    coefficients. *)
Theorem C47_scaled_columns_raise : forall s sig nrows c0,
  sp_sigma s = Some sig -> length (sp_vals s) = (sp_W s * sp_H s)%nat ->
  (3 <= sp_W s)%nat -> (1 <= sp_H s)%nat ->
  exists bs pb, sp_prior_rows s = Ok (Some (bs, pb)) /\
    assemble true nrows (offset_cols c0 bs) pb = Err ValueError.
Proof.
  intros s sig nrows c0 HS HL HW HH. unfold sp_prior_rows, param_grid. rewrite HS, HL, Nat.eqb_refl. cbn [bind].
  eexists; eexists. split; [reflexivity|]. unfold assemble. destruct (negb _); [reflexivity|].
  cbn [offset_cols map existsb fst snd]. rewrite map_length, !ravel_map, map_length, seq_length.
  destruct (Nat.ltb_spec 1 (sp_H s * (sp_W s - 1))); [reflexivity|nia].
Qed.

(** A frozen coefficient: the rows keep their columns, so they point past the
    number of thawed parameters. *)
Theorem C47_frozen_refuted : exists s sig bs pb, sp_sigma s = Some sig /\ ~ sig == 0 /\
  length (sp_vals s) = (sp_W s * sp_H s)%nat /\ length (sp_liquid s) = length (sp_vals s) /\
  sp_prior_rows s = Ok (Some (bs, pb)) /\
  exists b c, In b bs /\ In c (snd (fst b)) /\ (count_occ Bool.bool_dec (sp_liquid s) true <= c)%nat.
Proof.
  exists (mkSpline 4 4 (repeat 0 16) (false :: repeat true 15) (Some 1) 0 0), 1.
  eexists; eexists. split; [reflexivity|]. split; [discriminate|]. split; [reflexivity|]. split; [reflexivity|].
  split; [reflexivity|]. eexists; exists 15%nat. split; [right; left; reflexivity|]. split; [vm_compute; tauto|vm_compute; lia].
Qed.

(** A copy, hence also the sky of a subimage, has no smoothness prior. *)
Theorem C47_copy_loses_prior : forall s x y,
  sp_log_prior (sp_copy s) = Ok 0 /\ sp_log_prior (sp_shifted s x y) = Ok 0 /\
  sp_prior_rows (sp_copy s) = Ok None.
Proof. intros. repeat split; reflexivity. Qed.
Example C47_copy_ex : exists s, (exists l, sp_log_prior s = Ok l /\ l < 0) /\ sp_log_prior (sp_copy s) = Ok 0.
Proof.
  exists (sp_set_prior (mkSpline 4 4 (map (fun k => inject_Z (Z.of_nat k)) (seq 0 16)) (repeat true 16) None 0 0) 2).
  split; [|reflexivity]. eexists. split; [reflexivity|]. vm_compute. reflexivity.
Qed.

(** *** Which coefficients are neighbours *)
(** scipy stores the coefficient of column ix and row iy of a grid of W columns
    and H rows at ix * H + iy. *)
Definition coef_index (s : spline) (ix iy : nat) : nat := (ix * sp_H s + iy)%nat.
(** The smoothness of the coefficient surface. *)
Definition roughness (s : spline) : Q :=
  qsum (ravel (sp_W s - 1) (sp_H s) (fun ix iy => qsq (nth (coef_index s (ix + 1) iy) (sp_vals s) 0 - nth (coef_index s ix iy) (sp_vals s) 0)))
  + qsum (ravel (sp_W s) (sp_H s - 1) (fun ix iy => qsq (nth (coef_index s ix (iy + 1)) (sp_vals s) 0 - nth (coef_index s ix iy) (sp_vals s) 0))).
(** On square grids the prior measures it... *)
Theorem C47_square_grid : forall s sig, sp_sigma s = Some sig -> ~ sig == 0 ->
  length (sp_vals s) = (sp_W s * sp_H s)%nat -> sp_W s = sp_H s ->
  exists l, sp_log_prior s = Ok l /\ l == (-1 # 2) * roughness s / qsq sig.
Proof.
  intros s sig HS HN HL E. unfold sp_log_prior, param_grid, roughness, coef_index. rewrite HS, HL, Nat.eqb_refl. cbn [bind].
  eexists. split; [reflexivity|]. rewrite E. field. unfold qsq. intros X. apply HN. destruct (Qmult_integral _ _ X); auto.
Qed.
(** ...on others it does not: a surface that grows by one unit
    from row to row, on 4 columns and 5 rows, has roughness 16, but the prior
    counts 136. *)
Theorem C47_neighbours_refuted : exists s, sp_sigma s = Some 1 /\
  length (sp_vals s) = (sp_W s * sp_H s)%nat /\
  roughness s == 16 /\ exists l, sp_log_prior s = Ok l /\ l == (-1 # 2) * 136.
Proof.
  exists (mkSpline 4 5 (map (fun k => inject_Z (Z.of_nat (k mod 5))) (seq 0 20)) (repeat true 20) (Some 1) 0 0).
  split; [reflexivity|]. split; [reflexivity|]. split; [vm_compute; reflexivity|]. eexists. split; [reflexivity|]. vm_compute. reflexivity.
Qed.
(** A spline sky whose coefficient count is not W H is refused. *)
Theorem C47_size_checked : forall s sig, sp_sigma s = Some sig -> length (sp_vals s) <> (sp_W s * sp_H s)%nat ->
  sp_log_prior s = Err AssertionError /\ sp_prior_rows s = Err AssertionError.
Proof.
  intros s sig HS HL. unfold sp_log_prior, sp_prior_rows, param_grid. rewrite HS.
  destruct (Nat.eqb_spec (length (sp_vals s)) (sp_W s * sp_H s)); [contradiction|]. auto.
Qed.

Definition ex_sky : spline := mkSpline 4 5 (map (fun k => inject_Z (Z.of_nat (k * k))) (seq 0 20)) (repeat true 20) (Some (2 # 1)) 0 0.
Example C47_ex : sp_sigma ex_sky = Some (2 # 1) /\ length (sp_vals ex_sky) = (sp_W ex_sky * sp_H ex_sky)%nat /\
  exists l, sp_log_prior ex_sky = Ok l /\ l < 0.
Proof. split; [reflexivity|]. split; [reflexivity|]. eexists. split; [reflexivity|]. vm_compute. reflexivity. Qed.

Print Assumptions C47_prior_rows.
Print Assumptions C47_scaled_columns_raise.
Print Assumptions C47_frozen_refuted.
Print Assumptions C47_copy_loses_prior.
Print Assumptions C47_square_grid.
Print Assumptions C47_neighbours_refuted.
Print Assumptions C47_size_checked.
