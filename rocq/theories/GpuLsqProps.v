(** C71: update direction of the GPU optimizer. *)
From Coq Require Import List ZArith Reals Bool Lia Lra.
From Verif Require Import Base PatchModel GpuModel DenseModel GalPatchModel GpuMixModel GpuLsqModel.
From Coq Require Import RealField.
From Verif Require DenseProps GpuMixProps PsfProps GpuProps.
Import ListNotations.
Open Scope nat_scope.

Notation rs := (lsum 0%R Rplus).
(** ** Specification *)
Section Spec.
Variables (pH pW : nat) (tim_bands : list nat) (padpix padie : nat -> nat -> nat -> R) (src : option gsrc) (sb : option gsb).
(** The model of the frame's pixel now. *)
Definition current (i y x : nat) : R :=
  ((match src with Some s => s_counts s i * s_stamp s i 0%nat y x | None => 0 end) +
   (match sb with Some b => b_counts b i * b_scale b i ^ 2 | None => 0 end))%R.
(** Centred differences of a stamp: how it changes as the source moves right, up;
    zero on the frame's edge. *)
Definition right (g : nat -> nat -> R) (y x : nat) : R :=
  if (y =? 0) || (pH - 1 <=? y) || (x =? 0) || (pW - 1 <=? x) then 0%R else ((g y (x - 1)%nat - g y (x + 1)%nat) / 2)%R.
Definition up (g : nat -> nat -> R) (y x : nat) : R :=
  if (y =? 0) || (pH - 1 <=? y) || (x =? 0) || (pW - 1 <=? x) then 0%R else ((g (y - 1)%nat x - g (y + 1)%nat x) / 2)%R.
(** Kinds of parameters of source and background, in the order of the parameter
    vector. *)
Inductive kind : Type := Pos (k : nat) | Flux (b : nat) | Shape (k : nat) | Sky (b : nat) | Other.
Definition kinds : list kind :=
  (match src with Some s => map Pos (seq 0 (s_npos s)) ++ map Flux (s_bands s) ++ map Shape (seq 0 (s_nshapes s)) | None => [] end)
  ++ (match sb with Some b => map Sky (b_bands b) | None => [] end).
(** The derivative of the pixel's model. *)
Definition deriv (k : kind) (i y x : nat) : R :=
  match k, src, sb with
  | Pos k, Some s, _ =>
      let '(a, b, c, d) := s_cdi s i in
      (s_counts s i * (right (s_stamp s i 0%nat) y x * (if k =? 0 then a else b) + up (s_stamp s i 0%nat) y x * (if k =? 0 then c else d)))%R
  | Flux b, Some s, _ => if nth i tim_bands 0 =? b then s_stamp s i 0%nat y x else 0%R
  | Shape k, Some s, _ => (s_counts s i * ((s_stamp s i (k + 1)%nat y x - s_stamp s i 0%nat y x) / s_steps s i k))%R
  | Sky b, _, Some q => if nth i tim_bands 0 =? b then (b_scale q i ^ 2)%R else 0%R
  | _, _, _ => 0%R
  end.
Definition linear (v : list R) (i y x : nat) : R := rs (fun s => deriv (nth s kinds Other) i y x * nth s v 0)%R (seq 0 (length kinds)).
(** Squared weighted residuals of the linearised model, and of the priors. *)
Definition objective (pri : list (@term R)) (v : list R) : R :=
  (rs (fun i => rs (fun y => rs (fun x => ((padpix i y x - (current i y x + linear v i y x)) * padie i y x) ^ 2) (seq 0 pW)) (seq 0 pH)) (seq 0 (length tim_bands))
   + rs (fun t => (nth 0 (t_vals t) 0 * nth (t_col t) v 0 - nth 0 (t_b t) 0) ^ 2) pri)%R.
(** The bands of the images are parameters, the source's parameters are the
    listed ones. *)
Definition layout : Prop :=
  (match src with Some s => (s_npos s = 0 \/ s_npos s = 2) /\ NoDup (s_bands s) /\ incl tim_bands (s_bands s) /\
                            s_nparams s = s_npos s + length (s_bands s) + s_nshapes s | None => True end) /\
  (match sb with Some b => NoDup (b_bands b) /\ incl tim_bands (b_bands b) | None => True end).
(** A parameter the images say something about. *)
Definition seen (k : kind) : Prop := match k with Flux b | Sky b => In b tim_bands | Other => False | _ => True end.
(** Priors: one row each, no row twice, on parameters that are seen. *)
Definition simple_priors (pri : list (@term R)) : Prop :=
  NoDup (map (fun t => nth 0 (t_rows t) 0) pri) /\
  forall t, In t pri -> (exists r v b, t_rows t = [r] /\ t_vals t = [v] /\ t_b t = [b]) /\ t_col t < length kinds /\ seen (nth (t_col t) kinds Other).
End Spec.
(** np.unique: each value once. *)
Definition unique_ok (uniq : list nat -> list nat) : Prop := forall l, NoDup (uniq l) /\ forall b, In b (uniq l) <-> In b l.
(** lstsq: a vector that minimises the squared residuals. *)
Definition residuals (A : list (list R)) (b z : list R) : R := rs (fun rb => (dotp 0%R Rplus Rmult (fst rb) z - snd rb) ^ 2)%R (combine A b).
Definition minimises (lstsq : nat -> list (list R) -> list R -> list R) : Prop := forall n A b,
  Forall (fun row => length row = n) A -> length b = length A ->
  length (lstsq n A b) = n /\ forall z, length z = n -> (residuals A b (lstsq n A b) <= residuals A b z)%R.

(** ** Sums over reals *)
Notation sum_ext := (DenseProps.sum_ext_in 0%R Rplus).
Notation on_reals f := (f 0%R 1%R Rplus Rmult Rminus Ropp Rdiv Rinv Rfield) (only parsing).
Lemma rs_zero {A} (f : A -> R) l : (forall a, In a l -> f a = 0%R) -> rs f l = 0%R.
Proof. induction l as [|a l IH]; intros H; [reflexivity|]. cbn [lsum fold_right]. rewrite (H a (or_introl eq_refl)). unfold lsum in IH. rewrite IH by (intros; apply H; right; auto). lra. Qed.
Lemma rs_add {A} (f g : A -> R) l : rs (fun a => f a + g a)%R l = (rs f l + rs g l)%R.
Proof. induction l as [|a l IH]; cbn [lsum fold_right]; [lra|]. unfold lsum in IH. rewrite IH. lra. Qed.
Lemma rs_split {A} (p : A -> bool) (f : A -> R) l : rs f l = (rs f (filter p l) + rs f (filter (fun a => negb (p a)) l))%R.
Proof. induction l as [|a l IH]; cbn [filter lsum fold_right]; [lra|]. unfold lsum in *. destruct (p a); cbn [negb fold_right]; rewrite IH; lra. Qed.
Lemma rs_nonneg {A} (f : A -> R) l : (forall a, In a l -> 0 <= f a)%R -> (0 <= rs f l)%R.
Proof. induction l as [|a l IH]; intros H; cbn [lsum fold_right]; [lra|]. specialize (H a (or_introl eq_refl)) as H0. assert (0 <= rs f l)%R by (apply IH; intros; apply H; right; auto). unfold lsum in *. lra. Qed.
Lemma rs_pos_zero {A} (f : A -> R) l : (forall a, In a l -> 0 <= f a)%R -> rs f l = 0%R -> forall a, In a l -> f a = 0%R.
Proof.
  induction l as [|b l IH]; intros H E a I; [destruct I|]. cbn [lsum fold_right] in E. fold (rs f l) in E.
  pose proof (H b (or_introl eq_refl)). pose proof (rs_nonneg f l ltac:(intros; apply H; right; auto)).
  destruct I as [<-|I]; [lra|]. apply IH; auto; [intros; apply H; right; auto|lra].
Qed.

(** ** Positions *)
Lemma index_some b l c : index_of b l = Some c -> nth_error l c = Some b.
Proof.
  revert c. induction l as [|a l IH]; intros c H; [discriminate|]. cbn in H. destruct (Nat.eqb_spec a b) as [->|N].
  - injection H as <-. reflexivity.
  - destruct (index_of b l) as [k|]; [|discriminate]. injection H as <-. cbn. auto.
Qed.
Lemma index_in b l : In b l -> exists c, index_of b l = Some c.
Proof. induction l as [|a l IH]; intros []; cbn. - subst. rewrite Nat.eqb_refl. eauto. - destruct (a =? b); eauto. destruct (IH H) as [c ->]. cbn. eauto. Qed.
Lemma nodup_nth (l : list nat) i j b : NoDup l -> nth_error l i = Some b -> nth_error l j = Some b -> i = j.
Proof. intros H A B. apply (proj1 (NoDup_nth_error l) H); [apply nth_error_Some; congruence|congruence]. Qed.
Lemma dict_find d k v : In (k, v) d -> (forall v', In (k, v') d -> v' = v) -> dict_get d k = Ok v.
Proof.
  intros I U. unfold dict_get. destruct (find _ _) as [[k' v']|] eqn:E.
  - apply find_some in E. destruct E as [E1 E2]. cbn in E2. apply Nat.eqb_eq in E2. subst k'. apply in_rev in E1. rewrite (U _ E1). reflexivity.
  - exfalso. rewrite in_rev in I. apply (find_none _ _ E) in I. cbn in I. rewrite Nat.eqb_refl in I. discriminate.
Qed.

(** ** The pixel block of the matrix *)
Lemma fold_columns (n m base : nat) (f : nat -> nat -> R) (A : nat -> nat -> R) r c :
  fold_left (fun A j => set_block A 0 m (base + j) (f j)) (seq 0 n) A r c =
  if (r <? m) && (base <=? c) && (c <? base + n) then f (c - base) r else A r c.
Proof.
  induction n as [|n IH].
  - cbn [seq fold_left]. destruct (Nat.leb_spec base c), (Nat.ltb_spec c (base + 0)); try lia; rewrite ?andb_false_r; reflexivity.
  - rewrite seq_S, fold_left_app. cbn [fold_left Nat.add]. unfold set_block at 1. cbn [Nat.leb]. rewrite andb_true_r, Nat.add_0_l, Nat.sub_0_r, IH.
    destruct (Nat.eqb_spec c (base + n)) as [->|N].
    + destruct (r <? m); cbn [andb]; [|reflexivity]. destruct (Nat.leb_spec base (base + n)), (Nat.ltb_spec (base + n) (base + S n)); try lia. cbn [andb]. f_equal. lia.
    + cbn [andb]. destruct (Nat.ltb_spec c (base + n)), (Nat.ltb_spec c (base + S n)); try lia; reflexivity.
Qed.
Section Pixels.
Variables (pH pW : nat).
Hypothesis (HpH : 0 < pH) (HpW : 0 < pW).
Notation P := (pH * pW).
Lemma P_pos : 0 < P. Proof. apply Nat.mul_pos_pos; auto. Qed.
Lemma block_in r i : (i * P <=? r) && (r <? i * P + P) = (r / P =? i).
Proof.
  pose proof P_pos as HP. pose proof (Nat.div_mod r P ltac:(lia)) as E. pose proof (Nat.mod_upper_bound r P ltac:(lia)) as B.
  set (q := r / P) in *. set (m := r mod P) in *. clearbody q m. set (p := P) in *. clearbody p.
  destruct (Nat.eqb_spec q i) as [->|N].
  - apply andb_true_iff. rewrite Nat.leb_le, Nat.ltb_lt. nia.
  - apply andb_false_iff. rewrite Nat.leb_gt, Nat.ltb_ge. destruct (Nat.lt_ge_cases q i); [left|right]; nia.
Qed.
Lemma block_off r : r - r / P * P = r mod P.
Proof. pose proof P_pos as HP. pose proof (Nat.div_mod r P ltac:(lia)) as E. rewrite (Nat.mul_comm P) in E. lia. Qed.
Lemma mod_mod r : r mod P mod pW = r mod pW.
Proof.
  rewrite Nat.mul_comm. rewrite Nat.mod_mul_r by lia. rewrite Nat.mul_comm, Nat.mod_add by lia. apply Nat.mod_mod. lia.
Qed.
Lemma npix_iff n r : (r <? n * P) = (r / P <? n).
Proof.
  pose proof P_pos as HP. destruct (Nat.ltb_spec (r / P) n) as [L|L].
  - apply Nat.ltb_lt. rewrite Nat.mul_comm. pose proof (Nat.mul_succ_div_gt r P ltac:(lia)). nia.
  - apply Nat.ltb_ge. rewrite Nat.mul_comm. pose proof (Nat.mul_div_le r P ltac:(lia)). nia.
Qed.
Lemma fold_blocks (n : nat) (cf : nat -> nat) (f : nat -> nat -> R) (A : nat -> nat -> R) r c :
  fold_left (fun A i => set_block A (i * P) P (cf i) (f i)) (seq 0 n) A r c =
  if (r <? n * P) && (c =? cf (r / P)) then f (r / P) (r mod P) else A r c.
Proof.
  induction n as [|n IH]; [reflexivity|]. rewrite seq_S, fold_left_app. cbn [fold_left Nat.add]. unfold set_block at 1.
  rewrite <- andb_assoc, block_in, IH, !npix_iff. destruct (Nat.eqb_spec (r / P) n) as [E|E].
  - replace (r - n * P) with (r mod P) by (rewrite <- E; symmetry; apply block_off). rewrite E. destruct (Nat.ltb_spec n (S n)); [|lia]. destruct (Nat.ltb_spec n n); [lia|].
    rewrite andb_true_r. cbn [andb]. destruct (c =? cf n); reflexivity.
  - rewrite andb_false_r. destruct (Nat.ltb_spec (r / P) n), (Nat.ltb_spec (r / P) (S n)); try lia; reflexivity.
Qed.
Lemma flat_sum (n : nat) (f : nat -> nat -> nat -> R) :
  rs (flat pH pW f) (seq 0 (n * P)) = rs (fun i => rs (fun y => rs (fun x => f i y x) (seq 0 pW)) (seq 0 pH)) (seq 0 n).
Proof.
  rewrite Nat.mul_comm.
  rewrite (sum_ext _ (fun k => (fun i m => f i (m / pW) (m mod pW)) (k / P) (k mod P))).
  2:{ intros k _. unfold flat. rewrite mod_mod. reflexivity. }
  rewrite (on_reals DenseProps.sum_grid (fun i m => f i (m / pW) (m mod pW))). apply sum_ext. intros i _.
  rewrite (Nat.mul_comm pH pW). apply (on_reals DenseProps.sum_grid (f i)).
Qed.
End Pixels.

Definition terms_of (pri : option (list (@term R))) : list (@term R) := match pri with Some ts => ts | None => [] end.
(** A parameter without influence. *)
Definition idle pH pW tim_bands padie src sb (ts : list (@term R)) (s : nat) : Prop :=
  (forall i y x, i < length tim_bands -> y < pH -> x < pW -> (deriv pH pW tim_bands src sb (nth s (kinds src sb) Other) i y x * padie i y x = 0)%R) /\
  (forall t, In t ts -> t_col t = s -> nth 0 (t_vals t) 0%R = 0%R).
Section System.
Variables (pH pW : nat).
Hypothesis (HpH : 0 < pH) (HpW : 0 < pW).
Variable uniq : list nat -> list nat.
Hypothesis HU : unique_ok uniq.
Variable tim_bands : list nat.
Variables (padpix padie : nat -> nat -> nat -> R).
Variable src : option gsrc.
Variable sb : option gsb.
Hypothesis HL : layout tim_bands src sb.
Notation P := (pH * pW).
Notation ubands := (ubands uniq tim_bands).
Notation nbands := (nbands uniq tim_bands src).
Notation npos := (npos src).
Notation nshapes := (nshapes src).
Notation ncols := (ncols uniq tim_bands src sb).
Notation npix := (npix pH pW tim_bands).
Notation band_col := (band_col uniq tim_bands).
Notation kinds := (kinds src sb).
Notation deriv := (deriv pH pW tim_bands src sb).
Notation current := (current src sb).
Notation pixel_A := (pixel_A pH pW uniq tim_bands padie src sb).
Notation pixel_B := (pixel_B pH pW tim_bands padpix padie src sb).
Notation param_indices := (param_indices uniq tim_bands src sb).
Notation nsb := (nsb uniq tim_bands sb).
Notation src_bands := (src_bands src).
Notation sb_bands := (sb_bands sb).
Notation flat := (flat pH pW).

Lemma npos_cases : npos = 0 \/ npos = 2.
Proof. unfold GpuLsqModel.npos. destruct HL as [H _]. destruct src as [s|]; [apply H|auto]. Qed.
Lemma band_col_spec i : i < length tim_bands -> nth_error ubands (band_col i) = Some (nth i tim_bands 0) /\ band_col i < length ubands.
Proof.
  intros Hi. assert (I : In (nth i tim_bands 0) ubands) by (apply (HU tim_bands); apply nth_In; auto).
  destruct (index_in _ _ I) as [c E]. unfold GpuLsqModel.band_col. rewrite E. pose proof (index_some _ _ _ E) as N. split; auto. apply nth_error_Some. congruence.
Qed.
Lemma inner_right g y x : y < pH -> x < pW -> ddx pH pW g y x = right pH pW g y x /\ ddy pH pW g y x = up pH pW g y x.
Proof.
  intros Hy Hx. unfold ddx, ddy, right, up, inner.
  destruct (Nat.leb_spec 1 y), (Nat.ltb_spec y (pH - 1)), (Nat.leb_spec 1 x), (Nat.ltb_spec x (pW - 1)),
    (Nat.eqb_spec y 0), (Nat.leb_spec (pH - 1) y), (Nat.eqb_spec x 0), (Nat.leb_spec (pW - 1) x); try lia; cbn [andb orb]; auto.
Qed.
(** Row and column within the frame. *)
Lemma row_parts r : r < npix -> r / P < length tim_bands /\ r mod P / pW < pH /\ r mod pW < pW.
Proof.
  intros H. pose proof (P_pos pH pW HpH HpW) as HP. split; [|split].
  - apply Nat.ltb_lt. rewrite <- (npix_iff pH pW HpH HpW). apply Nat.ltb_lt. exact H.
  - apply Nat.div_lt_upper_bound; [lia|]. rewrite Nat.mul_comm. apply Nat.mod_upper_bound. lia.
  - apply Nat.mod_upper_bound. lia.
Qed.
Lemma pixel_A_zero r c : npix <= r -> pixel_A r c = 0%R.
Proof.
  intros H. assert (E : (r <? length tim_bands * P) = false) by (apply Nat.ltb_ge; exact H). assert (E' : (r <? npix) = false) by (apply Nat.ltb_ge; exact H).
  unfold GpuLsqModel.pixel_A. cbv zeta.
  assert (HS : (match src with Some s => write_shapes pH pW uniq tim_bands padie src s (write_flux pH pW uniq tim_bands padie src s (write_pos pH pW tim_bands padie s zero_mat)) | None => zero_mat end) r c = 0%R).
  { destruct src as [s|]; [|reflexivity]. unfold write_shapes. rewrite fold_columns. rewrite E'. cbn [andb].
    unfold write_flux. rewrite (fold_blocks pH pW HpH HpW _ (fun i => GpuLsqModel.npos (Some s) + band_col i)). unfold nimages. rewrite E. cbn [andb].
    unfold write_pos. destruct (s_npos s =? 0); [reflexivity|]. unfold set_block. cbn [Nat.leb Nat.add]. rewrite E', !andb_false_r. reflexivity. }
  destruct sb as [b|]; [|exact HS]. unfold write_sb. rewrite (fold_blocks pH pW HpH HpW _ (fun i => npos + nbands + nshapes + band_col i)). unfold nimages. rewrite E. cbn [andb]. exact HS.
Qed.
(** The source's index and the matrix column of each parameter. *)
Inductive pair_of : kind -> nat -> nat -> Prop :=
| pair_pos k : npos = 2 -> k < 2 -> pair_of (Pos k) k k
| pair_flux i b c : nth_error src_bands i = Some b -> nth_error ubands c = Some b -> pair_of (Flux b) (npos + i) (npos + c)
| pair_shape k : k < nshapes -> pair_of (Shape k) (npos + length src_bands + k) (npos + nbands + k)
| pair_sky i b c : nth_error sb_bands i = Some b -> nth_error ubands c = Some b ->
    pair_of (Sky b) (npos + length src_bands + nshapes + i) (npos + nbands + nshapes + c).
Lemma ubands_nodup : NoDup ubands. Proof. apply (HU tim_bands). Qed.
Lemma in_band_pairs s0 c0 bs s c : In (s, c) (band_pairs uniq tim_bands s0 c0 bs) <->
  exists i b c', nth_error bs i = Some b /\ nth_error ubands c' = Some b /\ s = s0 + i /\ c = c0 + c'.
Proof.
  unfold band_pairs. rewrite in_flat_map. split.
  - intros ([i b] & I & H). apply GpuMixProps.enum_in in I. cbn [fst snd] in H. destruct (index_of b ubands) as [c'|] eqn:E; [|destruct H].
    destruct H as [H|[]]. injection H as <- <-. exists i, b, c'. repeat split; auto. apply index_some. auto.
  - intros (i & b & c' & I & N & -> & ->). exists (i, b). split; [eapply nth_error_In; apply GpuMixProps.enum_nth; exact I|]. cbn [fst snd].
    destruct (index_in b ubands ltac:(eapply nth_error_In; exact N)) as [k E]. rewrite E. apply index_some in E. rewrite (nodup_nth _ _ _ _ ubands_nodup E N). left. reflexivity.
Qed.
Lemma in_params s c : In (s, c) param_indices <-> exists k, pair_of k s c.
Proof.
  unfold GpuLsqModel.param_indices. rewrite !in_app_iff, !in_band_pairs, in_map_iff. split.
  - intros [H|[H|[H|H]]].
    + destruct npos_cases as [E|E]; rewrite E in H; cbn in H; [tauto|]. destruct H as [H|[H|[]]]; injection H as <- <-; [exists (Pos 0)|exists (Pos 1)]; constructor; auto.
    + destruct H as (i & b & c' & A & B & -> & ->). exists (Flux b). constructor; auto.
    + destruct H as (k & E & I). injection E as <- <-. apply in_seq in I. exists (Shape k). constructor. lia.
    + destruct H as (i & b & c' & A & B & -> & ->). exists (Sky b). constructor; auto.
  - intros [k H]. destruct H as [k E L|i b c A B|k L|i b c A B].
    + left. rewrite E. cbn. destruct k as [|[|k]]; auto; lia.
    + right. left. exists i, b, c. auto.
    + right. right. left. exists k. split; auto. apply in_seq. lia.
    + right. right. right. exists i, b, c. auto.
Qed.
Lemma src_nodup : NoDup src_bands.
Proof. unfold GpuLsqModel.src_bands. destruct HL as [H _]. destruct src; [apply H|constructor]. Qed.
Lemma sb_nodup : NoDup sb_bands.
Proof. unfold GpuLsqModel.sb_bands. destruct HL as [_ H]. destruct sb; [apply H|constructor]. Qed.
Lemma nth_lt {A} (l : list A) i b : nth_error l i = Some b -> i < length l.
Proof. intros H. apply nth_error_Some. congruence. Qed.
Lemma nbands_src i b c : nth_error src_bands i = Some b -> nth_error ubands c = Some b -> c < nbands.
Proof. unfold GpuLsqModel.src_bands, GpuLsqModel.nbands. destruct src; [|destruct i; discriminate]. intros _ H. apply nth_lt in H. exact H. Qed.
Lemma nsb_sb i b c : nth_error sb_bands i = Some b -> nth_error ubands c = Some b -> c < nsb.
Proof. unfold GpuLsqModel.sb_bands, GpuLsqModel.nsb. destruct sb; [|destruct i; discriminate]. intros _ H. apply nth_lt in H. exact H. Qed.
Lemma pair_col k s c : pair_of k s c -> c < ncols.
Proof.
  unfold GpuLsqModel.ncols. intros H. inversion H; subst; try lia.
  - match goal with A : nth_error src_bands _ = _, B : nth_error ubands _ = _ |- _ => pose proof (nbands_src _ _ _ A B) end. lia.
  - match goal with A : nth_error sb_bands _ = _, B : nth_error ubands _ = _ |- _ => pose proof (nsb_sb _ _ _ A B) end. lia.
Qed.
Lemma kinds_app : kinds = map Pos (seq 0 npos) ++ map Flux src_bands ++ map Shape (seq 0 nshapes) ++ map Sky sb_bands.
Proof.
  unfold GpuLsqProps.kinds, GpuLsqModel.npos, GpuLsqModel.src_bands, GpuLsqModel.nshapes, GpuLsqModel.sb_bands.
  destruct src, sb; cbn [app map seq]; rewrite <- ?app_assoc, ?app_nil_r; reflexivity.
Qed.
Lemma kinds_length : length kinds = npos + length src_bands + nshapes + length sb_bands.
Proof. rewrite kinds_app, !app_length, !map_length, !seq_length. lia. Qed.
Lemma nout_kinds : nout src sb = length kinds.
Proof.
  rewrite kinds_length. unfold nout, GpuLsqModel.npos, GpuLsqModel.src_bands, GpuLsqModel.nshapes. destruct HL as [H _]. destruct src as [s|]; [|reflexivity].
  destruct H as (_ & _ & _ & ->). lia.
Qed.
Lemma kinds_pos k : k < npos -> nth k kinds Other = Pos k.
Proof.
  intros H. rewrite kinds_app, app_nth1 by (rewrite map_length, seq_length; auto). rewrite (nth_indep _ Other (Pos 0)) by (rewrite map_length, seq_length; auto).
  rewrite map_nth, seq_nth by auto. reflexivity.
Qed.
Lemma nth_map_err {A B} (f : A -> B) l i a d : nth_error l i = Some a -> nth i (map f l) d = f a.
Proof. intros H. apply nth_error_nth. apply map_nth_error. exact H. Qed.
Lemma kinds_flux i b : nth_error src_bands i = Some b -> nth (npos + i) kinds Other = Flux b.
Proof.
  intros H. rewrite kinds_app, app_nth2 by (rewrite map_length, seq_length; lia). rewrite map_length, seq_length. replace (npos + i - npos) with i by lia.
  rewrite app_nth1 by (rewrite map_length; apply (nth_lt _ _ _ H)). apply nth_map_err. exact H.
Qed.
Lemma kinds_shape k : k < nshapes -> nth (npos + length src_bands + k) kinds Other = Shape k.
Proof.
  intros H. rewrite kinds_app, !app_nth2 by (rewrite !map_length, ?seq_length; lia). rewrite !map_length, !seq_length.
  rewrite app_nth1 by (rewrite map_length, seq_length; lia). replace (npos + length src_bands + k - npos - length src_bands) with k by lia.
  rewrite (nth_map_err Shape (seq 0 nshapes) k k Other); auto. rewrite (nth_error_nth' _ 0) by (rewrite seq_length; auto). rewrite seq_nth by auto. reflexivity.
Qed.
Lemma kinds_sky i b : nth_error sb_bands i = Some b -> nth (npos + length src_bands + nshapes + i) kinds Other = Sky b.
Proof.
  intros H. rewrite kinds_app, !app_nth2 by (rewrite !map_length, ?seq_length; lia). rewrite !map_length, !seq_length.
  replace (_ - nshapes) with i by lia. apply nth_map_err. exact H.
Qed.
Lemma pair_kind k s c : pair_of k s c -> nth s kinds Other = k /\ s < length kinds.
Proof.
  intros H. rewrite kinds_length. inversion H; subst.
  - split; [apply kinds_pos|]; lia.
  - split; [apply kinds_flux; auto|]. match goal with A : nth_error src_bands _ = _ |- _ => apply nth_lt in A end. lia.
  - split; [apply kinds_shape; auto|]. lia.
  - split; [apply kinds_sky; auto|]. match goal with A : nth_error sb_bands _ = _ |- _ => apply nth_lt in A end. lia.
Qed.
Lemma pair_fun_fit k k' s s' c : pair_of k s c -> pair_of k' s' c -> s = s'.
Proof.
  intros H H'. inversion H; inversion H'; subst;
    repeat match goal with
    | A : nth_error src_bands _ = _, B : nth_error ubands _ = _ |- _ => pose proof (nbands_src _ _ _ A B); revert A B
    end; intros; try lia.
  - assert (EC : c0 = c1) by lia. subst. assert (b = b0) by congruence. subst. f_equal. eapply nodup_nth; eauto. apply src_nodup.
  - assert (EC : c0 = c1) by lia. subst. assert (b = b0) by congruence. subst. f_equal. eapply nodup_nth; eauto. apply sb_nodup.
Qed.
Lemma pair_fun_src k k' s c c' : pair_of k s c -> pair_of k' s c' -> c = c'.
Proof.
  intros H H'. inversion H; inversion H'; subst;
    repeat match goal with
    | A : nth_error src_bands _ = _ |- _ => pose proof (nth_lt _ _ _ A); revert A
    end; intros; try lia.
  - assert (EC : i = i0) by lia. subst. assert (b = b0) by congruence. subst. f_equal. eapply nodup_nth; eauto. apply ubands_nodup.
  - assert (EC : i = i0) by lia. subst. assert (b = b0) by congruence. subst. f_equal. eapply nodup_nth; eauto. apply ubands_nodup.
Qed.
(** Every column has a parameter, every seen parameter a column. *)
Lemma col_pair c : c < ncols -> exists k s, pair_of k s c.
Proof.
  unfold GpuLsqModel.ncols. intros H.
  assert (SRC : forall c, c < nbands -> exists b i, nth_error ubands c = Some b /\ nth_error src_bands i = Some b).
  { unfold GpuLsqModel.nbands, GpuLsqModel.src_bands. destruct HL as [HS _]. destruct src as [s|]; [|intros; lia]. destruct HS as (_ & _ & INC & _).
    intros c' L. destruct (nth_error ubands c') as [b|] eqn:E; [|apply nth_error_None in E; lia]. exists b.
    assert (I : In b (s_bands s)) by (apply INC; apply (HU tim_bands); eapply nth_error_In; exact E). destruct (In_nth_error _ _ I) as [i N]. eauto. }
  assert (SKY : forall c, c < nsb -> exists b i, nth_error ubands c = Some b /\ nth_error sb_bands i = Some b).
  { unfold GpuLsqModel.nsb, GpuLsqModel.sb_bands. destruct HL as [_ HS]. destruct sb as [s|]; [|intros; lia]. destruct HS as (_ & INC).
    intros c' L. destruct (nth_error ubands c') as [b|] eqn:E; [|apply nth_error_None in E; lia]. exists b.
    assert (I : In b (b_bands s)) by (apply INC; apply (HU tim_bands); eapply nth_error_In; exact E). destruct (In_nth_error _ _ I) as [i N]. eauto. }
  destruct (Nat.lt_ge_cases c npos) as [L|L].
  { exists (Pos c), c. constructor; destruct npos_cases; lia. }
  destruct (Nat.lt_ge_cases c (npos + nbands)) as [L1|L1].
  { destruct (SRC (c - npos) ltac:(lia)) as (b & i & A & B). exists (Flux b), (npos + i). replace c with (npos + (c - npos)) by lia. constructor; auto. }
  destruct (Nat.lt_ge_cases c (npos + nbands + nshapes)) as [L2|L2].
  { exists (Shape (c - npos - nbands)), (npos + length src_bands + (c - npos - nbands)). replace c with (npos + nbands + (c - npos - nbands)) at 3 by lia. constructor. lia. }
  destruct (SKY (c - (npos + nbands + nshapes)) ltac:(lia)) as (b & i & A & B). exists (Sky b), (npos + length src_bands + nshapes + i).
  replace c with (npos + nbands + nshapes + (c - (npos + nbands + nshapes))) by lia. constructor; auto.
Qed.
Lemma in_ubands b : In b tim_bands -> exists c, nth_error ubands c = Some b.
Proof. intros H. apply In_nth_error. apply (HU tim_bands). exact H. Qed.
Lemma seen_pair s : s < length kinds -> seen tim_bands (nth s kinds Other) -> exists c, pair_of (nth s kinds Other) s c.
Proof.
  rewrite kinds_length. intros H S.
  destruct (Nat.lt_ge_cases s npos) as [L|L].
  { rewrite kinds_pos by auto. exists s. constructor; destruct npos_cases; lia. }
  destruct (Nat.lt_ge_cases s (npos + length src_bands)) as [L1|L1].
  { destruct (nth_error src_bands (s - npos)) as [b|] eqn:E; [|apply nth_error_None in E; lia]. replace s with (npos + (s - npos)) in S |- * by lia.
    rewrite (kinds_flux _ _ E) in S |- *. destruct (in_ubands b S) as [c N]. exists (npos + c). constructor; auto. }
  destruct (Nat.lt_ge_cases s (npos + length src_bands + nshapes)) as [L2|L2].
  { replace s with (npos + length src_bands + (s - npos - length src_bands)) by lia. rewrite kinds_shape by lia. eexists. constructor. lia. }
  destruct (nth_error sb_bands (s - (npos + length src_bands + nshapes))) as [b|] eqn:E; [|apply nth_error_None in E; lia].
  replace s with (npos + length src_bands + nshapes + (s - (npos + length src_bands + nshapes))) in S |- * by lia.
  rewrite (kinds_sky _ _ E) in S |- *. destruct (in_ubands b S) as [c N]. eexists. constructor; eauto.
Qed.
Lemma unseen_zero s i y x : i < length tim_bands -> ~ seen tim_bands (nth s kinds Other) -> deriv (nth s kinds Other) i y x = 0%R.
Proof.
  intros Hi N. unfold GpuLsqProps.deriv. destruct (nth s kinds Other) as [| b | | b |]; cbn [seen] in N; try tauto.
  - destruct src; [|reflexivity]. destruct (Nat.eqb_spec (nth i tim_bands 0) b) as [<-|]; [|reflexivity]. exfalso. apply N. apply nth_In. auto.
  - destruct src, sb; try reflexivity; (destruct (Nat.eqb_spec (nth i tim_bands 0) b) as [<-|]; [|reflexivity]; exfalso; apply N; apply nth_In; auto).
Qed.
(** The entries of the matrix are weighted derivatives. *)
Definition at_row (f : nat -> nat -> nat -> R) (r : nat) : R := f (r / P) (r mod P / pW) (r mod pW).
Lemma write_pos_above s r c : src = Some s -> npos <= c -> write_pos pH pW tim_bands padie s zero_mat r c = 0%R.
Proof.
  intros E H. unfold write_pos. destruct (Nat.eqb_spec (s_npos s) 0) as [|N]; [reflexivity|].
  assert (npos = 2) by (destruct npos_cases as [Q|Q]; auto; unfold GpuLsqModel.npos in Q; rewrite E in Q; congruence).
  unfold set_block. destruct (Nat.eqb_spec c 1), (Nat.eqb_spec c 0); try lia. reflexivity.
Qed.
Lemma flux_iff c b i : i < length tim_bands -> nth_error ubands c = Some b -> (c =? band_col i) = (nth i tim_bands 0 =? b).
Proof.
  intros Hi N. destruct (band_col_spec i Hi) as [B _]. destruct (Nat.eqb_spec c (band_col i)) as [->|D], (Nat.eqb_spec (nth i tim_bands 0) b) as [E|E]; auto; try congruence.
  exfalso. apply D. rewrite <- E in N. eapply nodup_nth; eauto. apply ubands_nodup.
Qed.
Lemma pixel_A_pair k s c r : pair_of k s c -> r < npix -> pixel_A r c = at_row (fun i y x => deriv k i y x * padie i y x)%R r.
Proof.
  intros H Hr. destruct (row_parts r Hr) as (Hi & Hy & Hx).
  assert (E : (r <? length tim_bands * P) = true) by (apply Nat.ltb_lt; exact Hr). assert (E' : (r <? npix) = true) by (apply Nat.ltb_lt; exact Hr).
  pose proof (band_col_spec _ Hi) as [BC BL].
  unfold GpuLsqModel.pixel_A. cbv zeta.
  set (inner := match src with Some s => write_shapes pH pW uniq tim_bands padie src s (write_flux pH pW uniq tim_bands padie src s (write_pos pH pW tim_bands padie s zero_mat)) | None => zero_mat end).
  assert (SB : (match sb with Some b => write_sb pH pW uniq tim_bands padie src b inner | None => inner end) r c =
     match sb with Some b => if c =? npos + nbands + nshapes + band_col (r / P) then (b_scale b (r / P) ^ 2 * padie (r / P) (r mod P / pW) (r mod pW))%R else inner r c | None => inner r c end).
  { destruct sb as [b|]; [|reflexivity]. unfold write_sb. rewrite (fold_blocks pH pW HpH HpW _ (fun i => npos + nbands + nshapes + band_col i)). unfold nimages. rewrite E. cbn [andb].
    rewrite (mod_mod pH pW HpH HpW). reflexivity. }
  rewrite SB. clear SB.
  assert (NS : c < npos + nbands + nshapes -> (match sb with Some b => if c =? npos + nbands + nshapes + band_col (r / P) then (b_scale b (r / P) ^ 2 * padie (r / P) (r mod P / pW) (r mod pW))%R else inner r c | None => inner r c end) = inner r c).
  { intros L. destruct sb; [|reflexivity]. destruct (Nat.eqb_spec c (npos + nbands + nshapes + band_col (r / P))); [lia|reflexivity]. }
  assert (EI : forall s0, src = Some s0 -> inner = write_shapes pH pW uniq tim_bands padie src s0 (write_flux pH pW uniq tim_bands padie src s0 (write_pos pH pW tim_bands padie s0 zero_mat))).
  { intros s0 ES. unfold inner. destruct src; [injection ES as ->; reflexivity|discriminate]. }
  unfold at_row. destruct H as [k EP L|i b c A B|k L|i b c A B].
  - rewrite NS by lia. clear NS.     assert (ES : exists s, src = Some s) by (unfold GpuLsqModel.npos in EP; destruct src; [eauto|discriminate]). destruct ES as [s0 ES]. rewrite (EI s0 ES).
    unfold write_shapes. rewrite fold_columns. destruct (Nat.leb_spec (npos + nbands) k); [lia|]. rewrite andb_false_r. cbn [andb].
    unfold write_flux. rewrite (fold_blocks pH pW HpH HpW _ (fun i => npos + band_col i)). destruct (Nat.eqb_spec k (npos + band_col (r / P))); [lia|]. rewrite andb_false_r.
    unfold write_pos. assert (N0 : s_npos s0 = 2) by (unfold GpuLsqModel.npos in EP; rewrite ES in EP; exact EP). rewrite N0. cbn [Nat.eqb].
    unfold set_block. cbn [Nat.leb Nat.add]. rewrite E', Nat.sub_0_r, !andb_true_r. unfold GpuLsqModel.flat, GpuLsqProps.deriv. rewrite ES.
    destruct (s_cdi s0 (r / P)) as [[[a0 b0] c0] d0].
    destruct (inner_right (s_stamp s0 (r / P) 0) _ _ Hy Hx) as [-> ->].
    destruct k as [|[|k]]; cbn [Nat.eqb]; try lia; ring.
  - pose proof (nbands_src _ _ _ A B) as LB. rewrite NS by lia. clear NS.     assert (ES : exists s, src = Some s) by (unfold GpuLsqModel.src_bands in A; destruct src; [eauto|destruct i; discriminate]). destruct ES as [s0 ES]. rewrite (EI s0 ES).
    unfold write_shapes. rewrite fold_columns. destruct (Nat.leb_spec (npos + nbands) (npos + c)); [lia|]. rewrite andb_false_r. cbn [andb].
    unfold write_flux. rewrite (fold_blocks pH pW HpH HpW _ (fun i => npos + band_col i)). unfold nimages. rewrite E. cbn [andb].
    rewrite (write_pos_above s0 r (npos + c) ES) by lia.
    replace (npos + c =? npos + band_col (r / P)) with (c =? band_col (r / P)) by (destruct (Nat.eqb_spec c (band_col (r / P))), (Nat.eqb_spec (npos + c) (npos + band_col (r / P))); auto; lia).
    rewrite (flux_iff c b (r / P) Hi B). unfold GpuLsqProps.deriv. rewrite ES. rewrite (mod_mod pH pW HpH HpW).
    destruct (nth (r / P) tim_bands 0 =? b); ring.
  - rewrite NS by lia. clear NS.     assert (ES : exists s, src = Some s) by (unfold GpuLsqModel.nshapes in L; destruct src; [eauto|lia]). destruct ES as [s0 ES]. rewrite (EI s0 ES).
    unfold write_shapes. rewrite fold_columns. destruct (Nat.leb_spec (npos + nbands) (npos + nbands + k)); [|lia].
    destruct (Nat.ltb_spec (npos + nbands + k) (npos + nbands + nshapes)); [|lia]. rewrite E'. cbn [andb].
    replace (npos + nbands + k - (npos + nbands)) with k by lia. unfold GpuLsqModel.flat, GpuLsqProps.deriv. rewrite ES. unfold Rdiv. ring.
  - assert (EB : exists q, sb = Some q) by (unfold GpuLsqModel.sb_bands in A; destruct sb; [eauto|destruct i; discriminate]). destruct EB as [q EB]. rewrite EB. rewrite <- EB.
    replace (npos + nbands + nshapes + c =? npos + nbands + nshapes + band_col (r / P)) with (c =? band_col (r / P))
      by (destruct (Nat.eqb_spec c (band_col (r / P))), (Nat.eqb_spec (npos + nbands + nshapes + c) (npos + nbands + nshapes + band_col (r / P))); auto; lia).
    rewrite (flux_iff c b (r / P) Hi B). unfold GpuLsqProps.deriv. rewrite EB.
    assert (IZ : inner r (npos + nbands + nshapes + c) = 0%R).
    { assert (OS : (exists s0, src = Some s0) \/ src = None) by (destruct src; eauto). destruct OS as [[s0 ES]|ES]; [rewrite (EI s0 ES)|unfold inner; rewrite ES; reflexivity].
      unfold write_shapes. rewrite fold_columns.
      destruct (Nat.ltb_spec (npos + nbands + nshapes + c) (npos + nbands + nshapes)); [lia|]. rewrite andb_false_r.
      unfold write_flux. rewrite (fold_blocks pH pW HpH HpW _ (fun i => npos + band_col i)).
      assert (BL' : band_col (r / P) < nbands) by (unfold GpuLsqModel.nbands; rewrite ES; exact BL).
      destruct (Nat.eqb_spec (npos + nbands + nshapes + c) (npos + band_col (r / P))); [lia|]. rewrite andb_false_r.
      apply write_pos_above; auto. lia. }
    rewrite IZ. destruct src; destruct (nth (r / P) tim_bands 0 =? b); ring.
Qed.
Lemma pixel_B_row r : r < npix -> pixel_B r = at_row (fun i y x => (padpix i y x - current i y x) * padie i y x)%R r.
Proof.
  intros H. unfold GpuLsqModel.pixel_B, set_vec. cbn [Nat.leb andb Nat.add]. rewrite (proj2 (Nat.ltb_lt _ _) H), Nat.sub_0_r.
  unfold GpuLsqModel.flat, at_row, GpuLsqProps.current. destruct src, sb; ring.
Qed.
Lemma pixel_B_zero r : npix <= r -> pixel_B r = 0%R.
Proof. intros H. unfold GpuLsqModel.pixel_B, set_vec. cbn [Nat.leb andb Nat.add]. rewrite (proj2 (Nat.ltb_ge _ _) H). reflexivity. Qed.
Lemma fit_of k s c : pair_of k s c -> dict_get (src_to_fit uniq tim_bands src sb) s = Ok c.
Proof.
  intros H. apply dict_find; [apply in_params; eauto|]. intros c' I. apply in_params in I. destruct I as [k' H']. symmetry. eapply pair_fun_src; eauto.
Qed.
Lemma src_of k s c : pair_of k s c -> dict_get (fit_to_src uniq tim_bands src sb) c = Ok s.
Proof.
  intros H. assert (Q : forall s', In (c, s') (fit_to_src uniq tim_bands src sb) <-> In (s', c) param_indices).
  { intros s'. unfold fit_to_src. rewrite in_map_iff. split; [intros ([a b] & E & I); cbn in E; injection E as -> ->; auto|intros I; exists (s', c); auto]. }
  apply dict_find; [apply Q, in_params; eauto|]. intros s' I. apply Q in I. apply in_params in I. destruct I as [k' H']. symmetry. eapply pair_fun_fit; eauto.
Qed.
Lemma classic_pair s : (exists k c, pair_of k s c) \/ ~ (exists k c, pair_of k s c).
Proof.
  destruct (existsb (fun p => fst p =? s) param_indices) eqn:E.
  - left. apply existsb_exists in E. destruct E as ([s' c] & I & Q). cbn in Q. apply Nat.eqb_eq in Q. subst. apply in_params in I. destruct I as [k H]. eauto.
  - right. intros (k & c & H). assert (I : In (s, c) param_indices) by (apply in_params; eauto).
    assert (existsb (fun p => fst p =? s) param_indices = true) by (apply existsb_exists; exists (s, c); cbn; rewrite Nat.eqb_refl; auto). congruence.
Qed.
(** *** Priors *)
Notation prior_terms := (prior_terms pH pW uniq tim_bands src sb).
Definition trow (t : @term R) : nat := nth 0 (t_rows t) 0.
Lemma prior_terms_spec ts : simple_priors tim_bands src sb ts -> forall A B, exists A' B', prior_terms ts A B = Ok (A', B') /\
  (forall r, (forall t, In t ts -> r <> npix + trow t) -> (forall c, A' r c = A r c) /\ B' r = B r) /\
  (forall t k c, In t ts -> pair_of k (t_col t) c -> (forall c', A' (npix + trow t) c' = if c' =? c then nth 0 (t_vals t) 0%R else A (npix + trow t) c') /\
     B' (npix + trow t) = (B (npix + trow t)%nat + nth 0 (t_b t) 0)%R).
Proof.
  induction ts as [|t ts IH]; intros [ND HS] A B.
  { exists A, B. split; [reflexivity|]. split; [auto|]. intros t k c []. }
  destruct (HS t (or_introl eq_refl)) as ((r & v & b & ER & EV & EB) & HC & SN). destruct (seen_pair _ HC SN) as [c PC].
  assert (HS' : simple_priors tim_bands src sb ts) by (split; [inversion ND; auto|intros; apply HS; right; auto]).
  destruct (IH HS' (set1 A (npix + r) c v) (setf B (npix + r) (B (npix + r)%nat + b)%R)) as (A' & B' & E & O & T).
  assert (NR : forall t', In t' ts -> npix + r <> npix + trow t').
  { intros t' I Q. inversion ND as [|? ? N1 N2]; subst. apply N1. rewrite ER. cbn [nth]. replace r with (trow t') by lia. apply (in_map (fun t => nth 0 (t_rows t) 0)). exact I. }
  assert (TR : trow t = r) by (unfold trow; rewrite ER; reflexivity).
  exists A', B'. split; [|split].
  - cbn [GpuLsqModel.prior_terms]. rewrite ER, EV, EB. cbn [combine prior_term]. rewrite (fit_of _ _ _ PC). cbn [bind]. exact E.
  - intros r' N. destruct (O r') as [O1 O2]; [intros t' I; apply N; right; auto|]. pose proof (N t (or_introl eq_refl)) as N0. rewrite TR in N0.
    split; [intros c'; rewrite O1; unfold set1|rewrite O2; unfold setf]; destruct (Nat.eqb_spec r' (npix + r)); try congruence; reflexivity.
  - intros t' k' c' I P'. destruct I as [<-|I].
    + destruct (O (npix + r) NR) as [O1 O2]. rewrite TR, EV, EB. cbn [nth]. rewrite (pair_fun_src _ _ _ _ _ P' PC). split.
      * intros c2. rewrite O1. unfold set1. rewrite Nat.eqb_refl. cbn [andb]. reflexivity.
      * rewrite O2. unfold setf. rewrite Nat.eqb_refl. reflexivity.
    + destruct (T t' k' c' I P') as [T1 T2]. pose proof (NR t' I) as N0. split.
      * intros c2. rewrite T1. unfold set1. destruct (Nat.eqb_spec (npix + trow t') (npix + r)); [congruence|]. reflexivity.
      * rewrite T2. unfold setf. destruct (Nat.eqb_spec (npix + trow t') (npix + r)); [congruence|]. reflexivity.
Qed.
(** *** The objective, row by row *)
Variables (ts : list (@term R)) (np : nat) (A : nat -> nat -> R) (B : nat -> R).
Hypothesis HT : simple_priors tim_bands src sb ts.
Hypothesis HE : prior_terms ts pixel_A pixel_B = Ok (A, B).
Hypothesis HN : forall t, In t ts -> trow t < np.
Notation nrows := (npix + np).
Definition scale (c : nat) : R := sqrt (rs (fun r => A r c * A r c)%R (seq 0 nrows)).
Definition cols : list nat := filter (fun c => negb (reqb (scale c) 0)) (seq 0 ncols).
Definition sidx (c : nat) : nat := match dict_get (fit_to_src uniq tim_bands src sb) c with Ok s => s | Err _ => 0 end.
Lemma sidx_pair c : c < ncols -> exists k, pair_of k (sidx c) c.
Proof. intros H. destruct (col_pair c H) as (k & s & PP). exists k. unfold sidx. rewrite (src_of _ _ _ PP). exact PP. Qed.
Lemma sidx_of k s c : pair_of k s c -> sidx c = s.
Proof. intros H. unfold sidx. rewrite (src_of _ _ _ H). reflexivity. Qed.
Lemma scale_zero c r : scale c = 0%R -> r < nrows -> A r c = 0%R.
Proof.
  intros H L. assert (N : forall a, In a (seq 0 nrows) -> (0 <= A a c * A a c)%R) by (intros; apply Rle_0_sqr).
  pose proof (rs_nonneg _ _ N) as NN. apply sqrt_eq_0 in H; [|exact NN].
  pose proof (rs_pos_zero _ _ N H r ltac:(apply in_seq; lia)) as Z. apply Rmult_integral in Z. tauto.
Qed.
Lemma in_cols c : In c cols <-> c < ncols /\ scale c <> 0%R.
Proof.
  unfold cols. rewrite filter_In, in_seq. split; intros [H1 H2].
  - split; [lia|]. apply negb_true_iff in H2. apply GpuMixProps.reqb_false in H2. exact H2.
  - split; [lia|]. apply negb_true_iff. apply GpuMixProps.reqb_false. exact H2.
Qed.
Lemma cols_nodup : NoDup cols. Proof. apply NoDup_filter. apply seq_NoDup. Qed.
Lemma idx_nodup : NoDup (map sidx cols).
Proof.
  assert (H : forall l, NoDup l -> (forall c, In c l -> c < ncols) -> NoDup (map sidx l)).
  { induction l as [|a l IH]; intros ND L; cbn; constructor.
    - intros I. apply in_map_iff in I. destruct I as (b & E & I). destruct (sidx_pair a (L a (or_introl eq_refl))) as [k PA]. destruct (sidx_pair b (L b (or_intror I))) as [k' PB].
      rewrite E in PB. assert (a = b) by (eapply pair_fun_src; eauto). subst. inversion ND; auto.
    - apply IH; [inversion ND; auto|intros; apply L; right; auto]. }
  apply H; [apply cols_nodup|]. intros c I. apply in_cols in I. tauto.
Qed.
Lemma idx_bound s : In s (map sidx cols) -> s < length kinds.
Proof. rewrite in_map_iff. intros (c & <- & I). apply in_cols in I. destruct (sidx_pair c (proj1 I)) as [k PP]. apply (pair_kind _ _ _ PP). Qed.
Lemma row_sum (r : nat) (J : nat -> R) (v : list R) : r < nrows ->
  (forall k s c, pair_of k s c -> J s = A r c) -> (forall s, s < length kinds -> (forall k c, ~ pair_of k s c) -> J s = 0%R) ->
  rs (fun c => A r c * nth (sidx c) v 0)%R cols = rs (fun s => J s * nth s v 0)%R (seq 0 (length kinds)).
Proof.
  intros Hr HJ HZ.
  rewrite (DenseProps.sum_support 0%R 1%R Rplus Rmult Rminus Ropp Rdiv Rinv sqrt (fun _ => true) (fun _ => true) Rfield (fun s : nat => s) _ (map sidx cols) (seq 0 (length kinds))).
  - rewrite (DenseProps.sum_map 0%R Rplus). apply sum_ext. intros c I. apply in_cols in I. destruct (sidx_pair c (proj1 I)) as [k PP]. rewrite (HJ _ _ _ PP). reflexivity.
  - rewrite map_id. apply idx_nodup.
  - rewrite map_id. apply seq_NoDup.
  - intros s I. apply in_seq. pose proof (idx_bound s I). lia.
  - intros s I N. apply in_seq in I. destruct (classic_pair s) as [(k & c & PP)|NP].
    + rewrite (HJ _ _ _ PP). rewrite scale_zero; [ring| |exact Hr]. destruct (Req_dec (scale c) 0) as [E|E]; [exact E|]. exfalso. apply N. apply in_map_iff. exists c.
      split; [eapply sidx_of; eauto|]. apply in_cols. split; [eapply pair_col; eauto|exact E].
    + rewrite HZ; [ring|lia|]. intros k c PP. apply NP. eauto.
Qed.
Lemma AB_facts :
  (forall r, r < npix -> (forall c, A r c = pixel_A r c) /\ B r = pixel_B r) /\
  (forall r, npix <= r -> (forall t, In t ts -> r <> npix + trow t) -> (forall c, A r c = 0%R) /\ B r = 0%R) /\
  (forall t k c, In t ts -> pair_of k (t_col t) c -> (forall c', A (npix + trow t) c' = if c' =? c then nth 0 (t_vals t) 0%R else 0%R) /\ B (npix + trow t) = nth 0 (t_b t) 0%R).
Proof.
  destruct (prior_terms_spec ts HT pixel_A pixel_B) as (A' & B' & E & O & T). rewrite HE in E. injection E as <- <-. split; [|split].
  - intros r Hr. apply O. intros t _. lia.
  - intros r Hr N. destruct (O r N) as [O1 O2]. split; [intros c; rewrite O1; apply pixel_A_zero; auto|rewrite O2; apply pixel_B_zero; auto].
  - intros t k c I PP. destruct (T t k c I PP) as [T1 T2]. split.
    + intros c'. rewrite T1. rewrite pixel_A_zero by lia. reflexivity.
    + rewrite T2, pixel_B_zero by lia. ring.
Qed.
Definition lin (v : list R) (r : nat) : R := rs (fun c => A r c * nth (sidx c) v 0)%R cols.
Notation linear := (linear pH pW tim_bands src sb).
Lemma lin_pixel v r : r < npix -> lin v r = at_row (fun i y x => linear v i y x * padie i y x)%R r.
Proof.
  intros Hr. destruct AB_facts as (F & _ & _). destruct (F r Hr) as [F1 _].
  unfold lin. rewrite (row_sum r (fun s => at_row (fun i y x => deriv (nth s kinds Other) i y x * padie i y x)%R r)); [|lia| |].
  - unfold at_row, GpuLsqProps.linear. rewrite Rmult_comm. rewrite <- (on_reals DenseProps.sum_mul). apply sum_ext. intros s _. ring.
  - intros k s c PP. rewrite F1. rewrite (proj1 (pair_kind _ _ _ PP)). symmetry. eapply pixel_A_pair; eauto.
  - intros s Hs NP. unfold at_row. rewrite unseen_zero; [ring|apply (row_parts r Hr)|]. intros SN. destruct (seen_pair s Hs SN) as [c PP]. apply (NP _ _ PP).
Qed.
Lemma rs_single (f : nat -> R) n k : k < n -> (forall s, s <> k -> f s = 0%R) -> rs f (seq 0 n) = f k.
Proof.
  intros Hk H. rewrite (on_reals DenseProps.sum_window f n k 1) by (try lia; intros; apply H; lia). cbn. rewrite Nat.add_0_r. ring.
Qed.
Lemma lin_prior v t : In t ts -> lin v (npix + trow t) = (nth 0 (t_vals t) 0 * nth (t_col t) v 0)%R.
Proof.
  intros I. destruct AB_facts as (_ & _ & F). destruct HT as [_ HS]. destruct (HS t I) as (_ & HC & SN). destruct (seen_pair _ HC SN) as [c PP]. destruct (F t _ c I PP) as [F1 _].
  unfold lin. rewrite (row_sum (npix + trow t) (fun s => if s =? t_col t then nth 0 (t_vals t) 0%R else 0%R)).
  - rewrite (rs_single _ _ (t_col t) HC); [rewrite Nat.eqb_refl; ring|]. intros s N. destruct (Nat.eqb_spec s (t_col t)); [congruence|ring].
  - pose proof (HN t I). lia.
  - intros k s c' P'. rewrite F1. destruct (Nat.eqb_spec s (t_col t)) as [->|N], (Nat.eqb_spec c' c) as [->|N']; auto.
    + exfalso. apply N'. eapply pair_fun_src; eauto.
    + exfalso. apply N. eapply pair_fun_fit; eauto.
  - intros s Hs NP. destruct (Nat.eqb_spec s (t_col t)) as [->|]; auto. exfalso. apply (NP _ _ PP).
Qed.
Lemma rows_objective v : rs (fun r => (lin v r - B r) ^ 2)%R (seq 0 nrows) = objective pH pW tim_bands padpix padie src sb ts v.
Proof.
  destruct AB_facts as (F1 & F2 & F3). rewrite (on_reals DenseProps.sum_seq_split). unfold objective. f_equal.
  - rewrite <- (flat_sum pH pW HpH HpW (length tim_bands) (fun i y x => ((padpix i y x - (current i y x + linear v i y x)) * padie i y x) ^ 2)%R).
    apply sum_ext. intros r I. apply in_seq in I. assert (Hr : r < npix) by (unfold GpuLsqModel.npix; unfold nimages; lia).
    rewrite lin_pixel by auto. rewrite (proj2 (F1 r Hr)), pixel_B_row by auto. unfold at_row, GpuLsqModel.flat. ring.
  - rewrite (DenseProps.sum_support 0%R 1%R Rplus Rmult Rminus Ropp Rdiv Rinv sqrt (fun _ => true) (fun _ => true) Rfield (fun s : nat => s) _ (map trow ts) (seq 0 np)).
    + rewrite (DenseProps.sum_map 0%R Rplus). apply sum_ext. intros t I. rewrite lin_prior by auto.
      destruct HT as [_ HS]. destruct (HS t I) as (_ & HC & SN). destruct (seen_pair _ HC SN) as [c PP]. destruct (F3 t _ c I PP) as [_ ->]. reflexivity.
    + rewrite map_id. apply HT.
    + rewrite map_id. apply seq_NoDup.
    + intros r I. apply in_map_iff in I. destruct I as (t & <- & I). apply in_seq. pose proof (HN t I). lia.
    + intros r _ N. assert (NT : forall t, In t ts -> npix + r <> npix + trow t) by (intros t I Q; apply N; apply in_map_iff; exists t; split; auto; lia).
      destruct (F2 (npix + r) ltac:(lia) NT) as [Z1 Z2]. rewrite Z2. unfold lin. rewrite rs_zero by (intros; rewrite Z1; ring). ring.
Qed.
(** *** The solution *)
Variable lstsq : nat -> list (list R) -> list R -> list R.
Hypothesis HM : minimises lstsq.
Definition rows : list nat := filter (fun r => existsb (fun c => negb (reqb (A r c) 0)) cols) (seq 0 nrows).
Definition rowA (r : nat) : list R := map (fun c => (A r c / scale c)%R) cols.
Definition X : list R := lstsq (length cols) (map rowA rows) (map B rows).
Definition Xs : list R := map (fun xc => (fst xc / scale (snd xc))%R) (combine X cols).
Definition sX : list R := expand 0%R (length kinds) (map sidx cols) Xs.
Lemma dotp_maps (f g : nat -> R) l : dotp 0%R Rplus Rmult (map f l) (map g l) = rs (fun c => f c * g c)%R l.
Proof. unfold dotp. induction l as [|a l IH]; [reflexivity|]. cbn [map combine lsum fold_right fst snd]. unfold lsum in IH. rewrite IH. reflexivity. Qed.
Lemma residuals_maps l z : residuals (map rowA l) (map B l) z = rs (fun r => (dotp 0%R Rplus Rmult (rowA r) z - B r) ^ 2)%R l.
Proof. unfold residuals. induction l as [|a l IH]; [reflexivity|]. cbn [map combine lsum fold_right fst snd]. unfold lsum in IH. rewrite IH. reflexivity. Qed.
Definition scaled (v : list R) : list R := map (fun c => (scale c * nth (sidx c) v 0)%R) cols.
Lemma dot_scaled v r : dotp 0%R Rplus Rmult (rowA r) (scaled v) = lin v r.
Proof.
  unfold rowA, scaled. rewrite dotp_maps. apply sum_ext. intros c I. apply in_cols in I. field. tauto.
Qed.
Lemma total_split v : rs (fun r => (lin v r - B r) ^ 2)%R (seq 0 nrows) =
  (residuals (map rowA rows) (map B rows) (scaled v) + rs (fun r => (B r) ^ 2)%R (filter (fun r => negb (existsb (fun c => negb (reqb (A r c) 0)) cols)) (seq 0 nrows)))%R.
Proof.
  rewrite (rs_split (fun r => existsb (fun c => negb (reqb (A r c) 0)) cols)). fold rows. f_equal.
  - rewrite residuals_maps. apply sum_ext. intros r _. rewrite dot_scaled. reflexivity.
  - apply sum_ext. intros r I. apply filter_In in I. destruct I as [_ I]. apply negb_true_iff in I. unfold lin. rewrite rs_zero; [ring|].
    intros c Hc. assert (Z : A r c = 0%R). { destruct (Req_dec (A r c) 0) as [E|E]; auto. exfalso. assert (existsb (fun c => negb (reqb (A r c) 0)) cols = true); [|congruence].
      apply existsb_exists. exists c. split; auto. apply negb_true_iff. apply GpuMixProps.reqb_false. exact E. }
    rewrite Z. ring.
Qed.
Lemma X_length : length X = length cols /\ forall z, length z = length cols -> (residuals (map rowA rows) (map B rows) X <= residuals (map rowA rows) (map B rows) z)%R.
Proof.
  apply HM; [|rewrite !map_length; reflexivity]. apply Forall_forall. intros row I. apply in_map_iff in I. destruct I as (r & <- & _). unfold rowA. apply map_length.
Qed.
Lemma sX_facts : length sX = length kinds /\ (forall s, ~ In s (map sidx cols) -> nth s sX 0%R = 0%R) /\ scaled sX = X.
Proof.
  destruct X_length as [XL _]. assert (L : length Xs = length (map sidx cols)) by (unfold Xs; rewrite !map_length, combine_length; lia).
  destruct (DenseProps.expand_spec 0%R (length kinds) (map sidx cols) Xs idx_nodup L idx_bound) as (L1 & L2 & L3). fold sX in L1, L2, L3.
  split; [exact L1|]. split; [exact L2|]. apply (nth_ext _ _ 0%R 0%R); [unfold scaled; rewrite map_length; auto|].
  intros k Hk. unfold scaled in Hk |- *. rewrite map_length in Hk.
  rewrite (nth_indep _ 0%R ((fun c => (scale c * nth (sidx c) sX 0)%R) 0)) by (rewrite map_length; exact Hk).
  rewrite (map_nth (fun c => (scale c * nth (sidx c) sX 0)%R)).
  specialize (L3 k ltac:(rewrite map_length; exact Hk)). rewrite (nth_indep _ 0 (sidx 0)) in L3 by (rewrite map_length; exact Hk). rewrite map_nth in L3. rewrite L3.
  unfold Xs. rewrite (nth_indep _ 0%R ((fun xc => (fst xc / scale (snd xc))%R) (0%R, 0))) by (rewrite map_length, combine_length; lia).
  rewrite (map_nth (fun xc : R * nat => (fst xc / scale (snd xc))%R)). rewrite combine_nth by auto. cbn [fst snd].
  assert (I : In (nth k cols 0) cols) by (apply nth_In; exact Hk). apply in_cols in I. field. tauto.
Qed.
Lemma sX_minimum v : (objective pH pW tim_bands padpix padie src sb ts sX <= objective pH pW tim_bands padpix padie src sb ts v)%R.
Proof.
  rewrite <- !rows_objective, !total_split. destruct sX_facts as (_ & _ & ->). apply Rplus_le_compat_r. apply X_length. unfold scaled. apply map_length.
Qed.
Notation idle := (idle pH pW tim_bands padie src sb ts).
Lemma at_rc i y x : i < length tim_bands -> y < pH -> x < pW -> let r := i * P + (y * pW + x) in
  r < npix /\ r / P = i /\ r mod P / pW = y /\ r mod pW = x.
Proof.
  intros Hi Hy Hx r. assert (HP := P_pos pH pW HpH HpW). assert (L : y * pW + x < P) by nia.
  assert (D : r / P = i) by (unfold r; rewrite Nat.div_add_l by lia; rewrite Nat.div_small by exact L; lia).
  assert (M : r mod P = y * pW + x) by (unfold r; rewrite Nat.add_comm, Nat.mod_add by lia; apply Nat.mod_small; exact L).
  split; [|split; [exact D|split]].
  - unfold GpuLsqModel.npix, nimages, r. nia.
  - rewrite M, Nat.div_add_l by lia. rewrite Nat.div_small; lia.
  - rewrite <- (mod_mod pH pW HpH HpW), M, Nat.add_comm, Nat.mod_add by lia. apply Nat.mod_small. exact Hx.
Qed.
Lemma idle_out s : idle s -> ~ In s (map sidx cols).
Proof.
  intros [I1 I2] I. apply in_map_iff in I. destruct I as (c & <- & I). apply in_cols in I. destruct I as [LC NZ]. destruct (sidx_pair c LC) as [k PP]. apply NZ.
  destruct AB_facts as (F1 & F2 & F3). unfold scale. rewrite rs_zero; [apply sqrt_0|]. intros r Hr. apply in_seq in Hr. assert (Z : A r c = 0%R); [|rewrite Z; ring].
  destruct (Nat.lt_ge_cases r npix) as [L|L].
  - rewrite (proj1 (F1 r L)), (pixel_A_pair _ _ _ _ PP L). unfold at_row. destruct (row_parts r L) as (Hi & Hy & Hx). rewrite <- (proj1 (pair_kind _ _ _ PP)). apply I1; auto.
  - destruct (in_dec Nat.eq_dec (r - npix) (map trow ts)) as [IT|NT].
    + apply in_map_iff in IT. destruct IT as (t & E & IT). destruct HT as [_ HS]. destruct (HS t IT) as (_ & HC & SN). destruct (seen_pair _ HC SN) as [ct PT].
      destruct (F3 t _ ct IT PT) as [F4 _]. replace r with (npix + trow t) by lia. rewrite F4. destruct (Nat.eqb_spec c ct) as [->|]; [|reflexivity].
      apply I2; auto. eapply pair_fun_fit; eauto.
    + apply F2; auto. intros t IT E. apply NT. apply in_map_iff. exists t. split; auto. lia.
Qed.
Lemma none_idle : cols = [] -> forall s, s < length kinds -> idle s.
Proof.
  intros EC s Hs. destruct AB_facts as (F1 & F2 & F3).
  assert (Z : forall k c r, pair_of k s c -> r < nrows -> A r c = 0%R).
  { intros k c r PP Hr. apply scale_zero; auto. destruct (Req_dec (scale c) 0) as [E|E]; auto. exfalso. assert (I : In c cols) by (apply in_cols; split; [eapply pair_col; eauto|auto]). rewrite EC in I. destruct I. }
  split.
  - intros i y x Hi Hy Hx. assert (DS : seen tim_bands (nth s kinds Other) \/ ~ seen tim_bands (nth s kinds Other)).
    { unfold seen. destruct (nth s kinds Other) as [|b| |b|]; try tauto; destruct (in_dec Nat.eq_dec b tim_bands); auto. }
    destruct DS as [SN|SN]; [|rewrite (unseen_zero s i y x Hi SN); ring].
    destruct (seen_pair s Hs SN) as [c PP]. destruct (at_rc i y x Hi Hy Hx) as (L & E1 & E2 & E3). set (r := i * P + (y * pW + x)) in *.
    pose proof (Z _ _ r PP ltac:(lia)) as Q. rewrite (proj1 (F1 r L)), (pixel_A_pair _ _ _ _ PP L) in Q. unfold at_row in Q. rewrite E1, E2, E3 in Q. exact Q.
  - intros t IT <-. destruct HT as [_ HS]. destruct (HS t IT) as (_ & HC & SN). destruct (seen_pair _ HC SN) as [c PP]. destruct (F3 t _ c IT PP) as [F4 _].
    pose proof (Z _ _ (npix + trow t) PP ltac:(pose proof (HN t IT); lia)) as Q. rewrite F4, Nat.eqb_refl in Q. exact Q.
Qed.
Lemma idx_map : mapR (dict_get (fit_to_src uniq tim_bands src sb)) cols = Ok (map sidx cols).
Proof.
  assert (H : forall l, (forall c, In c l -> c < ncols) -> mapR (dict_get (fit_to_src uniq tim_bands src sb)) l = Ok (map sidx l)).
  { induction l as [|c l IH]; intros L; [reflexivity|]. cbn [mapR map]. destruct (sidx_pair c (L c (or_introl eq_refl))) as [k PP]. rewrite (src_of _ _ _ PP). cbn [bind].
    rewrite IH by (intros; apply L; right; auto). reflexivity. }
  apply H. intros c I. apply in_cols in I. tauto.
Qed.
Lemma update_eq pri : terms_of pri = ts -> npriors pri = Ok np ->
  gpu_update pH pW uniq lstsq tim_bands padpix padie src sb pri = if (length cols <? ncols) && (length cols =? 0) then Ok None else Ok (Some sX).
Proof.
  intros ET EN. unfold gpu_update, system.
  assert (E0 : negb ((npos =? 0) || (npos =? 2)) = false) by (destruct npos_cases as [Q|Q]; rewrite Q; reflexivity). rewrite E0, EN. cbn [bind].
  assert (EP : match pri with Some ts => prior_terms ts pixel_A pixel_B | None => Ok (pixel_A, pixel_B) end = Ok (A, B)).
  { destruct pri; cbn [terms_of] in ET; [rewrite ET; exact HE|]. rewrite <- ET in HE. exact HE. }
  rewrite EP. cbn [bind].
  change (filter (fun c : nat => negb (reqb (sqrt (lsum 0%R Rplus (fun r : nat => (A r c * A r c)%R) (seq 0 nrows))) 0)) (seq 0 ncols)) with cols.
  destruct ((length cols <? ncols) && (length cols =? 0)); [reflexivity|]. rewrite idx_map. cbn [bind q_cols q_rows q_A q_B q_scale q_idx]. fold rows.
  unfold scatter. rewrite nout_kinds.
  assert (EF : forallb (fun k => k <? length kinds) (map sidx cols) = true) by (apply forallb_forall; intros k I; apply Nat.ltb_lt; apply idx_bound; exact I).
  rewrite EF. reflexivity.
Qed.
End System.

(** ** Theorems *)
Lemma npriors_ok pri : (forall ts, pri = Some ts -> ts <> []) -> (forall t, In t (terms_of pri) -> exists r v b, t_rows t = [r] /\ t_vals t = [v] /\ t_b t = [b]) ->
  exists np, npriors pri = Ok np /\ forall t, In t (terms_of pri) -> trow t < np.
Proof.
  intros NE H. destruct pri as [ts|]; [|exists 0; split; [reflexivity|intros t []]]. cbn [terms_of npriors] in *.
  destruct ts as [|t0 ts]; [destruct (NE [] eq_refl eq_refl)|]. cbn [orb]. set (l := t0 :: ts) in *. clearbody l.
  assert (E : existsb (fun t : term => match t_rows t with [] => true | _ :: _ => false end) l = false).
  { apply not_true_is_false. intros Q. apply existsb_exists in Q. destruct Q as (t & I & Q). destruct (H t I) as (r & v & b & E & _). rewrite E in Q. discriminate. }
  rewrite E. eexists. split; [reflexivity|]. clear E NE. intros t I. induction l as [|a l IH]; [destruct I|]. cbn [fold_right]. destruct I as [->|I].
  - destruct (H t (or_introl eq_refl)) as (r & v & b & E & _). unfold trow. rewrite E. cbn [nth fold_right]. lia.
  - assert (L : trow t < fold_right (fun (t : term) (m : nat) => Nat.max (S (fold_right Nat.max 0 (t_rows t))) m) 0 l) by (apply IH; auto; intros; apply H; right; auto). lia.
Qed.
(** The direction is defined, has one entry per parameter, minimises the squared
    residuals of the linearised model and of the priors over all directions, and
    is zero for parameters without influence.  None: nothing has influence. *)
Theorem C71_direction pH pW uniq lstsq tim_bands padpix padie src sb pri :
  0 < pH -> 0 < pW -> unique_ok uniq -> minimises lstsq -> layout tim_bands src sb ->
  (forall ts, pri = Some ts -> ts <> []) -> simple_priors tim_bands src sb (terms_of pri) ->
  exists o, gpu_update pH pW uniq lstsq tim_bands padpix padie src sb pri = Ok o /\
  match o with
  | None => forall s, s < length (kinds src sb) -> idle pH pW tim_bands padie src sb (terms_of pri) s
  | Some v => length v = length (kinds src sb) /\
      (forall w, objective pH pW tim_bands padpix padie src sb (terms_of pri) v <= objective pH pW tim_bands padpix padie src sb (terms_of pri) w)%R /\
      (forall s, idle pH pW tim_bands padie src sb (terms_of pri) s -> nth s v 0%R = 0%R)
  end.
Proof.
  intros HpH HpW HU HM HL NE HT. destruct (npriors_ok pri NE) as (np & ENP & HN). { intros t I. apply HT. exact I. }
  destruct (prior_terms_spec pH pW HpH HpW uniq HU tim_bands padpix padie src sb HL (terms_of pri) HT (pixel_A pH pW uniq tim_bands padie src sb) (pixel_B pH pW tim_bands padpix padie src sb)) as (A & B & HE & _).
  rewrite (update_eq pH pW HpH HpW uniq HU tim_bands padpix padie src sb HL (terms_of pri) np A B HE lstsq pri eq_refl ENP).
  set (cs := cols pH pW uniq tim_bands src sb np A) in *. destruct ((length cs <? ncols uniq tim_bands src sb) && (length cs =? 0)) eqn:EZ; eexists; (split; [reflexivity|]); cbv beta iota.
  - apply andb_true_iff in EZ. destruct EZ as [_ EZ]. apply Nat.eqb_eq in EZ. apply length_zero_iff_nil in EZ.
    eapply none_idle; eauto.
  - destruct (sX_facts pH pW HpH HpW uniq HU tim_bands padpix padie src sb HL np A B lstsq HM) as (L & Z & _). split; [exact L|]. split.
    + eapply sX_minimum; eauto.
    + intros s I. apply Z. eapply idle_out; eauto.
Qed.
Section Solver.
Context {T : Type}.
Variable L : list T.
Definition ip (f g : T -> R) : R := rs (fun t => f t * g t)%R L.
Fixpoint lc (z : list R) (cs : list (T -> R)) (t : T) : R :=
  match z, cs with a :: z, c :: cs => (a * c t + lc z cs t)%R | _, _ => 0%R end.
Lemma ip_lin f g h a : ip f (fun t => g t + a * h t)%R = (ip f g + a * ip f h)%R.
Proof. unfold ip. induction L as [|t l IH]; cbn [lsum fold_right]; [ring|]. unfold lsum in IH. rewrite IH. ring. Qed.
Lemma ip_sym f g : ip f g = ip g f.
Proof. unfold ip. apply sum_ext. intros; ring. Qed.
Lemma ip_ext f g g' : (forall t, In t L -> g t = g' t) -> ip f g = ip f g'.
Proof. intros H. unfold ip. apply sum_ext. intros t I. rewrite H by auto. reflexivity. Qed.
Lemma ip_lc f z cs : (forall c, In c cs -> ip c f = 0%R) -> ip f (lc z cs) = 0%R.
Proof.
  revert cs. induction z as [|a z IH]; intros cs H; [unfold ip; apply rs_zero; intros; cbn; ring|].
  destruct cs as [|c cs]; [unfold ip; apply rs_zero; intros; cbn; ring|].
  rewrite (ip_ext _ _ (fun t => lc z cs t + a * c t)%R) by (intros; cbn; ring). rewrite ip_lin, IH by (intros; apply H; right; auto).
  rewrite ip_sym, (H c (or_introl eq_refl)). ring.
Qed.
Lemma lc_comb z w cs a t : length z = length w -> lc (map (fun p => fst p + a * snd p)%R (combine z w)) cs t = (lc z cs t + a * lc w cs t)%R.
Proof.
  revert w cs. induction z as [|b z IH]; intros w cs H; destruct w as [|d w]; try discriminate; [cbn; ring|]. destruct cs as [|c cs]; cbn; [ring|]. rewrite IH by (cbn in H; lia). ring.
Qed.
(** Normal equations have a solution. *)
Lemma normal (cs : list (T -> R)) : forall b, {z | length z = length cs /\ forall c, In c cs -> ip c (fun t => b t + -1 * lc z cs t)%R = 0%R}.
Proof.
  induction cs as [|c cs IH]; intros b; [exists []; split; [reflexivity|intros c []]|].
  destruct (IH b) as (zb & Lb & Hb). destruct (IH c) as (zc & Lc & Hc).
  set (r := fun t => (c t + -1 * lc zc cs t)%R) in *. set (s := fun t => (b t + -1 * lc zb cs t)%R) in *.
  assert (C : forall f, (forall c, In c cs -> ip c f = 0%R) -> ip c f = ip r f).
  { intros f H. rewrite (ip_sym c), (ip_sym r). rewrite (ip_ext f c (fun t => r t + 1 * lc zc cs t)%R) by (intros; unfold r; ring). rewrite ip_lin, ip_lc by exact H. ring. }
  destruct (Req_EM_T (ip r r) 0) as [Z|N].
  - exists (0%R :: zb). split; [cbn; lia|].
    assert (EX : forall f, ip f (fun t => b t + -1 * lc (0%R :: zb) (c :: cs) t)%R = ip f s) by (intros; apply ip_ext; intros; unfold s; cbn; ring).
    intros d [<-|I]; rewrite EX; [|apply Hb; exact I]. rewrite (C s Hb). unfold ip. apply rs_zero. intros t I.
    assert (Q : (r t * r t = 0)%R) by (apply (rs_pos_zero (fun t => r t * r t)%R L); auto; intros; nra). assert (r t = 0%R) by nra. rewrite H. ring.
  - set (t0 := (ip r s / ip r r)%R). exists (t0 :: map (fun p => fst p + (- t0) * snd p)%R (combine zb zc)). split; [cbn; rewrite map_length, combine_length; lia|].
    assert (EX : forall f, ip f (fun t => b t + -1 * lc (t0 :: map (fun p => fst p + (- t0) * snd p)%R (combine zb zc)) (c :: cs) t)%R = (ip f s + (- t0) * ip f r)%R).
    { intros f. rewrite <- ip_lin. apply ip_ext. intros t I. cbn [lc]. rewrite lc_comb by lia. unfold s, r. ring. }
    intros d [<-|I]; rewrite EX.
    + rewrite (C s Hb), (C r Hc). unfold t0. field. exact N.
    + rewrite (Hb d I), (Hc d I). ring.
Qed.
Lemma normal_min cs b z : length z = length cs -> (forall c, In c cs -> ip c (fun t => b t + -1 * lc z cs t)%R = 0%R) ->
  forall w, length w = length cs -> (rs (fun t => (lc z cs t - b t) ^ 2) L <= rs (fun t => (lc w cs t - b t) ^ 2) L)%R.
Proof.
  intros Lz H w Lw. set (s := fun t => (b t + -1 * lc z cs t)%R) in *. set (d := map (fun p => fst p + -1 * snd p)%R (combine w z)).
  assert (E1 : rs (fun t => (lc z cs t - b t) ^ 2)%R L = ip s s) by (unfold ip; apply sum_ext; intros; unfold s; ring).
  assert (E2 : rs (fun t => (lc w cs t - b t) ^ 2)%R L = (ip s s + rs (fun t => (lc d cs t) ^ 2) L + -2 * ip s (lc d cs))%R).
  { unfold ip. rewrite <- (on_reals DenseProps.sum_mul). rewrite <- !rs_add. apply sum_ext. intros t I. unfold d. rewrite lc_comb by lia. unfold s. ring. }
  rewrite E1, E2, (ip_lc s d cs H). pose proof (rs_nonneg (fun t => (lc d cs t) ^ 2)%R L ltac:(intros; apply pow2_ge_0)). lra.
Qed.
End Solver.
Definition columns (n : nat) : list (list R * R -> R) := map (fun j rb => nth j (fst rb) 0%R) (seq 0 n).
Lemma dot_lc k n row b z : length row = n -> length z = n ->
  forall pre, length pre = k -> dotp 0%R Rplus Rmult row z = lc z (map (fun j (rb : list R * R) => nth j (fst rb) 0%R) (seq k n)) (pre ++ row, b).
Proof.
  revert k row z. induction n as [|n IH]; intros k row z Hr Hz pre Hp; destruct row as [|a row], z as [|x z]; try discriminate; [reflexivity|].
  unfold dotp in *. cbn [combine lsum fold_right seq map lc fst snd]. f_equal.
  - rewrite app_nth2 by lia. replace (k - length pre) with 0 by lia. cbn. ring.
  - specialize (IH (S k) row z ltac:(cbn in Hr; lia) ltac:(cbn in Hz; lia) (pre ++ [a]) ltac:(rewrite app_length; cbn; lia)). rewrite <- app_assoc in IH. exact IH.
Qed.
Definition a_solver (n : nat) (A : list (list R)) (b : list R) : list R := proj1_sig (normal (combine A b) (columns n) snd).
(** Least-squares solutions exist, for every system. *)
Theorem C71_solver : minimises a_solver.
Proof.
  intros n A b HA HB. unfold a_solver. destruct (normal _ _ _) as (z & Lz & H). cbn [proj1_sig].
  assert (LC : length (columns n) = n) by (unfold columns; rewrite map_length, seq_length; reflexivity).
  split; [congruence|]. intros w Lw.
  assert (E : forall w, length w = n -> residuals A b w = rs (fun t => (lc w (columns n) t - snd t) ^ 2)%R (combine A b)).
  { intros u Lu. unfold residuals. apply sum_ext. intros [row v] I. cbn [fst snd].
    rewrite (dot_lc 0 n row v u) with (pre := []); [reflexivity| |exact Lu|reflexivity]. rewrite Forall_forall in HA. apply HA. eapply in_combine_l; eauto. }
  rewrite !E by congruence. apply normal_min; auto; congruence.
Qed.

(** Fluxes and background only, where a source's counts are its flux (photometric
    scale 1): the step leads to the minimum of the chi-square itself. *)
Definition flux_step (bands : list nat) (off b : nat) (v : list R) : R :=
  match index_of b bands with Some k => nth (off + k) v 0%R | None => 0%R end.
Definition stepped (tim_bands : list nat) (src : option gsrc) (sb : option gsb) (v : list R) (i y x : nat) : R :=
  ((match src with Some s => (s_counts s i + flux_step (s_bands s) 0 (nth i tim_bands 0%nat) v) * s_stamp s i 0%nat y x | None => 0 end) +
   (match sb with Some b => (b_counts b i + flux_step (b_bands b) (match src with Some s => length (s_bands s) | None => 0%nat end) (nth i tim_bands 0%nat) v) * b_scale b i ^ 2 | None => 0 end))%R.
Definition true_chisq (pH pW : nat) (tim_bands : list nat) (padpix padie : nat -> nat -> nat -> R) (src : option gsrc) (sb : option gsb) (v : list R) : R :=
  rs (fun i => rs (fun y => rs (fun x => ((padpix i y x - stepped tim_bands src sb v i y x) * padie i y x) ^ 2)%R (seq 0 pW)) (seq 0 pH)) (seq 0 (length tim_bands)).
Lemma rs_S (f : nat -> R) n : rs f (seq 0 (S n)) = (f 0%nat + rs (fun k => f (S k)) (seq 0 n))%R.
Proof. cbn [seq]. rewrite <- seq_shift. rewrite <- (DenseProps.sum_map 0%R Rplus S f). reflexivity. Qed.
Lemma one_band (b : nat) (bands : list nat) (c : R) (f : nat -> R) off : NoDup bands ->
  rs (fun k => (if b =? nth k bands 0%nat then c else 0) * f (off + k)%nat)%R (seq 0 (length bands)) =
  (match index_of b bands with Some k => f (off + k)%nat | None => 0 end * c)%R.
Proof.
  revert off. induction bands as [|a l IH]; intros off ND; [cbn; ring|]. inversion_clear ND as [|? ? NI ND'].
  cbn [length]. rewrite rs_S. rewrite (sum_ext _ (fun k => (if b =? nth k l 0%nat then c else 0) * f (S off + k)%nat)%R) by (intros k _; cbn [nth]; replace (off + S k) with (S off + k) by lia; reflexivity).
  cbn [nth index_of].
  rewrite IH by auto. rewrite (Nat.eqb_sym a b). destruct (Nat.eqb_spec b a) as [->|N].
  - destruct (index_of a l) as [k|] eqn:E; [apply index_some, nth_error_In in E; contradiction|]. ring.
  - destruct (index_of b l) as [k|]; cbn [option_map]; [replace (off + S k) with (S off + k) by lia|]; ring.
Qed.
Lemma rs_cut (f : nat -> R) n m : rs f (seq 0 (n + m)) = (rs f (seq 0 n) + rs (fun k => f (n + k)%nat) (seq 0 m))%R.
Proof.
  revert f. induction n as [|n IH]; intros f; [cbn [Nat.add]; change (rs (fun k => f k)) with (rs f); change (rs f (seq 0 0)) with 0%R; ring|]. cbn [Nat.add]. rewrite !rs_S, IH. cbn [Nat.add]. ring.
Qed.
Lemma linear_stepped pH pW tim_bands src sb v i y x : layout tim_bands src sb ->
  match src with Some s => s_npos s = 0 /\ s_nshapes s = 0 | None => True end ->
  (current src sb i y x + linear pH pW tim_bands src sb v i y x = stepped tim_bands src sb v i y x)%R.
Proof.
  intros HL H0. unfold linear. set (n1 := match src with Some s => length (s_bands s) | None => 0 end). set (n2 := match sb with Some b => length (b_bands b) | None => 0 end).
  assert (EK : kinds src sb = (match src with Some s => map Flux (s_bands s) | None => [] end) ++ (match sb with Some b => map Sky (b_bands b) | None => [] end)).
  { unfold kinds. destruct src as [s|]; [destruct H0 as [-> ->]; cbn [seq map app]; rewrite app_nil_r|]; reflexivity. }
  assert (E1 : length (match src with Some s => map Flux (s_bands s) | None => [] end) = n1) by (unfold n1; destruct src; [apply map_length|reflexivity]).
  assert (E2 : length (match sb with Some b => map Sky (b_bands b) | None => [] end) = n2) by (unfold n2; destruct sb; [apply map_length|reflexivity]).
  rewrite EK, app_length, E1, E2, rs_cut. destruct HL as [HL1 HL2].
  match goal with |- (_ + (?a + ?b) = _)%R => assert (Q1 : a = match src with Some s => (flux_step (s_bands s) 0 (nth i tim_bands 0%nat) v * s_stamp s i 0%nat y x)%R | None => 0%R end);
    [|assert (Q2 : b = match sb with Some q => (flux_step (b_bands q) n1 (nth i tim_bands 0%nat) v * b_scale q i ^ 2)%R | None => 0%R end)] end.
  - clear E2. destruct src as [s|]; [|reflexivity]. unfold flux_step. rewrite <- one_band with (f := fun k => nth k v 0%R) by tauto. unfold n1. apply sum_ext. intros k I. apply in_seq in I.
    rewrite app_nth1 by (rewrite E1; unfold n1; lia). rewrite (nth_indep _ Other (Flux 0)) by (rewrite E1; unfold n1; lia). rewrite (map_nth Flux). reflexivity.
  - destruct sb as [q|]; [|reflexivity]. unfold flux_step. rewrite <- one_band with (f := fun k => nth k v 0%R) by tauto. unfold n2. apply sum_ext. intros k I. apply in_seq in I.
    rewrite app_nth2 by lia. rewrite E1. replace (n1 + k - n1) with k by lia. rewrite (nth_indep _ Other (Sky 0)) by (rewrite E2; unfold n2; lia). rewrite (map_nth Sky). unfold deriv. destruct src; reflexivity.
  - rewrite Q1, Q2. unfold current, stepped. fold n1. destruct src, sb; ring.
Qed.
Theorem C71_fluxes pH pW uniq lstsq tim_bands padpix padie src sb : 0 < pH -> 0 < pW -> unique_ok uniq -> minimises lstsq -> layout tim_bands src sb ->
  match src with Some s => s_npos s = 0 /\ s_nshapes s = 0 | None => True end ->
  forall v, gpu_update pH pW uniq lstsq tim_bands padpix padie src sb None = Ok (Some v) ->
  forall w, (true_chisq pH pW tim_bands padpix padie src sb v <= true_chisq pH pW tim_bands padpix padie src sb w)%R.
Proof.
  intros HpH HpW HU HM HL H0 v E w. destruct (C71_direction pH pW uniq lstsq tim_bands padpix padie src sb None HpH HpW HU HM HL ltac:(discriminate)) as (o & E' & D).
  { split; [constructor|intros t []]. }
  rewrite E' in E. injection E as ->. destruct D as (_ & D & _). specialize (D w). unfold objective in D. cbn [terms_of lsum fold_right] in D.
  assert (EQ : forall u, true_chisq pH pW tim_bands padpix padie src sb u =
    rs (fun i => rs (fun y => rs (fun x => ((padpix i y x - (current src sb i y x + linear pH pW tim_bands src sb u i y x)) * padie i y x) ^ 2)%R (seq 0 pW)) (seq 0 pH)) (seq 0 (length tim_bands))).
  { intros u. unfold true_chisq. apply sum_ext; intros i _. apply sum_ext; intros y _. apply sum_ext; intros x _. rewrite linear_stepped by auto. reflexivity. }
  rewrite !EQ. unfold lsum in *. lra.
Qed.

(** The stamps lie where the source is: moved by dx, dy within the frame, with
    zeros for what moves in. *)
Theorem C71_place W dx dy (g : arr R) : (0 < W)%Z -> ah g = W -> aw g = W ->
  exists r, placed W dx dy g = Ok r /\ ah r = W /\ aw r = W /\
    forall y x, (0 <= y < W)%Z -> (0 <= x < W)%Z -> px r y x = PsfProps.plane 0%R g (y - dy) (x - dx).
Proof.
  intros HW UH UW. unfold placed. destruct (slices dx W) as [xp xm] eqn:SX. destruct (slices dy W) as [yp ym] eqn:SY.
  destruct (GpuProps.slices_len dx W ltac:(lia)) as (X1 & X2 & X3). rewrite SX in X1, X2, X3. cbn [fst snd] in *.
  destruct (GpuProps.slices_len dy W ltac:(lia)) as (Y1 & Y2 & Y3). rewrite SY in Y1, Y2, Y3. cbn [fst snd] in *.
  unfold aupd. cbn [asub ah aw px]. rewrite UH, UW, X1, X2, Y1, Y2, !Z.eqb_refl. cbn [andb bind].
  eexists. split; [reflexivity|]. cbn [ah aw px]. split; [reflexivity|]. split; [reflexivity|]. intros y x Hy Hx.
  assert (PI_ : forall a b, (0 <= a < W)%Z -> (0 <= b < W)%Z -> PsfProps.plane 0%R g a b = px g a b).
  { intros a b Ha Hb. unfold PsfProps.plane. rewrite UH, UW. PsfProps.zb. reflexivity. }
  assert (PO : forall a b, ~ ((0 <= a < W)%Z /\ (0 <= b < W)%Z) -> PsfProps.plane 0%R g a b = 0%R).
  { intros a b H. unfold PsfProps.plane. rewrite UH, UW. PsfProps.zb; cbn [andb]; try reflexivity; try (exfalso; apply H; lia). }
  destruct (Z_lt_dec (Z.abs dx) W) as [DX|DX]; [destruct (Z_lt_dec (Z.abs dy) W) as [DY|DY]|].
  - destruct (X3 DX) as [-> ->]. destruct (Y3 DY) as [-> ->]. destruct (_ && _) eqn:EI.
    + rewrite !andb_true_iff, !Z.leb_le, !Z.ltb_lt in EI. rewrite PI_ by lia. f_equal; lia.
    + rewrite PO; [reflexivity|]. intros C. revert EI. PsfProps.zb; cbn [andb]; try discriminate; intros; lia.
  - replace (Z.max 0 (W - Z.abs dy)) with 0%Z by lia. rewrite PO by lia. PsfProps.zb; cbn [andb]; try lia; reflexivity.
  - replace (Z.max 0 (W - Z.abs dx)) with 0%Z by lia. rewrite PO by lia. PsfProps.zb; cbn [andb]; try lia; reflexivity.
Qed.

(** ** Where the text is false *)
Definition uq : list nat -> list nat := nodup Nat.eq_dec.
Lemma uq_ok : unique_ok uq.
Proof. intros l. split; [apply NoDup_nodup|]. intros b. apply nodup_In. Qed.
(** A point source on one pixel: 6 counts in the model, 10 in the image. *)
Definition dot (bands : list nat) (npos nparams : nat) : gsrc :=
  mkGsrc npos bands 0 nparams (fun _ => 6%R) (fun _ => (1, 0, 0, 1)%R) (fun _ _ => 1%R) (fun _ _ _ _ => 1%R).
Definition ten : nat -> nat -> nat -> R := fun _ _ _ => 10%R.
Definition one : nat -> nat -> nat -> R := fun _ _ _ => 1%R.
Lemma dot_step lstsq : minimises lstsq -> gpu_update 1 1 uq lstsq [0] ten one (Some (dot [0] 0 1)) None None = Ok (Some [4%R]).
Proof.
  intros HM. destruct (C71_direction 1 1 uq lstsq [0] ten one (Some (dot [0] 0 1)) None None) as (o & E & D); auto using uq_ok; try discriminate.
  - split; [|exact I]. cbn. repeat split; auto; [repeat constructor; intros []|intros a Ha; exact Ha].
  - split; [constructor|intros t []].
  - rewrite E. destruct o as [v|].
    + destruct D as (LV & D & _). destruct v as [|a [|b v]]; try discriminate. specialize (D [4%R]). cbv [objective terms_of length seq lsum fold_right linear kinds current deriv dot s_npos s_bands s_nshapes s_counts s_stamp map app nth Nat.eqb ten one] in D.
      do 4 f_equal. nra.
    + exfalso. specialize (D 0 ltac:(cbn; lia)). destruct D as [D _]. specialize (D 0 0 0 ltac:(cbn; lia) ltac:(lia) ltac:(lia)).
      cbv [length seq lsum fold_right kinds deriv dot s_npos s_bands s_nshapes s_counts s_stamp map app nth Nat.eqb ten one] in D. lra.
Qed.
(** A photometric scale of 3: the flux 2 makes the 6 counts.  The flux column lacks
    the scale, so the step is 4 instead of 4/3, and taking it makes the fit worse. *)
Theorem C71_zeropoint_refuted : exists (scale flux : R), s_counts (dot [0] 0 1) 0 = (scale * flux)%R /\
  forall lstsq, minimises lstsq -> exists step, gpu_update 1 1 uq lstsq [0] ten one (Some (dot [0] 0 1)) None None = Ok (Some [step]) /\
  ((10 - scale * (flux + 4 / 3)) ^ 2 < (10 - scale * flux) ^ 2 < (10 - scale * (flux + step)) ^ 2)%R.
Proof. exists 3%R, 2%R. split; [cbn; lra|]. intros lstsq HM. exists 4%R. split; [apply dot_step; exact HM|lra]. Qed.
Lemma root_zero e : e = 0%R -> reqb (sqrt e) 0 = true.
Proof. intros ->. apply GpuMixProps.reqb_true. apply sqrt_0. Qed.
Lemma root_one e : e = 1%R -> reqb (sqrt e) 0 = false.
Proof. intros ->. apply GpuMixProps.reqb_false. rewrite sqrt_1. lra. Qed.
Ltac eval_update := unfold gpu_update, gpu_matrix, system; cbv -[reqb sqrt Rmult Rplus Rminus Rdiv IZR];
  repeat (match goal with |- context [reqb (sqrt ?e) 0] => first [rewrite (root_zero e) by ring | rewrite (root_one e) by ring] end; cbv -[reqb sqrt Rmult Rplus Rminus Rdiv IZR]).
(** An image in a band that is no (thawed) parameter of the source. *)
Theorem C71_band_refuted lstsq : gpu_update 1 1 uq lstsq [0] ten one (Some (dot [1] 0 1)) None None = Err KeyError.
Proof. eval_update. reflexivity. Qed.
(** A prior on the flux of a band without images. *)
Theorem C71_prior_refuted lstsq : gpu_update 1 1 uq lstsq [0] ten one (Some (dot [0; 1] 0 2)) None (Some [mkTerm [0] 1 [1%R] [0%R]]) = Err KeyError.
Proof. reflexivity. Qed.
(** A prior of two rows on the third flux, of which the images have the second and
    third band: its second row goes to the second flux. *)
Theorem C71_prior_rows_refuted : exists A B,
  prior_terms 1 1 uq [1; 2] (Some (dot [0; 1; 2] 0 3)) None [mkTerm [0; 1] 2 [5%R; 7%R] [0%R; 0%R]] zero_mat (fun _ => 0%R) = Ok (A, B) /\
  dict_get (fit_to_src uq [1; 2] (Some (dot [0; 1; 2] 0 3)) None) 1 = Ok 2 /\ dict_get (fit_to_src uq [1; 2] (Some (dot [0; 1; 2] 0 3)) None) 0 = Ok 1 /\
  A 2 1 = 5%R /\ A 3 1 = 0%R /\ A 3 0 = 7%R.
Proof. do 2 eexists. split; [reflexivity|]. repeat split. Qed.
(** Brightness frozen: its bands are counted, but the source has no such
    parameters. *)
Theorem C71_frozen_refuted lstsq : gpu_update 1 1 uq lstsq [0] ten one (Some (dot [0] 2 2)) None None = Err IndexError.
Proof. eval_update. reflexivity. Qed.
(** The matrix returned with get_A is zero, whatever the derivatives. *)
Theorem C71_matrix_refuted : (forall pH pW uniq tim_bands padpix padie src sb pri m sc, gpu_matrix pH pW uniq tim_bands padpix padie src sb pri = Ok (Some (m, sc)) -> forall r c, m r c = 0%R) /\
  exists m sc, gpu_matrix 1 1 uq [0] ten one (Some (dot [0] 0 1)) None None = Ok (Some (m, sc)) /\ deriv 1 1 [0] (Some (dot [0] 0 1)) None (Flux 0) 0 0 0 = 1%R.
Proof.
  split.
  - intros pH pW uniq tim_bands padpix padie src sb pri m sc E r c. unfold gpu_matrix in E. destruct (system _ _ _ _ _ _ _ _ _) as [[q|]|]; cbn [bind] in E; try discriminate.
    destruct (scatter _ _ _); cbn [bind] in E; [|discriminate]. injection E as <- _. reflexivity.
  - do 2 eexists. split; [|reflexivity]. eval_update. reflexivity.
Qed.

(** ** Examples *)
(** A frame of 3 x 3 pixels in two bands: a point source with position and three
    fluxes, a background in two bands, and a prior on the first flux. *)
Definition spot : gsrc := mkGsrc 2 [2; 0; 1] 0 5 (fun i => INR (S i)) (fun _ => (1, 0, 0, 1)%R) (fun _ _ => 1%R)
  (fun _ _ y x => if (y =? 1) && (x =? 1) then 1%R else 0%R).
Definition glow : gsb := mkGsb [0; 1] (fun _ => 2%R) (fun _ => (1 / 2)%R).
Definition pull : list (@term R) := [mkTerm [0] 3 [2%R] [1%R]].
Definition ban : list nat := [1; 0].
Example C71_spot_layout : layout ban (Some spot) (Some glow).
Proof.
  split; cbn.
  - split; [auto|]. split; [repeat constructor; cbn; intuition lia|]. split; [|reflexivity]. intros a [<-|[<-|[]]]; cbn; auto.
  - split; [repeat constructor; cbn; intuition lia|]. intros a [<-|[<-|[]]]; cbn; auto.
Qed.
Example C71_spot_prior : simple_priors ban (Some spot) (Some glow) pull.
Proof.
  split; [repeat constructor; intros []|]. intros t [<-|[]]. split; [exists 0, 2%R, 1%R; auto|]. cbn. split; [lia|auto].
Qed.
Example C71_spot : exists v, gpu_update 3 3 uq a_solver ban ten one (Some spot) (Some glow) (Some pull) = Ok (Some v) /\ length v = 7 /\
  nth 2 v 0%R = 0%R /\ forall w, (objective 3 3 ban ten one (Some spot) (Some glow) pull v <= objective 3 3 ban ten one (Some spot) (Some glow) pull w)%R.
Proof.
  destruct (C71_direction 3 3 uq a_solver ban ten one (Some spot) (Some glow) (Some pull)) as (o & E & D); try lia; auto using uq_ok, C71_solver, C71_spot_layout, C71_spot_prior.
  { intros ts [= <-]. discriminate. }
  destruct o as [v|].
  - exists v. destruct D as (D1 & D2 & D3). split; [exact E|]. split; [exact D1|]. split; [|exact D2]. apply D3. split.
    + intros i y x Hi _ _. cbn. destruct i as [|[|i]]; cbn in *; try lia; ring.
    + intros t [<-|[]]; cbn; lia.
  - exfalso. destruct (D 3 ltac:(cbn; lia)) as [_ D']. specialize (D' _ (or_introl eq_refl) eq_refl). cbn in D'. lra.
Qed.
Example C71_place_case : exists r, placed 4 1 (-2) (mkArr 4 4 (fun y x => if (y =? 2)%Z && (x =? 2)%Z then 1%R else 0%R)) = Ok r /\ px r 0 3 = 1%R /\ px r 2 2 = 0%R.
Proof. eexists. split; [reflexivity|]. split; reflexivity. Qed.

Print Assumptions C71_direction.
Print Assumptions C71_fluxes.
Print Assumptions C71_place.
Print Assumptions C71_solver.
Print Assumptions C71_zeropoint_refuted.
Print Assumptions C71_band_refuted.
Print Assumptions C71_prior_refuted.
Print Assumptions C71_prior_rows_refuted.
Print Assumptions C71_frozen_refuted.
Print Assumptions C71_matrix_refuted.
