(** C109: the log-likelihood in floating point. *)
From Coq Require Import Reals List ZArith Bool Lia Lra Floats.
From Flocq Require Import Core Relative Mult_error.
From Verif Require Import RoundModel RoundArith.
Import ListNotations.
Open Scope R_scope.

Notation fmt32 := (fmt 24 (-149)).
Notation fmt64 := (fmt 53 (-1074)).
Notation u64 := (bpow radix2 (-53)).
Notation u32 := (bpow radix2 (-24)).
Definition rsum (l : list R) : R := fold_right Rplus 0 l.

(** ** Specification: the pixels of one image in the order they are added *)
Definition pixels (t : option (tree R)) : list R := match t with None => [] | Some t => leaves t end.
Definition image_depth (t : option (tree R)) : nat := match t with None => O | Some t => depth t end.
Definition exact_lnl (chis : list (option (tree R))) : R :=
  - (1 / 2) * rsum (map (fun c => c * c) (concat (map pixels chis))).
(** getLogLikelihood *)
Definition lnl (chis : list (option (tree R))) : R := log_likelihood 0 (- (1 / 2)) add64 mul64 chis.

(** ** Sums *)
Lemma rsum_app a b : rsum (a ++ b) = rsum a + rsum b.
Proof. induction a; simpl; [lra|]. rewrite IHa. lra. Qed.
Lemma rsum_nonneg l : Forall (fun v => 0 <= v) l -> 0 <= rsum l.
Proof. induction 1; simpl; lra. Qed.

Section Tree.
Variables (prec emin : Z).
Context (P : (0 < prec)%Z).
Notation fmt := (fmt prec emin).
Notation fadd := (fadd prec emin).
Notation near := (near prec emin).

(** A tree of numbers each known up to j roundings *)
Fixpoint tree_near (j : nat) (t : tree R) (T : tree R) : Prop :=
  match t, T with
  | Leaf v, Leaf V => near j V v V /\ 0 <= V
  | Node l r, Node L R => tree_near j l L /\ tree_near j r R
  | _, _ => False
  end.
Lemma eval_near j t : forall T, tree_near j t T -> near (j + depth t) (rsum (leaves T)) (eval fadd t) (rsum (leaves T)).
Proof.
  induction t as [v|l IHl r IHr]; intros [V|L R]; simpl; try tauto.
  - intros [H _]. rewrite Rplus_0_r, Nat.add_0_r. auto.
  - intros [A B]. rewrite rsum_app. replace (j + S (Nat.max (depth l) (depth r)))%nat with (S (j + Nat.max (depth l) (depth r)))%nat by lia.
    apply near_add; auto; [eapply near_weaken; [| |apply IHl; exact A]|eapply near_weaken; [| |apply IHr; exact B]]; lia || lra.
Qed.
Lemma fadd_nonneg x y : 0 <= x -> 0 <= y -> 0 <= fadd x y.
Proof. intros X Y. rewrite <- (rn_fmt prec emin 0 (fmt_0 prec emin)). apply rn_le; auto. lra. Qed.
Lemma fadd_ge b x y : fmt b -> 0 <= x -> 0 <= y -> b <= x \/ b <= y -> b <= fadd x y.
Proof. intros F X Y H. rewrite <- (rn_fmt prec emin b F). apply rn_le; auto. lra. Qed.
Lemma eval_nonneg t : Forall (fun v => 0 <= v) (leaves t) -> 0 <= eval fadd t.
Proof.
  induction t as [v|l IHl r IHr]; simpl; intros H; [inversion H; auto|].
  apply Forall_app in H as [A B]. apply fadd_nonneg; auto.
Qed.
Lemma eval_ge b t : fmt b -> Forall (fun v => 0 <= v) (leaves t) -> Exists (fun v => b <= v) (leaves t) -> b <= eval fadd t.
Proof.
  intros F. induction t as [v|l IHl r IHr]; simpl; intros H E; [inversion E; subst; auto; inversion H1|].
  apply Forall_app in H as [A B]. apply Exists_app in E. apply fadd_ge; auto using eval_nonneg. destruct E; auto.
Qed.
Lemma fadd_0 : fadd 0 0 = 0.
Proof. unfold RoundModel.fadd. rewrite Rplus_0_r. apply rn_fmt; auto. apply fmt_0. Qed.
Lemma eval_zero t : Forall (fun v => v = 0) (leaves t) -> eval fadd t = 0.
Proof.
  induction t as [v|l IHl r IHr]; simpl; intros H; [inversion H; auto|].
  apply Forall_app in H as [A B]. rewrite IHl, IHr by auto. apply fadd_0.
Qed.
End Tree.

Lemma leaves_map (f : R -> R) t : leaves (map_tree f t) = map f (leaves t).
Proof. induction t; simpl; auto. rewrite map_app. congruence. Qed.
Lemma depth_map (f : R -> R) t : depth (map_tree f t) = depth t.
Proof. induction t; simpl; congruence. Qed.

(** ** Squares *)
Lemma square32 c : fmt32 c -> fmt64 (c * c).
Proof.
  intros F. apply FLT_format_generic in F; [|reflexivity]. destruct F as [[m e] -> Hm He]. cbn [Fnum Fexp] in *.
  apply generic_format_FLT. exists (Float radix2 (m * m) (e + e)).
  - unfold F2R. cbn [Fnum Fexp]. rewrite mult_IZR, bpow_plus. ring.
  - cbn [Fnum]. change (radix2 ^ 24)%Z with 16777216%Z in Hm. change (radix2 ^ 53)%Z with 9007199254740992%Z. nia.
  - cbn [Fexp]. lia.
Qed.
Lemma mul64_fmt x y : fmt64 (x * y) -> mul64 x y = x * y.
Proof. apply rn_fmt. Qed.
Lemma square_nonneg64 c : 0 <= mul64 c c.
Proof.
  unfold mul64, fmul. rewrite <- (rn_fmt 53 (-1074) 0 (fmt_0 _ _)). apply rn_le; [lia|]. apply Rle_0_sqr.
Qed.
(** A nonzero number is at least 2^-149. *)
Lemma big32 c : fmt32 c -> c = 0 \/ bpow radix2 (-149) <= Rabs c.
Proof.
  intros F. destruct (Req_dec c 0) as [|N]; auto. right.
  apply generic_format_abs in F. apply FLT_format_generic in F; [|reflexivity]. destruct F as [[m e] E Hm He]. cbn [Fnum Fexp] in *.
  pose proof (Rabs_pos_lt c N) as Pc. rewrite E in *. unfold F2R in *. cbn [Fnum Fexp] in *.
  assert (M : (1 <= m)%Z).
  { destruct (Z.le_gt_cases 1 m); auto. assert (IZR m <= 0) by (apply IZR_le; lia). pose proof (bpow_gt_0 radix2 e). nra. }
  apply IZR_le in M. apply (bpow_le radix2) in He. pose proof (bpow_gt_0 radix2 e). nra.
Qed.

(** ** The whole sum *)
Definition total64 (acc : R) (chis : list (option (tree R))) : R :=
  fold_left (fun acc chi => add64 acc (sum_of 0 add64 (option_map (map_tree (fun c => mul64 c c)) chi))) chis acc.

Lemma sum_near j d chi : (image_depth chi <= d)%nat ->
  Forall (fun c => near 53 (-1074) j (c * c) (mul64 c c) (c * c)) (pixels chi) ->
  near 53 (-1074) (j + d) (rsum (map (fun c => c * c) (pixels chi))) (sum_of 0 add64 (option_map (map_tree (fun c => mul64 c c)) chi)) (rsum (map (fun c => c * c) (pixels chi))).
Proof.
  destruct chi as [t|]; simpl; intros D H.
  - rewrite <- leaves_map. eapply near_weaken; [| |apply (eval_near 53 (-1074) ltac:(lia) j (map_tree (fun c => mul64 c c) t) (map_tree (fun c => c * c) t))].
    + rewrite depth_map. lia.
    + lra.
    + clear D. induction t as [v|l IHl r IHr]; simpl in *.
      * inversion H; subst. split; auto. apply Rle_0_sqr.
      * apply Forall_app in H as [A B]. auto.
  - apply (near_weaken _ _ 0 _ (Rabs 0)); [lia|rewrite Rabs_R0; lra|]. apply near_exact. apply fmt_0.
Qed.

Lemma total_near j d chis : forall k A acc X, (j + d <= k)%nat -> near 53 (-1074) k A acc X ->
  Forall (fun c => (image_depth c <= d)%nat) chis ->
  Forall (fun c => near 53 (-1074) j (c * c) (mul64 c c) (c * c)) (concat (map pixels chis)) ->
  near 53 (-1074) (k + length chis) (A + rsum (map (fun c => c * c) (concat (map pixels chis)))) (total64 acc chis)
    (X + rsum (map (fun c => c * c) (concat (map pixels chis)))).
Proof.
  induction chis as [|c chis IH]; intros k A acc X K N D H; simpl in *.
  - rewrite !Rplus_0_r, Nat.add_0_r. auto.
  - inversion D as [|? ? D1 D2]; subst. apply Forall_app in H as [H1 H2]. rewrite map_app, rsum_app.
    replace (k + S (length chis))%nat with (S k + length chis)%nat by lia. rewrite <- !Rplus_assoc.
    change (total64 acc (c :: chis)) with (total64 (add64 acc (sum_of 0 add64 (option_map (map_tree (fun c => mul64 c c)) c))) chis).
    apply (IH (S k)); auto. apply near_add; [lia|auto|].
    eapply near_weaken; [| |apply (sum_near j d)]; auto. lra.
Qed.

Lemma total_nonneg chis : forall acc, 0 <= acc -> 0 <= total64 acc chis.
Proof.
  induction chis as [|c chis IH]; intros acc H; simpl; auto. apply IH. apply fadd_nonneg; auto; [lia|].
  destruct c as [t|]; simpl; [|lra]. apply eval_nonneg; [lia|]. rewrite leaves_map. apply Forall_map. apply Forall_forall. intros; apply square_nonneg64.
Qed.

Definition tiny := bpow radix2 (-298).
Lemma fmt_tiny : fmt64 tiny.
Proof. apply generic_format_bpow. unfold FLT_exp. lia. Qed.
Lemma total_ge chis : forall acc, 0 <= acc -> Forall fmt32 (concat (map pixels chis)) ->
  tiny <= acc \/ Exists (fun c => c <> 0) (concat (map pixels chis)) -> tiny <= total64 acc chis.
Proof.
  induction chis as [|c chis IH]; intros acc H F E; simpl in *; [destruct E as [E|E]; auto; inversion E|].
  apply Forall_app in F as [F1 F2].
  assert (N : 0 <= sum_of 0 add64 (option_map (map_tree (fun c => mul64 c c)) c)).
  { destruct c as [t|]; simpl; [|lra]. apply eval_nonneg; [lia|]. rewrite leaves_map. apply Forall_map. apply Forall_forall. intros; apply square_nonneg64. }
  apply IH; auto; [apply fadd_nonneg; auto; lia|].
  rewrite Exists_app in E. destruct E as [E|[E|E]]; [left|left|right; auto]; apply fadd_ge; auto using fmt_tiny; try lia.
  right. destruct c as [t|]; simpl in *; [|inversion E]. apply eval_ge; [lia|apply fmt_tiny| |].
  - rewrite leaves_map. apply Forall_map. apply Forall_forall. intros; apply square_nonneg64.
  - rewrite leaves_map. apply Exists_exists in E as (v & Hv & Nv). apply Exists_exists. exists (mul64 v v). split; [apply in_map_iff; eauto|].
    rewrite Forall_forall in F1. rewrite mul64_fmt by (apply square32; auto). destruct (big32 v (F1 v Hv)) as [|B]; [contradiction|].
    unfold tiny. replace (-298)%Z with (-149 + -149)%Z by lia. rewrite bpow_plus.
    replace (v * v) with (Rabs v * Rabs v) by (rewrite <- Rabs_mult; apply Rabs_pos_eq, Rle_0_sqr).
    pose proof (bpow_gt_0 radix2 (-149)). apply Rmult_le_compat; lra.
Qed.
Lemma total_zero chis : Forall (fun c => c = 0) (concat (map pixels chis)) -> total64 0 chis = 0.
Proof.
  induction chis as [|c chis IH]; intros F; simpl in *; auto. apply Forall_app in F as [F1 F2].
  assert (E : sum_of 0 add64 (option_map (map_tree (fun c => mul64 c c)) c) = 0).
  { destruct c as [t|]; simpl in *; auto. apply eval_zero. rewrite leaves_map. apply Forall_map. eapply Forall_impl; [|exact F1].
    intros a ->. rewrite mul64_fmt; rewrite Rmult_0_r; auto. apply fmt_0. }
  unfold total64; simpl. rewrite E. assert (Z : add64 0 0 = 0) by apply fadd_0. rewrite Z. apply IH; auto.
Qed.
Lemma fmt_total chis : forall acc, fmt64 acc -> fmt64 (total64 acc chis).
Proof. induction chis as [|c chis IH]; intros acc H; simpl; auto. apply IH. apply fmt_rn. lia. Qed.

(** Halving is exact. *)
Lemma half_exact S : fmt64 S -> S = 0 \/ tiny <= S -> mul64 (- (1 / 2)) S = - (1 / 2) * S.
Proof.
  intros F H. apply mul64_fmt. destruct H as [->|H]; [rewrite Rmult_0_r; apply fmt_0|].
  replace (- (1 / 2) * S) with (- (S * bpow radix2 (-1))) by (simpl; lra). apply generic_format_opp.
  apply mult_bpow_exact_FLT; auto. assert (-298 < mag radix2 S)%Z; [|lia].
  apply mag_gt_bpow. rewrite Rabs_pos_eq; auto. pose proof (bpow_gt_0 radix2 (-298)). unfold tiny in H. lra.
Qed.

(** ** C109 *)
Lemma lnl_total chis : lnl chis = mul64 (- (1 / 2)) (total64 0 chis).
Proof. reflexivity. Qed.

(** It is never positive, whatever the pixels. *)
Theorem C109_not_positive chis : lnl chis <= 0.
Proof.
  rewrite lnl_total. pose proof (total_nonneg chis 0 (Rle_refl 0)).
  unfold mul64, fmul. apply Rle_trans with (rn 53 (-1074) 0); [apply rn_le; [lia|lra]|].
  rewrite rn_fmt; [lra|apply fmt_0].
Qed.

Lemma halves chis : Forall fmt32 (concat (map pixels chis)) -> lnl chis = - (1 / 2) * total64 0 chis.
Proof.
  intros F. rewrite lnl_total. apply half_exact; [apply fmt_total, fmt_0|].
  destruct (Forall_Exists_dec (fun c => c = 0) (fun c => Req_EM_T c 0) (concat (map pixels chis))) as [Z|E].
  - left. apply total_zero. auto.
  - right. apply total_ge; auto; lra.
Qed.

Lemma exact_not_positive chis : exact_lnl chis <= 0.
Proof.
  unfold exact_lnl. assert (0 <= rsum (map (fun c => c * c) (concat (map pixels chis)))); [|lra].
  apply rsum_nonneg. apply Forall_map. apply Forall_forall. intros; apply Rle_0_sqr.
Qed.

(** With chi images in binary32, as float32 images give, the relative error is
    about (d + n) 2^-53 for n images summed in chains of at most d additions. *)
Theorem C109_error chis d : Forall fmt32 (concat (map pixels chis)) -> Forall (fun c => (image_depth c <= d)%nat) chis ->
  Rabs (lnl chis - exact_lnl chis) <= ((1 + u64) ^ (d + length chis) - 1) * Rabs (exact_lnl chis).
Proof.
  intros F D. rewrite (halves chis F).
  assert (N : near 53 (-1074) (d + length chis) (0 + rsum (map (fun c => c * c) (concat (map pixels chis)))) (total64 0 chis)
    (0 + rsum (map (fun c => c * c) (concat (map pixels chis))))).
  { apply (total_near 0 d); auto.
    - apply (near_weaken _ _ 0 _ (Rabs 0)); [lia|rewrite Rabs_R0; lra|]. apply near_exact. apply fmt_0.
    - eapply Forall_impl; [|exact F]. intros c Hc. pose proof (square32 c Hc) as S. rewrite mul64_fmt by auto.
      rewrite <- (Rabs_pos_eq (c * c)) at 1 by apply Rle_0_sqr. apply near_exact. auto. }
  destruct N as (_ & _ & E). rewrite !Rplus_0_l in E. unfold exact_lnl.
  set (T := rsum _) in *. rewrite <- Rmult_minus_distr_l, !Rabs_mult.
  assert (T0 : 0 <= T) by (apply rsum_nonneg; apply Forall_map, Forall_forall; intros; apply Rle_0_sqr).
  rewrite (Rabs_pos_eq T T0). rewrite Rabs_Ropp, Rabs_pos_eq by lra. unfold unit_err in E. simpl (- (53))%Z in E. lra.
Qed.

(** Zero only for a perfect fit *)
Theorem C109_zero chis : Forall fmt32 (concat (map pixels chis)) ->
  (lnl chis = 0 <-> Forall (fun c => c = 0) (concat (map pixels chis))).
Proof.
  intros F. rewrite (halves chis F). split.
  - intros H. destruct (Forall_Exists_dec (fun c => c = 0) (fun c => Req_EM_T c 0) (concat (map pixels chis))) as [Z|E]; auto.
    exfalso. assert (G : tiny <= total64 0 chis) by (apply total_ge; auto; lra).
    pose proof (bpow_gt_0 radix2 (-298)). unfold tiny in G. lra.
  - intros Z. rewrite total_zero by auto. lra.
Qed.

(** A fit that is better by more than the rounding is seen to be better, and a
    fit that is seen to be better is not worse by more than that. *)
Theorem C109_order a b d : Forall fmt32 (concat (map pixels a)) -> Forall fmt32 (concat (map pixels b)) ->
  Forall (fun c => (image_depth c <= d)%nat) a -> Forall (fun c => (image_depth c <= d)%nat) b -> length a = length b ->
  let slack := ((1 + u64) ^ (d + length a) - 1) * (Rabs (exact_lnl a) + Rabs (exact_lnl b)) in
  (exact_lnl a + slack < exact_lnl b -> lnl a < lnl b) /\ (lnl a <= lnl b -> exact_lnl a <= exact_lnl b + slack).
Proof.
  intros Fa Fb Da Db L slack. pose proof (C109_error a d Fa Da) as A. pose proof (C109_error b d Fb Db) as B. rewrite <- L in B.
  apply Rabs_le_inv in A. apply Rabs_le_inv in B. unfold slack. split; lra.
Qed.

(** One pixel of chi: two roundings of binary32 *)
Theorem C109_chi data model inverr : fmt32 data -> fmt32 model ->
  let chi := (data - model) * inverr in
  Rabs (chi_pixel sub32 mul32 data model inverr - chi) <= ((1 + u32) ^ 2 - 1) * Rabs chi + bpow radix2 (-150).
Proof.
  intros Fd Fm chi. unfold chi_pixel.
  pose proof (add_err 24 (-149) ltac:(lia) data (- model) Fd (fmt_opp _ _ _ Fm)) as E1.
  change (fadd 24 (-149) data (- model)) with (sub32 data model) in E1. unfold unit_err in E1. simpl (- (24))%Z in E1.
  replace (data + - model) with (data - model) in E1 by ring.
  set (s := sub32 data model) in *.
  destruct (relative_error_N_FLT'_ex radix2 (-149) 24 ltac:(reflexivity) (fun n => negb (Z.even n)) (s * inverr)) as (e & h & He & Hh & _ & E2).
  pose proof (u_rod1pu_ro_le_u_ro radix2 24) as UL. rewrite u_ro_u in *. unfold unit_err in *. simpl (- (24))%Z in *.
  assert (E3 : Rabs (mul32 s inverr - s * inverr) <= u32 * Rabs (s * inverr) + bpow radix2 (-150)).
  { unfold mul32, fmul, rn. rewrite E2. replace (s * inverr * (1 + e) + h - s * inverr) with (e * (s * inverr) + h) by ring.
    eapply Rle_trans; [apply Rabs_triang|]. rewrite Rabs_mult. apply Rplus_le_compat.
    - apply Rmult_le_compat_r; [apply Rabs_pos|lra].
    - eapply Rle_trans; [exact Hh|]. replace (-150)%Z with (-1 + -149)%Z by lia. rewrite bpow_plus. simpl. lra. }
  assert (D : Rabs (s * inverr - chi) <= u32 * Rabs chi).
  { unfold chi. replace (s * inverr - (data - model) * inverr) with ((s - (data - model)) * inverr) by ring.
    rewrite !Rabs_mult, <- Rmult_assoc. apply Rmult_le_compat_r; [apply Rabs_pos|auto]. }
  assert (B : Rabs (s * inverr) <= (1 + u32) * Rabs chi).
  { replace (s * inverr) with ((s * inverr - chi) + chi) by ring. eapply Rle_trans; [apply Rabs_triang|]. lra. }
  replace (mul32 s inverr - chi) with ((mul32 s inverr - s * inverr) + (s * inverr - chi)) by ring.
  eapply Rle_trans; [apply Rabs_triang|]. pose proof (bpow_gt_0 radix2 (-24)) as U.
  assert (u32 * Rabs (s * inverr) <= u32 * ((1 + u32) * Rabs chi)) by (apply Rmult_le_compat_l; lra).
  assert (W : forall w x, ((1 + w) ^ 2 - 1) * x = w * x + w * ((1 + w) * x)) by (intros; ring).
  rewrite W. lra.
Qed.

(** ** Cases, computed in the machine's 64-bit floats *)
Definition chain {A} (x : A) (l : list A) : tree A := fold_left (fun acc y => Node acc (Leaf y)) l (Leaf x).
Definition lnl_machine (x : PrimFloat.float) (l : list PrimFloat.float) : PrimFloat.float :=
  log_likelihood 0%float (-0.5)%float PrimFloat.add PrimFloat.mul [Some (chain x l)].

(** The better of two fits can look worse: chi images of five pixels added one
    after the other; the sums of squares are 2^54 + 4 and 2^54 + 3. *)
Theorem C109_order_refuted :
  (lnl_machine 0x1p27 [1; 1; 1; 1] <? lnl_machine 1 [1; 1; 0; 0x1p27] = false)%float /\
  (lnl_machine 1 [1; 1; 0; 0x1p27] <? lnl_machine 0x1p27 [1; 1; 1; 1] = true)%float /\
  exact_lnl [Some (chain (2 ^ 27) [1; 1; 1; 1])] < exact_lnl [Some (chain 1 [1; 1; 0; 2 ^ 27])].
Proof.
  split; [vm_compute; reflexivity|]. split; [vm_compute; reflexivity|].
  unfold exact_lnl. simpl. lra.
Qed.
(** chi images in binary64 (float64 data): a misfit can count as perfect. *)
Theorem C109_zero_refuted : (lnl_machine 0x1p-600 [] =? 0 = true)%float.
Proof. vm_compute. reflexivity. Qed.

Example C109_ex : Forall fmt32 (concat (map pixels [Some (chain 1 [2; -3]); None])) /\
  Forall (fun c => (image_depth c <= 2)%nat) [Some (chain 1 [2; -3]); None] /\ exact_lnl [Some (chain 1 [2; -3]); None] = -7.
Proof.
  split; [|split].
  - simpl. repeat constructor; apply (fmt_int 24 (-149)); simpl; lia || lra.
  - repeat constructor; simpl; lia.
  - unfold exact_lnl. simpl. lra.
Qed.

Print Assumptions C109_not_positive.
Print Assumptions C109_error.
Print Assumptions C109_zero.
Print Assumptions C109_order.
Print Assumptions C109_chi.
Print Assumptions C109_order_refuted.
Print Assumptions C109_zero_refuted.
