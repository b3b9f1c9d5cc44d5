(** Property C118: the steps of the constrained optimizer
    (constrained_optimizer.py:84-159, modelled in OptimModel.v) when every
    operation rounds. *)
From Coq Require Import Reals ZArith QArith Qabs Qpower Qreals Bool Lia Lra Psatz.
From Flocq Require Import Core Plus_error Relative Mult_error.
From Coq Require Import List.
From Verif Require Import Base Ext OptimModel OptimProps RoundModel RoundArith.
Import ListNotations.
Open Scope R_scope.

(** ** Rounded operations on rationals
    The model computes with rationals; rounding a rational gives a rational. *)
Section Float.
Variables (prec emin : Z).
Context (P : (0 < prec)%Z).
Notation fmt := (fmt prec emin).
Notation rn := (rn prec emin).
Notation u := (unit_err prec).
Notation fexp := (FLT_exp emin prec).
Local Instance Pgt : Prec_gt_0 prec := P.

(** The number of the type nearest to [x] *)
Definition rq (x : Q) : Q := (inject_Z (ZnearestE (scaled_mantissa radix2 fexp (Q2R x))) * 2 ^ cexp radix2 fexp (Q2R x))%Q.
Definition qadd (x y : Q) : Q := rq (x + y).
Definition qsub (x y : Q) : Q := rq (x - y).
Definition qmul (x y : Q) : Q := rq (x * y).
Definition qdiv (x y : Q) : Q := rq (x / y).
(** A number of the type *)
Definition num (x : Q) : Prop := fmt (Q2R x).
Definition numo (x : option Q) : Prop := match x with Some x => num x | None => True end.

(** ** The claim, for one proposal
    The number of parameters is n, one rounding of a result x changes it by at
    most u |x|, or by half the smallest positive number, 2^emin / 2. *)
(** Numbers from here on lose precision *)
Definition least_normal : R := bpow radix2 (emin + prec - 1).
(** No parameter moves further than its limit, up to rounding. *)
Definition moved_about (n : nat) (maxs : list (option Q)) (p0 p : list Q) : Prop :=
  forall i m a x, nth_error maxs i = Some (Some m) -> nth_error p0 i = Some a -> nth_error p i = Some x ->
    Rabs (Q2R x - Q2R a) <= u * Rabs (Q2R a) + (1 + u) ^ (2 * n + 3) * (Q2R m + bpow radix2 emin).
(** The point is start + fraction * direction, up to rounding. *)
Definition near_line (n : nat) (alpha : Q) (p0 dir p : list Q) : Prop :=
  forall i a d x, nth_error p0 i = Some a -> nth_error dir i = Some d -> nth_error p i = Some x ->
    Rabs (Q2R x - (Q2R a + Q2R alpha * Q2R d)) <=
      ((1 + u) ^ (2 * n + 2) - 1) * (Rabs (Q2R a) + Q2R alpha * Rabs (Q2R d)) + bpow radix2 emin.
(** Steps that hit neither a limit nor a bound are just the rounded ones. *)
Definition plain (a : Q) (p0 dir : list Q) (s : step) : Prop :=
  s_hit s = false -> s_limit s = false ->
  s_alpha s = a /\ s_params s = map (fun e => qadd (fst e) (qmul a (snd e))) (combine p0 dir).

(** ** Rounding *)
Lemma Q2R_pow2 e : Q2R (2 ^ e)%Q = bpow radix2 e.
Proof.
  assert (N : forall k : positive, Q2R (Qpower_positive 2 k) = bpow radix2 (Z.pos k)).
  { intros k.
    induction k using Pos.peano_ind.
    - unfold Q2R. simpl. lra.
    - rewrite <- Pos.add_1_l. rewrite (Qeq_eqR _ (Qpower_positive 2 1 * Qpower_positive 2 k)) by apply Qpower_plus_positive.
      rewrite Q2R_mult, IHk, Pos2Z.inj_add, bpow_plus. f_equal. unfold Q2R. simpl. lra. }
  destruct e as [|k|k].
  - unfold Q2R. simpl. lra.
  - apply N.
  - change (2 ^ Z.neg k)%Q with (/ Qpower_positive 2 k)%Q. rewrite Q2R_inv.
    + rewrite N. change (Z.neg k) with (- Z.pos k)%Z. rewrite bpow_opp. reflexivity.
    + intros H. apply Qeq_eqR in H. rewrite N in H. pose proof (bpow_gt_0 radix2 (Z.pos k)). assert (Q2R 0 = 0) by (unfold Q2R; simpl; lra). lra.
Qed.
Lemma Q2R_inject z : Q2R (inject_Z z) = IZR z.
Proof. unfold Q2R. simpl. lra. Qed.
Lemma Q2R_rq x : Q2R (rq x) = rn (Q2R x).
Proof. unfold rq. rewrite Q2R_mult, Q2R_pow2, Q2R_inject. reflexivity. Qed.
Lemma num_rq x : num (rq x).
Proof. unfold num. rewrite Q2R_rq. apply fmt_rn; auto. Qed.

Lemma u_half : / 2 * bpow radix2 (- prec + 1) = u.
Proof. unfold unit_err. rewrite bpow_plus. simpl (bpow radix2 1). change (IZR (Z.pow_pos radix2 1)) with 2. lra. Qed.
Lemma rn_opp x : rn (- x) = - rn x.
Proof. apply round_NE_opp. Qed.
Lemma rn_0 : rn 0 = 0.
Proof. apply round_0. typeclasses eauto. Qed.
Lemma rn_nonneg x : 0 <= x -> 0 <= rn x.
Proof. intros H. rewrite <- rn_0. apply rn_le; auto. Qed.
Lemma rn_below x y : fmt y -> rn x < y -> x < y.
Proof. intros F H. destruct (Rlt_le_dec x y) as [|L]; auto. exfalso. apply (rn_le prec emin P) in L. rewrite (rn_fmt prec emin y F) in L. lra. Qed.
Lemma rn_above x y : fmt y -> y < rn x -> y < x.
Proof. intros F H. destruct (Rlt_le_dec y x) as [|L]; auto. exfalso. apply (rn_le prec emin P) in L. rewrite (rn_fmt prec emin y F) in L. lra. Qed.
Lemma eta_pos : 0 < bpow radix2 emin.
Proof. apply bpow_gt_0. Qed.
Lemma normal_pos : 0 < least_normal.
Proof. apply bpow_gt_0. Qed.
Lemma rn_normal x : least_normal <= x -> Rabs (rn x - x) <= u * x /\ Rabs (rn x - x) <= u * rn x.
Proof.
  intros H. pose proof normal_pos. assert (A : Rabs x = x) by (apply Rabs_pos_eq; lra).
  assert (B : Rabs (rn x) = rn x) by (apply Rabs_pos_eq, rn_nonneg; lra). split.
  - rewrite <- A at 3. rewrite <- u_half. apply relative_error_N_FLT; auto. rewrite A. exact H.
  - rewrite <- B at 2. rewrite <- u_half. apply relative_error_N_FLT_round; auto. rewrite A. exact H.
Qed.
Lemma rn_small x : 0 <= x < least_normal -> Rabs (rn x - x) <= bpow radix2 emin / 2.
Proof.
  intros [H0 H]. unfold Rdiv. rewrite Rmult_comm. erewrite <- (ulp_FLT_small radix2 emin prec x).
  - apply error_le_half_ulp. typeclasses eauto.
  - rewrite Rabs_pos_eq by auto. eapply Rlt_le_trans; [exact H|]. apply bpow_le. lia.
Qed.
Lemma rn_le_max x : 0 <= x -> rn x <= Rmax (x * (1 + u)) least_normal.
Proof.
  intros H. destruct (Rle_lt_dec least_normal x) as [L|L].
  - destruct (rn_normal x L) as [E _]. apply Rabs_le_inv in E. eapply Rle_trans; [|apply Rmax_l]. lra.
  - eapply Rle_trans; [|apply Rmax_r]. rewrite <- (rn_fmt prec emin least_normal).
    + apply rn_le; auto. lra.
    + apply generic_format_FLT_bpow; [exact P|]. lia.
Qed.
Lemma rn_err x : 0 <= x -> Rabs (rn x - x) <= u * x + bpow radix2 emin / 2 /\ x <= rn x * (1 + u) + bpow radix2 emin / 2.
Proof.
  intros H. pose proof eta_pos. pose proof (u_pos prec). destruct (Rle_lt_dec least_normal x) as [L|L].
  - destruct (rn_normal x L) as [E F]. split; [lra|]. apply Rabs_le_inv in F. lra.
  - pose proof (rn_small x (conj H L)) as E. split; [nra|]. apply Rabs_le_inv in E. pose proof (rn_nonneg x H). nra.
Qed.

(** ** Reducing the fraction *)
Notation N := least_normal.
Notation "'g' k" := ((1 + u) ^ k) (at level 9).
Lemma g1 k : 1 <= g k.
Proof. pose proof (u_pos prec). apply pow_R1_Rle. lra. Qed.
Lemma g_le j k : (j <= k)%nat -> g j <= g k.
Proof. intros H. pose proof (u_pos prec). apply Rle_pow; auto. lra. Qed.
(** The fraction that just reaches a bound at distance [w], if the rounded step
    goes beyond it: at most two roundings larger. *)
Lemma reach A d p b : 0 <= A -> 0 < d -> fmt p -> fmt b -> 0 <= p - b -> p - b < rn (A * d) ->
  0 <= rn (rn (p - b) / d) <= Rmax (A * g 2) N.
Proof.
  intros HA Hd Fp Fb Hw Hs. pose proof (u_pos prec) as U. pose proof eta_pos as E0.
  assert (AD : 0 <= A * d) by nra.
  assert (B : rn (p - b) <= A * d * (1 + u)).
  { destruct (Rle_lt_dec N (A * d)) as [L|L].
    - destruct (rn_normal (A * d) L) as [E _]. apply Rabs_le_inv in E.
      assert (rn (p - b) <= rn (A * d)); [|lra].
      rewrite <- (rn_fmt prec emin (rn (A * d))) by (apply fmt_rn; auto). apply rn_le; auto. lra.
    - pose proof (rn_small (A * d) (conj AD L)) as E. apply Rabs_le_inv in E.
      assert (W : p - b <= rn (A * d) - bpow radix2 emin).
      { assert (exists z, p - b = IZR z * bpow radix2 emin) as (z1 & E1).
        { destruct (FLT_format_generic radix2 emin prec p Fp) as [[m1 e1] M1 _ X1].
          destruct (FLT_format_generic radix2 emin prec b Fb) as [[m2 e2] M2 _ X2]. cbn [Fexp] in X1, X2.
          exists (m1 * 2 ^ (e1 - emin) - m2 * 2 ^ (e2 - emin))%Z. rewrite M1, M2. unfold F2R. cbn [Fnum Fexp].
          rewrite minus_IZR, !mult_IZR, !(IZR_Zpower radix2) by lia. rewrite Rmult_minus_distr_r, !Rmult_assoc, <- !bpow_plus. do 3 f_equal; f_equal; lia. }
        assert (exists z, rn (A * d) = IZR z * bpow radix2 emin) as (z2 & E2).
        { destruct (FLT_format_generic radix2 emin prec (rn (A * d)) (fmt_rn prec emin P _)) as [[m1 e1] M1 _ X1]. cbn [Fexp] in X1.
          exists (m1 * 2 ^ (e1 - emin))%Z. rewrite M1. unfold F2R. cbn [Fnum Fexp].
          rewrite mult_IZR, (IZR_Zpower radix2) by lia. rewrite Rmult_assoc, <- bpow_plus. do 2 f_equal. lia. }
        rewrite E1, E2 in *. assert (z1 < z2)%Z by (apply lt_IZR; nra). assert (IZR z1 <= IZR z2 - 1) by (rewrite <- minus_IZR; apply IZR_le; lia). nra. }
      pose proof (add_err prec emin P p (- b) Fp (fmt_opp prec emin b Fb)) as AE. unfold fadd in AE.
      change (p + - b) with (p - b) in AE. rewrite (Rabs_pos_eq (p - b)) in AE by auto. apply Rabs_le_inv in AE. nra. }
  assert (R0 : 0 <= rn (p - b)) by (apply rn_nonneg; auto).
  assert (D0 : 0 <= rn (p - b) / d) by (apply Rmult_le_pos; [auto|apply Rlt_le, Rinv_0_lt_compat; auto]).
  split; [apply rn_nonneg; auto|]. eapply Rle_trans; [apply rn_le_max; auto|].
  apply Rmax_lub; [eapply Rle_trans; [|apply Rmax_l]|apply Rmax_r].
  assert (rn (p - b) / d <= A * (1 + u)).
  { apply Rmult_le_reg_r with d; auto. unfold Rdiv. rewrite Rmult_assoc, Rinv_l, Rmult_1_r by lra. nra. }
  simpl. nra.
Qed.

(** The fraction [b] keeps the parameter inside its bounds, or just reaches one. *)
Definition settled (p : Q) (l h : option Q) (d b : Q) : Prop :=
  (match l with Some l => qltb (qadd p (qmul b d)) l = false | None => True end /\
   match h with Some h => qltb h (qadd p (qmul b d)) = false | None => True end) \/
  (exists l', l = Some l' /\ Q2R d < 0 /\ b = qdiv (qsub l' p) d) \/ (exists h', h = Some h' /\ 0 < Q2R d /\ b = qdiv (qsub h' p) d).
Definition one (p : Q) (l h : option Q) (d alpha : Q) (hit : bool) : Q * bool :=
  let px := qadd p (qmul alpha d) in
  let '(alpha, px, hit) := match l with Some l => if qltb px l then (qdiv (qsub l p) d, l, true) else (alpha, px, hit) | None => (alpha, px, hit) end in
  match h with Some h => if qltb h px then (qdiv (qsub h p) d, true) else (alpha, hit) | None => (alpha, hit) end.
Lemma limit_bounds_one p ps l ls h hs d ds alpha hit :
  limit_bounds qadd qsub qmul qdiv (p :: ps) (l :: ls) (h :: hs) (d :: ds) alpha hit =
  (let '(a, b) := one p l h d alpha hit in limit_bounds qadd qsub qmul qdiv ps ls hs ds a b).
Proof.
  unfold one. cbn [limit_bounds]. destruct l as [l|]; [destruct (qltb _ _)|]; (destruct h as [h|]; [destruct (qltb h _)|]); reflexivity.
Qed.
Lemma qltb_R x y : qltb x y = true <-> Q2R x < Q2R y.
Proof. rewrite qltb_lt. split; [apply Qlt_Rlt|apply Rlt_Qlt]. Qed.
Lemma qltb_R' x y : qltb x y = false <-> Q2R y <= Q2R x.
Proof. rewrite qltb_ge. split; [apply Qle_Rle|apply Rle_Qle]. Qed.
Lemma Q2R_qadd x y : Q2R (qadd x y) = rn (Q2R x + Q2R y).
Proof. unfold qadd. rewrite Q2R_rq, Q2R_plus. reflexivity. Qed.
Lemma Q2R_qmul x y : Q2R (qmul x y) = rn (Q2R x * Q2R y).
Proof. unfold qmul. rewrite Q2R_rq, Q2R_mult. reflexivity. Qed.
Lemma Q2R_reach b p d : Q2R d <> 0 -> Q2R (qdiv (qsub b p) d) = rn (rn (Q2R b - Q2R p) / Q2R d).
Proof.
  intros H. unfold qdiv, qsub. rewrite Q2R_rq, Q2R_div, Q2R_rq, Q2R_minus; [reflexivity|].
  intros E. apply H. apply Qeq_eqR in E. rewrite E. unfold Q2R. simpl. lra.
Qed.
Lemma low_side p l d A : 0 <= A -> fmt p -> fmt l -> l <= p -> rn (p + rn (A * d)) < l -> d < 0 /\ p - l < rn (A * - d).
Proof.
  intros HA Fp Fl H L. apply rn_below in L; auto. assert (D : d < 0).
  { destruct (Rlt_le_dec d 0); auto. exfalso. assert (0 <= rn (A * d)) by (apply rn_nonneg; nra). lra. }
  split; auto. replace (A * - d) with (- (A * d)) by ring. rewrite rn_opp. lra.
Qed.
Lemma high_side p l d A : 0 <= A -> fmt p -> fmt l -> p <= l -> l < rn (p + rn (A * d)) -> 0 < d /\ l - p < rn (A * d).
Proof.
  intros HA Fp Fl H L. apply rn_above in L; auto. split; [|lra].
  destruct (Rlt_le_dec 0 d); auto. exfalso. assert (rn (A * d) <= 0); [|lra]. rewrite <- rn_0. apply rn_le; auto. nra.
Qed.
Lemma one_spec p l h d alpha hit : num p -> numo l -> numo h -> num d -> num alpha -> in_bounds l h p -> 0 <= Q2R alpha ->
  let '(a, b) := one p l h d alpha hit in
  num a /\ 0 <= Q2R a <= Rmax (Q2R alpha * g 2) N /\ settled p l h d a /\ (b = false -> a = alpha /\ hit = false /\
    match l with Some l => qltb (qadd p (qmul alpha d)) l = false | None => True end /\
    match h with Some h => qltb h (qadd p (qmul alpha d)) = false | None => True end).
Proof.
  intros Np Nl Nh Nd Na [B1 B2] HA.
  assert (KEEP : num alpha /\ 0 <= Q2R alpha <= Rmax (Q2R alpha * g 2) N).
  { split; auto. split; auto. eapply Rle_trans; [|apply Rmax_l]. pose proof (g1 2). nra. }
  assert (LOW : forall l', l = Some l' -> qltb (qadd p (qmul alpha d)) l' = true -> 
    Q2R d < 0 /\ 0 <= Q2R (qdiv (qsub l' p) d) <= Rmax (Q2R alpha * g 2) N).
  { intros l' -> E. cbn in Nl, B1. apply Qle_Rle in B1. apply qltb_R in E. rewrite Q2R_qadd, Q2R_qmul in E.
    destruct (low_side _ _ _ _ HA Np Nl B1 E) as [D W]. split; auto. rewrite Q2R_reach by lra.
    replace (rn (Q2R l' - Q2R p) / Q2R d) with (rn (Q2R p - Q2R l') / (- Q2R d)).
    - apply reach; auto; lra.
    - replace (Q2R l' - Q2R p) with (- (Q2R p - Q2R l')) by ring. rewrite rn_opp. field. lra. }
  assert (HIGH : forall h', h = Some h' -> qltb h' (qadd p (qmul alpha d)) = true ->
    0 < Q2R d /\ 0 <= Q2R (qdiv (qsub h' p) d) <= Rmax (Q2R alpha * g 2) N).
  { intros h' -> E. cbn in Nh, B2. apply Qle_Rle in B2. apply qltb_R in E. rewrite Q2R_qadd, Q2R_qmul in E.
    destruct (high_side _ _ _ _ HA Np Nh B2 E) as [D W]. split; auto. rewrite Q2R_reach by lra. apply reach; auto; lra. }
  unfold one. destruct l as [l|].
  - destruct (qltb (qadd p (qmul alpha d)) l) eqn:E1.
    + destruct (LOW l eq_refl E1) as [D R]. assert (ST : settled p (Some l) h d (qdiv (qsub l p) d)) by (right; left; eauto).
      destruct h as [h|].
      * assert (E2 : qltb h l = false). { apply qltb_R'. cbn in B1, B2. apply Qle_Rle in B1, B2. lra. } rewrite E2.
        repeat (split; [first [apply num_rq|assumption]|]). discriminate.
      * repeat (split; [first [apply num_rq|assumption]|]). discriminate.
    + destruct h as [h|].
      * destruct (qltb h (qadd p (qmul alpha d))) eqn:E2.
        -- destruct (HIGH h eq_refl E2) as [D R]. assert (ST : settled p (Some l) (Some h) d (qdiv (qsub h p) d)) by (right; right; eauto).
           repeat (split; [first [apply num_rq|assumption]|]). discriminate.
        -- destruct KEEP. repeat (split; [assumption|]). split; [left; auto|]. auto.
      * destruct KEEP. repeat (split; [assumption|]). split; [left; auto|]. auto.
  - destruct h as [h|].
    + destruct (qltb h (qadd p (qmul alpha d))) eqn:E2.
      * destruct (HIGH h eq_refl E2) as [D R]. assert (ST : settled p None (Some h) d (qdiv (qsub h p) d)) by (right; right; eauto).
        repeat (split; [first [apply num_rq|assumption]|]). discriminate.
      * destruct KEEP. repeat (split; [assumption|]). split; [left; auto|]. auto.
    + destruct KEEP. repeat (split; [assumption|]). split; [left; auto|]. auto.
Qed.

(** All bounds *)
Lemma RmaxRmult' a b c : 0 <= c -> Rmax a b * c = Rmax (a * c) (b * c).
Proof. intros H. rewrite Rmult_comm, (Rmult_comm a), (Rmult_comm b). symmetry. apply RmaxRmult. auto. Qed.
Lemma max_grow x y k : 0 <= x -> x <= Rmax (y * g k) N -> Rmax x N <= Rmax y N * g k.
Proof.
  intros H L. pose proof (g1 k) as G. pose proof normal_pos as NP. pose proof (Rmax_l y N). pose proof (Rmax_r y N).
  apply Rmax_lub; [|nra]. eapply Rle_trans; [exact L|]. apply Rmax_lub; nra.
Qed.
Lemma limit_bounds_spec : forall p0 los his dir alpha hit,
  Forall num p0 -> Forall numo los -> Forall numo his -> Forall num dir -> num alpha -> within los his p0 -> length dir = length p0 -> 0 <= Q2R alpha ->
  let '(a, b) := limit_bounds qadd qsub qmul qdiv p0 los his dir alpha hit in
  num a /\ 0 <= Q2R a /\ Rmax (Q2R a) N <= Rmax (Q2R alpha) N * g (2 * length p0) /\
  (forall i p l h d, nth_error p0 i = Some p -> nth_error los i = Some l -> nth_error his i = Some h -> nth_error dir i = Some d ->
     exists c, num c /\ 0 <= Q2R c /\ settled p l h d c /\ Rmax (Q2R a) N <= Rmax (Q2R c) N * g (2 * length p0)) /\
  (b = false -> a = alpha /\ hit = false /\ step_params qadd qmul p0 los his dir a = map (fun e => qadd (fst e) (qmul a (snd e))) (combine p0 dir)).
Proof.
  induction p0 as [|p p0 IH]; intros los his dir alpha hit F1 F2 F3 F4 Na W LD HA.
  - destruct los, his, dir; try destruct W; try discriminate. cbn [limit_bounds]. split; auto. split; auto. split; [change (g (2 * length (@nil Q))) with 1; lra|].
    split; [intros [|i] p l h d H; discriminate|]. intros E. auto.
  - destruct los as [|l los], his as [|h his], dir as [|d dir]; try destruct W as [W1 W2]; try discriminate; try destruct W.
    inversion F1; inversion F2; inversion F3; inversion F4; subst. rewrite limit_bounds_one.
    pose proof (one_spec p l h d alpha hit ltac:(auto) ltac:(auto) ltac:(auto) ltac:(auto) Na W1 HA) as O.
    destruct (one p l h d alpha hit) as [a1 b1]. destruct O as (O1 & O2 & O3 & O4).
    specialize (IH los his dir a1 b1 ltac:(auto) ltac:(auto) ltac:(auto) ltac:(auto) O1 W2 ltac:(cbn in LD; lia) ltac:(lra)).
    destruct (limit_bounds _ _ _ _ p0 los his dir a1 b1) as [a2 b2]. destruct IH as (I1 & I2 & I3 & I4 & I5).
    assert (G : g (2 * length (p :: p0)) = g 2 * g (2 * length p0)) by (rewrite <- pow_add; f_equal; cbn [length]; lia).
    pose proof (g1 (2 * length p0)) as G1. pose proof (g1 2) as G2. pose proof (max_grow (Q2R a1) (Q2R alpha) 2 ltac:(lra) ltac:(lra)) as MG.
    pose proof normal_pos as NP. pose proof (Rmax_r (Q2R alpha) N) as NA.
    split; auto. split; auto. split; [|split].
    + rewrite G. eapply Rle_trans; [exact I3|]. rewrite <- Rmult_assoc. apply Rmult_le_compat_r; lra.
    + intros [|i] p' l' h' d' E1 E2 E3 E4; cbn in E1, E2, E3, E4.
      * injection E1 as <-. injection E2 as <-. injection E3 as <-. injection E4 as <-. exists a1. split; auto. split; [lra|]. split; auto.
        eapply Rle_trans; [exact I3|]. pose proof (Rmax_r (Q2R a1) N). apply Rmult_le_compat_l; [lra|]. apply g_le. cbn [length]. lia.
      * destruct (I4 i p' l' h' d' E1 E2 E3 E4) as (c & C1 & C2 & C3 & C4). exists c. split; auto. split; auto. split; auto.
        eapply Rle_trans; [exact C4|]. pose proof (Rmax_r (Q2R c) N). apply Rmult_le_compat_l; [lra|]. apply g_le. cbn [length]. lia.
    + intros ->. destruct (I5 eq_refl) as (-> & -> & E). destruct (O4 eq_refl) as (-> & -> & K1 & K2). repeat split; auto.
      cbn [step_params combine map fst snd]. rewrite E. f_equal. unfold clamp. destruct l as [l|]; [rewrite K1|]; (destruct h as [h|]; [rewrite K2|]); reflexivity.
Qed.

(** ** Maximum steps *)
Lemma limit_steps_spec : forall maxs dir alpha lim,
  Forall numo maxs -> Forall num dir -> num alpha -> limits_nonneg maxs -> 0 <= Q2R alpha ->
  let '(a, b) := limit_steps qmul qdiv maxs dir alpha lim in
  num a /\ 0 <= Q2R a <= Q2R alpha /\
  (forall i m d, nth_error maxs i = Some (Some m) -> nth_error dir i = Some d ->
     Q2R a * Rabs (Q2R d) <= Rmax (Q2R m * (1 + u) + bpow radix2 emin / 2) (N * Rabs (Q2R d))) /\
  (b = false -> a = alpha /\ lim = false).
Proof.
  induction maxs as [|m maxs IH]; intros [|d dir] alpha lim F1 F2 Na LN HA; cbn [limit_steps];
    try (split; [auto|]; split; [lra|]; split; [intros [|i] m' d' E1 E2; discriminate|auto]; fail).
  inversion F1; inversion F2; inversion LN; subst.
  assert (AB : Q2R (Qabs d) = Rabs (Q2R d)).
  { destruct (Qlt_le_dec d 0) as [L|L].
    - rewrite (Qeq_eqR _ _ (Qabs_neg d ltac:(apply Qlt_le_weak; auto))), Q2R_opp. apply Qlt_Rlt in L. replace (Q2R 0) with 0 in L by (unfold Q2R; simpl; lra).
      rewrite Rabs_left by auto. reflexivity.
    - rewrite (Qeq_eqR _ _ (Qabs_pos d L)). apply Qle_Rle in L. replace (Q2R 0) with 0 in L by (unfold Q2R; simpl; lra). rewrite Rabs_pos_eq by auto. reflexivity. }
  pose proof (Rabs_pos (Q2R d)) as DP.
  assert (STEP : forall a1 b1, num a1 -> 0 <= Q2R a1 <= Q2R alpha -> (b1 = false -> a1 = alpha /\ lim = false) ->
     (forall m', m = Some m' -> Q2R a1 * Rabs (Q2R d) <= Rmax (Q2R m' * (1 + u) + bpow radix2 emin / 2) (N * Rabs (Q2R d))) ->
     let '(a, b) := limit_steps qmul qdiv maxs dir a1 b1 in
     num a /\ 0 <= Q2R a <= Q2R alpha /\
     (forall i m' d', nth_error (m :: maxs) i = Some (Some m') -> nth_error (d :: dir) i = Some d' ->
       Q2R a * Rabs (Q2R d') <= Rmax (Q2R m' * (1 + u) + bpow radix2 emin / 2) (N * Rabs (Q2R d'))) /\
     (b = false -> a = alpha /\ lim = false)).
  { intros a1 b1 N1 R1 L1 M1. specialize (IH dir a1 b1 ltac:(auto) ltac:(auto) N1 ltac:(auto) ltac:(lra)).
    destruct (limit_steps _ _ maxs dir a1 b1) as [a2 b2]. destruct IH as (I1 & I2 & I3 & I4). split; auto. split; [lra|]. split.
    - intros [|i] m' d' E1 E2; cbn in E1, E2; [|eapply I3; eauto]. injection E1 as ->. injection E2 as <-.
      eapply Rle_trans; [|apply M1; reflexivity]. apply Rmult_le_compat_r; lra.
    - intros E. destruct (I4 E) as [-> E']. apply L1. auto. }
  destruct m as [m|].
  2: { apply STEP; auto; [lra|discriminate]. }
  assert (M0 : 0 <= Q2R m). { match goal with H : (0 <= m)%Q |- _ => apply Qle_Rle in H; replace (Q2R 0) with 0 in H by (unfold Q2R; simpl; lra); auto end. }
  match goal with H : numo (Some m) |- _ => cbn in H; rename H into Nm end.
  destruct (qltb m (qmul alpha (Qabs d))) eqn:E.
  - apply qltb_R in E. rewrite Q2R_qmul, AB in E. apply rn_above in E; auto.
    assert (D : 0 < Rabs (Q2R d)) by nra.
    assert (E2 : Q2R (qdiv m (Qabs d)) = rn (Q2R m / Rabs (Q2R d))).
    { unfold qdiv. rewrite Q2R_rq, Q2R_div, AB; [reflexivity|]. intros Z0. apply Qeq_eqR in Z0. rewrite AB in Z0. replace (Q2R 0) with 0 in Z0 by (unfold Q2R; simpl; lra). lra. }
    assert (Q0 : 0 <= Q2R m / Rabs (Q2R d)) by (apply Rmult_le_pos; [auto|apply Rlt_le, Rinv_0_lt_compat; auto]).
    assert (Q1 : Q2R m / Rabs (Q2R d) * Rabs (Q2R d) = Q2R m) by (field; lra).
    apply STEP; [apply num_rq| |discriminate|].
    + rewrite E2. split; [apply rn_nonneg; auto|]. rewrite <- (rn_fmt prec emin (Q2R alpha)) by auto. apply rn_le; auto. nra.
    + intros m' Em. injection Em as <-. rewrite E2. pose proof (rn_le_max _ Q0) as RM. pose proof eta_pos. pose proof (u_pos prec).
      eapply Rle_trans; [apply Rmult_le_compat_r; [auto|exact RM]|]. rewrite RmaxRmult' by auto.
      apply Rmax_lub; [eapply Rle_trans; [|apply Rmax_l]|apply Rmax_r]. nra.
  - apply qltb_R' in E. rewrite Q2R_qmul, AB in E. apply STEP; auto; [lra|].
    intros m' Em. injection Em as <-. eapply Rle_trans; [|apply Rmax_l].
    destruct (rn_err (Q2R alpha * Rabs (Q2R d)) ltac:(nra)) as [_ X]. pose proof (u_pos prec). nra.
Qed.

(** ** The proposed point *)
Lemma u_le_half : u <= / 2.
Proof. unfold unit_err. change (/ 2) with (bpow radix2 (- 1)). apply bpow_le. lia. Qed.
Lemma rn_abs A d : 0 <= A -> Rabs (rn (A * d)) = rn (A * Rabs d).
Proof.
  intros HA. destruct (Rle_lt_dec 0 d) as [L|L].
  - rewrite (Rabs_pos_eq d) by auto. apply Rabs_pos_eq, rn_nonneg. nra.
  - rewrite (Rabs_left d) by auto. replace (A * - d) with (- (A * d)) by ring. rewrite rn_opp. apply Rabs_left1. rewrite <- rn_0. apply rn_le; auto. nra.
Qed.
(** The rounded step *)
Lemma px_near p d A : 0 <= A -> fmt p ->
  Rabs (rn (p + rn (A * d)) - (p + A * d)) <= u * Rabs p + (g 2 - 1) * (A * Rabs d) + bpow radix2 emin /\
  Rabs (rn (p + rn (A * d)) - p) <= u * Rabs p + (1 + u) * ((1 + u) * (A * Rabs d) + bpow radix2 emin / 2).
Proof.
  intros HA Fp. pose proof (u_pos prec) as U. pose proof u_le_half as U2. pose proof eta_pos as E0. pose proof (Rabs_pos d) as DP.
  pose proof (add_err prec emin P p (rn (A * d)) Fp (fmt_rn prec emin P _)) as AE. unfold fadd in AE.
  assert (S1 : Rabs (rn (A * d) - A * d) <= u * (A * Rabs d) + bpow radix2 emin / 2).
  { replace (rn (A * d) - A * d) with (if Rle_lt_dec 0 d then rn (A * Rabs d) - A * Rabs d else - (rn (A * Rabs d) - A * Rabs d)).
    - destruct (Rle_lt_dec 0 d); [|rewrite Rabs_Ropp]; apply (proj1 (rn_err (A * Rabs d) ltac:(nra))).
    - destruct (Rle_lt_dec 0 d) as [L|L]; [rewrite Rabs_pos_eq by auto; reflexivity|]. rewrite (Rabs_left d) by auto.
      replace (A * - d) with (- (A * d)) by ring. rewrite rn_opp. ring. }
  assert (S2 : Rabs (rn (A * d)) <= (1 + u) * (A * Rabs d) + bpow radix2 emin / 2).
  { rewrite rn_abs by auto. destruct (rn_err (A * Rabs d) ltac:(nra)) as [X _]. apply Rabs_le_inv in X. lra. }
  assert (S3 : Rabs (p + rn (A * d)) <= Rabs p + Rabs (rn (A * d))) by apply Rabs_triang.
  assert (AE' : Rabs (rn (p + rn (A * d)) - (p + rn (A * d))) <= u * Rabs p + u * ((1 + u) * (A * Rabs d) + bpow radix2 emin / 2)).
  { eapply Rle_trans; [exact AE|]. nra. }
  split.
  - replace (rn (p + rn (A * d)) - (p + A * d)) with ((rn (p + rn (A * d)) - (p + rn (A * d))) + (rn (A * d) - A * d)) by ring.
    eapply Rle_trans; [apply Rabs_triang|]. simpl pow. nra.
  - replace (rn (p + rn (A * d)) - p) with ((rn (p + rn (A * d)) - (p + rn (A * d))) + rn (A * d)) by ring.
    eapply Rle_trans; [apply Rabs_triang|]. nra.
Qed.
(** A bound that the rounded step exceeds though the fraction was settled is
    close. *)
Lemma bound_near n p l d A C : 0 <= A -> 0 <= C -> fmt p -> fmt l -> l <= p -> rn (p + rn (A * d)) < l ->
  (l <= rn (p + rn (C * d)) \/ C = rn (rn (p - l) / - d)) -> N < C -> A <= C * g n ->
  Rabs (l - (p + A * d)) <= (g (n + 2) - 1) * (Rabs p + A * Rabs d) + bpow radix2 emin.
Proof.
  intros HA HC Fp Fl H L S NC AC. pose proof (u_pos prec) as U. pose proof eta_pos as E0. pose proof (Rabs_pos p) as PP.
  destruct (low_side p l d A HA Fp Fl H L) as [D W]. assert (AD : Rabs d = - d) by (apply Rabs_left; auto).
  destruct (px_near p d A HA Fp) as [PA _]. pose proof (g1 n) as Gn. pose proof (g1 2) as G2. pose proof (g1 (n + 2)) as Gn2.
  assert (GG : g (n + 2) = g n * g 2) by apply pow_add. assert (Gu : 1 + u <= g 2) by (simpl; nra).
  apply Rabs_le_inv in PA. rewrite AD in *.
  assert (K1 : u <= g (n + 2) - 1) by nra. assert (K2 : g 2 - 1 <= g (n + 2) - 1) by nra.
  assert (AP : 0 <= A * - d) by nra.
  assert (KK : u * Rabs p + (g 2 - 1) * (A * - d) <= (g (n + 2) - 1) * (Rabs p + A * - d)) by nra.
  apply Rabs_le. split; [lra|].
  destruct S as [S|S].
  - destruct (Rle_lt_dec A C) as [LE|LT].
    { exfalso. assert (rn (p + rn (C * d)) <= rn (p + rn (A * d))); [|lra]. apply rn_le; auto. apply Rplus_le_compat_l. apply rn_le; auto. nra. }
    destruct (px_near p d C HC Fp) as [PC _]. apply Rabs_le_inv in PC. rewrite AD in PC.
    assert (X : A - C <= (g n - 1) * A). { assert (C <= A) by lra. nra. }
    assert (X2 : (A - C) * - d <= (g n - 1) * (A * - d)) by nra.
    assert (X3 : (g 2 - 1) * (C * - d) <= (g 2 - 1) * (A * - d)) by (apply Rmult_le_compat_l; nra).
    assert (X4 : (g 2 - 1) * (A * - d) + (g n - 1) * (A * - d) <= (g (n + 2) - 1) * (A * - d)).
    { rewrite <- Rmult_plus_distr_r. apply Rmult_le_compat_r; auto. nra. }
    nra.
  - pose proof (add_err prec emin P p (- l) Fp (fmt_opp prec emin l Fl)) as AE. unfold fadd in AE. change (p + - l) with (p - l) in AE.
    rewrite (Rabs_pos_eq (p - l)) in AE by lra. apply Rabs_le_inv in AE.
    assert (R0 : 0 <= rn (p - l)) by (apply rn_nonneg; lra).
    assert (Q0 : 0 <= rn (p - l) / - d) by (apply Rmult_le_pos; [auto|apply Rlt_le, Rinv_0_lt_compat; lra]).
    assert (Q1 : rn (p - l) / - d * - d = rn (p - l)) by (field; lra).
    pose proof (rn_le_max _ Q0) as RM. rewrite <- S in RM.
    assert (RM' : C <= rn (p - l) / - d * (1 + u)). { unfold Rmax in RM. destruct (Rle_dec _ _); lra. }
    assert (CD : C * - d <= (p - l) * g 2).
    { assert (C * - d <= rn (p - l) * (1 + u)) by nra. simpl. nra. }
    assert (AD2 : A * - d <= (p - l) * g (n + 2)). { rewrite GG. apply Rle_trans with (C * g n * - d); nra. }
    assert (FIN : A * - d - (p - l) <= (g (n + 2) - 1) * (A * - d)).
    { destruct (Rle_lt_dec (A * - d) (p - l)); nra. }
    nra.
Qed.

Lemma step_params_at : forall p0 los his dir a i, length los = length p0 -> length his = length p0 -> length dir = length p0 ->
  nth_error (step_params qadd qmul p0 los his dir a) i =
  match nth_error p0 i, nth_error los i, nth_error his i, nth_error dir i with
  | Some p, Some l, Some h, Some d => Some (clamp l h (qadd p (qmul a d))) | _, _, _, _ => None end.
Proof.
  induction p0 as [|p p0 IH]; intros [|l los] [|h his] [|d dir] a i; cbn [length]; intros L1 L2 L3; try discriminate.
  - destruct i; reflexivity.
  - cbn [step_params]. destruct i as [|i]; [reflexivity|]. cbn [nth_error]. apply IH; lia.
Qed.
Lemma within_lengths : forall los his p, within los his p -> length los = length p /\ length his = length p.
Proof.
  induction los as [|l los IH]; intros [|h his] [|x p] W; cbn [within] in W; try contradiction; auto.
  destruct W as [_ W]. destruct (IH his p W). cbn. lia.
Qed.
Lemma within_at : forall los his p i l h x, within los his p -> nth_error los i = Some l -> nth_error his i = Some h -> nth_error p i = Some x -> in_bounds l h x.
Proof.
  induction los as [|l0 los IH]; intros [|h0 his] [|x0 p] i l h x W E1 E2 E3; cbn [within] in W; try contradiction; destruct i; try discriminate; cbn in *; destruct W as [W1 W].
  - congruence.
  - eapply IH; eauto.
Qed.
Lemma clamp_R l h x p : in_bounds l h p ->
  Rabs (Q2R (clamp l h x) - Q2R p) <= Rabs (Q2R x - Q2R p) /\
  (clamp l h x = x \/ (exists l', l = Some l' /\ Q2R x < Q2R l' <= Q2R p /\ clamp l h x = l') \/ (exists h', h = Some h' /\ Q2R p <= Q2R h' < Q2R x /\ clamp l h x = h')).
Proof.
  intros [B1 B2]. unfold clamp.
  assert (LO : forall l', l = Some l' -> Q2R l' <= Q2R p) by (intros l' ->; apply Qle_Rle; auto).
  assert (HI : forall h', h = Some h' -> Q2R p <= Q2R h') by (intros h' ->; apply Qle_Rle; auto).
  destruct l as [l|]; [specialize (LO l eq_refl); destruct (qltb x l) eqn:E1; [apply qltb_R in E1|]|];
  (destruct h as [h|]; [specialize (HI h eq_refl); match goal with |- context [qltb h ?y] => destruct (qltb h y) eqn:E2; [apply qltb_R in E2|] end|]);
  try lra; (split; [|first [left; reflexivity|right; left; eexists; split; [reflexivity|]; split; [lra|reflexivity]|right; right; eexists; split; [reflexivity|]; split; [lra|reflexivity]]]); try lra;
  unfold Rabs; repeat destruct (Rcase_abs _); lra.
Qed.

(** From a start inside the bounds and for numbers of the type: every proposed
    point is inside the bounds (exactly), its fraction is at most the requested
    one, no parameter moves further than its limit and the point lies on the
    line, all three up to a few roundings. *)
Theorem C118_rounded : forall tiny p0 maxs los his dir alphas steps, let n := length p0 in
  Forall num p0 -> Forall numo maxs -> Forall numo los -> Forall numo his -> Forall num dir -> Forall num alphas -> Forall (fun a => 0 <= Q2R a) alphas ->
  within los his p0 -> limits_nonneg maxs -> length dir = n -> N * g (2 * n) < Q2R tiny ->
  parameter_steps qadd qsub qmul qdiv tiny p0 maxs los his dir alphas = Ok steps ->
  (length steps <= length alphas)%nat /\
  forall k s a, nth_error steps k = Some s -> nth_error alphas k = Some a ->
    within los his (s_params s) /\ Q2R tiny <= Q2R (s_alpha s) <= Q2R a * g (2 * n) /\
    moved_about n maxs p0 (s_params s) /\ near_line n (s_alpha s) p0 dir (s_params s) /\ plain a p0 dir s.
Proof.
  intros tiny p0 maxs los his dir alphas steps n F1 F2 F3 F4 F5 F6 PA W LN LD TN E.
  destruct (within_lengths _ _ _ W) as [LL LH].
  assert (BO : bounds_ordered los his).
  { clear - W. revert his p0 W. induction los as [|l los IH]; intros [|h his] [|p p0]; simpl; try tauto.
    intros ((A & B) & W). split; [|eapply IH; eauto]. destruct l, h; auto. eapply Qle_trans; eauto. }
  unfold parameter_steps in E. destruct (increasing alphas); [|discriminate]. injection E as <-.
  induction alphas as [|a alphas IH]; cbn [steps_loop]; [split; [auto|]; intros [|k] s a E; discriminate|].
  inversion F6 as [|? ? Fa F6']; inversion PA as [|? ? Pa PA']; subst. specialize (IH F6' PA').
  pose proof (limit_steps_spec maxs dir a false F2 F5 Fa LN Pa) as L1.
  destruct (limit_steps qmul qdiv maxs dir a false) as [a1 lim]. destruct L1 as (N1 & R1 & M1 & K1).
  pose proof (limit_bounds_spec p0 los his dir a1 false F1 F3 F4 F5 N1 W LD (proj1 R1)) as L2.
  destruct (limit_bounds qadd qsub qmul qdiv p0 los his dir a1 false) as [a2 hit]. destruct L2 as (N2 & R2 & X2 & C2 & K2).
  destruct (qltb a2 tiny) eqn:ET; [split; [cbn; lia|]; intros [|k] s a' E; discriminate|]. apply qltb_R' in ET.
  fold n in X2, C2. pose proof (g1 (2 * n)) as G. pose proof normal_pos as NP.
  assert (BIG : forall c, Rmax (Q2R a2) N <= Rmax c N * g (2 * n) -> N < c /\ Q2R a2 <= c * g (2 * n)).
  { intros c H. pose proof (Rmax_l (Q2R a2) N). destruct (Rle_lt_dec c N) as [L|L].
    - exfalso. rewrite (Rmax_right c N) in H by auto. lra.
    - rewrite (Rmax_left c N) in H by lra. split; lra. }
  destruct (BIG _ X2) as [B1 B2].
  split; [cbn [length]; destruct lim; [cbn; lia|]; destruct IH as [IH _]; lia|].
  intros [|k] s a' E1 E2; cbn [nth_error] in E1, E2.
  2: { destruct lim; [destruct k; discriminate|]. destruct IH as [_ IH]. eapply IH; eauto. }
  injection E1 as <-. injection E2 as <-. cbn [s_params s_alpha s_hit s_limit].
  split; [apply step_params_within; auto; unfold n in LD; lia|].
  split; [split; [auto|]; eapply Rle_trans; [exact B2|]; apply Rmult_le_compat_r; lra|].
  split; [|split].
  - intros i m p x H1 H2 H3. rewrite step_params_at in H3 by auto. rewrite H2 in H3.
    destruct (nth_error los i) as [l|] eqn:El; [|discriminate]. destruct (nth_error his i) as [h|] eqn:Eh; [|discriminate].
    destruct (nth_error dir i) as [d|] eqn:Ed; [|discriminate]. injection H3 as <-.
    assert (Np : num p) by (rewrite Forall_forall in F1; apply F1; eapply nth_error_In; eauto).
    destruct (clamp_R l h (qadd p (qmul a2 d)) p (within_at _ _ _ _ _ _ _ W El Eh H2)) as [CL _].
    eapply Rle_trans; [exact CL|]. rewrite Q2R_qadd, Q2R_qmul. destruct (px_near (Q2R p) (Q2R d) (Q2R a2) R2 Np) as [_ PX].
    eapply Rle_trans; [exact PX|]. apply Rplus_le_compat_l.
    pose proof (u_pos prec) as U. pose proof eta_pos as E0. pose proof (Rabs_pos (Q2R d)) as DP.
    assert (M0 : 0 <= Q2R m).
    { unfold limits_nonneg in LN. rewrite Forall_forall in LN. specialize (LN _ (nth_error_In _ _ H1)). cbn in LN. apply Qle_Rle in LN.
      replace (Q2R 0) with 0 in LN by (unfold Q2R; simpl; lra). auto. }
    specialize (M1 i m d H1 Ed).
    assert (M2 : Q2R a1 * Rabs (Q2R d) <= Q2R m * (1 + u) + bpow radix2 emin / 2).
    { unfold Rmax in M1. destruct (Rle_dec _ _); [|auto]. assert (Rabs (Q2R d) = 0) by nra. nra. }
    assert (M3 : Q2R a2 * Rabs (Q2R d) <= g (2 * n) * (Q2R m * (1 + u) + bpow radix2 emin / 2)).
    { apply Rle_trans with (Q2R a1 * g (2 * n) * Rabs (Q2R d)); [apply Rmult_le_compat_r; auto|]. nra. }
    replace (g (2 * n + 3)) with ((1 + u) * (1 + u) * (1 + u) * g (2 * n)) by (rewrite pow_add; simpl; ring).
    set (G0 := g (2 * n)) in *. 
    apply Rle_trans with ((1 + u) * ((1 + u) * (G0 * (Q2R m * (1 + u) + bpow radix2 emin / 2)) + bpow radix2 emin / 2)).
    { apply Rmult_le_compat_l; [lra|]. apply Rplus_le_compat_r. apply Rmult_le_compat_l; lra. }
    assert (T1 : 1 <= (1 + u) * G0) by nra. assert (T2 : (1 + u) * G0 <= (1 + u) * (1 + u) * G0) by nra.
    assert (T3 : (1 + u) * (1 + u) * G0 <= (1 + u) * (1 + u) * (1 + u) * G0) by nra.
    set (e := bpow radix2 emin) in *.
    replace ((1 + u) * ((1 + u) * (G0 * (Q2R m * (1 + u) + e / 2)) + e / 2)) with
      ((1 + u) * (1 + u) * (1 + u) * G0 * Q2R m + ((1 + u) * (1 + u) * G0) * (e / 2) + (1 + u) * (e / 2)) by ring.
    assert ((1 + u) <= (1 + u) * G0) by nra. nra.
  - intros i p d x H1 H2 H3. rewrite step_params_at in H3 by auto. rewrite H1, H2 in H3.
    destruct (nth_error los i) as [l|] eqn:El; [|discriminate]. destruct (nth_error his i) as [h|] eqn:Eh; [|discriminate]. injection H3 as <-.
    assert (Np : num p) by (rewrite Forall_forall in F1; apply F1; eapply nth_error_In; eauto).
    assert (Nl : numo l) by (rewrite Forall_forall in F3; apply F3; eapply nth_error_In; eauto).
    assert (Nh : numo h) by (rewrite Forall_forall in F4; apply F4; eapply nth_error_In; eauto).
    destruct (C2 i p l h d H1 El Eh H2) as (c & Nc & C0 & ST & CB). destruct (BIG _ CB) as [C1 C3].
    pose proof (Rabs_pos (Q2R p)) as PP. pose proof (Rabs_pos (Q2R d)) as DP. pose proof (u_pos prec) as U. pose proof (g1 2) as G2.
    assert (GG : g (2 * n + 2) = g (2 * n) * g 2) by apply pow_add. assert (Gu : 1 + u <= g 2) by (simpl; nra).
    destruct (clamp_R l h (qadd p (qmul a2 d)) p (within_at _ _ _ _ _ _ _ W El Eh H1)) as [_ [E|[(l' & -> & (X1 & X3) & E)|(h' & -> & (X1 & X3) & E)]]]; rewrite E.
    + rewrite Q2R_qadd, Q2R_qmul. destruct (px_near (Q2R p) (Q2R d) (Q2R a2) R2 Np) as [PX _]. eapply Rle_trans; [exact PX|].
      assert (u <= g (2 * n + 2) - 1) by nra. assert (g 2 - 1 <= g (2 * n + 2) - 1) by nra. assert (0 <= Q2R a2 * Rabs (Q2R d)) by nra. nra.
    + rewrite Q2R_qadd, Q2R_qmul in X1. destruct (low_side (Q2R p) (Q2R l') (Q2R d) (Q2R a2) R2 Np Nl X3 X1) as [D _].
      apply (bound_near (2 * n) (Q2R p) (Q2R l') (Q2R d) (Q2R a2) (Q2R c)); auto.
      destruct ST as [[S1 _]|[(l2 & E2 & _ & Ec)|(h2 & _ & D2 & _)]]; [left|right|lra].
      * apply qltb_R' in S1. rewrite Q2R_qadd, Q2R_qmul in S1. auto.
      * injection E2 as <-. rewrite Ec, Q2R_reach by lra. f_equal. replace (Q2R l' - Q2R p) with (- (Q2R p - Q2R l')) by ring. rewrite rn_opp. field. lra.
    + rewrite Q2R_qadd, Q2R_qmul in X3. destruct (high_side (Q2R p) (Q2R h') (Q2R d) (Q2R a2) R2 Np Nh X1 X3) as [D _].
      pose proof (bound_near (2 * n) (- Q2R p) (- Q2R h') (- Q2R d) (Q2R a2) (Q2R c) R2 C0 (fmt_opp _ _ _ Np) (fmt_opp _ _ _ Nh) ltac:(lra)) as BN.
      assert (FL : forall A, - Q2R p + rn (A * - Q2R d) = - (Q2R p + rn (A * Q2R d))).
      { intros A. replace (A * - Q2R d) with (- (A * Q2R d)) by ring. rewrite rn_opp. ring. }
      rewrite !FL, !rn_opp, !Rabs_Ropp in BN.
      replace (Q2R h' - (Q2R p + Q2R a2 * Q2R d)) with (- (- Q2R h' - (- Q2R p + Q2R a2 * - Q2R d))) by ring. rewrite Rabs_Ropp. apply BN; auto; try lra.
      destruct ST as [[_ S1]|[(l2 & _ & D2 & _)|(h2 & E2 & _ & Ec)]]; [left|lra|right].
      * apply qltb_R' in S1. rewrite Q2R_qadd, Q2R_qmul in S1. lra.
      * injection E2 as <-. rewrite Ec, Q2R_reach by lra. replace (- Q2R p - - Q2R h') with (Q2R h' - Q2R p) by ring. f_equal. f_equal. ring.
  - intros H1 H2. cbn [s_hit s_limit s_alpha s_params] in *. destruct (K1 H2) as [-> _]. destruct (K2 H1) as (-> & _ & E). auto.
Qed.

(** ** Rounding of given numbers *)
Definition rounds_to (x : Q) (m e : Z) : bool :=
  let y := (x * 2 ^ (- e))%Q in
  (emin <=? e)%Z && Qle_bool (2 ^ (prec - 1)) (Qabs y) && qltb (Qabs y) (2 ^ prec) && qltb (Qabs (y - inject_Z m)) (1 # 2).
Lemma Q2R_abs x : Q2R (Qabs x) = Rabs (Q2R x).
Proof.
  destruct (Qlt_le_dec x 0) as [L|L].
  - rewrite (Qeq_eqR _ _ (Qabs_neg x ltac:(apply Qlt_le_weak; auto))), Q2R_opp. apply Qlt_Rlt in L. replace (Q2R 0) with 0 in L by (unfold Q2R; simpl; lra).
    rewrite Rabs_left by auto. reflexivity.
  - rewrite (Qeq_eqR _ _ (Qabs_pos x L)). apply Qle_Rle in L. replace (Q2R 0) with 0 in L by (unfold Q2R; simpl; lra). rewrite Rabs_pos_eq by auto. reflexivity.
Qed.
Lemma rq_is x m e : rounds_to x m e = true -> (rq x == inject_Z m * 2 ^ e)%Q.
Proof.
  unfold rounds_to. rewrite !andb_true_iff. intros [[[H1 H2] H3] H4]. apply Z.leb_le in H1. apply Qle_bool_iff in H2. apply Qle_Rle in H2.
  apply qltb_R in H3, H4. rewrite Q2R_abs in H2, H3, H4. rewrite Q2R_minus, Q2R_inject in H4. rewrite Q2R_mult in H2, H3, H4. rewrite !Q2R_pow2 in *.
  assert (B : 0 < bpow radix2 (- e)) by apply bpow_gt_0. rewrite Rabs_mult, (Rabs_pos_eq (bpow radix2 (- e))) in H2, H3 by lra.
  assert (I : bpow radix2 (- e) * bpow radix2 e = 1) by (rewrite <- bpow_plus, Z.add_opp_diag_l; reflexivity).
  assert (B' : 0 < bpow radix2 e) by apply bpow_gt_0.
  assert (M : mag_val radix2 (Q2R x) (mag radix2 (Q2R x)) = (prec + e)%Z).
  { apply mag_unique. split.
    - replace (prec + e - 1)%Z with ((prec - 1) + e)%Z by lia. rewrite bpow_plus.
      replace (Rabs (Q2R x)) with (Rabs (Q2R x) * bpow radix2 (- e) * bpow radix2 e) by (rewrite Rmult_assoc, I; ring). apply Rmult_le_compat_r; lra.
    - rewrite bpow_plus. replace (Rabs (Q2R x)) with (Rabs (Q2R x) * bpow radix2 (- e) * bpow radix2 e) by (rewrite Rmult_assoc, I; ring). apply Rmult_lt_compat_r; lra. }
  assert (C : cexp radix2 fexp (Q2R x) = e) by (unfold cexp, FLT_exp; rewrite M; lia).
  unfold rq. unfold scaled_mantissa. rewrite C. rewrite (Znearest_imp _ _ m); [reflexivity|]. replace (/ 2) with (Q2R (1 # 2)) by (unfold Q2R; simpl; lra). exact H4.
Qed.
Lemma rq_compat x y : (x == y)%Q -> rq x = rq y.
Proof. intros E. apply Qeq_eqR in E. unfold rq. rewrite E. reflexivity. Qed.
(** A number given by mantissa and exponent *)
Lemma num_is (x : Q) m e : (x == inject_Z m * 2 ^ e)%Q -> (Z.abs m < 2 ^ prec)%Z -> (emin <= e)%Z -> num x.
Proof.
  intros E M Em. unfold num. rewrite (Qeq_eqR _ _ E), Q2R_mult, Q2R_pow2, Q2R_inject. apply generic_format_FLT. exists (Float radix2 m e); auto.
Qed.
End Float.

(** ** Double precision *)
Notation steps64 := (parameter_steps (qadd 53 (-1074)) (qsub 53 (-1074)) (qmul 53 (-1074)) (qdiv 53 (-1074)) (1 # 100000000)).
Notation num64 := (num 53 (-1074)).
Notation numo64 := (numo 53 (-1074)).
Definition eps : Q := (2 ^ (-52))%Q.

(** One parameter at 1 with maximum step 7/4 eps (eps = 2^-52) and no bounds,
    asked to move by 7/2 eps: it moves by 2 eps, more than its maximum. *)
Theorem C118_limit_refuted : exists s, let m := ((7 # 4) * eps)%Q in
  num64 m /\ num64 ((7 # 2) * eps)%Q /\ num64 1%Q /\ steps64 [1%Q] [Some m] [None] [None] [((7 # 2) * eps)%Q] [1%Q] = Ok [s] /\
  (s_alpha s == 1 # 2)%Q /\ s_limit s = true /\ s_hit s = false /\ exists x, s_params s = [x] /\ (x - 1 == 2 * eps)%Q /\ (m < x - 1)%Q.
Proof.
  set (m := ((7 # 4) * eps)%Q). set (d := ((7 # 2) * eps)%Q).
  assert (E1 : (qmul 53 (-1074) 1 (Qabs d) == (7 # 2) * eps)%Q).
  { unfold qmul. eapply Qeq_trans; [apply (rq_is 53 (-1074) _ (7 * 2 ^ 50) (-103)); vm_compute; reflexivity|vm_compute; reflexivity]. }
  assert (E2 : (qdiv 53 (-1074) m (Qabs d) == 1 # 2)%Q).
  { unfold qdiv. eapply Qeq_trans; [apply (rq_is 53 (-1074) _ (2 ^ 52) (-53)); vm_compute; reflexivity|vm_compute; reflexivity]. }
  set (al := qdiv 53 (-1074) m (Qabs d)) in *.
  assert (E3 : (qmul 53 (-1074) al d == (7 # 4) * eps)%Q).
  { unfold qmul. rewrite (rq_compat 53 (-1074) _ ((1 # 2) * d)) by (rewrite E2; reflexivity).
    eapply Qeq_trans; [apply (rq_is 53 (-1074) _ (7 * 2 ^ 50) (-104)); vm_compute; reflexivity|vm_compute; reflexivity]. }
  assert (E4 : (qadd 53 (-1074) 1 (qmul 53 (-1074) al d) == 1 + 2 * eps)%Q).
  { unfold qadd. rewrite (rq_compat 53 (-1074) _ (1 + (7 # 4) * eps)) by (rewrite E3; reflexivity).
    eapply Qeq_trans; [apply (rq_is 53 (-1074) _ (2 ^ 52 + 2) (-52)); vm_compute; reflexivity|vm_compute; reflexivity]. }
  assert (T1 : qltb m (qmul 53 (-1074) 1 (Qabs d)) = true). { apply qltb_lt. rewrite E1. vm_compute. reflexivity. }
  assert (T2 : qltb al (1 # 100000000) = false). { apply qltb_ge. rewrite E2. vm_compute. discriminate. }
  exists (mkStep al [qadd 53 (-1074) 1 (qmul 53 (-1074) al d)] true false). cbv zeta.
  split; [apply (num_is 53 (-1074) m 7 (-54)); [vm_compute; reflexivity|lia|lia]|].
  split; [apply (num_is 53 (-1074) d 7 (-53)); [vm_compute; reflexivity|lia|lia]|].
  split; [apply (num_is 53 (-1074) 1 1 0); [vm_compute; reflexivity|lia|lia]|].
  split; [|cbn [s_alpha s_limit s_hit s_params]; split; [exact E2|]; split; auto; split; auto; eexists; split; [reflexivity|]; rewrite E4; split; vm_compute; reflexivity].
  unfold parameter_steps. cbn [increasing steps_loop limit_steps]. fold m d. rewrite T1. fold al. cbn [limit_bounds]. rewrite T2. reflexivity.
Qed.

(** math.sqrt(2.) *)
Definition root2 : Q := (inject_Z 6369051672525773 * 2 ^ (-52))%Q.
(** A parameter just above 1 with a lower bound just below 0, direction near
    -1/sqrt 2, fraction sqrt(2.) (one of the default ones): "reducing" the fraction to just hit the bound makes it
    larger than requested, by one unit in the last place. *)
Theorem C118_reduce_refuted : exists s, let p := (1 + 5 * eps)%Q in let l := (- (3 # 4) * eps)%Q in let d := (- inject_Z 6369051672525780 * 2 ^ (-53))%Q in
  num64 p /\ num64 l /\ num64 d /\ num64 root2 /\ steps64 [p] [None] [Some l] [None] [d] [root2] = Ok [s] /\
  s_hit s = true /\ (s_alpha s == root2 + eps)%Q /\ s_params s = [l].
Proof.
  set (p := (1 + 5 * eps)%Q). set (l := (- (3 # 4) * eps)%Q). set (d := (- inject_Z 6369051672525780 * 2 ^ (-53))%Q).
  assert (E1 : (qmul 53 (-1074) root2 d == - (1 + 6 * eps))%Q).
  { unfold qmul. eapply Qeq_trans; [apply (rq_is 53 (-1074) _ (- (2 ^ 52 + 6)) (-52)); vm_compute; reflexivity|vm_compute; reflexivity]. }
  assert (E2 : (qadd 53 (-1074) p (qmul 53 (-1074) root2 d) == - eps)%Q).
  { unfold qadd. rewrite (rq_compat 53 (-1074) _ (p + - (1 + 6 * eps))) by (rewrite E1; reflexivity).
    eapply Qeq_trans; [apply (rq_is 53 (-1074) _ (- 2 ^ 52) (-104)); vm_compute; reflexivity|vm_compute; reflexivity]. }
  assert (E3 : (qsub 53 (-1074) l p == - (1 + 6 * eps))%Q).
  { unfold qsub. eapply Qeq_trans; [apply (rq_is 53 (-1074) _ (- (2 ^ 52 + 6)) (-52)); vm_compute; reflexivity|vm_compute; reflexivity]. }
  assert (E4 : (qdiv 53 (-1074) (qsub 53 (-1074) l p) d == root2 + eps)%Q).
  { unfold qdiv. rewrite (rq_compat 53 (-1074) _ (- (1 + 6 * eps) / d)) by (rewrite E3; reflexivity).
    eapply Qeq_trans; [apply (rq_is 53 (-1074) _ (6369051672525773 + 1) (-52)); vm_compute; reflexivity|vm_compute; reflexivity]. }
  set (al := qdiv 53 (-1074) (qsub 53 (-1074) l p) d) in *.
  assert (E5 : (qmul 53 (-1074) al d == - (1 + 6 * eps))%Q).
  { unfold qmul. rewrite (rq_compat 53 (-1074) _ ((root2 + eps) * d)) by (rewrite E4; reflexivity).
    eapply Qeq_trans; [apply (rq_is 53 (-1074) _ (- (2 ^ 52 + 6)) (-52)); vm_compute; reflexivity|vm_compute; reflexivity]. }
  assert (E6 : (qadd 53 (-1074) p (qmul 53 (-1074) al d) == - eps)%Q).
  { unfold qadd. rewrite (rq_compat 53 (-1074) _ (p + - (1 + 6 * eps))) by (rewrite E5; reflexivity).
    eapply Qeq_trans; [apply (rq_is 53 (-1074) _ (- 2 ^ 52) (-104)); vm_compute; reflexivity|vm_compute; reflexivity]. }
  assert (T1 : qltb (qadd 53 (-1074) p (qmul 53 (-1074) root2 d)) l = true). { apply qltb_lt. rewrite E2. vm_compute. reflexivity. }
  assert (T2 : qltb al (1 # 100000000) = false). { apply qltb_ge. rewrite E4. vm_compute. discriminate. }
  assert (T3 : qltb (qadd 53 (-1074) p (qmul 53 (-1074) al d)) l = true). { apply qltb_lt. rewrite E6. vm_compute. reflexivity. }
  exists (mkStep al [l] false true). cbv zeta.
  split; [apply (num_is 53 (-1074) p (2 ^ 52 + 5) (-52)); [vm_compute; reflexivity|lia|lia]|].
  split; [apply (num_is 53 (-1074) l (-3) (-54)); [vm_compute; reflexivity|lia|lia]|].
  split; [apply (num_is 53 (-1074) d (-6369051672525780) (-53)); [vm_compute; reflexivity|lia|lia]|].
  split; [apply (num_is 53 (-1074) root2 6369051672525773 (-52)); [vm_compute; reflexivity|lia|lia]|].
  split; [|cbn [s_alpha s_limit s_hit s_params]; auto].
  unfold parameter_steps. cbn [increasing steps_loop limit_steps limit_bounds]. rewrite T1. fold al. rewrite T2. cbn [step_params]. unfold clamp. rewrite T3. reflexivity.
Qed.

(** The second case meets the hypotheses of C118_rounded, and so does the first. *)
Example C118_ex : let p := (1 + 5 * eps)%Q in let l := (- (3 # 4) * eps)%Q in let d := (- inject_Z 6369051672525780 * 2 ^ (-53))%Q in
  within [Some l] [None] [p] /\ limits_nonneg [None] /\ within [None] [None] [1%Q] /\ limits_nonneg [Some ((7 # 4) * eps)%Q] /\
  least_normal 53 (-1074) * (1 + unit_err 53) ^ (2 * 1) < Q2R (1 # 100000000).
Proof.
  cbv zeta. split; [cbn; repeat split; vm_compute; discriminate|]. split; [repeat constructor|]. split; [cbn; unfold in_bounds; tauto|].
  split; [repeat constructor; vm_compute; discriminate|].
  assert (least_normal 53 (-1074) <= / 1000000000).
  { unfold least_normal. apply Rle_trans with (bpow radix2 (-30)); [apply bpow_le; lia|]. cbn. lra. }
  assert (unit_err 53 <= 1). { unfold unit_err. change 1 with (bpow radix2 0). apply bpow_le. lia. }
  assert (0 < unit_err 53) by apply u_pos. assert (0 < least_normal 53 (-1074)) by apply normal_pos. unfold Q2R. cbn [Qnum Qden]. simpl pow. nra.
Qed.

Print Assumptions C118_rounded.
Print Assumptions C118_limit_refuted.
Print Assumptions C118_reduce_refuted.
