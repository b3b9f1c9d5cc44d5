(** C77: the general optimizer with Ceres maximises the log-probability. *)
From Coq Require Import List ZArith Bool Reals Lra Lia Psatz.
From Verif Require Import Base PatchModel PatchSpec PatchProofs PatchProps GpuMixModel CompositeModel CompositeProps
  CeresModel CeresProps CeresOptModel.
Import ListNotations.
Open Scope R_scope.
Local Notation reqb := CompositeModel.reqb.

(** ** Scaled parameters *)
Lemma nth_to_params : forall p0 scales x i, length scales = length p0 -> length x = length p0 -> (i < length p0)%nat ->
  nth i (to_params p0 scales x) 0 = nth i p0 0 + nth i scales 0 * nth i x 0.
Proof.
  intros p0. induction p0 as [|o p0 IH]; intros [|s scales] [|v x] i L1 L2 Hi; cbn in *; try lia; try discriminate.
  destruct i; [reflexivity|]. apply IH; lia.
Qed.
Lemma length_to_params : forall p0 scales x, length scales = length p0 -> length x = length p0 ->
  length (to_params p0 scales x) = length p0.
Proof. intros. unfold to_params. rewrite map_length, !combine_length. lia. Qed.
Lemma length_offset : forall pp scales, length scales = length pp -> length (offset pp scales) = length pp.
Proof. intros. unfold offset. rewrite map_length, combine_length. lia. Qed.

(** The point where the solver starts is the current parameters. *)
Theorem C77_start : forall pp scales, length scales = length pp ->
  to_params (offset pp scales) scales (ones_like pp) = pp.
Proof.
  induction pp as [|p pp IH]; intros [|s scales] L; try discriminate; [reflexivity|].
  cbn. f_equal; [ring|]. apply IH. cbn in L. lia.
Qed.

(** Every list of parameters is reached. *)
Lemma reach : forall p0 scales p, length scales = length p0 -> length p = length p0 -> Forall (fun s => s <> 0) scales ->
  exists x, length x = length p0 /\ to_params p0 scales x = p.
Proof.
  induction p0 as [|o p0 IH]; intros [|s scales] [|v p] L1 L2 F; try discriminate.
  - exists []. split; reflexivity.
  - inversion_clear F as [|? ? Hs F']. destruct (IH scales p) as (x & Lx & E); [cbn in L1; lia|cbn in L2; lia|exact F'|].
    exists ((v - o) / s :: x). split; [cbn; lia|]. cbn. f_equal; [field; exact Hs|exact E].
Qed.

(** The log-probability of parameters p with Gaussian priors [gs] on them:
    minus half of chi-squared and of the squared deviations from the means. *)
Definition lnp (chi : list R -> nat -> arr R) (nims : nat) (gs : list gprior) (p : list R) : R :=
  - / 2 * rsum (fun n => sumsq (chi p n)) (seq 0 nims)
  - / 2 * rsum (fun g => let '(i, mu, sig) := g in (nth i p 0 - mu) * (nth i p 0 - mu) / (sig * sig)) gs.
Definition good_prior (n : nat) (g : gprior) : Prop := let '(i, _, sig) := g in (i < n)%nat /\ sig <> 0.

Theorem C77_objective : forall chi nims p0 scales gs x, length scales = length p0 -> length x = length p0 ->
  Forall (fun s => s <> 0) scales -> Forall (good_prior (length p0)) gs ->
  opt_cost chi nims p0 scales (map (scale_prior p0 scales) gs) x = - lnp chi nims gs (to_params p0 scales x).
Proof.
  intros chi nims p0 scales gs x L1 L2 Hs Hg. unfold opt_cost, lnp.
  rewrite rsum_map.
  rewrite (rsum_ext (fun a => prior_residual x (scale_prior p0 scales a) * prior_residual x (scale_prior p0 scales a))
             (fun g => let '(i, mu, sig) := g in (nth i (to_params p0 scales x) 0 - mu) * (nth i (to_params p0 scales x) 0 - mu) / (sig * sig))).
  - match goal with |- / 2 * (?a + ?b) = - (_ * _ - _ * ?d) => change d with b; generalize a b end. intros; ring.
  - intros [[i mu] sig] Ig. rewrite Forall_forall in Hg. destruct (Hg _ Ig) as (Hi & Hsig).
    rewrite nth_to_params by assumption. unfold scale_prior, prior_residual.
    assert (nth i scales 0 <> 0) by (rewrite Forall_forall in Hs; apply Hs, nth_In; lia). field. split; assumption.
Qed.

(** What optimize returns is the change in log-probability, and it is not
    negative if the solver never makes its objective worse; the parameters set
    are the best of all if the solver finds the best. *)
Definition used_priors (priors : bool) (own : list leaf) : list gprior := if priors then gaussian_priors 0 own else [].

Lemma optimize_eq : forall solve chi nims scales priors own pp, pp <> [] -> length scales = length pp ->
  keeps_length solve -> Forall (fun s => s <> 0) scales -> Forall (good_prior (length pp)) (used_priors priors own) ->
  let p0 := offset pp scales in let f := opt_cost chi nims p0 scales (map (scale_prior p0 scales) (used_priors priors own)) in
  let x := solve f (ones_like pp) in
  length x = length p0 /\ (forall y, length y = length p0 -> f y = - lnp chi nims (used_priors priors own) (to_params p0 scales y)) /\
  optimize solve chi nims scales priors own pp
  = Ok (f (ones_like pp) - f x, to_params p0 scales x).
Proof.
  intros solve chi nims scales priors own pp Hn L KL Hs Hg p0 f x.
  assert (Lp : length p0 = length pp) by (apply length_offset; exact L).
  assert (Lx : length x = length p0) by (unfold x; rewrite KL; unfold ones_like; rewrite map_length; symmetry; exact Lp).
  split; [exact Lx|]. split.
  - intros y Ly. unfold f. apply C77_objective; [lia|lia|exact Hs|rewrite Lp; exact Hg].
  - unfold optimize, ceres_opt_scaled. destruct pp as [|p pp]; [congruence|].
    unfold x, f, used_priors. destruct priors; reflexivity.
Qed.

Theorem C77_optimize : forall solve chi nims scales priors own pp, pp <> [] -> length scales = length pp ->
  keeps_length solve -> descends solve -> Forall (fun s => s <> 0) scales ->
  Forall (good_prior (length pp)) (used_priors priors own) ->
  exists p', length p' = length pp /\
    let gs := used_priors priors own in
    optimize solve chi nims scales priors own pp = Ok (lnp chi nims gs p' - lnp chi nims gs pp, p') /\
    lnp chi nims gs pp <= lnp chi nims gs p'.
Proof.
  intros solve chi nims scales priors own pp Hn L KL HD Hs Hg.
  destruct (optimize_eq solve chi nims scales priors own pp Hn L KL Hs Hg) as (Lx & HF & HO).
  set (p0 := offset pp scales) in *.
  set (f := opt_cost chi nims p0 scales (map (scale_prior p0 scales) (used_priors priors own))) in *.
  set (x := solve f (ones_like pp)) in *.
  assert (Lp : length p0 = length pp) by (apply length_offset; exact L).
  assert (L1 : length (ones_like pp) = length p0) by (unfold ones_like; rewrite map_length; symmetry; exact Lp).
  assert (E0 : f (ones_like pp) = - lnp chi nims (used_priors priors own) pp)
    by (rewrite HF by exact L1; unfold p0; rewrite C77_start by exact L; reflexivity).
  assert (E1 : f x = - lnp chi nims (used_priors priors own) (to_params p0 scales x)) by (apply HF; exact Lx).
  exists (to_params p0 scales x). split; [rewrite length_to_params; lia|]. split.
  - rewrite HO, E0, E1. f_equal. f_equal. ring.
  - pose proof (HD f (ones_like pp)) as D. fold x in D. lra.
Qed.

Theorem C77_maximum : forall solve chi nims scales priors own pp, pp <> [] -> length scales = length pp ->
  keeps_length solve -> finds_min solve -> Forall (fun s => s <> 0) scales ->
  let gs := used_priors priors own in Forall (good_prior (length pp)) gs ->
  (exists best, length best = length pp /\ forall p, length p = length pp -> lnp chi nims gs p <= lnp chi nims gs best) ->
  exists d p', optimize solve chi nims scales priors own pp = Ok (d, p') /\
    forall p, length p = length pp -> lnp chi nims gs p <= lnp chi nims gs p'.
Proof.
  intros solve chi nims scales priors own pp Hn L KL HM Hs gs Hg (best & Lb & HB).
  destruct (optimize_eq solve chi nims scales priors own pp Hn L KL Hs Hg) as (Lx & HF & HO). fold gs in HF.
  set (p0 := offset pp scales) in *.
  set (f := opt_cost chi nims p0 scales (map (scale_prior p0 scales) (used_priors priors own))) in *.
  set (x := solve f (ones_like pp)) in *.
  assert (Lp : length p0 = length pp) by (apply length_offset; exact L).
  assert (L1 : length (ones_like pp) = length p0) by (unfold ones_like; rewrite map_length; symmetry; exact Lp).
  eexists. eexists. split; [exact HO|]. intros p Lpp.
  assert (M : is_min f x).
  { apply HM. destruct (reach p0 scales best) as (xb & Lxb & Eb); [lia|lia|exact Hs|].
    exists xb. split; [lia|]. intros v' Lv. rewrite !HF by lia. rewrite Eb.
    pose proof (HB (to_params p0 scales v') ltac:(rewrite length_to_params; lia)). lra. }
  destruct (reach p0 scales p) as (y & Ly & Ey); [lia|lia|exact Hs|].
  specialize (M y ltac:(lia)). rewrite !HF in M by lia. rewrite Ey in M. lra.
Qed.

(** Bounds mean the same in scaled parameters, if the scales are positive. *)
Definition bounded (lowers uppers : list (option R)) (p : list R) : Prop :=
  forall i, (i < length p)%nat ->
    match nth i lowers None with Some b => b <= nth i p 0 | None => True end /\
    match nth i uppers None with Some b => nth i p 0 <= b | None => True end.

Lemma in_list_bounds : forall lower bs i k b, nth_error bs k = Some (Some b) -> In ((i + k)%nat, b, lower) (list_bounds i lower bs).
Proof.
  intros lower bs. induction bs as [|c bs IH]; intros i k b H; [destruct k; discriminate|].
  destruct k as [|k]; cbn in H.
  - injection H as ->. cbn. left. rewrite Nat.add_0_r. reflexivity.
  - specialize (IH (S i) k b H). replace (S i + k)%nat with (i + S k)%nat in IH by lia. destruct c; cbn; [right|]; exact IH.
Qed.
Lemma list_bounds_in : forall lower bs i n b l, In (n, b, l) (list_bounds i lower bs) ->
  l = lower /\ exists k, n = (i + k)%nat /\ nth_error bs k = Some (Some b).
Proof.
  intros lower bs. induction bs as [|c bs IH]; intros i n b l H; [destruct H|].
  assert (G : In (n, b, l) (list_bounds (S i) lower bs) -> l = lower /\ exists k, n = (i + k)%nat /\ nth_error (c :: bs) k = Some (Some b)).
  { intros H'. destruct (IH _ _ _ _ H') as (-> & k & -> & E). split; [reflexivity|]. exists (S k). split; [lia|exact E]. }
  destruct c as [c|]; cbn in H; [|exact (G H)]. destruct H as [H|H]; [|exact (G H)].
  injection H as <- <- <-. split; [reflexivity|]. exists O. split; [lia|reflexivity].
Qed.
Lemma nth_scale_bounds : forall p0 scales bs k, length scales = length p0 -> length bs = length p0 -> (k < length p0)%nat ->
  nth_error (scale_bounds p0 scales bs) k
  = Some (match nth k bs None with Some b => Some ((b - nth k p0 0) / nth k scales 0) | None => None end).
Proof.
  induction p0 as [|o p0 IH]; intros [|s scales] [|b bs] k L1 L2 Hk; try discriminate; [cbn in Hk; lia|].
  destruct k; cbn; [reflexivity|]. apply IH; cbn in *; lia.
Qed.
Lemma length_scale_bounds : forall p0 scales bs, length scales = length p0 -> length bs = length p0 ->
  length (scale_bounds p0 scales bs) = length p0.
Proof. induction p0 as [|o p0 IH]; intros [|s scales] [|b bs] L1 L2; try discriminate; [reflexivity|]. cbn. f_equal. apply IH; cbn in *; lia. Qed.

Theorem C77_bounds : forall p0 scales lowers uppers x, length scales = length p0 -> length x = length p0 ->
  length lowers = length p0 -> length uppers = length p0 -> Forall (fun s => 0 < s) scales ->
  (Forall (obeys x) (lubounds (scale_bounds p0 scales lowers) (scale_bounds p0 scales uppers))
   <-> bounded lowers uppers (to_params p0 scales x)).
Proof.
  intros p0 scales lowers uppers x L1 L2 L3 L4 Hs.
  assert (HS : forall i, (i < length p0)%nat -> 0 < nth i scales 0)
    by (intros i Hi; rewrite Forall_forall in Hs; apply Hs, nth_In; lia).
  assert (Q : forall b o s v, 0 < s -> ((b - o) / s <= v <-> b <= o + s * v)).
  { intros b o s v H. split; intros H1.
    - assert ((b - o) / s * s <= v * s) by (apply Rmult_le_compat_r; lra).
      unfold Rdiv in H0. rewrite Rmult_assoc, Rinv_l in H0 by lra. lra.
    - apply (Rmult_le_reg_r s); [exact H|]. unfold Rdiv. rewrite Rmult_assoc, Rinv_l by lra. lra. }
  assert (Q' : forall b o s v, 0 < s -> (v <= (b - o) / s <-> o + s * v <= b)).
  { intros b o s v H. split; intros H1.
    - assert (v * s <= (b - o) / s * s) by (apply Rmult_le_compat_r; lra).
      unfold Rdiv in H0. rewrite Rmult_assoc, Rinv_l in H0 by lra. lra.
    - apply (Rmult_le_reg_r s); [exact H|]. unfold Rdiv. rewrite Rmult_assoc, Rinv_l by lra. lra. }
  unfold lubounds. split.
  - intros F i Hi. rewrite length_to_params in Hi by assumption. rewrite Forall_app in F. destruct F as (F1 & F2).
    rewrite Forall_forall in F1, F2. rewrite nth_to_params by assumption. split.
    + pose proof (nth_scale_bounds p0 scales lowers i L1 L3 Hi) as E. destruct (nth i lowers None) as [b|]; [|exact Logic.I].
      specialize (F1 _ (in_list_bounds true _ 0 i _ E)). cbn in F1. apply Q in F1; [exact F1|auto].
    + pose proof (nth_scale_bounds p0 scales uppers i L1 L4 Hi) as E. destruct (nth i uppers None) as [b|]; [|exact Logic.I].
      specialize (F2 _ (in_list_bounds false _ 0 i _ E)). cbn in F2. apply Q' in F2; [exact F2|auto].
  - intros B. apply Forall_app. split; apply Forall_forall; intros [[n b] l] I1; apply list_bounds_in in I1;
      destruct I1 as (-> & k & -> & E); cbn [plus obeys].
    + assert (Hk : (k < length p0)%nat).
      { rewrite <- (length_scale_bounds p0 scales lowers) by assumption. apply nth_error_Some. rewrite E. discriminate. }
      rewrite nth_scale_bounds in E by assumption. destruct (B k ltac:(rewrite length_to_params; assumption)) as (B1 & _).
      destruct (nth k lowers None) as [c|]; [|discriminate]. injection E as <-. apply Q; [auto|].
      rewrite nth_to_params in B1 by assumption. exact B1.
    + assert (Hk : (k < length p0)%nat).
      { rewrite <- (length_scale_bounds p0 scales uppers) by assumption. apply nth_error_Some. rewrite E. discriminate. }
      rewrite nth_scale_bounds in E by assumption. destruct (B k ltac:(rewrite length_to_params; assumption)) as (_ & B1).
      destruct (nth k uppers None) as [c|]; [|discriminate]. injection E as <-. apply Q'; [auto|].
      rewrite nth_to_params in B1 by assumption. exact B1.
Qed.

(** ** Dynamic scales *)
Definition ders_of (j : nat) (ders : list (nat * arr R)) : R := rsum (fun jd => if (fst jd =? j)%nat then sumsq (snd jd) else 0) ders.

Lemma upd_at_length {A} (f : A -> A) : forall l n, length (upd_at n f l) = length l.
Proof. induction l as [|a l IH]; intros [|n]; cbn; auto. Qed.
Lemma nth_upd_at : forall (f : R -> R) l n j, (j < length l)%nat -> nth j (upd_at n f l) 0 = if (n =? j)%nat then f (nth j l 0) else nth j l 0.
Proof.
  induction l as [|a l IH]; intros n j Hj; [cbn in Hj; lia|]. destruct n, j; cbn; auto. apply IH. cbn in Hj. lia.
Qed.
Lemma sum_scales_spec : forall ders n j, (j < n)%nat -> nth j (sum_scales n ders) 0 = ders_of j ders.
Proof.
  intros ders n j Hj. unfold sum_scales, ders_of.
  enough (G : forall s, length s = n -> nth j (fold_left (fun s jd => upd_at (fst jd) (fun v => v + sumsq (snd jd)) s) ders s) 0
              = nth j s 0 + rsum (fun jd : nat * arr R => if (fst jd =? j)%nat then sumsq (snd jd) else 0) ders).
  { rewrite G by apply repeat_length. rewrite nth_repeat. ring. }
  induction ders as [|jd ders IH]; intros s Ls; cbn; [ring|].
  rewrite IH by (rewrite upd_at_length; exact Ls). rewrite nth_upd_at by lia.
  unfold rsum. destruct (fst jd =? j)%nat; ring.
Qed.
Lemma sum_scales_length : forall ders n, length (sum_scales n ders) = n.
Proof.
  intros ders n. unfold sum_scales. enough (G : forall s : list R, length s = n -> length (fold_left (fun s jd => upd_at (fst jd) (fun v => v + sumsq (snd jd)) s) ders s) = n)
    by (apply G, repeat_length).
  induction ders as [|jd ders IH]; intros s Ls; [exact Ls|]. apply IH. rewrite upd_at_length. exact Ls.
Qed.
Lemma rsum_nonneg {A} (f : A -> R) l : (forall a, 0 <= f a) -> 0 <= rsum f l.
Proof. intros H. induction l as [|a l IH]; cbn; [lra|]. unfold rsum in IH. specialize (H a). lra. Qed.
Lemma sumsq_nonneg : forall a, 0 <= sumsq a.
Proof. intros. apply rsum_nonneg. intros. apply rsum_nonneg. intros. nra. Qed.
Lemma ders_nonneg : forall j ders, 0 <= ders_of j ders.
Proof. intros. apply rsum_nonneg. intros a. destruct (_ =? _)%nat; [apply sumsq_nonneg|lra]. Qed.

(** A step of one scale changes chi by a vector of length one, where the
    parameter matters at all; where it does not, the scale is the step size. *)
Theorem C77_scales : forall steps ders j, (j < length steps)%nat -> Forall (fun s => 0 < s) steps ->
  let s := nth j (dynamic_scales steps ders) 0 in
  0 < s /\ length (dynamic_scales steps ders) = length steps /\
  (ders_of j ders <> 0 -> s * s * ders_of j ders = 1) /\
  (ders_of j ders = 0 -> s = nth j steps 0).
Proof.
  intros steps ders j Hj Hs. cbv zeta. unfold dynamic_scales.
  assert (LL : length (dynamic_scales steps ders) = length steps)
    by (unfold dynamic_scales; rewrite map_length, combine_length, sum_scales_length; lia).
  set (g := fun sv : R * R => let '(s, v) := sv in if reqb (sqrt v) 0 then s else 1 / sqrt v).
  assert (E : nth j (map g (combine steps (sum_scales (length steps) ders))) 0 = g (nth j steps 0, ders_of j ders)).
  { rewrite (nth_indep _ 0 (g (0, 0))) by (rewrite map_length, combine_length, sum_scales_length; lia).
    rewrite map_nth, combine_nth by (rewrite sum_scales_length; reflexivity). rewrite sum_scales_spec by exact Hj. reflexivity. }
  fold g. rewrite E. unfold g. pose proof (ders_nonneg j ders) as N.
  assert (S0 : 0 < nth j steps 0) by (rewrite Forall_forall in Hs; apply Hs, nth_In, Hj).
  destruct (reqb (sqrt (ders_of j ders)) 0) eqn:Er.
  - apply reqb_true in Er. apply sqrt_eq_0 in Er; [|exact N]. split; [exact S0|]. split; [exact LL|]. split; [contradiction|reflexivity].
  - apply reqb_false in Er. pose proof (sqrt_pos (ders_of j ders)). assert (P : 0 < sqrt (ders_of j ders)) by lra.
    split; [unfold Rdiv; rewrite Rmult_1_l; apply Rinv_0_lt_compat; exact P|]. split; [exact LL|]. split.
    + intros _. pose proof (sqrt_sqrt _ N) as Q. set (r := sqrt (ders_of j ders)) in *. rewrite <- Q. field. lra.
    + intros H0. rewrite H0, sqrt_0 in P. lra.
Qed.

(** ** Variances *)
Definition kron (i j : nat) : R := if (i =? j)%nat then 1 else 0.
(** If the solver returns the diagonal of an inverse V of the normal matrix in
    scaled parameters (s_i A_ij s_j), then the variances set are the diagonal of
    an inverse of the normal matrix A itself. *)
Theorem C77_variance : forall n (A V : nat -> nat -> R) scales, length scales = n -> Forall (fun s => s <> 0) scales ->
  (forall i j, (i < n)%nat -> (j < n)%nat ->
     rsum (fun k => nth i scales 0 * A i k * nth k scales 0 * V k j) (seq 0 n) = kron i j) ->
  exists W : nat -> nat -> R,
    (forall i j, (i < n)%nat -> (j < n)%nat -> rsum (fun k => A i k * W k j) (seq 0 n) = kron i j) /\
    forall i, (i < n)%nat -> nth i (scale_variance scales (map (fun i => V i i) (seq 0 n))) 0 = W i i.
Proof.
  intros n A V scales L Hs H. exists (fun i j => nth i scales 0 * V i j * nth j scales 0). split.
  - intros i j Hi Hj.
    assert (Si : nth i scales 0 <> 0) by (rewrite Forall_forall in Hs; apply Hs, nth_In; lia).
    assert (E : nth i scales 0 * rsum (fun k => A i k * (nth k scales 0 * V k j * nth j scales 0)) (seq 0 n)
                = kron i j * nth j scales 0).
    { rewrite <- (H i j Hi Hj). clear. induction (seq 0 n) as [|k l IH]; unfold rsum in *; cbn; [ring|].
      rewrite Rmult_plus_distr_l, IH. ring. }
    unfold kron in *. destruct (i =? j)%nat eqn:Eij.
    + apply Nat.eqb_eq in Eij. subst j. apply (Rmult_eq_reg_l (nth i scales 0)); [rewrite E; ring|exact Si].
    + apply (Rmult_eq_reg_l (nth i scales 0)); [rewrite E; ring|exact Si].
  - intros i Hi. unfold scale_variance.
    set (g := fun sv : R * R => snd sv * (fst sv * fst sv)).
    rewrite (nth_indep _ 0 (g (0, 0))) by (rewrite map_length, combine_length, map_length, seq_length; lia).
    rewrite map_nth, combine_nth by (rewrite map_length, seq_length; exact L).
    rewrite (nth_indep (map (fun i => V i i) (seq 0 n)) 0 (V O O)) by (rewrite map_length, seq_length; exact Hi).
    rewrite (map_nth (fun i => V i i)), seq_nth by exact Hi. unfold g. cbn. ring.
Qed.

(** ** Priors *)
(** The parameter of the tractor that a term is about: the thawed parameters of
    the ParamLists, in order. *)
Definition thawed_names (ls : list leaf) : list (nat * nat) :=
  flat_map (fun kl => map (fun i => (fst kl, i))
              (filter (fun i => nth i (l_thawed (snd kl)) false) (seq 0 (length (l_thawed (snd kl))))))
           (combine (seq 0 (length ls)) ls).

(** Where nothing is frozen, a prior acts on its own parameter... *)
Theorem C77_prior_index : forall ls, Forall (fun l => Forall (fun b => b = true) (l_thawed l)) ls ->
  Forall (fun l => Forall (fun t : gprior => (fst (fst t) < length (l_thawed l))%nat) (l_terms l)) ls ->
  forall k l i mu sig, nth_error ls k = Some l -> In (i, mu, sig) (l_terms l) ->
  exists n, In (n, mu, sig) (gaussian_priors 0 ls) /\ nth_error (thawed_names ls) n = Some (k, i).
Proof.
  intros ls. unfold thawed_names.
  enough (G : forall s off pre, length pre = off ->
     Forall (fun l => Forall (fun b => b = true) (l_thawed l)) ls ->
     Forall (fun l => Forall (fun t : gprior => (fst (fst t) < length (l_thawed l))%nat) (l_terms l)) ls ->
     forall k l i mu sig, nth_error ls k = Some l -> In (i, mu, sig) (l_terms l) ->
     exists n, In (n, mu, sig) (gaussian_priors off ls) /\
       nth_error (pre ++ flat_map (fun kl => map (fun i => (fst kl, i))
              (filter (fun i => nth i (l_thawed (snd kl)) false) (seq 0 (length (l_thawed (snd kl))))))
           (combine (seq s (length ls)) ls)) n = Some ((s + k)%nat, i)).
  { intros H1 H2 k l i mu sig Hk Ht. destruct (G O O [] eq_refl H1 H2 k l i mu sig Hk Ht) as (n & E1 & E2). exists n. auto. }
  induction ls as [|l0 ls IH]; intros s off pre Lp H1 H2 k l i mu sig Hk Ht; [destruct k; discriminate|].
  inversion_clear H1 as [|? ? T0 T]. inversion_clear H2 as [|? ? U0 U].
  assert (Fil : filter (fun i => nth i (l_thawed l0) false) (seq 0 (length (l_thawed l0))) = seq 0 (length (l_thawed l0))).
  { assert (G : forall l, (forall i, In i l -> nth i (l_thawed l0) false = true) -> filter (fun i => nth i (l_thawed l0) false) l = l).
    { induction l1 as [|a l1 IHl]; intros Ha; [reflexivity|]. cbn. rewrite (Ha a (or_introl eq_refl)). f_equal. apply IHl.
      intros; apply Ha; right; assumption. }
    apply G. intros j Ij. apply in_seq in Ij. rewrite Forall_forall in T0. apply T0, nth_In. lia. }
  assert (Cnt : count_occ Bool.bool_dec (l_thawed l0) true = length (l_thawed l0)).
  { clear -T0. induction T0 as [|b l -> _ IH]; [reflexivity|]. cbn. rewrite IH. reflexivity. }
  cbn [length seq combine flat_map fst snd gaussian_priors]. rewrite Fil, Cnt.
  destruct k as [|k].
  - cbn in Hk. injection Hk as <-. exists (off + i)%nat. split.
    + apply in_or_app. left. apply in_map_iff. exists (i, mu, sig). split; [reflexivity|exact Ht].
    + rewrite Forall_forall in U0. specialize (U0 _ Ht). cbn in U0.
      rewrite nth_error_app2 by lia. rewrite Lp. replace (off + i - off)%nat with i by lia.
      rewrite nth_error_app1 by (rewrite map_length, seq_length; exact U0).
      rewrite nth_error_map. rewrite (nth_error_nth' (seq 0 (length (l_thawed l0))) O) by (rewrite seq_length; exact U0).
      rewrite seq_nth by exact U0. cbn. rewrite Nat.add_0_r. reflexivity.
  - cbn in Hk.
    destruct (IH (S s) (off + length (l_thawed l0))%nat (pre ++ map (fun i => (s, i)) (seq 0 (length (l_thawed l0))))) with (k := k) (l := l) (i := i) (mu := mu) (sig := sig)
      as (n & E1 & E2); try assumption.
    { rewrite app_length, map_length, seq_length. lia. }
    exists n. split; [apply in_or_app; right; exact E1|]. rewrite app_assoc. rewrite E2. f_equal. f_equal. lia.
Qed.
(** ... but with a frozen parameter before it, on another one: *)
Theorem C77_prior_frozen_refuted :
  let l := mkLeaf [false; true; true] [(1%nat, 5, 1)] in
  gaussian_priors 0 [l] = [(1%nat, 5, 1)] /\ thawed_names [l] = [(0, 1); (0, 2)]%nat
  /\ nth_error (thawed_names [l]) 1 <> Some (0, 1)%nat.
Proof. split; [reflexivity|]. split; [reflexivity|]. cbn. congruence. Qed.

(** Without parameters optimize raises. *)
Theorem C77_empty_refuted : forall solve chi nims scales priors own,
  optimize solve chi nims scales priors own [] = Err TypeError.
Proof. reflexivity. Qed.

(** ** The images that count *)
Theorem C77_loop : forall nparams nims, add_blocks nims false nparams nims 0 = Some (seq 0 nims).
Proof.
  intros nparams nims. enough (G : forall c i, (i + c = nims)%nat -> add_blocks c false nparams nims i = Some (seq i c)) by (apply G; lia).
  induction c as [|c IH]; intros i H; cbn [add_blocks].
  - replace (i <? nims)%nat with false by (symmetry; apply Nat.ltb_ge; lia). reflexivity.
  - replace (i <? nims)%nat with true by (symmetry; apply Nat.ltb_lt; lia). rewrite IH by lia. reflexivity.
Qed.
(** With numeric=True only the first image counts, or the loop does not end. *)
Theorem C77_numeric_refuted : forall nparams nims, (1 < nims)%nat ->
  ((nims <= nparams + 1)%nat -> forall fuel, add_blocks (S fuel) true nparams nims 0 = Some [O]) /\
  ((nparams + 1 < nims)%nat -> forall fuel, add_blocks fuel true nparams nims 0 = None).
Proof.
  intros nparams nims H. split.
  - intros L fuel. cbn [add_blocks]. replace (0 <? nims)%nat with true by (symmetry; apply Nat.ltb_lt; lia).
    destruct fuel; cbn [add_blocks]; replace (S nparams <? nims)%nat with false by (symmetry; apply Nat.ltb_ge; lia); reflexivity.
  - intros L. assert (G : forall fuel, add_blocks fuel true nparams nims (S nparams) = None).
    { induction fuel as [|f IH]; cbn [add_blocks]; replace (S nparams <? nims)%nat with true by (symmetry; apply Nat.ltb_lt; lia); [reflexivity|].
      rewrite IH. reflexivity. }
    intros [|f]; cbn [add_blocks]; replace (0 <? nims)%nat with true by (symmetry; apply Nat.ltb_lt; lia); [reflexivity|]. rewrite G. reflexivity.
Qed.

(** ** Which derivative belongs to which parameter *)
(** The parameters of the tractor in order: image [inl i], parameter j; then
    source [inr k], parameter j. *)
Definition label : Type := ((nat + nat) * nat)%type.
Definition image_labels (ims : list (nat * nat)) : list label :=
  flat_map (fun im => map (fun j => (inl (fst im), j)) (seq 0 (snd im))) ims.
Fixpoint source_labels (k : nat) (srcs : list (nat * list (option (patch R)))) : list label :=
  match srcs with
  | [] => []
  | s :: srcs => map (fun j => (inr k, j)) (seq 0 (fst s)) ++ source_labels (S k) srcs
  end.
Definition labels (ims : list (nat * nat)) (srcs : list (nat * list (option (patch R)))) : list label :=
  image_labels ims ++ source_labels 0 srcs.
(** [d] is the derivative of the model of image [imgi] in parameter j of an owner. *)
Definition is_deriv (imgi : nat) (ds : list dkind) (numder : nat -> patch R) (srcs : list (nat * list (option (patch R))))
    (l : label) (d : patch R) : Prop :=
  match fst l with
  | inl i => i = imgi /\ (nth_error ds (snd l) = Some (DPatch d) \/ (nth_error ds (snd l) = Some DFalse /\ d = numder (snd l)))
  | inr k => exists n sd, nth_error srcs k = Some (n, sd) /\ nth_error sd (snd l) = Some (Some d)
  end.

Lemma ready_in : forall ds s parami ind d, In (ind, d) (ready_derivs s parami ds)
  <-> exists j, nth_error ds j = Some (DPatch d) /\ ind = (parami + (s + j))%nat.
Proof.
  induction ds as [|k ds IH]; intros s parami ind d; cbn.
  - split; [intros []|]. intros (j & H & _). destruct j; discriminate.
  - assert (Tail : In (ind, d) (ready_derivs (S s) parami ds) <-> exists j, nth_error ds j = Some (DPatch d) /\ ind = (parami + (s + S j))%nat).
    { rewrite IH. split; intros (j & E1 & E2); exists j; split; auto; lia. }
    destruct k as [| |p]; cbn; rewrite ?Tail.
    1,2: split; [intros (j & E1 & E2); exists (S j); auto|intros ([|j] & E1 & E2); [discriminate|exists j; auto]].
    split.
    + intros [H|(j & E1 & E2)]; [|exists (S j); auto]. injection H as <- <-. exists O. split; [reflexivity|lia].
    + intros ([|j] & E1 & E2); [left; cbn in E1; injection E1 as <-; f_equal; lia|right; exists j; auto].
Qed.
Lemma needed_in : forall ds s x, In x (needed s ds) <-> exists j, nth_error ds j = Some DFalse /\ x = (s + j)%nat.
Proof.
  induction ds as [|k ds IH]; intros s x; cbn.
  - split; [intros []|]. intros (j & H & _). destruct j; discriminate.
  - assert (Tail : In x (needed (S s) ds) <-> exists j, nth_error ds j = Some DFalse /\ x = (s + S j)%nat).
    { rewrite IH. split; intros (j & E1 & E2); exists j; split; auto; lia. }
    destruct k as [| |p]; cbn; rewrite ?Tail.
    1,3: split; [intros (j & E1 & E2); exists (S j); auto|intros ([|j] & E1 & E2); [discriminate|exists j; auto]].
    split.
    + intros [H|(j & E1 & E2)]; [|exists (S j); auto]. exists O. split; [reflexivity|lia].
    + intros ([|j] & E1 & E2); [left; lia|right; exists j; auto].
Qed.
Lemma src_ready_in : forall ds s parami ind d, In (ind, d) (src_ready s parami ds)
  <-> exists j, nth_error ds j = Some (Some d) /\ ind = (parami + (s + j))%nat.
Proof.
  induction ds as [|k ds IH]; intros s parami ind d; cbn.
  - split; [intros []|]. intros (j & H & _). destruct j; discriminate.
  - assert (Tail : In (ind, d) (src_ready (S s) parami ds) <-> exists j, nth_error ds j = Some (Some d) /\ ind = (parami + (s + S j))%nat).
    { rewrite IH. split; intros (j & E1 & E2); exists j; split; auto; lia. }
    destruct k as [p|]; cbn; rewrite ?Tail.
    + split.
      * intros [H|(j & E1 & E2)]; [|exists (S j); auto]. injection H as <- <-. exists O. split; [reflexivity|lia].
      * intros ([|j] & E1 & E2); [left; cbn in E1; injection E1 as <-; f_equal; lia|right; exists j; auto].
    + split; [intros (j & E1 & E2); exists (S j); auto|intros ([|j] & E1 & E2); [discriminate|exists j; auto]].
Qed.

Lemma nth_seg {A} (f : nat -> A) n (l : list A) k :
  nth_error (map f (seq 0 n) ++ l) k = if (k <? n)%nat then Some (f k) else nth_error l (k - n).
Proof.
  destruct (k <? n)%nat eqn:E.
  - apply Nat.ltb_lt in E. rewrite nth_error_app1 by (rewrite map_length, seq_length; exact E).
    rewrite nth_error_map, (nth_error_nth' (seq 0 n) O) by (rewrite seq_length; exact E). rewrite seq_nth by exact E. reflexivity.
  - apply Nat.ltb_ge in E. rewrite nth_error_app2 by (rewrite map_length, seq_length; exact E).
    rewrite map_length, seq_length. reflexivity.
Qed.

Section Index.
Variable imgi : nat.
Variable ds : list dkind.
Variable numder : nat -> patch R.

Lemma image_derivs_in : forall ims parami, Forall (fun im => fst im = imgi -> (length ds <= snd im)%nat) ims ->
  snd (image_derivs imgi ds numder ims parami) = (parami + length (image_labels ims))%nat /\
  forall ind d, In (ind, d) (fst (image_derivs imgi ds numder ims parami))
    <-> exists k l, nth_error (image_labels ims) k = Some l /\ ind = (parami + k)%nat /\ is_deriv imgi ds numder [] l d.
Proof.
  induction ims as [|[i n] ims IH]; intros parami F.
  - cbn. split; [lia|]. intros ind d. split; [intros []|]. intros (k & l & H & _). destruct k; discriminate.
  - inversion_clear F as [|? ? F1 F2]. cbn in F1. destruct (IH (parami + n)%nat F2) as (E & In1).
    cbn [image_derivs]. destruct (image_derivs imgi ds numder ims (parami + n)) as [l m]. cbn [fst snd] in *.
    unfold image_labels. cbn [flat_map fst snd]. fold (image_labels ims). split.
    { rewrite E, app_length, map_length, seq_length. unfold label. lia. }
    intros ind d. rewrite in_app_iff, In1. split.
    + intros [H|(k & lb & E1 & E2 & E3)].
      * destruct (i =? imgi)%nat eqn:Ei; [|destruct H]. apply Nat.eqb_eq in Ei. subst i. apply in_app_or in H.
        destruct H as [H|H].
        -- apply ready_in in H. destruct H as (j & Hj & ->).
           assert (j < n)%nat. { apply Nat.lt_le_trans with (length ds); [apply nth_error_Some; rewrite Hj; discriminate|auto]. }
           exists j, (inl imgi, j). split; [rewrite nth_seg; replace (j <? n)%nat with true by (symmetry; apply Nat.ltb_lt; assumption); reflexivity|].
           split; [lia|]. unfold is_deriv. cbn. auto.
        -- apply in_map_iff in H. destruct H as (x & Hx & Ix). injection Hx as <- <-. apply needed_in in Ix.
           destruct Ix as (j & Hj & ->). cbn [plus].
           assert (j < n)%nat. { apply Nat.lt_le_trans with (length ds); [apply nth_error_Some; rewrite Hj; discriminate|auto]. }
           exists j, (inl imgi, j). split; [rewrite nth_seg; replace (j <? n)%nat with true by (symmetry; apply Nat.ltb_lt; assumption); reflexivity|].
           split; [lia|]. unfold is_deriv. cbn. auto.
      * exists (n + k)%nat, lb. split; [|split; [lia|exact E3]]. rewrite nth_seg.
        replace (n + k <? n)%nat with false by (symmetry; apply Nat.ltb_ge; lia). replace (n + k - n)%nat with k by lia. exact E1.
    + intros (k & lb & E1 & -> & E3). rewrite nth_seg in E1. destruct (k <? n)%nat eqn:Ek.
      * injection E1 as <-. left. unfold is_deriv in E3. cbn in E3. destruct E3 as (-> & E3). rewrite Nat.eqb_refl.
        apply in_or_app. destruct E3 as [E3|(E3 & ->)].
        -- left. apply ready_in. exists k. auto.
        -- right. apply in_map_iff. exists k. split; [reflexivity|]. apply needed_in. exists k. auto.
      * apply Nat.ltb_ge in Ek. right. exists (k - n)%nat, lb. split; [exact E1|]. split; [lia|exact E3].
Qed.

Lemma source_derivs_in : forall all srcs pre parami, all = pre ++ srcs ->
  Forall (fun s : nat * list (option (patch R)) => (length (snd s) <= fst s)%nat) srcs ->
  forall ind d, In (ind, d) (source_derivs srcs parami)
    <-> exists k l, nth_error (source_labels (length pre) srcs) k = Some l /\ ind = (parami + k)%nat /\ is_deriv imgi ds numder all l d.
Proof.
  intros all srcs. induction srcs as [|[n sd] srcs IH]; intros pre parami EA F ind d.
  - cbn. split; [intros []|]. intros (k & l & H & _). destruct k; discriminate.
  - inversion_clear F as [|? ? F1 F2]. cbn in F1. cbn [source_derivs source_labels fst].
    assert (EA' : all = (pre ++ [(n, sd)]) ++ srcs) by (rewrite <- app_assoc; exact EA).
    specialize (IH (pre ++ [(n, sd)]) (parami + n)%nat EA' F2 ind d). rewrite app_length in IH. cbn [length] in IH.
    rewrite Nat.add_1_r in IH.
    assert (Hpre : nth_error all (length pre) = Some (n, sd)) by (rewrite EA, nth_error_app2, Nat.sub_diag by lia; reflexivity).
    rewrite in_app_iff, IH. split.
    + intros [H|(k & lb & E1 & E2 & E3)].
      * apply src_ready_in in H. destruct H as (j & Hj & ->).
        assert (j < n)%nat. { apply Nat.lt_le_trans with (length sd); [apply nth_error_Some; rewrite Hj; discriminate|auto]. }
        exists j, (inr (length pre), j). split; [rewrite nth_seg; replace (j <? n)%nat with true by (symmetry; apply Nat.ltb_lt; assumption); reflexivity|].
        split; [lia|]. unfold is_deriv. cbn. exists n, sd. auto.
      * exists (n + k)%nat, lb. split; [|split; [lia|exact E3]]. rewrite nth_seg.
        replace (n + k <? n)%nat with false by (symmetry; apply Nat.ltb_ge; lia). replace (n + k - n)%nat with k by lia. exact E1.
    + intros (k & lb & E1 & -> & E3). rewrite nth_seg in E1. destruct (k <? n)%nat eqn:Ek.
      * injection E1 as <-. left. unfold is_deriv in E3. cbn in E3. destruct E3 as (n' & sd' & Q1 & Q2).
        rewrite Hpre in Q1. injection Q1 as <- <-. apply src_ready_in. exists k. auto.
      * apply Nat.ltb_ge in Ek. right. exists (k - n)%nat, lb. split; [exact E1|]. split; [lia|exact E3].
Qed.
End Index.

Lemma image_label_owner : forall ims k l, nth_error (image_labels ims) k = Some l -> exists i, fst l = inl i.
Proof.
  intros ims k l H. apply nth_error_In in H. unfold image_labels in H. apply in_flat_map in H.
  destruct H as (im & _ & H). apply in_map_iff in H. destruct H as (j & <- & _). exists (fst im). reflexivity.
Qed.
Lemma source_label_owner : forall srcs s k l, nth_error (source_labels s srcs) k = Some l -> exists i, fst l = inr i.
Proof.
  induction srcs as [|[n sd] srcs IH]; intros s k l H; [destruct k; discriminate|]. cbn in H. rewrite nth_seg in H.
  destruct (k <? n)%nat; [injection H as <-; exists s; reflexivity|]. exact (IH _ _ _ H).
Qed.

(** The counts of parameters of images and sources are those of the derivatives
    they return (or more). *)
Definition counts_ok (imgi : nat) (ds : list dkind) (ims : list (nat * nat)) (srcs : list (nat * list (option (patch R)))) : Prop :=
  Forall (fun im => fst im = imgi -> (length ds <= snd im)%nat) ims /\
  Forall (fun s : nat * list (option (patch R)) => (length (snd s) <= fst s)%nat) srcs.

(** The list holds exactly the derivatives that exist, each with the number that
    its parameter has in the tractor. *)
Theorem C77_index : forall imgi ds numder ims srcs, counts_ok imgi ds ims srcs ->
  forall ind d, In (ind, d) (all_derivs imgi ds numder ims srcs)
    <-> exists l, nth_error (labels ims srcs) ind = Some l /\ is_deriv imgi ds numder srcs l d.
Proof.
  intros imgi ds numder ims srcs (C1 & C2) ind d.
  destruct (image_derivs_in imgi ds numder ims 0 C1) as (E & In1). unfold all_derivs.
  destruct (image_derivs imgi ds numder ims 0) as [l m]. cbn [fst snd] in *. subst m.
  rewrite in_app_iff, In1, (source_derivs_in imgi ds numder srcs srcs [] _ eq_refl C2). unfold labels. split.
  - intros [(k & lb & E1 & -> & E3)|(k & lb & E1 & -> & E3)]; exists lb.
    + split; [cbn [plus]; rewrite nth_error_app1; [exact E1|apply nth_error_Some; rewrite E1; discriminate]|].
      destruct (image_label_owner _ _ _ E1) as (i & Ei). unfold is_deriv in *. rewrite Ei in *. exact E3.
    + split; [|exact E3]. rewrite nth_error_app2 by lia. replace (0 + length (image_labels ims) + k - length (image_labels ims))%nat with k by lia. exact E1.
  - intros (lb & E1 & E3). destruct (Nat.lt_ge_cases ind (length (image_labels ims))) as [L|L].
    + rewrite nth_error_app1 in E1 by exact L. left. exists ind, lb. split; [exact E1|]. split; [reflexivity|].
      destruct (image_label_owner _ _ _ E1) as (i & Ei). unfold is_deriv in *. rewrite Ei in *. exact E3.
    + rewrite nth_error_app2 in E1 by exact L. right. exists (ind - length (image_labels ims))%nat, lb.
      split; [exact E1|]. split; [lia|exact E3].
Qed.

(** ** The Jacobian in memory *)
Lemma fold_hit : forall (step : (Z -> R) -> Z -> Z -> R) l J i K v,
  (forall J k, step J k i = if (k =? K)%Z then v else J i) ->
  fold_left step l J i = if existsb (fun k => (k =? K)%Z) l then v else J i.
Proof.
  intros step l. induction l as [|k l IH]; intros J i K v H; [reflexivity|]. cbn [fold_left existsb].
  rewrite (IH _ i K v H). destruct (existsb _ l); [rewrite orb_true_r; reflexivity|]. rewrite orb_false_r. apply H.
Qed.
Lemma exists_zlist : forall K n, existsb (fun k => (k =? K)%Z) (zlist 0 n) = ((0 <=? K) && (K <? n))%Z.
Proof.
  intros K n. apply Bool.eq_iff_eq_true. rewrite existsb_exists, andb_true_iff, Z.leb_le, Z.ltb_lt. split.
  - intros (x & Ix & E). apply in_zlist in Ix. apply Z.eqb_eq in E. lia.
  - intros H. exists K. split; [apply in_zlist; lia|apply Z.eqb_refl].
Qed.

Definition row_step (W x0 y0 : Z) (a : arr R) (J : Z -> R) (k : Z) : Z -> R :=
  let row0 := ((y0 + k) * W)%Z in
  let J := if (x0 =? 0)%Z then J else memset J row0 x0 in
  let row0 := (row0 + x0)%Z in
  let J := memcpy J row0 (flat a) (k * aw a)%Z (aw a) in
  if (x0 + aw a <? W)%Z then memset J (row0 + aw a)%Z (W - (x0 + aw a))%Z else J.

Ltac zcase := repeat match goal with
  | |- context [(?a =? ?b)%Z] => destruct (Z.eqb_spec a b)
  | |- context [(?a <=? ?b)%Z] => destruct (Z.leb_spec a b)
  | |- context [(?a <? ?b)%Z] => destruct (Z.ltb_spec a b)
  end; cbn [andb].

Lemma row_at : forall W x0 y0 a J k i, (0 <= x0)%Z -> (0 <= aw a)%Z -> (x0 + aw a <= W)%Z ->
  row_step W x0 y0 a J k i
  = let X := (i - (y0 + k) * W)%Z in
    if ((0 <=? X) && (X <? W))%Z
    then (if ((x0 <=? X) && (X <? x0 + aw a))%Z then flat a (k * aw a + (X - x0)) else 0)
    else J i.
Proof.
  intros W x0 y0 a J k i H1 H2 H3. unfold row_step. cbv zeta. set (r := ((y0 + k) * W)%Z).
  assert (E : forall J', memcpy J' (r + x0) (flat a) (k * aw a) (aw a) i
              = if ((x0 <=? i - r) && (i - r <? x0 + aw a))%Z then flat a (k * aw a + (i - r - x0)) else J' i).
  { intros J'. unfold memcpy.
    replace (r + x0 <=? i)%Z with (x0 <=? i - r)%Z by (apply Bool.eq_iff_eq_true; rewrite !Z.leb_le; lia).
    replace (i <? r + x0 + aw a)%Z with (i - r <? x0 + aw a)%Z by (apply Bool.eq_iff_eq_true; rewrite !Z.ltb_lt; lia).
    destruct (_ && _); [|reflexivity]. f_equal. lia. }
  destruct (x0 + aw a <? W)%Z eqn:EW.
  - apply Z.ltb_lt in EW. unfold memset at 1. rewrite E. destruct (x0 =? 0)%Z eqn:E0; [apply Z.eqb_eq in E0|apply Z.eqb_neq in E0]; unfold memset; zcase; try reflexivity; try lia.
  - apply Z.ltb_ge in EW. rewrite E. destruct (x0 =? 0)%Z eqn:E0; [apply Z.eqb_eq in E0|apply Z.eqb_neq in E0]; unfold memset; zcase; try reflexivity; try lia.
Qed.

(** One derivative: whatever was in memory, afterwards it is the derivative
    image, zero outside its patch, and nothing else has been written to. *)
Theorem C77_fill : forall W H x0 y0 a J, (0 <= x0)%Z -> (0 <= y0)%Z -> (0 <= aw a)%Z -> (0 <= ah a)%Z ->
  (x0 + aw a <= W)%Z -> (y0 + ah a <= H)%Z ->
  (forall X Y, (0 <= X < W)%Z -> (0 <= Y < H)%Z -> fill W H x0 y0 a J (Y * W + X)%Z = img_at 0 (mkPatch x0 y0 (Some a)) X Y) /\
  (forall i, (i < 0 \/ W * H <= i)%Z -> fill W H x0 y0 a J i = J i).
Proof.
  intros W H x0 y0 a J Hx Hy Ha Hb HW HH.
  set (J1 := if (y0 =? 0)%Z then J else memset J 0 (y0 * W)).
  set (J2 := if (y0 + ah a <? H)%Z then memset J1 ((y0 + ah a) * W) ((H - (y0 + ah a)) * W) else J1).
  assert (EF : fill W H x0 y0 a J = fold_left (row_step W x0 y0 a) (zlist 0 (ah a)) J2) by reflexivity.
  rewrite EF. split.
  - intros X Y HX HY.
    rewrite (fold_hit _ _ _ _ (Y - y0)%Z (if ((x0 <=? X) && (X <? x0 + aw a))%Z then px a (Y - y0) (X - x0) else 0)).
    + rewrite exists_zlist, img_at_some.
      assert (E1 : (0 <=? Y - y0)%Z = (y0 <=? Y)%Z) by (apply Bool.eq_iff_eq_true; rewrite !Z.leb_le; lia).
      assert (E2 : (Y - y0 <? ah a)%Z = (Y <? y0 + ah a)%Z) by (apply Bool.eq_iff_eq_true; rewrite !Z.ltb_lt; lia).
      rewrite E1, E2. destruct ((y0 <=? Y) && (Y <? y0 + ah a))%Z eqn:E.
      * apply andb_true_iff in E. destruct E as (E3 & E4). rewrite E3, E4. rewrite !andb_true_r. reflexivity.
      * assert (O : (Y < y0 \/ y0 + ah a <= Y)%Z).
        { apply andb_false_iff in E. destruct E as [E|E]; [apply Z.leb_gt in E|apply Z.ltb_ge in E]; lia. }
        replace (((x0 <=? X) && (X <? x0 + aw a) && (y0 <=? Y) && (Y <? y0 + ah a))%Z) with false
          by (symmetry; rewrite <- andb_assoc, E; apply andb_false_r).
        unfold J2, J1. destruct O as [O|O].
        -- replace (y0 =? 0)%Z with false by (symmetry; apply Z.eqb_neq; lia).
           assert (M : memset J 0 (y0 * W) (Y * W + X)%Z = 0).
           { unfold memset. replace ((0 <=? Y * W + X) && (Y * W + X <? 0 + y0 * W))%Z with true; [reflexivity|].
             symmetry. apply andb_true_iff. rewrite Z.leb_le, Z.ltb_lt. nia. }
           destruct (y0 + ah a <? H)%Z; [|exact M]. unfold memset at 1. match goal with |- (if ?c then _ else _) = _ => destruct c end; [reflexivity|exact M].
        -- replace (y0 + ah a <? H)%Z with true by (symmetry; apply Z.ltb_lt; lia). unfold memset at 1.
           replace (((y0 + ah a) * W <=? Y * W + X) && (Y * W + X <? (y0 + ah a) * W + (H - (y0 + ah a)) * W))%Z with true; [reflexivity|].
           symmetry. apply andb_true_iff. rewrite Z.leb_le, Z.ltb_lt. nia.
    + intros J' k. rewrite row_at by lia. cbv zeta.
      destruct (k =? Y - y0)%Z eqn:Ek.
      * apply Z.eqb_eq in Ek. subst k. replace (Y * W + X - (y0 + (Y - y0)) * W)%Z with X by ring.
        replace ((0 <=? X) && (X <? W))%Z with true by (symmetry; apply andb_true_iff; rewrite Z.leb_le, Z.ltb_lt; lia).
        destruct ((x0 <=? X) && (X <? x0 + aw a))%Z eqn:E; [|reflexivity].
        apply andb_true_iff in E. rewrite Z.leb_le, Z.ltb_lt in E. apply flat_at. lia.
      * apply Z.eqb_neq in Ek. replace ((0 <=? Y * W + X - (y0 + k) * W) && (Y * W + X - (y0 + k) * W <? W))%Z with false; [reflexivity|].
        symmetry. apply andb_false_iff. rewrite Z.leb_gt, Z.ltb_ge.
        assert ((Y < y0 + k \/ y0 + k < Y)%Z) as [C|C] by lia; nia.
  - intros i Hi.
    assert (G : forall l J', Forall (fun k => (0 <= k < ah a)%Z) l -> fold_left (row_step W x0 y0 a) l J' i = J' i).
    { induction l as [|k l IH]; intros J' F; [reflexivity|]. inversion_clear F as [|? ? F1 F2]. cbn [fold_left]. rewrite (IH _ F2).
      rewrite row_at by lia. cbv zeta. replace ((0 <=? i - (y0 + k) * W) && (i - (y0 + k) * W <? W))%Z with false; [reflexivity|].
      symmetry. apply andb_false_iff. rewrite Z.leb_gt, Z.ltb_ge. nia. }
    rewrite G by (apply Forall_forall; intros k Ik; apply in_zlist in Ik; lia).
    assert (M : J1 i = J i).
    { unfold J1. destruct (y0 =? 0)%Z; [reflexivity|]. unfold memset.
      replace ((0 <=? i) && (i <? 0 + y0 * W))%Z with false; [reflexivity|].
      symmetry. apply andb_false_iff. rewrite Z.leb_gt, Z.ltb_ge. nia. }
    unfold J2. destruct (y0 + ah a <? H)%Z; [|exact M]. unfold memset.
    replace (((y0 + ah a) * W <=? i) && (i <? (y0 + ah a) * W + (H - (y0 + ah a)) * W))%Z with false; [exact M|].
    symmetry. apply andb_false_iff. rewrite Z.leb_gt, Z.ltb_ge. nia.
Qed.

Definition inside (W H : Z) (q : patch R) : Prop :=
  exists a, pimg q = Some a /\ (0 <= x0 q /\ 0 <= y0 q /\ 0 <= aw a /\ 0 <= ah a /\ x0 q + aw a <= W /\ y0 q + ah a <= H)%Z.

Lemma fill_all_at : forall W H ders Js ind X Y v, (0 <= X < W)%Z -> (0 <= Y < H)%Z ->
  Forall (fun id => inside W H (snd id)) ders -> (forall q, In (ind, q) ders -> img_at 0 q X Y = v) ->
  fill_all W H ders Js ind (Y * W + X)%Z
  = if existsb (fun id : nat * patch R => (fst id =? ind)%nat) ders then v else Js ind (Y * W + X)%Z.
Proof.
  intros W H ders Js ind X Y v HX HY. revert Js. induction ders as [|[n q] ders IH]; intros Js F HQ; [reflexivity|].
  inversion_clear F as [|? ? F1 F2]. unfold fill_all in *. cbn [fold_left existsb fst snd].
  rewrite IH; [|exact F2|intros; apply HQ; right; assumption].
  destruct (existsb _ ders); [rewrite orb_true_r; reflexivity|]. rewrite orb_false_r.
  destruct F1 as (a & Ea & B). cbn [snd] in Ea, B. rewrite Ea. rewrite (Nat.eqb_sym ind n).
  destruct (n =? ind)%nat eqn:E; [|reflexivity]. apply Nat.eqb_eq in E. subst n.
  destruct q as [qx qy qp]. cbn in *. subst qp.
  destruct (C77_fill W H qx qy a (Js ind)) as (E & _); try lia. rewrite (E X Y HX HY). apply HQ. left. reflexivity.
Qed.

(** The list after clipping and scaling. *)
Lemma chi_derivs_spec : forall W H ie scales l, (0 <= W)%Z -> (0 <= H)%Z -> has_shape ie H W ->
  Forall (fun id => wf_patch (snd id)) l ->
  exists out, chi_derivs W H ie scales l = Ok out /\ Forall (fun id => inside W H (snd id)) out /\
    (forall ind q, In (ind, q) out -> exists d, In (ind, d) l /\
       forall X Y, (0 <= X < W)%Z -> (0 <= Y < H)%Z -> img_at 0 q X Y = nth ind scales 0 * (- (img_at 0 d X Y * px ie Y X))) /\
    (forall ind d d1 b, In (ind, d) l -> clip_to d W H = Ok (d1, b) -> pimg d1 <> None -> exists q, In (ind, q) out) /\
    (forall ind, (forall d, In (ind, d) l -> exists d1 b, clip_to d W H = Ok (d1, b) /\ pimg d1 = None) -> forall q, ~ In (ind, q) out).
Proof.
  intros W H ie scales l HW HH (S1 & S2). induction l as [|[ind d] l IH]; intros F.
  - exists []. cbn. split; [reflexivity|]. split; [constructor|]. split; [intros ? ? []|]. split; [intros ? ? ? ? []|]. intros ? _ ? [].
  - inversion_clear F as [|? ? F1 F2]. cbn in F1. destruct (IH F2) as (out & E & HI & H1 & H2 & H3).
    destruct (clip_to_spec d W H F1 HW HH) as (d1 & b & Ec & W1 & HV & HF & HT).
    cbn [chi_derivs]. rewrite Ec. cbn [bind]. rewrite E. cbn [bind].
    destruct (pimg d1) as [a|] eqn:Ea.
    2:{ exists out. split; [reflexivity|]. split; [exact HI|]. split; [|split].
        - intros i q Iq. destruct (H1 i q Iq) as (d' & Id & Q). exists d'. split; [right; exact Id|exact Q].
        - intros i d' d1' b' [Hd|Hd] Ec' Hn; [|exact (H2 i d' d1' b' Hd Ec' Hn)]. injection Hd as <- <-.
          rewrite Ec in Ec'. injection Ec' as <- <-. congruence.
        - intros i Hi. apply H3. intros d' Hd. apply Hi. right. exact Hd. }
    destruct b; [|discriminate (HF eq_refl)].
    destruct (HT eq_refl) as (a' & Ea' & B1 & B2 & B3 & B4). injection Ea' as <-.
    unfold wf_patch in W1. rewrite Ea in W1. destruct W1 as (Wa & Wb).
    destruct (asub_shape ie (y0 d1) (y0 d1 + ah a) (x0 d1) (x0 d1 + aw a)) as (A1 & A2 & A3); [lia..|].
    rewrite A1, A2. replace (y0 d1 + ah a - y0 d1)%Z with (ah a) by ring. replace (x0 d1 + aw a - x0 d1)%Z with (aw a) by ring.
    rewrite !Z.eqb_refl. cbn [andb negb]. eexists. split; [reflexivity|].
    set (q0 := mkPatch _ _ _). split; [|split; [|split]].
    + constructor; [|exact HI]. exists (mkArr (ah a) (aw a) (fun y x : Z => -1 * px a y x
          * px (asub ie (mkSl (y0 d1) (y0 d1 + ah a)) (mkSl (x0 d1) (x0 d1 + aw a))) y x * nth ind scales 0)).
      cbn. split; [reflexivity|]. lia.
    + intros i q [Hq|Iq].
      * injection Hq as <- <-. exists d. split; [left; reflexivity|]. intros X Y HX HY.
        assert (V : img_at 0 d X Y = img_at 0 d1 X Y).
        { unfold img_at. rewrite (HV X Y). replace (in_box 0 W 0 H X Y) with true; [reflexivity|].
          symmetry. unfold in_box. rewrite !andb_true_iff, !Z.leb_le, !Z.ltb_lt. lia. }
        rewrite V. unfold q0. rewrite img_at_some. destruct d1 as [dx dy dp]. cbn in *. subst dp. rewrite img_at_some. cbn [ah aw px].
        destruct (_ && _); [|ring]. rewrite A3. replace (dy + (Y - dy))%Z with Y by ring. replace (dx + (X - dx))%Z with X by ring. ring.
      * destruct (H1 i q Iq) as (d' & Id & Q). exists d'. split; [right; exact Id|exact Q].
    + intros i d' d1' b' [Hd|Hd] Ec' Hn.
      * injection Hd as <- <-. exists q0. left. reflexivity.
      * destruct (H2 i d' d1' b' Hd Ec' Hn) as (q & Iq). exists q. right. exact Iq.
    + intros i Hi q [Hq|Iq].
      * injection Hq as <- <-. destruct (Hi d (or_introl eq_refl)) as (e1 & b1 & Ee & En).
        rewrite Ec in Ee. injection Ee as <- <-. congruence.
      * apply (H3 i) with q; [|exact Iq]. intros d' Hd. apply Hi. right. exact Hd.
Qed.

Definition derivs_wf (ds : list dkind) (numder : nat -> patch R) (srcs : list (nat * list (option (patch R)))) : Prop :=
  (forall d, In (DPatch d) ds -> wf_patch d) /\ (forall j, wf_patch (numder j)) /\
  (forall n sd d, In (n, sd) srcs -> In (Some d) sd -> wf_patch d).

Lemma all_wf : forall imgi ds numder ims srcs, counts_ok imgi ds ims srcs -> derivs_wf ds numder srcs ->
  Forall (fun id => wf_patch (snd id)) (all_derivs imgi ds numder ims srcs).
Proof.
  intros imgi ds numder ims srcs C (W1 & W2 & W3). apply Forall_forall. intros [ind d] I1.
  apply (C77_index imgi ds numder ims srcs C) in I1. destruct I1 as ([[i|k] j] & _ & HD); unfold is_deriv in HD; cbn in *.
  - destruct HD as (_ & [H|(_ & ->)]); [apply W1; exact (nth_error_In _ _ H)|apply W2].
  - destruct HD as (n & sd & H1 & H2). exact (W3 n sd d (nth_error_In _ _ H1) (nth_error_In _ _ H2)).
Qed.

(** Where the derivative d of the image's model in the tractor's parameter [ind]
    has a pixel in the image, the Jacobian for it is the scale times the
    derivative of chi = (image - model) * inverse error, at every pixel. *)
Theorem C77_jacobian : forall imgi ds numder ims srcs W H ie scales Js, counts_ok imgi ds ims srcs ->
  derivs_wf ds numder srcs -> (0 <= W)%Z -> (0 <= H)%Z -> has_shape ie H W ->
  exists out, chi_derivs W H ie scales (all_derivs imgi ds numder ims srcs) = Ok out /\
  forall ind l d d1 b, nth_error (labels ims srcs) ind = Some l -> is_deriv imgi ds numder srcs l d ->
    clip_to d W H = Ok (d1, b) -> pimg d1 <> None ->
    forall X Y, (0 <= X < W)%Z -> (0 <= Y < H)%Z ->
      fill_all W H out Js ind (Y * W + X)%Z = nth ind scales 0 * (- (img_at 0 d X Y * px ie Y X)).
Proof.
  intros imgi ds numder ims srcs W H ie scales Js C Wf HW HH HS.
  destruct (chi_derivs_spec W H ie scales _ HW HH HS (all_wf imgi ds numder ims srcs C Wf)) as (out & E & HI & H1 & H2 & _).
  exists out. split; [exact E|]. intros ind l d d1 b HL HD Ec Hn X Y HX HY.
  assert (Ind : In (ind, d) (all_derivs imgi ds numder ims srcs)) by (apply C77_index; [exact C|exists l; auto]).
  destruct (H2 ind d d1 b Ind Ec Hn) as (q & Iq).
  rewrite (fill_all_at W H out Js ind X Y (nth ind scales 0 * (- (img_at 0 d X Y * px ie Y X))) HX HY HI).
  - replace (existsb (fun id : nat * patch R => (fst id =? ind)%nat) out) with true; [reflexivity|].
    symmetry. apply existsb_exists. exists (ind, q). split; [exact Iq|]. apply Nat.eqb_refl.
  - intros q' Iq'. destruct (H1 ind q' Iq') as (d' & Id' & Q). rewrite (Q X Y HX HY).
    apply C77_index in Id'; [|exact C]. destruct Id' as (l' & HL' & HD'). rewrite HL in HL'. injection HL' as <-.
    replace d' with d; [reflexivity|]. destruct l as [[i|k] j]; unfold is_deriv in HD, HD'; cbn in *.
    + destruct HD as (_ & [Q1|(Q1 & ->)]), HD' as (_ & [Q2|(Q2 & ->)]); congruence.
    + destruct HD as (n & sd & Q1 & Q2), HD' as (n' & sd' & Q1' & Q2'). congruence.
Qed.

(** A parameter without a pixel in the image leaves its Jacobian as it was, so
    it is whatever was in memory and not zero. *)
Theorem C77_no_pixel_refuted : forall imgi ds numder ims srcs W H ie scales Js, counts_ok imgi ds ims srcs ->
  derivs_wf ds numder srcs -> (0 <= W)%Z -> (0 <= H)%Z -> has_shape ie H W ->
  exists out, chi_derivs W H ie scales (all_derivs imgi ds numder ims srcs) = Ok out /\
  forall ind l, nth_error (labels ims srcs) ind = Some l ->
    (forall d, is_deriv imgi ds numder srcs l d -> exists d1 b, clip_to d W H = Ok (d1, b) /\ pimg d1 = None) ->
    forall X Y, (0 <= X < W)%Z -> (0 <= Y < H)%Z ->
      fill_all W H out Js ind (Y * W + X)%Z = Js ind (Y * W + X)%Z.
Proof.
  intros imgi ds numder ims srcs W H ie scales Js C Wf HW HH HS.
  destruct (chi_derivs_spec W H ie scales _ HW HH HS (all_wf imgi ds numder ims srcs C Wf)) as (out & E & HI & _ & _ & H3).
  exists out. split; [exact E|]. intros ind l HL HN X Y HX HY.
  assert (N : forall q, ~ In (ind, q) out).
  { apply H3. intros d Id. apply C77_index in Id; [|exact C]. destruct Id as (l' & HL' & HD'). rewrite HL in HL'.
    injection HL' as <-. exact (HN d HD'). }
  rewrite (fill_all_at W H out Js ind X Y 0 HX HY HI) by (intros q Iq; destruct (N q Iq)).
  replace (existsb (fun id : nat * patch R => (fst id =? ind)%nat) out) with false; [reflexivity|].
  symmetry. apply Bool.not_true_iff_false. intros T. apply existsb_exists in T. destruct T as ([i q] & Iq & Ei).
  apply Nat.eqb_eq in Ei. cbn in Ei. subst i. exact (N q Iq).
Qed.

(** ** A case *)
(** Image 1 of two, with two parameters each (the first of image 1 by finite
    differences), and two sources, of which the second misses the image. *)
Definition ex_num (j : nat) : patch R := mkPatch 0 0 (Some (mkArr 2 3 (fun y x => IZR (y + x)))).
Definition ex_src : patch R := mkPatch (-1) 1 (Some (mkArr 1 2 (fun y x => 4))).
Definition ex_off : patch R := mkPatch 9 9 (Some (mkArr 1 1 (fun y x => 4))).
Definition ex_srcs : list (nat * list (option (patch R))) := [(2%nat, [Some ex_src; None]); (1%nat, [Some ex_off])].
Example C77_ex : counts_ok 1 [DFalse; DNone] [(0, 2); (1, 2)]%nat ex_srcs /\ derivs_wf [DFalse; DNone] ex_num ex_srcs
  /\ map fst (all_derivs 1 [DFalse; DNone] ex_num [(0, 2); (1, 2)]%nat ex_srcs) = [2; 4; 6]%nat
  /\ nth_error (labels [(0, 2); (1, 2)]%nat ex_srcs) 6 = Some (inr 1%nat, O).
Proof.
  split; [split; repeat constructor; cbn; lia|]. split; [|split; reflexivity]. split; [|split].
  - intros d [H|[H|[]]]; discriminate.
  - intros j. cbn. unfold wf_arr. cbn. lia.
  - intros n sd d [H|[H|[]]]; injection H as <- <-; cbn.
    + intros [H|[H|[]]]; [injection H as <-|discriminate]. cbn. unfold wf_arr. cbn. lia.
    + intros [H|[]]. injection H as <-. cbn. unfold wf_arr. cbn. lia.
Qed.
(** chi linear in one parameter. *)
Example C77_ex_optimize : exists p', length p' = 1%nat /\
  optimize (fun _ v => v) (fun p _ => mkArr 1 1 (fun _ _ => nth 0 p 0 - 3)) 1 [2] true [mkLeaf [true] [(O, 1, 1)]] [5]
  = Ok (lnp (fun p _ => mkArr 1 1 (fun _ _ => nth 0 p 0 - 3)) 1 [(O, 1, 1)] p'
        - lnp (fun p _ => mkArr 1 1 (fun _ _ => nth 0 p 0 - 3)) 1 [(O, 1, 1)] [5], p').
Proof.
  destruct (C77_optimize (fun _ v => v) (fun p _ => mkArr 1 1 (fun _ _ => nth 0 p 0 - 3)) 1 [2] true [mkLeaf [true] [(O, 1, 1)]] [5])
    as (p' & L & E & _); try discriminate; try reflexivity.
  - intros ? ?; reflexivity.
  - intros ? ?; apply Rle_refl.
  - repeat constructor; lra.
  - cbn. repeat constructor; lra.
  - exists p'. split; [exact L|exact E].
Qed.

Print Assumptions C77_start.
Print Assumptions C77_objective.
Print Assumptions C77_optimize.
Print Assumptions C77_maximum.
Print Assumptions C77_bounds.
Print Assumptions C77_scales.
Print Assumptions C77_variance.
Print Assumptions C77_prior_index.
Print Assumptions C77_prior_frozen_refuted.
Print Assumptions C77_empty_refuted.
Print Assumptions C77_loop.
Print Assumptions C77_numeric_refuted.
Print Assumptions C77_index.
Print Assumptions C77_fill.
Print Assumptions C77_jacobian.
Print Assumptions C77_no_pixel_refuted.
