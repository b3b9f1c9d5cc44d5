(** C69: the GPU optimizer's line search against the CPU's. *)
From Coq Require Import List ZArith QArith Bool Lia Lqa.
From Verif Require Import Base Ext OptimModel OptimProps GpuSearchModel.
Import ListNotations.
Open Scope Q_scope.

(** ** Specification *)
(** The chi-square changes are those of the likelihood: half of it is how much
    log-likelihood is lost. *)
Definition exact_changes (like : list Q -> ext) (dchisq : list Q -> ext) (p0 : list Q) : Prop :=
  forall p, eeq (emul (Fin (1 # 2)) (dchisq p)) (esub (like p0) (like p)).
(** The log-probability that the CPU code computes. *)
Definition posterior (logprior like : list Q -> ext) (p : list Q) : ext := eadd (logprior p) (like p).

Lemma eeq_fin a b : eeq a b -> isfinite a = isfinite b.
Proof. destruct a, b; cbn; tauto. Qed.
Lemma fin_ex a : isfinite a = true -> exists q, a = Fin q.
Proof. destruct a; try discriminate. eauto. Qed.
Lemma change_eeq prior like dchisq p0 p a b : prior p0 = Fin a -> like p0 = Fin b -> exact_changes like dchisq p0 ->
  eeq (dlogprob prior dchisq p0 p) (esub (posterior prior like p) (posterior prior like p0)).
Proof.
  intros EA EB EX. specialize (EX p). unfold dlogprob, posterior. rewrite EA, EB in *.
  destruct (emul (Fin (1 # 2)) (dchisq p)) as [x| | |]; destruct (like p) as [l| | |]; cbn in EX; try tauto;
    destruct (prior p) as [q| | |]; cbn; auto; lra.
Qed.

Lemma loops prior like dchisq p0 a b : prior p0 = Fin a -> like p0 = Fin b -> exact_changes like dchisq p0 ->
  forall steps pb ab lb db hit last lim, isfinite lb = true -> eeq db (esub lb (posterior prior like p0)) ->
  let '(p, al, l, h, t) := ctry_loop (posterior prior like) None steps pb ab lb hit last in
  let '(p', al', d, fl) := gtry_loop prior dchisq p0 steps pb ab db (mkFlags hit last lim) in
  p' = p /\ al' = al /\ eeq d (esub l (posterior prior like p0)) /\ f_hit fl = h /\ f_last fl = t /\ (isfinite l = true).
Proof.
  intros EA EB EX. induction steps as [|s r IH]; intros pb ab lb db hit last lim FL ED; cbn [ctry_loop gtry_loop].
  { cbn. auto 8. }
  set (l := posterior prior like (s_params s)). pose proof (change_eeq prior like dchisq p0 (s_params s) a b EA EB EX) as HD. fold l in HD.
  set (d := dlogprob prior dchisq p0 (s_params s)) in *.
  assert (EL0 : posterior prior like p0 = Fin (a + b)) by (unfold posterior; rewrite EA, EB; reflexivity). rewrite EL0 in *.
  assert (FD : isfinite d = isfinite l) by (rewrite (eeq_fin _ _ HD); destruct l; reflexivity).
  rewrite FD. set (fl := if s_hit s then mkFlags true (f_last (mkFlags hit last lim)) true else mkFlags hit last lim).
  assert (F1 : f_hit fl = (hit || s_hit s)%bool) by (unfold fl; destruct (s_hit s), hit; reflexivity).
  assert (F2 : f_last fl = last) by (unfold fl; destruct (s_hit s); reflexivity).
  destruct (isfinite l) eqn:E1; cbn [negb]; [|auto 8].
  destruct (fin_ex _ E1) as [x EX1]. destruct (fin_ex _ FL) as [y EY1]. rewrite EX1, EY1 in *. clearbody l d. subst l lb.
  destruct d as [d| | |]; cbn in HD; try tauto. destruct db as [db| | |]; cbn in ED; try tauto.
  assert (C1 : eltb (Fin d) (esub (Fin db) (Fin 1)) = eltb (Fin x) (esub (Fin y) (Fin 1))).
  { cbn. destruct (qltb x (y + - (1))) eqn:Q1; [apply qltb_lt in Q1; apply qltb_lt; lra|apply qltb_ge in Q1; apply qltb_ge; lra]. }
  assert (C2 : egtb (Fin d) (Fin db) = egtb (Fin x) (Fin y)).
  { cbn. destruct (qltb y x) eqn:Q1; [apply qltb_lt in Q1; apply qltb_lt; lra|apply qltb_ge in Q1; apply qltb_ge; lra]. }
  rewrite C1, C2. destruct (eltb (Fin x) (esub (Fin y) (Fin 1))); [auto 8|].
  destruct (egtb (Fin x) (Fin y)).
  - specialize (IH (s_params s) (Some (s_alpha s)) (Fin x) (Fin d) (hit || s_hit s)%bool (s_hit s) (f_limited fl) eq_refl HD).
    rewrite F1. exact IH.
  - replace fl with (mkFlags (hit || s_hit s) last (f_limited fl)) by (destruct fl; cbn in *; congruence).
    apply IH; auto.
Qed.

(** ** Theorems *)
(** From a start of finite probability the GPU's search ends at the same
    parameters with the same fraction and the same gain as the CPU's, and sets
    hit_limit and last_step_hit_limit alike, if there are steps, none of which
    goes haywire. *)
Theorem C69_same : forall prior like dchisq haywire p0 steps hit last lim,
  isfinite (prior p0) = true -> isfinite (like p0) = true -> exact_changes like dchisq p0 ->
  haywire p0 = false -> Forall (fun s => haywire (s_params s) = false) steps -> steps <> [] ->
  let '(p, gain, a, h, t) := ctry_updates (posterior prior like) None p0 steps hit last in
  let '(p', gain', a', fl) := gtry_updates prior dchisq haywire p0 steps (mkFlags hit last lim) in
  p' = p /\ a' = a /\ eeq gain' gain /\ f_hit fl = h /\ f_last fl = t.
Proof.
  intros prior like dchisq haywire p0 steps hit last lim FP FL EX HP HS NE.
  destruct (fin_ex _ FP) as [a EA]. destruct (fin_ex _ FL) as [b EB]. unfold gtry_updates. rewrite HP.
  replace (cut haywire steps) with steps
    by (clear NE; induction HS as [|s r E HS IH]; [reflexivity|]; cbn; rewrite E, <- IH; reflexivity).
  unfold ctry_updates. replace (match steps with [] => (true, true) | _ => (hit, last) end) with (hit, last) by (destruct steps; congruence).
  pose proof (loops prior like dchisq p0 a b EA EB EX steps p0 None (posterior prior like p0) (dlogprob prior dchisq p0 p0) hit last lim) as H.
  specialize (H ltac:(unfold posterior; rewrite EA, EB; reflexivity) (change_eeq prior like dchisq p0 p0 a b EA EB EX)).
  pose proof (ctry_loop_spec (posterior prior like) None steps p0 None hit last) as SP.
  destruct (ctry_loop (posterior prior like) None steps p0 None (posterior prior like p0) hit last) as [[[[p al] l] h] t].
  destruct (gtry_loop prior dchisq p0 steps p0 None (dlogprob prior dchisq p0 p0) (mkFlags hit last lim)) as [[[p' al'] d] fl].
  destruct H as (-> & -> & ED & H1 & H2 & _). destruct al as [al|]; [auto|].
  destruct SP as (SL & [(EP & _)|(s & _ & _ & SA & _)]); [|discriminate]. split; auto. split; auto. split; auto.
  subst l. rewrite EP in ED. unfold posterior in ED. rewrite EA, EB in ED. destruct d; cbn in ED |- *; try tauto. lra.
Qed.
(** With haywire steps it does what the CPU does on the steps before the first
    of these; a haywire start is left alone. *)
Theorem C69_haywire : forall prior dchisq haywire p0 before s after fl,
  haywire p0 = false -> Forall (fun s => haywire (s_params s) = false) before -> haywire (s_params s) = true ->
  gtry_updates prior dchisq haywire p0 (before ++ s :: after) fl = gtry_updates prior dchisq haywire p0 before fl.
Proof.
  intros prior dchisq haywire p0 before s after fl HP HB HS. unfold gtry_updates. rewrite HP.
  replace (cut haywire (before ++ s :: after)) with (cut haywire before); [reflexivity|].
  induction HB as [|x r E HB IH]; cbn; [rewrite HS; reflexivity|]. rewrite E, IH. reflexivity.
Qed.
(** The search never loses: the parameters afterwards are the start, or a step
    that is better by exactly the gain. *)
Theorem C69_never_worse : forall prior like dchisq haywire p0 steps fl,
  isfinite (prior p0) = true -> isfinite (like p0) = true -> exact_changes like dchisq p0 ->
  let '(p, gain, a, fl') := gtry_updates prior dchisq haywire p0 steps fl in
  (p = p0 /\ a = None /\ eeq gain (Fin 0)) \/
  (exists s, In s steps /\ p = s_params s /\ a = Some (s_alpha s) /\ f_last fl' = s_hit s /\
     eltb (posterior prior like p0) (posterior prior like p) = true /\ eeq gain (esub (posterior prior like p) (posterior prior like p0))).
Proof.
  intros prior like dchisq haywire p0 steps fl FP FL EX. destruct (haywire p0) eqn:HP.
  { unfold gtry_updates. rewrite HP. left. cbn. split; auto. split; auto. reflexivity. }
  assert (IN : forall s, In s (cut haywire steps) -> In s steps).
  { intros s. induction steps as [|x r IH]; cbn; auto. destruct (haywire (s_params x)); cbn; [tauto|]. intros [->|H]; auto. }
  assert (EC : gtry_updates prior dchisq haywire p0 steps fl = gtry_updates prior dchisq haywire p0 (cut haywire steps) fl).
  { unfold gtry_updates. rewrite HP. replace (cut haywire (cut haywire steps)) with (cut haywire steps); [reflexivity|].
    clear IN. induction steps as [|x r IH]; [reflexivity|]. cbn. destruct (haywire (s_params x)) eqn:E; [reflexivity|]. cbn. rewrite E. f_equal. exact IH. }
  rewrite EC. destruct (cut haywire steps) as [|s0 r] eqn:ES.
  { unfold gtry_updates. rewrite HP. cbn. left. split; auto. split; auto.
    destruct (fin_ex _ FP) as [a EA]. destruct (fin_ex _ FL) as [b EB].
    pose proof (change_eeq prior like dchisq p0 p0 a b EA EB EX) as H. unfold posterior in H. rewrite EA, EB in H. destruct (dlogprob prior dchisq p0 p0); cbn in H |- *; try tauto. lra. }
  assert (HF : Forall (fun s => haywire (s_params s) = false) (s0 :: r)).
  { rewrite <- ES. clear. induction steps as [|x r IH]; cbn; [constructor|]. destruct (haywire (s_params x)) eqn:E; constructor; auto. }
  destruct fl as [hit last lim].
  pose proof (C69_same prior like dchisq haywire p0 (s0 :: r) hit last lim FP FL EX HP HF ltac:(discriminate)) as S.
  pose proof (C31_try_updates (posterior prior like) None p0 (s0 :: r) hit last) as T.
  destruct (ctry_updates (posterior prior like) None p0 (s0 :: r) hit last) as [[[[p gain] a] h] t].
  destruct (gtry_updates prior dchisq haywire p0 (s0 :: r) (mkFlags hit last lim)) as [[[p' gain'] a'] fl'].
  destruct S as (-> & -> & EG & _ & F2). destruct T as ([(-> & -> & ->)|(s & I1 & -> & -> & -> & LT & _ & ->)] & _).
  - left. auto.
  - right. exists s. auto 8.
Qed.

(** ** Where the two differ *)
Definition ex_prior (p : list Q) : ext := match p with [x] => if qltb x 0 then NInf else Fin 0 | _ => NaN end.
Definition ex_like (p : list Q) : ext := match p with [x] => Fin (- (x - 1) * (x - 1)) | _ => NaN end.
Definition ex_dchisq (p0 p : list Q) : ext :=
  match p0, p with [x0], [x] => Fin (2 * ((x - 1) * (x - 1) - (x0 - 1) * (x0 - 1))) | _, _ => NaN end.
Definition ex_steps : list step := [mkStep (1 # 2) [1 # 2] false false; mkStep 1 [1] false true].
Definition never (p : list Q) : bool := false.
Lemma ex_exact x : exact_changes ex_like (ex_dchisq [x]) [x].
Proof. intros [|y [|z p]]; cbn; auto. lra. Qed.
Example C69_same_ex : exists g,
  gtry_updates ex_prior (ex_dchisq [0]) never [0] ex_steps (mkFlags false false false) = ([1], Fin g, Some 1, mkFlags true true true) /\ g == 1.
Proof. eexists. split; [vm_compute; reflexivity|]. reflexivity. Qed.

(** 1: a step shortened by a bound counts as step-limited on the GPU, which
    makes optimize_loop go on where the CPU stops. *)
Theorem C69_limited_refuted : exists prior like dchisq p0 steps,
  isfinite (prior p0) = true /\ isfinite (like p0) = true /\ exact_changes like dchisq p0 /\
  Forall (fun s => s_limit s = false) steps /\
  let '(_, gain, _, fl) := gtry_updates prior dchisq never p0 steps (mkFlags false false false) in
  f_limited fl = true /\
  snd (fst (copt_loop (fun n => (n, gain, false)) None (Fin 2) (Fin (1 # 1000000)) 5 0 [0%Z])) = 0%nat /\
  snd (fst (copt_loop (fun n => (n, gain, f_limited fl)) None (Fin 2) (Fin (1 # 1000000)) 5 0 [0%Z])) = 4%nat.
Proof.
  exists ex_prior, ex_like, (ex_dchisq [0]), [0], ex_steps. split; [reflexivity|]. split; [reflexivity|]. split; [apply ex_exact|].
  split; [repeat constructor|]. vm_compute. auto.
Qed.
(** 2: without any step the CPU reports that a limit was hit, the GPU does not. *)
Theorem C69_no_steps_refuted : exists prior like dchisq p0,
  isfinite (prior p0) = true /\ isfinite (like p0) = true /\ exact_changes like dchisq p0 /\
  let '(_, _, _, h, t) := ctry_updates (posterior prior like) None p0 [] false false in
  let '(_, _, _, fl) := gtry_updates prior dchisq never p0 [] (mkFlags false false false) in
  h = true /\ t = true /\ f_hit fl = false /\ f_last fl = false.
Proof. exists ex_prior, ex_like, (ex_dchisq [0]), [0]. split; [reflexivity|]. split; [reflexivity|]. split; [apply ex_exact|]. vm_compute. auto. Qed.
(** 3: from a start that the prior excludes the CPU moves to a better step; the
    GPU finds no number at all, stays, and returns it as the gain. *)
Theorem C69_excluded_start_refuted : exists prior like dchisq p0 steps,
  isfinite (like p0) = true /\ exact_changes like dchisq p0 /\
  let '(p, _, a, _, _) := ctry_updates (posterior prior like) None p0 steps false false in
  let '(p', gain', a', _) := gtry_updates prior dchisq never p0 steps (mkFlags false false false) in
  p = [1] /\ a = Some 1 /\ p' = p0 /\ a' = None /\ gain' = NaN.
Proof. exists ex_prior, ex_like, (ex_dchisq [-1 # 1]), [-1 # 1], ex_steps. split; [reflexivity|]. split; [apply ex_exact|]. vm_compute. auto 8. Qed.
(** 4: a check_step that refuses a step is not asked. *)
Theorem C69_check_refuted : exists prior like dchisq p0 steps check,
  isfinite (prior p0) = true /\ isfinite (like p0) = true /\ exact_changes like dchisq p0 /\
  let '(p, _, _, _, _) := ctry_updates (posterior prior like) (Some check) p0 steps false false in
  let '(p', _, _, _) := gtry_updates prior dchisq never p0 steps (mkFlags false false false) in
  p = p0 /\ p' = [1].
Proof.
  exists ex_prior, ex_like, (ex_dchisq [0]), [0], ex_steps, (fun _ _ => false).
  split; [reflexivity|]. split; [reflexivity|]. split; [apply ex_exact|]. vm_compute. auto.
Qed.

Print Assumptions C69_same.
Print Assumptions C69_haywire.
Print Assumptions C69_never_worse.
Print Assumptions C69_limited_refuted.
Print Assumptions C69_no_steps_refuted.
Print Assumptions C69_excluded_start_refuted.
Print Assumptions C69_check_refuted.
