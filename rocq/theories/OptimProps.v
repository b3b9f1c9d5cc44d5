(** Properties C29-C32: line searches, constrained steps, optimization loops. *)
From Coq Require Import List ZArith QArith Qabs Bool Lia Lqa.
From Verif Require Import Base Ext OptimModel.
Import ListNotations.

(** ** Order lemmas *)
Lemma eltb_trans a b c : eltb a b = true -> eltb b c = true -> eltb a c = true.
Proof.
  destruct a as [x| | |], b as [y| | |], c as [z| | |]; simpl; auto; try discriminate.
  rewrite !qltb_lt. intros; lra.
Qed.
Lemma eltb_irrefl a : eltb a a = false.
Proof. destruct a; simpl; auto. apply qltb_ge. lra. Qed.

(** [b] is [a] itself or strictly better. *)
Definition improves (a b : ext) : Prop := a = b \/ eltb a b = true.
Lemma improves_trans a b c : improves a b -> improves b c -> improves a c.
Proof. intros [->|H] [->|H']; unfold improves; auto. right. eapply eltb_trans; eauto. Qed.
Lemma improves_not_lower a b : improves a b -> eltb b a = false.
Proof.
  intros [->|H]; [apply eltb_irrefl|]. destruct (eltb b a) eqn:E; auto.
  rewrite <- (eltb_irrefl a). symmetry. eapply eltb_trans; eauto.
Qed.

(** ** C29 *)
Section C29.
Context {V : Type}.
Variables (add mul : V -> V -> V).
Variable lp : list V -> ext.

Lemma move_length alpha p0 X : length X = length p0 -> length (move add mul alpha p0 X) = length p0.
Proof. revert X; induction p0; destruct X; simpl; intros; try discriminate; auto. Qed.

(** What the search saw: the step fractions [l] were tried and evaluated to
    finite values none of which beats [final]; the search ended because the
    list ran out or because the next point was bad. *)
Definition searched (p0 X alphas : list V) (final : ext) : Prop :=
  exists l r, alphas = l ++ r /\
    Forall (fun b => isfinite (lp (move add mul b p0 X)) = true /\
                     eltb final (lp (move add mul b p0 X)) = false) l /\
    (r = [] \/ exists b r', r = b :: r' /\
       (isfinite (lp (move add mul b p0 X)) = false \/
        eltb (lp (move add mul b p0 X)) (esub final (Fin 1)) = true)).

Lemma try_loop_spec p0 X : length X = length p0 -> forall alphas cur best pBest,
  length cur = length p0 ->
  exists cur' best' pBest', try_loop add mul lp p0 X alphas cur best pBest = Ok (cur', best', pBest') /\
    length cur' = length p0 /\
    ((best' = best /\ pBest' = pBest) \/
     (exists a, In a alphas /\ best' = Some a /\ pBest' = lp (move add mul a p0 X) /\
                eltb pBest pBest' = true /\ isfinite pBest' = true)) /\
    searched p0 X alphas pBest'.
Proof.
  intros HL. induction alphas as [|a alphas IH]; intros cur best pBest HC; simpl.
  - exists cur, best, pBest. split; auto. split; auto. split; auto.
    exists [], []. simpl. repeat split; auto.
  - unfold set_vec. rewrite move_length, HC, Nat.eqb_refl by auto. simpl.
    pose proof (move_length a p0 X HL) as ML.
    destruct (isfinite (lp (move add mul a p0 X))) eqn:EF; simpl.
    2:{ do 3 eexists. split; [reflexivity|]. split; auto. split; auto.
        exists [], (a :: alphas). simpl. split; auto. split; auto. right. eauto. }
    destruct (eltb (lp (move add mul a p0 X)) (esub pBest (Fin 1))) eqn:EB.
    { do 3 eexists. split; [reflexivity|]. split; auto. split; auto.
      exists [], (a :: alphas). simpl. split; auto. split; auto. right. eauto. }
    unfold egtb. destruct (eltb pBest (lp (move add mul a p0 X))) eqn:EA.
    + destruct (IH (move add mul a p0 X) (Some a) (lp (move add mul a p0 X)) ML)
        as (cur' & best' & pBest' & E & HL' & HB & l & r & E1 & HF & HR).
      exists cur', best', pBest'. split; auto. split; auto. split.
      * destruct HB as [(-> & ->)|(b & HI & -> & E2 & HLT & HFi)].
        -- right. exists a. simpl. auto.
        -- right. exists b. simpl. split; auto. split; auto. split; auto. split; auto.
           eapply eltb_trans; eauto.
      * exists (a :: l), r. split; [simpl; congruence|]. split; auto. constructor; auto. split; auto.
        apply improves_not_lower. destruct HB as [(_ & ->)|(b & _ & _ & _ & HLT & _)]; [left; auto|right; auto].
    + destruct (IH (move add mul a p0 X) best pBest ML)
        as (cur' & best' & pBest' & E & HL' & HB & l & r & E1 & HF & HR).
      exists cur', best', pBest'. split; auto. split; auto. split.
      * destruct HB as [HB|(b & HI & HB)]; auto. right. exists b. simpl. tauto.
      * exists (a :: l), r. split; [simpl; congruence|]. split; auto. constructor; auto. split; auto.
        destruct (eltb pBest' (lp (move add mul a p0 X))) eqn:EQ; auto.
        rewrite <- EA. symmetry.
        destruct HB as [(_ & ->)|(b & _ & _ & _ & HLT & _)]; auto. eapply eltb_trans; eauto.
Qed.
End C29.

Theorem C29_try_updates : forall (V : Type) (add mul : V -> V -> V) (lp : list V -> ext) p0 X alphas,
  length X = length p0 ->
  exists p' gain a, try_updates add mul lp p0 X alphas = Ok (p', gain, a) /\
    ((a = None /\ p' = p0 /\ gain = Fin 0) \/
     (exists b, a = Some b /\ In b alphas /\ p' = move add mul b p0 X /\
                eltb (lp p0) (lp p') = true /\ isfinite (lp p') = true /\
                gain = esub (lp p') (lp p0))) /\
    searched add mul lp p0 X alphas (lp p').
Proof.
  intros V add mul lp p0 X alphas HL. unfold try_updates.
  destruct (try_loop_spec add mul lp p0 X HL alphas p0 None (lp p0) eq_refl)
    as (cur & best & pBest & -> & HC & HB & HS). simpl.
  destruct HB as [(-> & ->)|(b & HI & -> & E2 & HLT & HF)].
  - unfold set_vec. rewrite HC, Nat.eqb_refl. simpl.
    do 3 eexists. split; [reflexivity|]. auto.
  - unfold set_vec. rewrite move_length, HC, Nat.eqb_refl by auto. simpl.
    do 3 eexists. split; [reflexivity|]. rewrite <- E2. split; auto.
    right. exists b. auto 8.
Qed.

(** In particular the log-probability never goes down, and the reported gain
    is a non-negative number (or +infinity, from a start at -infinity). *)
Corollary C29_never_worse : forall (V : Type) (add mul : V -> V -> V) (lp : list V -> ext) p0 X alphas p' gain a,
  length X = length p0 -> try_updates add mul lp p0 X alphas = Ok (p', gain, a) ->
  improves (lp p0) (lp p') /\ eltb (lp p') (lp p0) = false /\
  match gain with Fin q => (0 <= q)%Q | PInf => lp p0 = NInf | _ => False end.
Proof.
  intros V add mul lp p0 X alphas p' gain a HL E.
  destruct (C29_try_updates V add mul lp p0 X alphas HL) as (p1 & g & b & E1 & HB & _).
  rewrite E in E1. injection E1; intros; subst p1 g b.
  assert (I : improves (lp p0) (lp p')).
  { destruct HB as [(_ & -> & _)|(b & _ & _ & _ & HLT & _)]; [left; auto|right; auto]. }
  split; auto. split; [apply improves_not_lower; auto|].
  destruct HB as [(_ & _ & ->)|(b & _ & _ & _ & HLT & HF & ->)]; [lra|].
  destruct (lp p0), (lp p'); simpl in *; try discriminate; auto.
  apply qltb_lt in HLT. lra.
Qed.

(** A direction of the wrong length raises. *)
Theorem C29_short_direction_raises : forall (V : Type) (add mul : V -> V -> V) (lp : list V -> ext) p0 X a alphas,
  (length X < length p0)%nat -> try_updates add mul lp p0 X (a :: alphas) = Err IndexError.
Proof.
  intros V add mul lp p0 X a alphas HL. unfold try_updates. simpl. unfold set_vec.
  assert (length (move add mul a p0 X) = length X).
  { revert X HL. induction p0; destruct X; simpl; intros; try lia. rewrite IHp0; lia. }
  rewrite H. destruct (Nat.eqb_spec (length X) (length p0)); [lia|reflexivity].
Qed.

(** Objective -(x-3)^2 from x=0 along 1: of the steps 1, 2, 4, 8 it takes 2
    (tied with 4, tried first) and stops at 8. *)
Example C29_ex :
  let lp := fun v => match v with [x] => Fin (- (x - 3) * (x - 3))%Q | _ => NaN end in
  length [1%Q] = length [0%Q] /\
  match try_updates Qplus Qmult lp [0%Q] [1%Q] [1; 2; 4; 8]%Q with
  | Ok ([x], Fin g, Some a) => (x == 2)%Q /\ (g == 8)%Q /\ (a == 2)%Q
  | _ => False
  end.
Proof. split; [reflexivity|]. vm_compute. auto. Qed.

(** ** C32 *)
Section C32.
Context {V : Type}.
Variables (add mul : V -> V -> V).
Variable lp : list V -> ext.
Variable dir : list V -> option (list V).
Variable alphas : list V.

(** The direction has one entry per parameter, or is empty, or absent. *)
Definition dir_ok : Prop := forall p X, dir p = Some X -> X = [] \/ length X = length p.

(** [gains] are the gains of the successive steps from [p] to [q]. *)
Inductive trail : list V -> list ext -> list V -> Prop :=
| trail_nil p : trail p [] p
| trail_step p p' g l q : optimize add mul lp dir alphas p = Ok (p', g) -> improves (lp p) (lp p') ->
    trail p' l q -> trail p (g :: l) q.

Lemma optimize_ok : dir_ok -> forall p, exists p' g,
  optimize add mul lp dir alphas p = Ok (p', g) /\ improves (lp p) (lp p') /\
  match g with Fin q => (0 <= q)%Q | PInf => lp p = NInf | _ => False end.
Proof.
  intros HD p. unfold optimize. destruct (dir p) as [X|] eqn:E.
  - destruct X as [|x X].
    + do 2 eexists; split; [reflexivity|]. split; [left; auto|lra].
    + destruct (HD p _ E) as [?|HL]; [discriminate|].
      destruct (C29_try_updates V add mul lp p (x :: X) alphas HL) as (p' & g & a & E1 & _).
      rewrite E1. simpl. do 2 eexists; split; [reflexivity|].
      destruct (C29_never_worse V add mul lp p (x :: X) alphas p' g a HL E1) as (A & _ & B). auto.
  - do 2 eexists; split; [reflexivity|]. split; [left; auto|lra].
Qed.

Lemma opt_loop_spec dchisq : dir_ok -> forall n step p, (1 <= n)%nat ->
  exists q s gains g, opt_loop add mul lp dir alphas dchisq n step p = Ok (q, s, gains ++ [g]) /\
    s = (step + length gains)%nat /\ (length gains < n)%nat /\ trail p (gains ++ [g]) q /\
    Forall (fun x => eleb x dchisq = false) gains /\
    (eleb g dchisq = true \/ S (length gains) = n).
Proof.
  intros HD. induction n as [|n IH]; intros step p Hn; [lia|]. simpl.
  destruct (optimize_ok HD p) as (p' & g & E & I & _). rewrite E. simpl.
  destruct (eleb g dchisq) eqn:EL.
  - exists p', step, [], g. simpl. split; auto. split; [lia|]. split; [lia|].
    split; [econstructor; eauto; constructor|]. auto.
  - destruct n as [|n].
    + exists p', step, [], g. simpl. split; auto. split; [lia|]. split; [lia|].
      split; [econstructor; eauto; constructor|]. auto.
    + destruct (IH (S step) p' ltac:(lia)) as (q & s & gs & g' & E' & Hs & Hl & T & F & St).
      rewrite E'. simpl. exists q, s, (g :: gs), g'. simpl. split; auto. split; [lia|]. split; [lia|].
      split; [econstructor; eauto|]. split; auto. destruct St; auto.
Qed.

Lemma trail_improves p l q : trail p l q -> improves (lp p) (lp q).
Proof. induction 1; [left; auto|eapply improves_trans; eauto]. Qed.
End C32.

(** The loop takes s+1 <= steps steps; none lowers the log-probability; it
    stops at the first gain that is at most the threshold, and otherwise only
    when the steps are used up. *)
Theorem C32_optimize_loop : forall (V : Type) (add mul : V -> V -> V) (lp : list V -> ext) dir alphas dchisq steps p,
  dir_ok dir -> (1 <= steps)%nat ->
  exists q s gains g, optimize_loop add mul lp dir alphas dchisq steps p = Ok (q, s, gains ++ [g]) /\
    s = length gains /\ (length (gains ++ [g]) <= steps)%nat /\
    trail add mul lp dir alphas p (gains ++ [g]) q /\
    Forall (fun x => eleb x dchisq = false) gains /\
    (eleb g dchisq = true \/ length (gains ++ [g]) = steps) /\
    improves (lp p) (lp q) /\ eltb (lp q) (lp p) = false.
Proof.
  intros V add mul lp dir alphas dchisq steps p HD Hs. unfold optimize_loop.
  destruct steps as [|n]; [lia|].
  destruct (opt_loop_spec add mul lp dir alphas dchisq HD (S n) 0 p Hs)
    as (q & s & gs & g & E & A & B & C & D & F).
  exists q, s, gs, g. split; auto. split; auto. rewrite app_length. simpl.
  split; [lia|]. split; auto. split; auto. split; [destruct F; auto; right; lia|].
  pose proof (trail_improves add mul lp dir alphas p _ q C). split; auto. apply improves_not_lower; auto.
Qed.

(** steps=0 is an error instead of doing nothing. *)
Theorem C32_zero_steps_raises : forall (V : Type) (add mul : V -> V -> V) lp dir alphas dchisq (p : list V),
  optimize_loop add mul lp dir alphas dchisq 0 p = Err UnboundLocalError.
Proof. reflexivity. Qed.

(** Objective -(x-3)^2 with the unit direction towards 3 and full steps: three
    gains of 5, 3, 1 and then 0. *)
Example C32_ex :
  let lp := fun v => match v with [x] => Fin (- (x - 3) * (x - 3))%Q | _ => NaN end in
  let dir := fun v => match v with [x] => Some [if qltb x 3 then 1 else -1]%Q | _ => None end in
  match optimize_loop Qplus Qmult lp dir [1%Q] (Fin 0) 50 [0%Q] with
  | Ok ([x], s, gains) => (x == 3)%Q /\ s = 3%nat /\ length gains = 4%nat
  | _ => False
  end.
Proof. vm_compute. auto. Qed.

(** ** C30 *)
Open Scope Q_scope.

(** x lies between the bounds; None is no bound. *)
Definition in_bounds (l u : option Q) (x : Q) : Prop :=
  match l with Some l => l <= x | None => True end /\ match u with Some u => x <= u | None => True end.

Fixpoint within (los his : list (option Q)) (p : list Q) : Prop :=
  match los, his, p with
  | l :: ls, u :: us, x :: xs => in_bounds l u x /\ within ls us xs
  | [], [], [] => True
  | _, _, _ => False
  end.

(** No parameter moved by more than its limit. *)
Fixpoint moved_at_most (maxs : list (option Q)) (p0 p : list Q) : Prop :=
  match maxs, p0, p with
  | m :: ms, a :: p0s, x :: xs =>
      match m with Some m => Qabs (x - a) <= m | None => True end /\ moved_at_most ms p0s xs
  | [], [], [] => True
  | _, _, _ => False
  end.

(** p = p0 + alpha * dir. *)
Fixpoint on_line (alpha : Q) (p0 dir p : list Q) : Prop :=
  match p0, dir, p with
  | a :: p0s, d :: ds, x :: xs => x == a + alpha * d /\ on_line alpha p0s ds xs
  | [], [], [] => True
  | _, _, _ => False
  end.

Fixpoint bounds_ordered (los his : list (option Q)) : Prop :=
  match los, his with
  | l :: ls, u :: us =>
      match l, u with Some l, Some u => l <= u | _, _ => True end /\ bounds_ordered ls us
  | [], [] => True
  | _, _ => False
  end.

Definition limits_nonneg (maxs : list (option Q)) : Prop :=
  Forall (fun m => match m with Some m => 0 <= m | None => True end) maxs.

Lemma clamp_in l u x : match l, u with Some l, Some u => l <= u | _, _ => True end -> in_bounds l u (clamp l u x).
Proof.
  unfold clamp, in_bounds. destruct l as [l|], u as [u|]; intros H;
  repeat match goal with |- context [qltb ?a ?b] =>
    destruct (qltb a b) eqn:?; [rewrite qltb_lt in *|rewrite qltb_ge in *] end; split; auto; lra.
Qed.
Lemma clamp_id l u x : in_bounds l u x -> clamp l u x = x.
Proof.
  unfold clamp, in_bounds. intros (A & B).
  destruct l as [l|]; [destruct (qltb x l) eqn:E; [rewrite qltb_lt in E; exfalso; lra|]|];
  (destruct u as [u|]; [destruct (qltb u x) eqn:E'; [rewrite qltb_lt in E'; exfalso; lra|]|]); auto.
Qed.

Lemma step_params_within add mul p0 los his dir alpha :
  bounds_ordered los his -> length p0 = length los -> length dir = length los ->
  within los his (step_params add mul p0 los his dir alpha).
Proof.
  revert los his dir. induction p0 as [|p p0 IH]; intros [|l los] [|u his] [|d dir]; simpl;
    intros B L1 L2; try discriminate; try tauto.
  destruct B as (B1 & B2). split; [apply clamp_in; auto|]. apply IH; auto.
Qed.

(** Whatever the arithmetic (so also with rounding): every proposed point is
    inside the bounds. *)
Theorem C30_bounds : forall add sub mul div tiny p0 maxs los his dir alphas steps,
  bounds_ordered los his -> length p0 = length los -> length dir = length los ->
  parameter_steps add sub mul div tiny p0 maxs los his dir alphas = Ok steps ->
  Forall (fun s => within los his (s_params s)) steps.
Proof.
  intros add sub mul div tiny p0 maxs los his dir alphas steps B L1 L2. unfold parameter_steps.
  destruct (increasing alphas); [|discriminate]. intros E; injection E; intros <-; clear E.
  induction alphas as [|a alphas IH]; simpl; [constructor|].
  destruct (limit_steps mul div maxs dir a false) as [a1 lim].
  destruct (limit_bounds add sub mul div p0 los his dir a1 false) as [a2 hit].
  destruct (qltb a2 tiny); [constructor|]. constructor; simpl.
  - apply step_params_within; auto.
  - destruct lim; auto.
Qed.

(** Exact arithmetic. *)
Definition shrunk (a a' : Q) : Prop := (0 <= a -> 0 <= a' <= a) /\ (a <= 0 -> a' <= 0).

Lemma shrunk_refl a : shrunk a a. Proof. split; intros; lra. Qed.
Lemma shrunk_trans a b c : shrunk a b -> shrunk b c -> shrunk a c.
Proof.
  intros (A1 & A2) (B1 & B2). split.
  - intros H. specialize (A1 H). specialize (B1 (proj1 A1)). lra.
  - intros H. auto.
Qed.

Fixpoint steps_ok (maxs : list (option Q)) (dir : list Q) (a : Q) : Prop :=
  match maxs, dir with
  | m :: ms, d :: ds => match m with Some m => a * Qabs d <= m | None => True end /\ steps_ok ms ds a
  | _, _ => True
  end.

Lemma steps_ok_shrunk maxs dir a a' : limits_nonneg maxs -> steps_ok maxs dir a -> shrunk a a' -> 0 <= a' ->
  steps_ok maxs dir a'.
Proof.
  intros N H S Ha'. revert dir H. induction maxs as [|m maxs IH]; intros [|d dir]; simpl; auto.
  intros (A & B). inversion N as [|? ? N1 N2]; subst. split; [|auto].
  destruct m as [m|]; auto. pose proof (Qabs_nonneg d) as P.
  destruct S as (S1 & S2).
  destruct (Qlt_le_dec a 0) as [L|L].
  - assert (a' <= 0) by (apply S2; lra). assert (a' == 0) by lra. rewrite H0. lra.
  - specialize (S1 L). nra.
Qed.

Lemma limit_steps_spec maxs : limits_nonneg maxs -> forall dir a lim,
  let '(a', lim') := limit_steps Qmult Qdiv maxs dir a lim in
  shrunk a a' /\ (0 <= a' -> steps_ok maxs dir a') /\ (lim' = lim -> lim = false -> a' = a).
Proof.
  induction maxs as [|m maxs IH]; intros N [|d dir] a lim; simpl;
    try (split; [apply shrunk_refl|]; split; auto; fail).
  inversion N as [|? ? N1 N2]; subst. specialize (IH N2).
  destruct m as [m|].
  - destruct (qltb m (a * Qabs d)) eqn:E.
    + rewrite qltb_lt in E. pose proof (Qabs_nonneg d) as P.
      assert (PD : 0 < Qabs d).
      { destruct (Qlt_le_dec 0 (Qabs d)) as [|L]; auto. assert (Qabs d == 0) by lra.
        rewrite H in E. lra. }
      assert (M : m / Qabs d * Qabs d == m) by (field; intros Z; rewrite Z in PD; lra).
      assert (PA : 0 < a). { destruct (Qlt_le_dec 0 a); auto. nra. }
      assert (0 <= m / Qabs d) by (apply Qle_shift_div_l; lra).
      assert (SH : shrunk a (m / Qabs d)).
      { split; intros; [split; auto|lra]. apply Qle_shift_div_r; auto. lra. }
      specialize (IH dir (m / Qabs d) true).
      destruct (limit_steps Qmult Qdiv maxs dir (m / Qabs d) true) as [a' lim'] eqn:EL.
      destruct IH as (S1 & S2 & S3). split; [eapply shrunk_trans; eauto|]. split.
      * intros Ha'. split; auto.
        destruct S1 as (S1 & _). specialize (S1 H). nra.
      * intros -> ->. exfalso.
        assert (T : forall ms ds x, snd (limit_steps Qmult Qdiv ms ds x true) = true).
        { clear. induction ms as [|m ms IH]; intros [|d ds] x; simpl; auto.
          destruct m; auto. destruct (qltb _ _); auto. }
        specialize (T maxs dir (m / Qabs d)). rewrite EL in T. discriminate.
    + rewrite qltb_ge in E. specialize (IH dir a lim).
      destruct (limit_steps Qmult Qdiv maxs dir a lim) as [a' lim'].
      destruct IH as (S1 & S2 & S3). split; auto. split; auto. intros Ha'. split; auto.
      pose proof (Qabs_nonneg d) as P. destruct S1 as (S1 & S1').
      destruct (Qlt_le_dec a 0) as [L|L]; [specialize (S1' ltac:(lra))|specialize (S1 L)]; nra.
  - specialize (IH dir a lim). destruct (limit_steps Qmult Qdiv maxs dir a lim) as [a' lim'].
    destruct IH as (S1 & S2 & S3). auto.
Qed.

Lemma in_bounds_shrunk l u p d a a' : in_bounds l u p -> in_bounds l u (p + a * d) -> shrunk a a' -> 0 <= a' ->
  in_bounds l u (p + a' * d).
Proof.
  intros (A & B) (C & D) (S1 & S2) Ha'. unfold in_bounds.
  destruct (Qlt_le_dec a 0) as [L|L].
  - assert (a' == 0) by (specialize (S2 ltac:(lra)); lra). split; [destruct l|destruct u]; auto; rewrite H; lra.
  - specialize (S1 L).
    assert (X : exists t, 0 <= t <= 1 /\ a' == t * a).
    { destruct (Qeq_dec a 0) as [Z|Z].
      - exists 0. split; [lra|]. lra.
      - exists (a' / a). split; [split|].
        + apply Qle_shift_div_l; lra.
        + apply Qle_shift_div_r; lra.
        + field; auto. }
    destruct X as (t & Ht & Et).
    assert (E2 : p + a' * d == (1 - t) * p + t * (p + a * d)) by (rewrite Et; ring).
    clear Et S1 S2.
    split; [destruct l as [l|]|destruct u as [u|]]; auto; rewrite E2; nra.
Qed.

Fixpoint line_within (los his : list (option Q)) (p0 dir : list Q) (a : Q) : Prop :=
  match los, his, p0, dir with
  | l :: ls, u :: us, p :: ps, d :: ds => in_bounds l u (p + a * d) /\ line_within ls us ps ds a
  | _, _, _, _ => True
  end.

(** One parameter: lines 128-138. *)
Lemma bound_one l u p d a h : in_bounds l u p ->
  let '(a1, px, hit1) := match l with
     | Some l => if qltb (p + a * d) l then ((l - p) / d, l, true) else (a, p + a * d, h)
     | None => (a, p + a * d, h) end in
  let '(a2, hit2) := match u with
     | Some u => if qltb u px then ((u - p) / d, true) else (a1, hit1)
     | None => (a1, hit1) end in
  shrunk a a2 /\ (0 <= a2 -> in_bounds l u (p + a2 * d)) /\ (hit2 = false -> h = false /\ a2 = a).
Proof.
  intros (A & B).
  assert (DV : forall x, ~ d == 0 -> p + (x - p) / d * d == x) by (intros; field; auto).
  assert (NZ : forall l, l <= p -> p + a * d < l -> ~ d == 0) by (intros l0 H H' Z; rewrite Z in H'; lra).
  assert (NZ' : forall u, p <= u -> u < p + a * d -> ~ d == 0) by (intros u0 H H' Z; rewrite Z in H'; lra).
  assert (SL : forall l, l <= p -> p + a * d < l -> shrunk a ((l - p) / d)).
  { intros l0 H H'. pose proof (NZ l0 H H') as Z. pose proof (DV l0 Z) as E.
    set (t := (l0 - p) / d) in *. split; intros.
    - assert (d < 0) by (destruct (Qlt_le_dec d 0); auto; exfalso; nra). split; nra.
    - assert (0 < d) by (destruct (Qlt_le_dec 0 d); auto; exfalso; nra). nra. }
  assert (SU : forall u, p <= u -> u < p + a * d -> shrunk a ((u - p) / d)).
  { intros u0 H H'. pose proof (NZ' u0 H H') as Z. pose proof (DV u0 Z) as E.
    set (t := (u0 - p) / d) in *. split; intros.
    - assert (0 < d) by (destruct (Qlt_le_dec 0 d); auto; exfalso; nra). split; nra.
    - assert (d < 0) by (destruct (Qlt_le_dec d 0); auto; exfalso; nra). nra. }
  destruct l as [l|].
  - destruct (qltb (p + a * d) l) eqn:E1.
    + rewrite qltb_lt in E1. destruct u as [u|].
      * destruct (qltb u l) eqn:E2; [rewrite qltb_lt in E2; exfalso; lra|].
        split; [auto|]. split; [|discriminate]. intros _. unfold in_bounds.
        rewrite !DV by eauto. lra.
      * split; [auto|]. split; [|discriminate]. intros _. unfold in_bounds. rewrite DV by eauto. split; [lra|auto].
    + rewrite qltb_ge in E1. destruct u as [u|].
      * destruct (qltb u (p + a * d)) eqn:E2.
        -- rewrite qltb_lt in E2. split; [auto|]. split; [|discriminate]. intros _. unfold in_bounds.
           rewrite !DV by eauto. lra.
        -- rewrite qltb_ge in E2. split; [apply shrunk_refl|]. split; auto. intros _. split; auto.
      * split; [apply shrunk_refl|]. split; auto. intros _. split; auto.
  - destruct u as [u|].
    + destruct (qltb u (p + a * d)) eqn:E2.
      * rewrite qltb_lt in E2. split; [auto|]. split; [|discriminate]. intros _. unfold in_bounds.
        rewrite !DV by eauto. split; [auto|lra].
      * rewrite qltb_ge in E2. split; [apply shrunk_refl|]. split; auto. intros _. split; auto.
    + split; [apply shrunk_refl|]. split; auto. intros _. split; auto.
Qed.

Lemma limit_bounds_spec : forall p0 los his dir a h, within los his p0 ->
  let '(a', h') := limit_bounds Qplus Qminus Qmult Qdiv p0 los his dir a h in
  shrunk a a' /\ (0 <= a' -> line_within los his p0 dir a') /\ (h' = false -> h = false /\ a' = a).
Proof.
  induction p0 as [|p p0 IH]; intros [|l los] [|u his] [|d dir] a h W; simpl in *; try contradiction;
    try (split; [apply shrunk_refl|]; split; auto; fail).
  destruct W as (W1 & W2). pose proof (bound_one l u p d a h W1) as B.
  destruct (match l with
     | Some l => if qltb (p + a * d) l then ((l - p) / d, l, true) else (a, p + a * d, h)
     | None => (a, p + a * d, h) end) as [[a1 px] h1].
  destruct (match u with
     | Some u => if qltb u px then ((u - p) / d, true) else (a1, h1)
     | None => (a1, h1) end) as [a2 h2].
  destruct B as (B1 & B2 & B3).
  specialize (IH los his dir a2 h2 W2).
  destruct (limit_bounds Qplus Qminus Qmult Qdiv p0 los his dir a2 h2) as [a3 h3].
  destruct IH as (I1 & I2 & I3). split; [eapply shrunk_trans; eauto|]. split.
  - intros Ha3. split; auto.
    destruct (Qlt_le_dec a2 0) as [L|L].
    + destruct I1 as (_ & I1). specialize (I1 ltac:(lra)). assert (Z : a3 == 0) by lra.
      destruct W1 as (A & B). split; [destruct l|destruct u]; auto; rewrite Z; lra.
    + apply in_bounds_shrunk with (a := a2); auto.
  - intros ->. destruct (I3 eq_refl) as (-> & ->). auto.
Qed.

Lemma line_step_params : forall p0 los his dir a, line_within los his p0 dir a ->
  within los his p0 -> length dir = length p0 ->
  step_params Qplus Qmult p0 los his dir a = map (fun pd => fst pd + a * snd pd) (combine p0 dir).
Proof.
  induction p0 as [|p p0 IH]; intros [|l los] [|u his] [|d dir] a H W L; simpl in *; try contradiction;
    try discriminate; auto.
  destruct H as (H1 & H2), W as (W1 & W2). rewrite clamp_id by auto. f_equal. apply IH; auto.
Qed.
Lemma on_line_map : forall p0 dir a, length dir = length p0 ->
  on_line a p0 dir (map (fun pd => fst pd + a * snd pd) (combine p0 dir)).
Proof.
  induction p0 as [|p p0 IH]; intros [|d dir] a L; simpl in *; try discriminate; auto.
  split; [reflexivity|]. apply IH; auto.
Qed.
Lemma moved_map : forall maxs p0 dir a, length dir = length p0 -> length maxs = length p0 -> 0 <= a ->
  steps_ok maxs dir a ->
  moved_at_most maxs p0 (map (fun pd => fst pd + a * snd pd) (combine p0 dir)).
Proof.
  induction maxs as [|m maxs IH]; intros [|p p0] [|d dir] a L L' Ha H; simpl in *; try discriminate; auto.
  destruct H as (H1 & H2). split; [|apply IH; auto].
  destruct m as [m|]; auto.
  assert (E : p + a * d - p == a * d) by ring.
  change (Qabs (p + a * d - p) <= m).
  apply Qle_trans with (a * Qabs d); auto.
  apply Qle_trans with (Qabs (a * d)); [apply Qle_lteq; right; apply Qabs_wd, E|].
  rewrite Qabs_Qmult, (Qabs_pos a) by auto. apply Qle_refl.
Qed.

(** The fraction [t] of the direction respects all limits and bounds. *)
Definition feasible (maxs los his : list (option Q)) (p0 dir : list Q) (t : Q) : Prop :=
  exists p, on_line t p0 dir p /\ moved_at_most maxs p0 p /\ within los his p.

Lemma feasible_parts : forall p0 maxs los his dir t, 0 <= t -> feasible maxs los his p0 dir t ->
  steps_ok maxs dir t /\ line_within los his p0 dir t.
Proof.
  induction p0 as [|p p0 IH]; intros maxs los his dir t Ht (q & O & M & W);
    destruct maxs as [|m maxs], los as [|l los], his as [|u his], dir as [|d dir], q as [|x q];
    simpl in *; try contradiction; auto.
  destruct O as (O1 & O2), M as (M1 & M2), W as (W1 & W2).
  destruct (IH maxs los his dir t Ht) as (A & B); [exists q; auto|].
  split; split; auto.
  - destruct m as [m|]; auto. apply Qle_trans with (Qabs (x - p)); auto.
    apply Qle_trans with (Qabs (t * d)).
    + rewrite Qabs_Qmult, (Qabs_pos t) by auto. apply Qle_refl.
    + apply Qle_lteq; right. apply Qabs_wd. rewrite O1. ring.
  - destruct W1 as (A1 & B1). split; [destruct l|destruct u]; auto; rewrite <- O1; auto.
Qed.

Lemma limit_steps_max maxs : forall dir a lim t, limits_nonneg maxs -> t <= a -> steps_ok maxs dir t ->
  t <= fst (limit_steps Qmult Qdiv maxs dir a lim).
Proof.
  induction maxs as [|m maxs IH]; intros [|d dir] a lim t N Ha H; simpl in *; auto.
  inversion N as [|? ? N1 N2]; subst. destruct H as (H1 & H2).
  destruct m as [m|]; [|apply IH; auto].
  destruct (qltb m (a * Qabs d)) eqn:E; [|apply IH; auto]. apply IH; auto.
  rewrite qltb_lt in E. pose proof (Qabs_nonneg d) as P.
  assert (PD : 0 < Qabs d).
  { destruct (Qlt_le_dec 0 (Qabs d)) as [|L]; auto. assert (Z : Qabs d == 0) by lra. rewrite Z in E. lra. }
  apply Qle_shift_div_l; auto.
Qed.

Lemma limit_bounds_max : forall p0 los his dir a h t, within los his p0 -> 0 <= t -> t <= a ->
  line_within los his p0 dir t ->
  t <= fst (limit_bounds Qplus Qminus Qmult Qdiv p0 los his dir a h).
Proof.
  induction p0 as [|p p0 IH]; intros [|l los] [|u his] [|d dir] a h t W Ht Ha H; simpl in *; try contradiction; auto.
  destruct W as ((W1 & W1') & W2), H as ((H1 & H1') & H2).
  assert (DU : forall u, p <= u -> p + t * d <= u -> u < p + a * d -> t <= (u - p) / d).
  { intros u0 A B C. assert (0 < d) by (destruct (Qlt_le_dec 0 d); auto; exfalso; nra).
    apply Qle_shift_div_l; auto. lra. }
  assert (DL : forall l, l <= p -> l <= p + t * d -> p + a * d < l -> t <= (l - p) / d).
  { intros l0 A B C. assert (D : 0 < -d) by (destruct (Qlt_le_dec 0 (-d)); auto; exfalso; nra).
    assert (E : (l0 - p) / d == (p - l0) / (-d)) by (field; intros Z; rewrite Z in D; lra).
    rewrite E. apply Qle_shift_div_l; auto. lra. }
  destruct l as [l|].
  - destruct (qltb (p + a * d) l) eqn:E1.
    + rewrite qltb_lt in E1. destruct u as [u|]; [destruct (qltb u l) eqn:E2; [rewrite qltb_lt in E2; exfalso; lra|]|];
      apply IH; auto.
    + destruct u as [u|]; [destruct (qltb u (p + a * d)) eqn:E2|]; apply IH; auto.
      rewrite qltb_lt in E2. auto.
  - destruct u as [u|]; [destruct (qltb u (p + a * d)) eqn:E2|]; apply IH; auto.
    rewrite qltb_lt in E2. auto.
Qed.

(** [s_alpha s] is the largest feasible fraction up to the requested [a]. *)
Definition largest (ok : Q -> Prop) (s : step) (a : Q) : Prop :=
  s_alpha s <= a /\ ok (s_alpha s) /\ (forall t, 0 <= t <= a -> ok t -> t <= s_alpha s) /\
  (s_limit s = false -> s_hit s = false -> s_alpha s = a).

(** One proposal per requested fraction, until the largest feasible fraction
    is tiny or the step limit has been reached. *)
Inductive shortened (ok : Q -> Prop) (tiny : Q) : list step -> list Q -> Prop :=
| sh_done : shortened ok tiny [] []
| sh_tiny a alphas : (forall t, 0 <= t <= a -> ok t -> t < tiny) -> shortened ok tiny [] (a :: alphas)
| sh_limit s a alphas : largest ok s a -> s_limit s = true -> shortened ok tiny [s] (a :: alphas)
| sh_cons s l a alphas : largest ok s a -> s_limit s = false -> shortened ok tiny l alphas ->
    shortened ok tiny (s :: l) (a :: alphas).

(** In exact arithmetic, from a start inside the bounds and with non-negative
    step limits: every proposed point is exactly start + fraction * direction,
    no parameter moves further than its limit, all parameters are inside their
    bounds, and the fraction is the largest one up to the requested for which
    this is so. *)
Theorem C30_exact : forall tiny p0 maxs los his dir alphas steps,
  0 < tiny -> within los his p0 -> limits_nonneg maxs ->
  length maxs = length p0 -> length dir = length p0 ->
  parameter_steps Qplus Qminus Qmult Qdiv tiny p0 maxs los his dir alphas = Ok steps ->
  shortened (feasible maxs los his p0 dir) tiny steps alphas /\
  Forall (fun s => tiny <= s_alpha s /\ on_line (s_alpha s) p0 dir (s_params s) /\
                   moved_at_most maxs p0 (s_params s) /\ within los his (s_params s)) steps.
Proof.
  intros tiny p0 maxs los his dir alphas steps HT W N L1 L2. unfold parameter_steps.
  destruct (increasing alphas); [|discriminate]. intros E; injection E; intros <-; clear E.
  assert (BO : bounds_ordered los his).
  { clear - W. revert his p0 W. induction los as [|l los IH]; intros [|u his] [|p p0]; simpl; try tauto.
    intros ((A & B) & W). split; [|eapply IH; eauto]. destruct l, u; auto. lra. }
  assert (LL : length p0 = length los).
  { clear - W. revert his los W. induction p0 as [|p p0 IH]; intros [|u his] [|l los]; simpl; try tauto.
    intros (_ & W). f_equal. eapply IH; eauto. }
  induction alphas as [|a alphas IH]; simpl; [split; constructor|].
  pose proof (limit_steps_spec maxs N dir a false) as S1.
  pose proof (fun t => limit_steps_max maxs dir a false t N) as M1.
  destruct (limit_steps Qmult Qdiv maxs dir a false) as [a1 lim].
  pose proof (limit_bounds_spec p0 los his dir a1 false W) as S2.
  pose proof (fun t => limit_bounds_max p0 los his dir a1 false t W) as M2.
  destruct (limit_bounds Qplus Qminus Qmult Qdiv p0 los his dir a1 false) as [a2 hit].
  simpl in M1, M2.
  assert (MX : forall t, 0 <= t <= a -> feasible maxs los his p0 dir t -> t <= a2).
  { intros t (T1 & T2) F. destruct (feasible_parts p0 maxs los his dir t T1 F). auto. }
  destruct (qltb a2 tiny) eqn:ET.
  { rewrite qltb_lt in ET. split; constructor. intros t T F. specialize (MX t T F). lra. }
  rewrite qltb_ge in ET.
  destruct S1 as (A1 & A2 & A3), S2 as (B1 & B2 & B3).
  assert (P2 : 0 <= a2) by lra.
  assert (PA : 0 < a /\ 0 <= a1 <= a /\ a2 <= a1).
  { destruct A1 as (A1 & A1'), B1 as (B1 & B1').
    destruct (Qlt_le_dec 0 a) as [G|G].
    - specialize (A1 ltac:(lra)). specialize (B1 (proj1 A1)). lra.
    - specialize (A1' G). specialize (B1' A1'). lra. }
  assert (OK : steps_ok maxs dir a2).
  { apply steps_ok_shrunk with (a := a1); auto. apply A2; lra. }
  specialize (B2 P2).
  assert (ALL : on_line a2 p0 dir (step_params Qplus Qmult p0 los his dir a2) /\
                moved_at_most maxs p0 (step_params Qplus Qmult p0 los his dir a2) /\
                within los his (step_params Qplus Qmult p0 los his dir a2)).
  { split; [|split].
    - rewrite line_step_params by auto. apply on_line_map; auto.
    - rewrite line_step_params by auto. apply moved_map; auto.
    - apply step_params_within; auto. congruence. }
  assert (LG : largest (feasible maxs los his p0 dir) (mkStep a2 (step_params Qplus Qmult p0 los his dir a2) lim hit) a).
  { unfold largest; simpl. split; [lra|]. split; [eexists; eauto|]. split; auto.
    intros -> ->. destruct (B3 eq_refl) as (_ & ->). apply A3; auto. }
  split.
  - destruct lim; [constructor; auto|]. apply sh_cons; auto. apply IH.
  - constructor; simpl; [|destruct lim; [constructor|apply IH]]. auto.
Qed.

(** Step fractions that do not increase are refused. *)
Theorem C30_needs_increasing : forall add sub mul div tiny p0 maxs los his dir a b l r,
  b <= a ->
  parameter_steps add sub mul div tiny p0 maxs los his dir (l ++ a :: b :: r) = Err AssertionError.
Proof.
  intros add sub mul div tiny p0 maxs los his dir a b l r H. unfold parameter_steps.
  replace (increasing (l ++ a :: b :: r)) with false; auto. symmetry.
  induction l as [|x l IH].
  - simpl. replace (qltb a b) with false; auto. symmetry. apply qltb_ge. auto.
  - destruct l as [|y l]; simpl in *; rewrite IH, andb_false_r; auto.
Qed.

(** A start outside the bounds jumps to the bound, further than the step limit
    allows. *)
Theorem C30_outside_start_refuted : exists p0 maxs los his dir alphas s,
  limits_nonneg maxs /\
  parameter_steps Qplus Qminus Qmult Qdiv (1#1000) p0 maxs los his dir alphas = Ok [s] /\
  ~ moved_at_most maxs p0 (s_params s).
Proof.
  exists [-(10)], [Some 1], [Some 0], [None], [1], [1].
  eexists. split; [repeat constructor; lra|]. split; [vm_compute; reflexivity|].
  simpl. intros (H & _). vm_compute in H. auto.
Qed.

(** Two parameters; the first is limited to 1 per step, the second bounded above by 5.
    Fraction 1/4 is taken as is; 1/2 is cut by the bound; 1 by the step limit. *)
Example C30_ex :
  let p0 := [0; 4] in let maxs := [Some 1; None] in let los := [None; Some 0] in
  let his := [None; Some 5] in let dir := [2; 3] in
  within los his p0 /\ limits_nonneg maxs /\
  match parameter_steps Qplus Qminus Qmult Qdiv (1#1000000) p0 maxs los his dir [1#4; 1#2; 1] with
  | Ok [s1; s2; s3] =>
      s_alpha s1 == 1#4 /\ s_hit s1 = false /\ s_alpha s2 == 1#3 /\ s_hit s2 = true /\
      s_limit s2 = false /\ s_limit s3 = true /\ s_alpha s3 == 1#3
  | _ => False
  end.
Proof.
  simpl. split; [unfold in_bounds; repeat split; lra|]. split; [repeat constructor; lra|].
  vm_compute. repeat split; auto.
Qed.

(** ** C31 *)
Section C31.
Variable lp : list Q -> ext.
Variable check : option (list Q -> Q -> bool).

Lemma ctry_loop_spec steps : forall p_best a_best hit last,
  let '(p', a', l', hit', last') := ctry_loop lp check steps p_best a_best (lp p_best) hit last in
  l' = lp p' /\
  ((p' = p_best /\ a' = a_best /\ last' = last) \/
   (exists s, In s steps /\ p' = s_params s /\ a' = Some (s_alpha s) /\ last' = s_hit s /\
              eltb (lp p_best) (lp p') = true /\ isfinite (lp p') = true)).
Proof.
  induction steps as [|s steps IH]; intros p_best a_best hit last; simpl; auto.
  destruct (match check with Some c => negb (c (s_params s) (s_alpha s)) | None => false end); [simpl; auto|].
  destruct (isfinite (lp (s_params s))) eqn:EF; simpl; [|auto].
  destruct (eltb (lp (s_params s)) (esub (lp p_best) (Fin 1))); [auto|].
  unfold egtb. destruct (eltb (lp p_best) (lp (s_params s))) eqn:EA.
  - specialize (IH (s_params s) (Some (s_alpha s)) (hit || s_hit s)%bool (s_hit s)).
    destruct (ctry_loop lp check steps (s_params s) (Some (s_alpha s)) (lp (s_params s)) (hit || s_hit s) (s_hit s))
      as [[[[p' a'] l'] h'] t'].
    destruct IH as (-> & [(-> & -> & ->)|(s' & I & -> & -> & -> & HL & HF)]); split; auto; right.
    + exists s. auto 8.
    + exists s'. repeat split; auto. eapply eltb_trans; eauto.
  - specialize (IH p_best a_best (hit || s_hit s)%bool last).
    destruct (ctry_loop lp check steps p_best a_best (lp p_best) (hit || s_hit s) last) as [[[[p' a'] l'] h'] t'].
    destruct IH as (-> & [IH|(s' & I & IH)]); split; auto. right. exists s'. tauto.
Qed.

(** Steps [l] were tried and none beats [final]; then the search ended. *)
Definition csearched (steps : list step) (final : ext) : Prop :=
  exists l r, steps = l ++ r /\
    Forall (fun s => isfinite (lp (s_params s)) = true /\ eltb final (lp (s_params s)) = false) l /\
    (r = [] \/ exists s r', r = s :: r' /\
       (match check with Some c => c (s_params s) (s_alpha s) = false | None => False end \/
        isfinite (lp (s_params s)) = false \/
        eltb (lp (s_params s)) (esub final (Fin 1)) = true)).

Lemma ctry_loop_searched steps : forall p_best a_best hit last,
  let '(p', a', l', hit', last') := ctry_loop lp check steps p_best a_best (lp p_best) hit last in
  csearched steps l'.
Proof.
  induction steps as [|s steps IH]; intros p_best a_best hit last; simpl.
  - exists [], []. simpl. auto.
  - destruct check as [c|] eqn:EC;
      [destruct (c (s_params s) (s_alpha s)) eqn:Ec; simpl|].
    2:{ exists [], (s :: steps). simpl. split; auto. split; auto. right. exists s, steps.
        split; auto. left. rewrite EC. auto. }
    all: destruct (isfinite (lp (s_params s))) eqn:EF; simpl;
      [|exists [], (s :: steps); simpl; split; auto; split; auto; right; exists s, steps; auto].
    all: destruct (eltb (lp (s_params s)) (esub (lp p_best) (Fin 1))) eqn:EB;
      [exists [], (s :: steps); simpl; split; auto; split; auto; right; exists s, steps; auto|].
    all: rewrite <- EC in IH |- *; unfold egtb; destruct (eltb (lp p_best) (lp (s_params s))) eqn:EA.
    1,3: pose proof (ctry_loop_spec steps (s_params s) (Some (s_alpha s)) (hit || s_hit s)%bool (s_hit s)) as SP;
      specialize (IH (s_params s) (Some (s_alpha s)) (hit || s_hit s)%bool (s_hit s));
      destruct (ctry_loop lp check steps (s_params s) (Some (s_alpha s)) (lp (s_params s)) (hit || s_hit s) (s_hit s))
      as [[[[p' a'] l'] h'] t']; destruct IH as (l & r & E1 & HF & HR), SP as (-> & SP);
      exists (s :: l), r; split; [simpl; congruence|]; split; auto; constructor; auto; split; auto;
      apply improves_not_lower; destruct SP as [(-> & _)|(s' & _ & _ & _ & _ & HL & _)]; [left|right]; auto.
    all: pose proof (ctry_loop_spec steps p_best a_best (hit || s_hit s)%bool last) as SP;
      specialize (IH p_best a_best (hit || s_hit s)%bool last);
      destruct (ctry_loop lp check steps p_best a_best (lp p_best) (hit || s_hit s) last)
      as [[[[p' a'] l'] h'] t']; destruct IH as (l & r & E1 & HF & HR), SP as (-> & SP);
      exists (s :: l), r; (split; [simpl; congruence|]); split; auto; constructor; auto; split; auto;
      destruct SP as [(-> & _)|(s' & _ & _ & _ & _ & HL & _)]; auto;
      destruct (eltb (lp p') (lp (s_params s))) eqn:EQ; auto;
      rewrite <- EA; symmetry; eapply eltb_trans; eauto.
Qed.
End C31.

(** The constrained search ends at the start (gain 0, fraction 0) or at a
    proposed point strictly better than the start, with exactly the gain; no
    proposal tried before the search ended is better. *)
Theorem C31_try_updates : forall lp check p0 steps hit0 last0,
  let '(p', gain, a, hit, last) := ctry_updates lp check p0 steps hit0 last0 in
  ((a = None /\ p' = p0 /\ gain = Fin 0) \/
   (exists s, In s steps /\ a = Some (s_alpha s) /\ p' = s_params s /\ last = s_hit s /\
              eltb (lp p0) (lp p') = true /\ isfinite (lp p') = true /\
              gain = esub (lp p') (lp p0))) /\
  csearched lp check steps (lp p').
Proof.
  intros lp check p0 steps hit0 last0. unfold ctry_updates.
  set (hl := match steps with [] => (true, true) | _ => (hit0, last0) end). destruct hl as [h l].
  pose proof (ctry_loop_spec lp check steps p0 None h l) as SP.
  pose proof (ctry_loop_searched lp check steps p0 None h l) as SS.
  destruct (ctry_loop lp check steps p0 None (lp p0) h l) as [[[[p' a'] l'] h'] t'].
  destruct SP as (-> & [(-> & -> & ->)|(s & I & -> & -> & -> & HL & HF)]); split; auto.
  right. exists s. auto 8.
Qed.

(** Together with the steps of C30: the parameters stay inside their bounds. *)
Theorem C31_stays_within : forall add sub mul div tiny lp check p0 maxs los his dir alphas steps hit0 last0,
  within los his p0 -> length dir = length p0 ->
  parameter_steps add sub mul div tiny p0 maxs los his dir alphas = Ok steps ->
  let '(p', gain, a, hit, last) := ctry_updates lp check p0 steps hit0 last0 in
  within los his p' /\ improves (lp p0) (lp p').
Proof.
  intros add sub mul div tiny lp check p0 maxs los his dir alphas steps hit0 last0 W L E.
  assert (BO : bounds_ordered los his).
  { clear - W. revert his p0 W. induction los as [|l los IH]; intros [|u his] [|p p0]; simpl; try tauto.
    intros ((A & B) & W). split; [|eapply IH; eauto]. destruct l, u; auto. lra. }
  assert (LL : length p0 = length los).
  { clear - W. revert his los W. induction p0 as [|p p0 IH]; intros [|u his] [|l los]; simpl; try tauto.
    intros (_ & W). f_equal. eapply IH; eauto. }
  pose proof (C30_bounds add sub mul div tiny p0 maxs los his dir alphas steps BO LL ltac:(congruence) E) as HB.
  pose proof (C31_try_updates lp check p0 steps hit0 last0) as T.
  destruct (ctry_updates lp check p0 steps hit0 last0) as [[[[p' g] a] h] l].
  destruct T as ([(_ & -> & _)|(s & I & _ & -> & _ & HL & _)] & _).
  - split; auto. left; auto.
  - split; [|right; auto]. rewrite Forall_forall in HB. auto.
Qed.

(** hit_limit is set when a bound shortened any examined proposal, or when there
    was nothing to try, and is never reset here. *)
Theorem C31_hit_limit : forall lp check p0 steps hit0 last0,
  let '(p', gain, a, hit, last) := ctry_updates lp check p0 steps hit0 last0 in
  (hit0 = true -> hit = true) /\ (steps = [] -> hit = true /\ last = true) /\
  (hit = true -> hit0 = true \/ steps = [] \/ exists s, In s steps /\ s_hit s = true).
Proof.
  intros lp check p0 steps hit0 last0. unfold ctry_updates.
  assert (M : forall steps pb ab lb h l,
    let '(p', a', l', hit', last') := ctry_loop lp check steps pb ab lb h l in
    (h = true -> hit' = true) /\ (hit' = true -> h = true \/ exists s, In s steps /\ s_hit s = true)).
  { clear. induction steps as [|s steps IH]; intros pb ab lb h l; simpl; auto.
    set (hh := (h || s_hit s)%bool).
    assert (HH : (h = true -> hh = true) /\ (hh = true -> h = true \/ s_hit s = true)).
    { subst hh. destruct h, (s_hit s); simpl; auto. }
    assert (D : hh = true -> h = true \/ (exists s0, (s = s0 \/ In s0 steps) /\ s_hit s0 = true)).
    { intros X. destruct (proj2 HH X); auto. right. exists s. auto. }
    destruct (match check with Some c => negb (c (s_params s) (s_alpha s)) | None => false end); [tauto|].
    destruct (negb (isfinite (lp (s_params s)))); [tauto|].
    destruct (eltb (lp (s_params s)) (esub lb (Fin 1))); [tauto|].
    destruct (egtb (lp (s_params s)) lb).
    - specialize (IH (s_params s) (Some (s_alpha s)) (lp (s_params s)) hh (s_hit s)).
      destruct (ctry_loop lp check steps (s_params s) (Some (s_alpha s)) (lp (s_params s)) hh (s_hit s))
        as [[[[p' a'] l'] h'] t']. destruct IH as (I1 & I2). split; [tauto|].
      intros X. destruct (I2 X) as [Y|(s0 & Y & Z)]; auto. right. exists s0. auto.
    - specialize (IH pb ab lb hh l).
      destruct (ctry_loop lp check steps pb ab lb hh l)
        as [[[[p' a'] l'] h'] t']. destruct IH as (I1 & I2). split; [tauto|].
      intros X. destruct (I2 X) as [Y|(s0 & Y & Z)]; auto. right. exists s0. auto. }
  destruct steps as [|s steps]; [simpl; auto|].
  specialize (M (s :: steps) p0 None (lp p0) hit0 last0).
  destruct (ctry_loop lp check (s :: steps) p0 None (lp p0) hit0 last0) as [[[[p' a'] l'] h'] t'].
  destruct M as (M1 & M2). destruct a'; (split; [auto|]; split; [discriminate|]; intros X; destruct (M2 X); auto).
Qed.

(** last_step_hit_limit keeps its old value when no proposal is accepted: a
    search that moved nothing can still report that its last step hit a
    limit. *)
Theorem C31_stale_last_flag : exists lp p0 steps,
  let '(p', gain, a, hit, last) := ctry_updates lp None p0 steps false true in
  a = None /\ hit = false /\ last = true /\ Forall (fun s => s_hit s = false) steps.
Proof.
  exists (fun v => match v with [x] => Fin (- x * x) | _ => NaN end), [0], [mkStep 1 [1#2] false false].
  vm_compute. repeat constructor.
Qed.

Example C31_ex :
  let lp := fun v => match v with [x] => Fin (- (x - 3) * (x - 3))%Q | _ => NaN end in
  let steps := match parameter_steps Qplus Qminus Qmult Qdiv (1#1000) [0] [None] [None] [Some 2] [4] [1#4; 1#2; 1]
               with Ok l => l | Err _ => [] end in
  within [None] [Some 2] [0] /\
  match ctry_updates lp None [0] steps false false with
  | ([x], Fin g, Some a, hit, last) => x == 2 /\ g == 8 /\ a == 1#2 /\ hit = true /\ last = false
  | _ => False
  end.
Proof. simpl. split; [unfold in_bounds; repeat split; lra|]. vm_compute. auto 8. Qed.

(** The constrained optimization loop: at most [steps] calls, and it goes on
    exactly while each call passes its check and gains more than the threshold
    that applies (one for limited, one for unlimited steps). *)
Section CL.
Context {St : Type}.
Variable one_step : St -> St * ext * bool.
Variable check : option (St -> ext -> bool).
Variables dchisq dlim : ext.

(** One call and whether the loop should go on after it. *)
Definition goes_on (p' : St) (g : ext) (limited : bool) : bool :=
  match check with Some c => c p' g | None => true end &&
  negb (eleb g (if limited then dlim else dchisq)).

(** All calls of the run from [p] to [q]; the flag tells of each but the last
    that the loop should go on, [fin] the same of the last. *)
Inductive run : St -> list (ext * bool) -> bool -> St -> Prop :=
| run_last p p' g lim : one_step p = (p', g, lim) -> run p [(g, lim)] (goes_on p' g lim) p'
| run_step p p' g lim l fin q : one_step p = (p', g, lim) -> goes_on p' g lim = true ->
    run p' l fin q -> run p ((g, lim) :: l) fin q.

Lemma copt_loop_spec : forall n step p, (1 <= n)%nat ->
  let '(q, s, l) := copt_loop one_step check dchisq dlim n step p in
  (length l <= n)%nat /\ (s + 1 = step + length l)%nat /\
  exists fin, run p l fin q /\ (fin = false \/ length l = n).
Proof.
  induction n as [|n IH]; intros step p Hn; [lia|]. simpl.
  destruct (one_step p) as [[p' g] lim] eqn:E.
  assert (G : goes_on p' g lim = negb (match check with Some c => negb (c p' g) | None => false end) &&
              negb (negb lim && eleb g dchisq) && negb (lim && eleb g dlim)).
  { unfold goes_on. destruct check, lim; simpl; rewrite ?negb_involutive, ?andb_true_r; auto. }
  destruct (match check with Some c => negb (c p' g) | None => false end);
    [simpl; split; [lia|]; split; [lia|]; eexists; split; [constructor; eauto|rewrite G; auto]|].
  destruct (negb lim && eleb g dchisq);
    [simpl; split; [lia|]; split; [lia|]; eexists; split; [constructor; eauto|rewrite G; auto]|].
  destruct (lim && eleb g dlim);
    [simpl; split; [lia|]; split; [lia|]; eexists; split; [constructor; eauto|rewrite G; auto]|].
  destruct n as [|n].
  - simpl; split; [lia|]; split; [lia|]. eexists; split; [constructor; eauto|auto].
  - specialize (IH (S step) p' ltac:(lia)).
    destruct (copt_loop one_step check dchisq dlim (S n) (S step) p') as [[q s] l].
    destruct IH as (A & B & fin & R & F). simpl. split; [lia|]. split; [lia|].
    exists fin. split; [eapply run_step; eauto|]. destruct F; auto.
Qed.
End CL.

Theorem C32_constrained_loop : forall (St : Type) (one_step : St -> St * ext * bool) check dchisq dlim steps p,
  (1 <= steps)%nat ->
  exists q s l fin, coptimize_loop one_step check dchisq dlim steps p = Ok (q, s, l) /\
    (length l <= steps)%nat /\ (S s = length l)%nat /\ run one_step check dchisq dlim p l fin q /\
    (fin = false \/ length l = steps).
Proof.
  intros St one_step check dchisq dlim steps p H. unfold coptimize_loop. destruct steps as [|n]; [lia|].
  pose proof (copt_loop_spec one_step check dchisq dlim (S n) 0 p H) as S.
  destruct (copt_loop one_step check dchisq dlim (Datatypes.S n) 0 p) as [[q s] l].
  destruct S as (A & B & fin & R & F). exists q, s, l, fin. repeat split; auto. lia.
Qed.

Example C32_constrained_ex :
  let st := fun n : nat => match n with O => (1%nat, Fin 5, true) | 1%nat => (2%nat, Fin 1, true) | _ => (n, Fin 0, false) end in
  coptimize_loop st None (Fin 0) (Fin 2) 50 0%nat = Ok (2%nat, 1%nat, [(Fin 5, true); (Fin 1, true)]).
Proof. reflexivity. Qed.

Print Assumptions C29_try_updates.
Print Assumptions C29_never_worse.
Print Assumptions C29_short_direction_raises.
Print Assumptions C30_bounds.
Print Assumptions C30_exact.
Print Assumptions C30_needs_increasing.
Print Assumptions C30_outside_start_refuted.
Print Assumptions C31_try_updates.
Print Assumptions C31_stays_within.
Print Assumptions C31_hit_limit.
Print Assumptions C31_stale_last_flag.
Print Assumptions C32_optimize_loop.
Print Assumptions C32_zero_steps_raises.
Print Assumptions C32_constrained_loop.
