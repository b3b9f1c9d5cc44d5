(** C104: the light of the tabulated Sersic profiles: half inside the effective
    radius, bright everywhere and falling outwards, in proportion to the Sersic
    law (sersic.py:25-300 through get_profile of SersicModel.v). *)
From Coquelicot Require Import Coquelicot.
From Interval Require Import Tactic.
From Coq Require Import List ZArith QArith Bool Reals Qreals Lra Lia.
From Coq Require RMicromega.
From Verif Require Import Base SersicModel SersicProps.
From Verif Require GalMixProps.
Import ListNotations.
Open Scope R_scope.

(** ** Spec *)

(** Surface brightness at radius r (effective radii) of a profile, a list of
    (amplitude, variance); a component of no width is a point at the centre and
    has none. *)
Definition surface (p : list (R * R)) (r : R) : R :=
  light (fun v => if Rlt_dec 0 v then exp (- r ^ 2 / (2 * v)) / (2 * PI * v) else 0) p.
(** Flux inside radius r: all of a point, and of the rest the integral of the
    surface brightness (C104_inside). *)
Definition inside (p : list (R * R)) (r : R) : R :=
  light (fun v => if Rlt_dec 0 v then 1 - exp (- r ^ 2 / (2 * v)) else 1) p.
Definition points (p : list (R * R)) : R := light (fun v => if Rlt_dec 0 v then 0 else 1) p.

(** A row of the tables is in use if its index is in its range. *)
Definition in_use (s : Q) (a v : list Q) : Prop :=
  exists lo hi grid, In ((lo, hi), grid) fits /\ In (s, a, v) grid /\ (Q2R lo <= Q2R s < Q2R hi \/ Q2R s = 63/10).

(** The spline through the tabulated core fluxes, which increase, increases. *)
Definition core_grows (m : mixture) : Prop :=
  forall s t, 1 <= s <= t -> t <= 65/10 -> m_core m s <= m_core m t.

(** Sersic's law of index n with scale b: exp (-b (r^(1/n) - 1)). *)
Definition law (n b r : R) : R := exp (- b * (Rpower r (1 / n) - 1)).
(** Its light for 2n = k: in all, and the part inside the radius r with
    t = b r^(1/n) (C104_law_light). *)
Fixpoint factorial (k : nat) : R := match k with O => 1 | S j => INR k * factorial j end.
Definition law_total (k : nat) (b : R) : R := PI * exp b * factorial k / b ^ k.
Fixpoint taylor (k : nat) (t : R) : R :=
  match k with O => 0 | S j => taylor j t + t ^ j / factorial j end.
Definition law_part (k : nat) (t : R) : R := 1 - exp (- t) * taylor k t.

(** ** The rows *)
Definition qused (lo hi s : Q) : bool := (Qle_bool lo s && negb (Qle_bool hi s)) || Qeq_bool s (63#10).
Definition used_rows : list row :=
  flat_map (fun g => filter (fun r => qused (fst (fst g)) (snd (fst g)) (fst (fst r))) (snd g)) fits.

Lemma in_use_rows s a v : in_use s a v -> In (s, a, v) used_rows.
Proof.
  intros (lo & hi & grid & I1 & I2 & H). unfold used_rows. apply in_flat_map. exists ((lo, hi), grid).
  split; [exact I1|]. cbn [fst snd]. apply filter_In. split; [exact I2|]. cbn [fst snd]. unfold qused.
  apply orb_true_iff. destruct H as [[H1 H2]|H].
  - left. apply andb_true_iff. split; [apply Qle_bool_iff, Rle_Qle; exact H1|].
    apply negb_true_iff. apply not_true_iff_false. intros C. apply Qle_bool_iff, Qle_Rle in C. lra.
  - right. apply Qeq_eq_bool, eqR_Qeq. rewrite H. unfold Q2R; cbn; lra.
Qed.

(** ** Light of a row *)
Definition rpart (a v : list Q) (r : R) : R :=
  light (fun v => 1 - exp (- r ^ 2 / (2 * v))) (combine (map Q2R a) (map Q2R v)) / total (combine (map Q2R a) (map Q2R v)).
(** With weight a / v^p. *)
Definition rsurf (q : nat) (a v : list Q) (x : R) : R :=
  light (fun v => exp (- x / (2 * v)) / v ^ q) (combine (map Q2R a) (map Q2R v)).

Definition pos_vars (v : list Q) : bool := forallb (fun x => qlt 0 x) v.
Lemma pos_vars_R v : pos_vars v = true -> List.Forall (fun x => 0 < x) (map Q2R v).
Proof.
  unfold pos_vars. intros H. rewrite forallb_forall in H. apply List.Forall_forall. intros x I.
  apply in_map_iff in I as (y & <- & I). apply H, qlt_R in I. rewrite RMicromega.Q2R_0 in I. exact I.
Qed.
Lemma light_ext (P : R -> Prop) F G a v : List.Forall P v -> (forall x, P x -> F x = G x) -> light F (combine a v) = light G (combine a v).
Proof.
  intros H E. revert a. induction H as [|x v Hx H IH]; intros [|y a]; cbn; auto. now rewrite E, IH.
Qed.
Lemma light_scale F k p : light (fun v => k * F v) p = k * light F p.
Proof. induction p as [|[a v] p IH]; cbn; [ring|]. rewrite IH. ring. Qed.

(** ** Brightness is positive and falls *)
Definition nonneg_row (a v : list Q) : bool :=
  pos_vars v && forallb (fun x => Qle_bool 0 x) a && qlt 0 (hd 0%Q a) && Nat.eqb (length a) (length v).
Lemma light_pos F a v : List.Forall (fun x => 0 <= x) a -> List.Forall (fun x => 0 < F x) v -> 0 <= light F (combine a v).
Proof.
  intros A. revert v. induction A as [|x a Hx A IH]; intros v V; [cbn; lra|]. destruct V as [|y v Hy V]; [cbn; lra|].
  cbn. specialize (IH v V). pose proof (Rmult_le_pos x (F y)). lra.
Qed.
Lemma nonneg_surf q a v x : nonneg_row a v = true -> 0 < rsurf q a v x.
Proof.
  intros H. unfold nonneg_row in H. apply andb_prop in H as (H & L). apply andb_prop in H as (H & P). apply andb_prop in H as (V & A).
  apply pos_vars_R in V. apply Nat.eqb_eq in L. apply qlt_R in P. rewrite RMicromega.Q2R_0 in P.
  rewrite forallb_forall in A.
  assert (A' : List.Forall (fun x => 0 <= x) (map Q2R a)).
  { apply List.Forall_forall. intros y I. apply in_map_iff in I as (z & <- & I). apply A, Qle_bool_iff, Qle_Rle in I.
    rewrite RMicromega.Q2R_0 in I. exact I. }
  assert (V' : List.Forall (fun y => 0 < exp (- x / (2 * y)) / y ^ q) (map Q2R v)).
  { eapply List.Forall_impl; [|exact V]. cbn beta. intros y Hy. apply Rdiv_lt_0_compat; [apply exp_pos|apply pow_lt, Hy]. }
  unfold rsurf. destruct a as [|a0 a]; [cbn in P; rewrite RMicromega.Q2R_0 in P; lra|]. destruct v as [|v0 v]; [discriminate|].
  cbn in *. inversion A'; inversion V'; subst. pose proof (light_pos (fun y => exp (- x / (2 * y)) / y ^ q) (map Q2R a) (map Q2R v)) as Z.
  cbv beta in Z. specialize (Z ltac:(assumption) ltac:(assumption)).
  match goal with |- 0 < ?u * ?w + _ => assert (0 < u * w) by (apply Rmult_lt_0_compat; assumption) end. lra.
Qed.

(** Three components, the third negative; the first is the widest. *)
Lemma three w1 w2 w3 v1 v2 v3 x : 0 < w1 -> 0 <= w2 -> w3 <= 0 -> 0 < v2 -> 0 < v3 -> v3 <= v1 ->
  (forall y, 0 <= y <= 4 -> 0 < w1 + w2 * exp (- y * (/ (2 * v2) - / (2 * v1))) + w3 * exp (- y * (/ (2 * v3) - / (2 * v1)))) ->
  0 < w1 + w3 * exp (- 4 * (/ (2 * v3) - / (2 * v1))) -> 0 <= x ->
  0 < w1 * exp (- x / (2 * v1)) + w2 * exp (- x / (2 * v2)) + w3 * exp (- x / (2 * v3)).
Proof.
  intros W1 W2 W3 V2 V3 V H1 H2 X.
  assert (E : forall v, 0 < v -> exp (- x / (2 * v)) = exp (- x / (2 * v1)) * exp (- x * (/ (2 * v) - / (2 * v1)))).
  { intros v Hv. rewrite <- exp_plus. f_equal. field. lra. }
  rewrite (E v2 V2), (E v3 V3). pose proof (exp_pos (- x / (2 * v1))) as P.
  replace (w1 * exp (- x / (2 * v1)) + w2 * (exp (- x / (2 * v1)) * exp (- x * (/ (2 * v2) - / (2 * v1)))) +
    w3 * (exp (- x / (2 * v1)) * exp (- x * (/ (2 * v3) - / (2 * v1))))) with
    (exp (- x / (2 * v1)) * (w1 + w2 * exp (- x * (/ (2 * v2) - / (2 * v1))) + w3 * exp (- x * (/ (2 * v3) - / (2 * v1))))) by ring.
  apply Rmult_lt_0_compat; [exact P|]. destruct (Rle_dec x 4) as [L|L]; [apply H1; lra|].
  assert (I : / (2 * v1) <= / (2 * v3)) by (apply Rinv_le_contravar; lra).
  assert (M : exp (- x * (/ (2 * v3) - / (2 * v1))) <= exp (- 4 * (/ (2 * v3) - / (2 * v1)))).
  { destruct (Req_dec (/ (2 * v3)) (/ (2 * v1))) as [Q|Q]; [rewrite Q; right; f_equal; ring|]. left. apply exp_increasing. nra. }
  assert (0 <= w2 * exp (- x * (/ (2 * v2) - / (2 * v1)))) by (apply Rmult_le_pos; [exact W2|left; apply exp_pos]).
  nra.
Qed.

Lemma rsurf3 q a1 a2 a3 v1 v2 v3 x : rsurf q [a1; a2; a3] [v1; v2; v3] x =
  Q2R a1 / Q2R v1 ^ q * exp (- x / (2 * Q2R v1)) + Q2R a2 / Q2R v2 ^ q * exp (- x / (2 * Q2R v2)) + Q2R a3 / Q2R v3 ^ q * exp (- x / (2 * Q2R v3)).
Proof. unfold rsurf. cbn [map combine light]. unfold Rdiv. ring. Qed.
Lemma rsurf2 q a1 a3 v1 v3 x : rsurf q [a1; a3] [v1; v3] x =
  Q2R a1 / Q2R v1 ^ q * exp (- x / (2 * Q2R v1)) + 0 * exp (- x / (2 * 1)) + Q2R a3 / Q2R v3 ^ q * exp (- x / (2 * Q2R v3)).
Proof. unfold rsurf. cbn [map combine light]. unfold Rdiv. ring. Qed.

Definition bright_row (r : row) : Prop :=
  forall x, 0 <= x -> 0 < rsurf 1 (snd (fst r)) (snd r) x /\ 0 < rsurf 2 (snd (fst r)) (snd r) x.

Ltac rat := unfold Q2R; cbn [Qnum Qden]; interval.
Ltac bright3 :=
  intros x X; cbn [fst snd]; split; (rewrite rsurf3 || rewrite rsurf2);
  (apply three;
   [rat|rat|rat|rat|rat|rat|intros y Y; unfold Q2R; cbn [Qnum Qden]; interval with (i_bisect y, i_depth 15)|rat|exact X]).

Definition dark_rows : list row := filter (fun r => negb (nonneg_row (snd (fst r)) (snd r))) used_rows.
Lemma dark_bright : List.Forall bright_row dark_rows.
Proof.
  set (l := dark_rows). vm_compute in l. subst l. repeat (constructor; [bright3|]). constructor.
Qed.

Lemma rows_bright r : In r used_rows -> bright_row r.
Proof.
  intros I. destruct (nonneg_row (snd (fst r)) (snd r)) eqn:E.
  - intros x _. split; apply nonneg_surf, E.
  - assert (I' : In r dark_rows) by (apply filter_In; rewrite E; auto).
    exact (proj1 (List.Forall_forall _ _) dark_bright r I').
Qed.

Lemma rsurf_derive a v x : List.Forall (fun y => 0 < y) (map Q2R v) ->
  is_derive (rsurf 1 a v) x (- / 2 * rsurf 2 a v x).
Proof.
  intros V. unfold rsurf. generalize (map Q2R a). induction V as [|y v' Hy V IH]; intros [|z l]; cbn [combine light];
  try (replace (- / 2 * 0) with 0 by ring; apply (is_derive_const (V := R_NormedModule))).
  evar_last.
  - apply (is_derive_plus (V := R_NormedModule) (fun x => z * (exp (- x / (2 * y)) / y ^ 1))
      (fun x => light (fun v0 => exp (- x / (2 * v0)) / v0 ^ 1) (combine l v'))); [|apply IH].
    auto_derive; [lra|reflexivity].
  - unfold plus. cbn -[light combine pow exp]. change (- x * / (2 * y)) with (- x / (2 * y)).
    generalize (exp (- x / (2 * y))). intros e. generalize (light (fun v0 : R => exp (- x / (2 * v0)) / v0 ^ 2) (combine l v')).
    intros k. field. lra.
Qed.

Lemma rsurf_falls a v x y : List.Forall (fun y => 0 < y) (map Q2R v) -> (forall x, 0 <= x -> 0 < rsurf 2 a v x) ->
  0 <= x < y -> rsurf 1 a v y < rsurf 1 a v x.
Proof.
  intros V P H. destruct (MVT_gen (rsurf 1 a v) x y (fun t => - / 2 * rsurf 2 a v t)) as (c & Hc & E).
  - intros t _. apply rsurf_derive, V.
  - intros t _. apply derivable_continuous_pt. exists (- / 2 * rsurf 2 a v t). apply is_derive_Reals, rsurf_derive, V.
  - rewrite Rmin_left, Rmax_right in Hc by lra. specialize (P c ltac:(lra)). nra.
Qed.

(** ** Flux inside the effective radius *)
Definition half_lo (s : Q) : R :=
  if Qle_bool (51#100) s then if Qle_bool s 1 then 0.50003 else if Qle_bool s 2 then 0.508 else if Qle_bool s 4 then 0.518 else 0.53
  else 0.496.
Definition half_hi (s : Q) : R :=
  if Qle_bool s (49#100) then 0.4999 else if Qle_bool s (85#100) then 0.5038 else
  if Qle_bool s 1 then 0.5075 else if Qle_bool s 2 then 0.5175 else if Qle_bool s 4 then 0.5265 else 0.552.
Definition half_row (r : row) : Prop :=
  half_lo (fst (fst r)) <= rpart (snd (fst r)) (snd r) 1 <= half_hi (fst (fst r)).
Ltac half := unfold half_row, half_lo, half_hi, rpart, total; cbn [fst snd map combine light];
  repeat match goal with |- context [Qle_bool ?a ?b] => let c := eval vm_compute in (Qle_bool a b) in change (Qle_bool a b) with c end;
  cbv iota; unfold Q2R; cbn [Qnum Qden]; interval.
Lemma rows_half : List.Forall half_row used_rows.
Proof.
  set (l := used_rows). vm_compute in l. subst l.
  repeat (constructor; [half|]). constructor.
Qed.

(** ** The law *)
(** 2n, b, the excess of the unit-flux profile over the unit-flux law, and how
    closely the two are proportional. *)
Definition laws : list (nat * R * R * R) :=
  [(1%nat, 0.69315, 1, 0.002); (2%nat, 1.67835, 1.0149, 0.09); (3%nat, 2.67406, 1.0265, 0.03); (4%nat, 3.67206, 1.0352, 0.03);
   (5%nat, 4.67091, 1.0442, 0.03); (6%nat, 5.67016, 1.0534, 0.045); (7%nat, 6.66964, 1.0555, 0.035); (8%nat, 7.66925, 1.0620, 0.04);
   (9%nat, 8.66895, 1.0768, 0.045); (10%nat, 9.66871, 1.0914, 0.05); (11%nat, 10.66852, 1.1055, 0.055); (12%nat, 11.66836, 1.1191, 0.06)].

Definition law_row (k : nat) (b q e : R) (r : row) : Prop :=
  exists c, (k = 1%nat \/ k = 2%nat -> c = 0%Q) /\ ((2 < k)%nat -> exists s, In (s, c) cores /\ s == fst (fst r))%Q /\
  -0.0005 <= (1 - Q2R c) / total (combine (map Q2R (snd (fst r))) (map Q2R (snd r))) * law_total k b - q <= 0.0005 /\
  forall x, 0.1 <= x <= 3 ->
    - e <= rsurf 1 (snd (fst r)) (snd r) (x ^ 2) / (2 * PI) / law (INR k / 2) b x - 1 <= e.

Definition rows_at (k : nat) : list row := filter (fun r => Qeq_bool (fst (fst r)) (Z.of_nat k # 2)) used_rows.

Ltac lawrow c i :=
  exists c; split; [first [intros; reflexivity | intros [|]; discriminate]|]; split;
  [first [intros; exfalso; lia | intros _; eexists; split; [apply (nth_error_In _ i); vm_compute; reflexivity|vm_compute; reflexivity]]|]; split;
  [unfold law_total, total; cbn [fst snd map combine light INR factorial]; unfold Q2R; cbn [Qnum Qden];
   interval
  |intros x X; unfold rsurf, law, Rpower; cbn [fst snd map combine light INR]; unfold Q2R; cbn [Qnum Qden];
   interval with (i_bisect x, i_depth 20)].
Ltac lawrows c i := match goal with |- List.Forall ?P ?l => let l' := eval vm_compute in l in change (List.Forall P l') end;
  constructor; [lawrow c i|constructor].

Lemma law1 : List.Forall (law_row 1 0.69315 1 0.002) (rows_at 1).
Proof. lawrows 0%Q 0%nat. Qed.
Lemma law2 : List.Forall (law_row 2 1.67835 1.0149 0.09) (rows_at 2).
Proof. lawrows 0%Q 0%nat. Qed.
Lemma law3 : List.Forall (law_row 3 2.67406 1.0265 0.03) (rows_at 3).
Proof. lawrows 0.000202%Q 2%nat. Qed.
Lemma law4 : List.Forall (law_row 4 3.67206 1.0352 0.03) (rows_at 4).
Proof. lawrows 0.000769%Q 4%nat. Qed.
Lemma law5 : List.Forall (law_row 5 4.67091 1.0442 0.03) (rows_at 5).
Proof. lawrows 0.001928%Q 6%nat. Qed.
Lemma law6 : List.Forall (law_row 6 5.67016 1.0534 0.045) (rows_at 6).
Proof. lawrows 0.003853%Q 8%nat. Qed.
Lemma law7 : List.Forall (law_row 7 6.66964 1.0555 0.035) (rows_at 7).
Proof. lawrows 0.006622%Q 10%nat. Qed.
Lemma law8 : List.Forall (law_row 8 7.66925 1.0620 0.04) (rows_at 8).
Proof. lawrows 0.010233%Q 12%nat. Qed.
Lemma law9 : List.Forall (law_row 9 8.66895 1.0768 0.045) (rows_at 9).
Proof. lawrows 0.013358%Q 14%nat. Qed.
Lemma law10 : List.Forall (law_row 10 9.66871 1.0914 0.05) (rows_at 10).
Proof. lawrows 0.016839%Q 16%nat. Qed.
Lemma law11 : List.Forall (law_row 11 10.66852 1.1055 0.055) (rows_at 11).
Proof. lawrows 0.020628%Q 18%nat. Qed.
Lemma law12 : List.Forall (law_row 12 11.66836 1.1191 0.06) (rows_at 12).
Proof. lawrows 0.024683%Q 20%nat. Qed.
