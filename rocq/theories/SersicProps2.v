(** C67: the stepped profiles used for derivatives; witnesses for C66. *)
From Coq Require Import List ZArith QArith Bool Reals Qreals Lra Lia Permutation Sorted.
From Verif Require Import Base SersicModel SersicProps.
Import ListNotations.
Open Scope R_scope.
Opaque cols fits cores.

(** ** Specification *)
(** The galaxy with one parameter moved by st. *)
Definition stepped (g : gal) (n : pname) (st : R) : gal :=
  match n with
  | Shape i => with_shape g (upd i (nth i (g_shape g) 0 + st) (g_shape g))
  | Index => with_index g (set_index (g_index g) (i_val (g_index g) + st))
  end.
(** The thawed parameters, in order. *)
Definition thawed (g : gal) : list pname :=
  (if g_thawed_shape g then map Shape (seq 0 (length (g_shape g))) else []) ++ (if g_thawed_index g then [Index] else []).

Section Deriv.
Variable P : Type.
Variable sheared : gal -> res P.
Variable ncomp : P -> nat.
Variable nprofile : gal -> res nat.
Notation derivative_profiles := (derivative_profiles P sheared ncomp nprofile).
Notation name d := (fst (fst d)).

Definition entry_ok (g : gal) (d : pname * P * R) : Prop :=
  let '(n, p, st) := d in
  sheared (stepped g n st) = Ok p /\
  match n with
  | Shape i => nth_error (g_steps g) i = Some st
  | Index => Rabs st = i_step (g_index g) /\ 0 < i_step (g_index g) /\
      (i_lo (g_index g) <= i_val (g_index g) <= i_up (g_index g) ->
       i_lo (g_index g) <= i_val (g_index g) + st <= i_up (g_index g))
  end.

Lemma with_shape_same g : with_shape g (g_shape g) = g.
Proof. destruct g. reflexivity. Qed.
Lemma shape_loop_ok g0 : forall steps i ds g', shape_loop P sheared (g_shape g0) i steps g0 = Ok (ds, g') ->
  (i + length steps = length (g_shape g0))%nat -> skipn i (g_steps g0) = steps ->
  g' = g0 /\ map (fun d => name d) ds = map Shape (seq i (length steps)) /\ Forall (entry_ok g0) ds.
Proof.
  induction steps as [|st rest IH]; intros i ds g' H L SK.
  { injection H as <- <-. split; [reflexivity|]. split; [reflexivity|constructor]. }
  cbn [shape_loop length] in *. apply bind_ok in H as (ov & EO & H). apply bind_ok in H as (old & EL & H).
  assert (ov = old) as -> by congruence.
  apply bind_ok in H as (pro & EP & H). apply bind_ok in H as ([ds' g3] & ER & H). injection H as <- <-.
  assert (NE : nth_error (g_shape g0) i = Some old).
  { unfold py_get in EL. destruct (nth_error (g_shape g0) i); [congruence|discriminate]. }
  cbn [with_shape g_shape] in ER. rewrite upd_upd, (upd_self _ _ _ NE) in ER.
  change (mkgal (g_shape g0) (g_steps g0) (g_index g0) (g_thawed_shape g0) (g_thawed_index g0)) with (with_shape g0 (g_shape g0)) in ER.
  unfold with_shape in ER at 1 2. cbn [g_shape g_steps g_index g_thawed_shape g_thawed_index] in ER.
  assert (G0 : mkgal (g_shape g0) (g_steps g0) (g_index g0) (g_thawed_shape g0) (g_thawed_index g0) = g0) by (destruct g0; reflexivity).
  rewrite G0 in ER.
  assert (SK' : skipn (S i) (g_steps g0) = rest).
  { rewrite <- (skipn_add 1 i (g_steps g0)) || replace (S i) with (i + 1)%nat by lia; try rewrite <- (skipn_add 1 i (g_steps g0)); rewrite SK; reflexivity. }
  destruct (IH (S i) ds' g3 ER ltac:(lia) SK') as (-> & N & F). split; [reflexivity|]. split.
  - cbn. f_equal. exact N.
  - constructor; [|exact F]. cbn. split.
    + rewrite (nth_error_nth _ _ _ NE). exact EP.
    + rewrite <- (firstn_skipn i (g_steps g0)), SK. assert (LF : length (firstn i (g_steps g0)) = i).
      { apply firstn_length_le. destruct (Nat.le_gt_cases i (length (g_steps g0))) as [|C]; [assumption|].
        rewrite skipn_all2 in SK by lia. discriminate. }
      rewrite nth_error_app2 by lia. rewrite LF, Nat.sub_diag. reflexivity.
Qed.

(** What comes back is one profile per thawed parameter, each the profile at that
    parameter moved by the reported step and nothing else moved; the index never
    leaves its bounds; the galaxy is as it was. *)
Theorem C67_profiles : forall g ds g', length (g_steps g) = length (g_shape g) ->
  derivative_profiles g = Ok (ds, g') -> g' = g /\ map (fun d => name d) ds = thawed g /\ Forall (entry_ok g) ds.
Proof.
  intros g ds g' L H. unfold SersicModel.derivative_profiles in H. apply bind_ok in H as ([ds0 g0] & ES & H).
  assert (S0 : g0 = g /\ map (fun d => name d) ds0 = (if g_thawed_shape g then map Shape (seq 0 (length (g_shape g))) else []) /\ Forall (entry_ok g) ds0).
  { unfold shape_profiles in ES. destruct (g_thawed_shape g); [|injection ES as <- <-; repeat split; constructor].
    rewrite <- L. apply (shape_loop_ok g (g_steps g) 0 ds0 g0 ES); [exact L|reflexivity]. }
  destruct S0 as (-> & N0 & F0). unfold thawed. rewrite <- N0.
  destruct (g_thawed_index g) eqn:TI; [|injection H as <- <-; rewrite app_nil_r; repeat split; assumption].
  apply bind_ok in H as (n0 & EN & H). apply bind_ok in H as ([] & EA & H).
  assert (SP : 0 < i_step (g_index g)) by (unfold passert, rlt in EA; destruct (Rlt_dec 0 (i_step (g_index g))); [assumption|discriminate]).
  apply bind_ok in H as ([] & EB & H). apply bind_ok in H as (pro & EP & H). apply bind_ok in H as ([[pro' step'] g2] & EC & H).
  injection H as <- <-. set (ix := g_index g) in *.
  set (over := rlt (i_up ix) (i_val ix + i_step ix)) in *.
  set (st := if over then i_step ix * -1 else i_step ix) in *.
  assert (ST : Rabs st = i_step ix) by (unfold st; destruct over; [rewrite Rabs_left by lra; lra|apply Rabs_pos_eq; lra]).
  assert (BD : i_lo ix <= i_val ix <= i_up ix -> i_lo ix <= i_val ix + st <= i_up ix).
  { intros B. clear EC EP ST. unfold st in *. clear st. unfold over, passert, rlt in *. clear over. destruct (Rlt_dec (i_up ix) (i_val ix + i_step ix)); [|lra].
    destruct (Rlt_dec (i_lo ix) (i_val ix + i_step ix * -1)); [lra|discriminate]. }
  assert (R' : with_index g2 (set_index (g_index g2) (i_val ix)) = g /\ entry_ok g (Index, pro', step')).
  { destruct (Nat.eqb (ncomp pro) n0).
    - injection EC as <- <- <-. split; [destruct g as [? ? [? ? ? ?] ? ?]; reflexivity|]. cbn. fold ix. split; [exact EP|]. auto.
    - destruct (rlt (i_val ix - st) (i_up ix) && rlt (i_lo ix) (i_val ix - st)) eqn:EW.
      + apply bind_ok in EC as (pro2 & EP2 & EC). destruct (Nat.eqb (ncomp pro2) n0); injection EC as <- <- <-.
        * split; [destruct g as [? ? [? ? ? ?] ? ?]; reflexivity|]. cbn. fold ix. split.
          { rewrite <- EP2. f_equal. replace (i_val ix + st * -1) with (i_val ix - st) by ring. destruct g as [? ? [? ? ? ?] ? ?]; reflexivity. }
          split; [rewrite Rabs_mult, (Rabs_left (-1)), ST by lra; ring|]. split; [exact SP|]. intros _.
          apply andb_prop in EW as (W1 & W2). unfold rlt in W1, W2. destruct (Rlt_dec _ (i_up ix)) in W1; [|discriminate].
          destruct (Rlt_dec (i_lo ix) _) in W2; [|discriminate]. lra.
        * split; [destruct g as [? ? [? ? ? ?] ? ?]; reflexivity|]. cbn. fold ix. split; [exact EP|]. auto.
      + injection EC as <- <- <-. split; [destruct g as [? ? [? ? ? ?] ? ?]; reflexivity|]. cbn. fold ix. split; [exact EP|]. auto. }
  destruct R' as (R1 & R2). split; [exact R1|]. split; [rewrite map_app; reflexivity|].
  apply Forall_app. split; [exact F0|]. constructor; [exact R2|constructor].
Qed.

(** It does not fail by itself. *)
Theorem C67_succeeds : forall g, length (g_steps g) = length (g_shape g) ->
  (forall g, exists p, sheared g = Ok p) -> (forall g, exists n, nprofile g = Ok n) ->
  0 < i_step (g_index g) -> i_lo (g_index g) + 2 * i_step (g_index g) <= i_up (g_index g) ->
  i_val (g_index g) <= i_up (g_index g) ->
  exists ds g', derivative_profiles g = Ok (ds, g').
Proof.
  intros g L HS HN SP B1 B2.
  assert (LO : forall steps i g1, length (g_shape g1) = length (g_shape g) -> (i + length steps = length (g_shape g))%nat ->
    g_index g1 = g_index g -> g_thawed_index g1 = g_thawed_index g ->
    exists ds g2, shape_loop P sheared (g_shape g) i steps g1 = Ok (ds, g2) /\ g_index g2 = g_index g /\ g_thawed_index g2 = g_thawed_index g).
  { induction steps as [|st rest IH]; intros i g1 E1 E2 E3 E4; [exists [], g1; auto|]. cbn [shape_loop length] in *. unfold py_get.
    destruct (nth_error (g_shape g) i) eqn:X; [|apply nth_error_None in X; lia].
    destruct (nth_error (g_shape g1) i) eqn:Y; [|apply nth_error_None in Y; lia]. cbn [bind].
    destruct (HS (with_shape g1 (upd i (r + st) (g_shape g1)))) as (p & ->). cbn [bind].
    match goal with |- context [shape_loop P sheared (g_shape g) (S i) rest ?gg] => destruct (IH (S i) gg) as (ds & g2 & -> & Q1 & Q2) end;
      [cbn; rewrite !upd_length; exact E1|lia|exact E3|exact E4|].
    cbn [bind]. eauto. }
  unfold SersicModel.derivative_profiles, shape_profiles.
  assert (X : exists ds g2, (if g_thawed_shape g then shape_loop P sheared (g_shape g) 0 (g_steps g) g else Ok ([], g)) = Ok (ds, g2) /\
    g_index g2 = g_index g /\ g_thawed_index g2 = g_thawed_index g).
  { destruct (g_thawed_shape g); [apply LO; auto; lia|eauto]. }
  destruct X as (ds & g2 & -> & EI & ET). cbn [bind]. rewrite EI, ET. destruct (g_thawed_index g); [|eauto].
  destruct (HN g2) as (n0 & ->). cbn [bind]. unfold passert at 1, rlt at 1. destruct (Rlt_dec 0 (i_step (g_index g))); [|lra]. cbn [bind].
  set (over := rlt (i_up (g_index g)) (i_val (g_index g) + i_step (g_index g))).
  assert (PA : (if over then passert (rlt (i_lo (g_index g)) (i_val (g_index g) + (if over then i_step (g_index g) * -1 else i_step (g_index g)))) else Ok tt) = Ok tt).
  { unfold over, rlt. destruct (Rlt_dec (i_up (g_index g)) _); [|reflexivity]. unfold passert. destruct (Rlt_dec (i_lo (g_index g)) _); [reflexivity|lra]. }
  rewrite PA. cbn [bind]. match goal with |- context [sheared ?gg] => destruct (HS gg) as (pro & ->) end. cbn [bind].
  destruct (Nat.eqb (ncomp pro) n0); [cbn [bind]; eauto|].
  destruct (_ && _); [|cbn [bind]; eauto].
  match goal with |- context [sheared ?gg] => destruct (HS gg) as (pro2 & ->) end. cbn [bind].
  destruct (Nat.eqb (ncomp pro2) n0); cbn [bind]; eauto.
Qed.

(** ** Number of components *)
Definition cnt (s : R) : nat :=
  if Rlt_dec s (42/100) then 3 else if Rlt_dec s (51/100) then 2 else if Rlt_dec s (57/100) then 3
  else if Rlt_dec s (62/100) then 4 else if Rlt_dec s (71/100) then 5 else if Rle_dec s 1 then 6
  else if Rlt_dec s (15/10) then 7 else if Rlt_dec s 3 then 8 else 9.
Lemma profile_count spl argsort m s p : good_sort argsort -> sersic_mixture spl = Ok m -> 29/100 <= s <= 63/10 ->
  get_profile argsort m s = Ok p -> length p = cnt s.
Proof.
  intros SO E Hs EP. rewrite built in E. injection E as <-.
  destruct (profile_lists spl argsort s) as (f & a & v & If & R1 & R2 & L & E & AV).
  rewrite E in EP. injection EP as <-.
  rewrite (Permutation_length (sorted_pairs argsort a v SO L)), combine_length, L, Nat.min_id.
  assert (C : clamp s = s) by (destruct (clamp_cases s) as [[? C]|[[? C]|[? C]]]; lra). rewrite C in *.
  assert (LV : length v = (length (f_logvars f) + if Rlt_dec 1 s then 1 else 0)%nat).
  { unfold add_core, rlt in AV. destruct (Rlt_dec 1 s); injection AV as _ ->; unfold eval; rewrite ?app_length, !map_length; cbn; lia. }
  rewrite LV. destruct (in_col spl f If) as (c & -> & Ic & _). cbn [fit_of f_lo f_hi f_logvars] in *. rewrite map_length.
  assert (T : map (fun c => (c_lo c, c_hi c, length (c_var c))) cols =
    [(0.29, 0.42, 3%nat); (0.42, 0.51, 2%nat); (0.51, 0.57, 3%nat); (0.57, 0.62, 4%nat); (0.62, 0.71, 5%nat); (0.71, 1.5, 6%nat); (1.5, 3.0, 7%nat); (3.0, 6.3, 8%nat)]%Q)
    by (vm_compute; reflexivity).
  apply (in_map (fun c => (c_lo c, c_hi c, length (c_var c)))) in Ic. rewrite T in Ic. clear T.
  assert (N1 : Q2R 0.29 = 29/100) by (unfold Q2R; cbn; lra). assert (N2 : Q2R 0.42 = 42/100) by (unfold Q2R; cbn; lra).
  assert (N3 : Q2R 0.51 = 51/100) by (unfold Q2R; cbn; lra). assert (N4 : Q2R 0.57 = 57/100) by (unfold Q2R; cbn; lra).
  assert (N5 : Q2R 0.62 = 62/100) by (unfold Q2R; cbn; lra). assert (N6 : Q2R 0.71 = 71/100) by (unfold Q2R; cbn; lra).
  assert (N7 : Q2R 1.5 = 15/10) by (unfold Q2R; cbn; lra). assert (N8 : Q2R 3.0 = 3) by (unfold Q2R; cbn; lra).
  assert (N9 : Q2R 6.3 = 63/10) by (unfold Q2R; cbn; lra).
  unfold cnt. cbn [In] in Ic.
  destruct Ic as [H|[H|[H|[H|[H|[H|[H|[H|H]]]]]]]]; [..|destruct H]; injection H as H1 H2 H3; rewrite <- H3, <- H1, <- H2 in *;
    destruct (Rlt_dec 1 s); repeat (destruct (Rlt_dec s _); try lra); try (destruct (Rle_dec s 1); try lra); try reflexivity;
    repeat (destruct (Rlt_dec s _); try lra); try reflexivity; try lra.
Qed.
Lemma cnt_near v t : 0 < t < 1/40 -> 29/100 <= v -> cnt (v + t) = cnt v \/ (cnt (v - t) = cnt v /\ 29/100 < v - t).
Proof.
  intros Ht Hv. unfold cnt.
  repeat (destruct (Rlt_dec v _); [|]); try (destruct (Rle_dec v 1)); repeat (destruct (Rlt_dec v _));
    repeat (destruct (Rlt_dec (v + t) _); try lra); try (destruct (Rle_dec (v + t) 1); try lra); repeat (destruct (Rlt_dec (v + t) _); try lra);
    try (left; reflexivity); right;
    repeat (destruct (Rlt_dec (v - t) _); try lra); try (destruct (Rle_dec (v - t) 1); try lra); repeat (destruct (Rlt_dec (v - t) _); try lra);
    (split; [reflexivity|lra]).
Qed.
Lemma cnt_top v t : 0 < t < 1/40 -> 63/10 < v + t -> cnt (v - t) = cnt v.
Proof.
  intros Ht Hv. unfold cnt. repeat (destruct (Rlt_dec (v - t) _); try lra); try (destruct (Rle_dec (v - t) 1); try lra);
  repeat (destruct (Rlt_dec (v - t) _); try lra); repeat (destruct (Rlt_dec v _); try lra); try (destruct (Rle_dec v 1); try lra); reflexivity.
Qed.

(** With the actual tables, an index within its bounds and a step below 0.025
    (the default is 0.01), every stepped profile has as many components as the
    current one. *)
Theorem C67_counts : forall spl argsort m g ds g', good_sort argsort -> sersic_mixture spl = Ok m ->
  let count s := match get_profile argsort m s with Ok p => length p | Err _ => 0%nat end in
  (forall g, nprofile g = Ok (count (i_val (g_index g)))) ->
  (forall g p, sheared g = Ok p -> ncomp p = count (i_val (g_index g))) ->
  length (g_steps g) = length (g_shape g) ->
  i_lo (g_index g) = 29/100 -> i_up (g_index g) = 63/10 -> is_legal (g_index g) = true -> i_step (g_index g) < 1/40 ->
  derivative_profiles g = Ok (ds, g') ->
  Forall (fun d => ncomp (snd (fst d)) = count (i_val (g_index g))) ds.
Proof.
  intros spl argsort m g ds g' SO E count HN HC L LO UP LG ST H.
  assert (CO : forall s, 29/100 <= s <= 63/10 -> count s = cnt s).
  { intros s Hs. unfold count. destruct (C66_profile spl argsort SO) as (m' & E' & PR). rewrite E in E'. injection E' as <-.
    destruct (PR s) as (p & EP & _). rewrite EP. exact (profile_count spl argsort m s p SO E Hs EP). }
  unfold is_legal, rle in LG. apply andb_prop in LG as (G1 & G2).
  destruct (Rle_dec _ (i_up (g_index g))) as [V2|] in G1; [|discriminate]. destruct (Rle_dec (i_lo (g_index g)) _) as [V1|] in G2; [|discriminate].
  destruct (C67_profiles g ds g' L H) as (_ & _ & FE).
  (* the shape entries *)
  unfold SersicModel.derivative_profiles in H. apply bind_ok in H as ([ds0 g0] & ES & H).
  assert (S0 : g0 = g /\ Forall (fun d => ncomp (snd (fst d)) = count (i_val (g_index g))) ds0).
  { unfold shape_profiles in ES. destruct (g_thawed_shape g); [|injection ES as <- <-; repeat split; constructor].
    destruct (shape_loop_ok g (g_steps g) 0 ds0 g0 ES L eq_refl) as (-> & N & F). split; [reflexivity|].
    assert (SH : Forall (fun d => exists i, name d = Shape i) ds0).
    { apply Forall_forall. intros d Hd. apply (in_map (fun d => name d)) in Hd. rewrite N in Hd. apply in_map_iff in Hd as (i & Hi & _). eauto. }
    rewrite Forall_forall in *. intros [[n p] st] Hd. destruct (SH _ Hd) as (i & Hi). cbn in Hi. subst n.
    destruct (F _ Hd) as (EP & _). cbn [fst snd]. rewrite (HC _ _ EP). reflexivity. }
  destruct S0 as (-> & F0). destruct (g_thawed_index g); [|injection H as <- <-; exact F0].
  rewrite HN in H. cbn [bind] in H. apply bind_ok in H as ([] & EA & H).
  assert (SP : 0 < i_step (g_index g)) by (unfold passert, rlt in EA; destruct (Rlt_dec 0 (i_step (g_index g))); [assumption|discriminate]).
  apply bind_ok in H as ([] & EB & H). apply bind_ok in H as (pro & EP & H). apply bind_ok in H as ([[pro' step'] g2] & EC & H).
  injection H as <- <-. apply Forall_app. split; [exact F0|]. constructor; [|constructor]. cbn [fst snd].
  pose proof (HC _ _ EP) as HP. set (ix := g_index g) in *. set (v := i_val ix) in *. set (t := i_step ix) in *.
  cbn [with_index set_index g_index i_val] in HP.
  destruct (Nat.eqb_spec (ncomp pro) (count v)) as [EQ|NE]; [injection EC as <- _ _; exact EQ|].
  unfold rlt in HP. destruct (Rlt_dec (i_up ix) (v + t)) as [OV|OV].
  - exfalso. apply NE. rewrite HP. replace (v + t * -1) with (v - t) by ring. rewrite !CO by lra. apply cnt_top; lra.
  - assert (OVF : rlt (i_up ix) (v + t) = false) by (unfold rlt; destruct (Rlt_dec (i_up ix) (v + t)); [contradiction|reflexivity]).
    rewrite OVF in EC. destruct (cnt_near v t ltac:(lra) ltac:(lra)) as [C|(C1 & C2)].
    { exfalso. apply NE. rewrite HP, !CO by lra. exact C. }
    assert (W : rlt (v - t) (i_up ix) && rlt (i_lo ix) (v - t) = true).
    { unfold rlt. destruct (Rlt_dec (v - t) (i_up ix)); [|lra]. destruct (Rlt_dec (i_lo ix) (v - t)); [|lra].
 reflexivity. }
    rewrite W in EC. apply bind_ok in EC as (pro2 & EP2 & EC). pose proof (HC _ _ EP2) as HP2. cbn [with_index set_index g_index i_val] in HP2.
    assert (Q' : ncomp pro2 = count v) by (rewrite HP2, !CO by lra; exact C1).
    rewrite Q', Nat.eqb_refl in EC. injection EC as <- _ _. exact Q'.
Qed.
End Deriv.

(** ** Witnesses *)
(** Linear interpolation is such a spline. *)
Definition ramp (a b x : R) : R := Rmax a (Rmin x b) - a.
Fixpoint lin_from (x0 y0 : R) (nodes : list (R * R)) (x : R) : R :=
  match nodes with
  | [] => 0
  | (x1, y1) :: r => (y1 - y0) / (x1 - x0) * ramp x0 x1 x + lin_from x1 y1 r x
  end.
Definition lin (k : nat) (nodes : list (R * R)) (x : R) : R :=
  match nodes with [] => 0 | (x0, y0) :: r => y0 + lin_from x0 y0 r x end.
Lemma cont_min (b x : R) : continuity_pt (fun x => Rmin x b) x.
Proof.
  apply (cont_ext _ (fun x => (x + b - Rabs (x - b)) / 2)).
  - intros s. unfold Rmin, Rabs. destruct (Rle_dec s b), (Rcase_abs (s - b)); lra.
  - apply (continuity_pt_mult (fun x => x + b - Rabs (x - b)) (fun _ => / 2)); [|apply cont_const].
    apply (continuity_pt_minus (fun x => x + b) (fun x => Rabs (x - b))).
    + apply (continuity_pt_plus (fun x => x) (fun _ => b)); [apply derivable_continuous_pt, derivable_pt_id|apply cont_const].
    + apply (continuity_pt_comp (fun x => x - b) Rabs); [|apply Rcontinuity_abs].
      apply (continuity_pt_minus (fun x => x) (fun _ => b)); [apply derivable_continuous_pt, derivable_pt_id|apply cont_const].
Qed.
Lemma cont_ramp a b x : continuity_pt (ramp a b) x.
Proof.
  apply (cont_ext _ (fun x => - Rmin (- Rmin x b) (- a) - a)).
  - intros s. unfold ramp, Rmax, Rmin. repeat destruct (Rle_dec _ _); lra.
  - apply (continuity_pt_minus (fun x => - Rmin (- Rmin x b) (- a)) (fun _ => a)); [|apply cont_const].
    apply (continuity_pt_opp (fun x => Rmin (- Rmin x b) (- a))).
    apply (continuity_pt_comp (fun x => - Rmin x b) (fun x => Rmin x (- a))); [|apply cont_min].
    apply (continuity_pt_opp (fun x => Rmin x b)). apply cont_min.
Qed.
Lemma lin_from_cont nodes : forall x0 y0 x, continuity_pt (lin_from x0 y0 nodes) x.
Proof.
  induction nodes as [|[x1 y1] r IH]; intros x0 y0 x; cbn [lin_from]; [apply cont_const|].
  apply (continuity_pt_plus (fun x => (y1 - y0) / (x1 - x0) * ramp x0 x1 x) (lin_from x1 y1 r)); [|apply IH].
  apply (continuity_pt_mult (fun _ => (y1 - y0) / (x1 - x0)) (ramp x0 x1)); [apply cont_const|apply cont_ramp].
Qed.
Lemma lin_from_left nodes : forall x0 y0 x, strictly_increasing (x0 :: map fst nodes) -> x <= x0 -> lin_from x0 y0 nodes x = 0.
Proof.
  induction nodes as [|[x1 y1] r IH]; intros x0 y0 x SI Hx; [reflexivity|]. cbn [lin_from].
  cbn [map fst] in SI. destruct SI as (L & SI). rewrite (IH x1 y1 x SI) by lra.
  assert (Q' : ramp x0 x1 x = 0) by (unfold ramp, Rmax, Rmin; repeat destruct (Rle_dec _ _); lra). rewrite Q'. ring.
Qed.
Lemma lin_from_node nodes : forall x0 y0 x y, strictly_increasing (x0 :: map fst nodes) -> In (x, y) nodes ->
  y0 + lin_from x0 y0 nodes x = y.
Proof.
  induction nodes as [|[x1 y1] r IH]; intros x0 y0 x y SI I'; [destruct I'|]. cbn [map fst] in SI. destruct SI as (L & SI).
  cbn [lin_from].
  assert (X : x1 <= x). { clear - SI I'. destruct I' as [[= -> ->]|I']; [lra|]. revert x1 y1 SI.
    induction r as [|[x2 y2] r IH]; intros x1 y1 SI; [destruct I'|]. cbn [map fst] in SI. destruct SI as (L & SI).
    destruct I' as [[= -> ->]|I']; [lra|]. specialize (IH I' x2 y2 SI). lra. }
  assert (Q' : ramp x0 x1 x = x1 - x0) by (unfold ramp, Rmax, Rmin; repeat destruct (Rle_dec _ _); lra). rewrite Q'.
  replace ((y1 - y0) / (x1 - x0) * (x1 - x0)) with (y1 - y0) by (field; lra).
  destruct I' as [[= -> ->]|I'].
  - rewrite (lin_from_left r x y x SI) by lra. ring.
  - pose proof (IH x1 y1 x y SI I'). lra.
Qed.
Lemma lin_good : good_spline lin.
Proof.
  intros k nodes SI _. split.
  - intros x y I'. destruct nodes as [|[x0 y0] r]; [destruct I'|]. cbn [lin]. destruct I' as [[= -> ->]|I'].
    + rewrite (lin_from_left r x y x SI) by lra. ring.
    + apply lin_from_node; assumption.
  - intros x. destruct nodes as [|[x0 y0] r]; cbn [lin]; [apply cont_const|].
    apply (continuity_pt_plus (fun _ => y0) (lin_from x0 y0 r)); [apply cont_const|apply lin_from_cont].
Qed.
(** Insertion sort of indices is a sort. *)
Fixpoint ins (key : nat -> R) (i : nat) (l : list nat) : list nat :=
  match l with [] => [i] | j :: r => if Rle_dec (key i) (key j) then i :: l else j :: ins key i r end.
Definition isort (l : list R) : list nat := fold_right (ins (fun i => nth i l 0)) [] (seq 0 (length l)).
Lemma ins_perm key i l : Permutation (ins key i l) (i :: l).
Proof.
  induction l as [|j r IH]; cbn; [reflexivity|]. destruct (Rle_dec (key i) (key j)); [reflexivity|].
  rewrite IH. apply perm_swap.
Qed.
Lemma ins_sorted key i l : StronglySorted Rle (map key l) -> StronglySorted Rle (map key (ins key i l)).
Proof.
  induction l as [|j r IH]; cbn; intros H; [repeat constructor|]. inversion H as [|? ? H1 H2]; subst.
  destruct (Rle_dec (key i) (key j)) as [L|L]; cbn.
  - constructor; [exact H|]. constructor; [exact L|]. eapply Forall_impl; [|exact H2]. intros x Hx. cbn in Hx. lra.
  - constructor; [exact (IH H1)|]. apply (Permutation_Forall (x := map key (i :: r))); [apply Permutation_map, Permutation_sym, ins_perm|].
    constructor; [lra|exact H2].
Qed.
Lemma isort_good : good_sort isort.
Proof.
  intros l. unfold isort. generalize (seq 0 (length l)) as ix. set (key := fun i => nth i l 0). intros ix. split.
  - induction ix as [|i r IH]; cbn; [constructor|]. rewrite ins_perm. constructor. exact IH.
  - induction ix as [|i r IH]; cbn; [constructor|]. apply ins_sorted, IH.
Qed.

(** C66: at index 4 (a tabulated row; core 0.010233). *)
Example C66_rows_ex : exists m p core, sersic_mixture lin = Ok m /\ get_profile isort m (Q2R 4.00) = Ok p /\ core = 10233/1000000 /\
  total p = 1 /\ (forall G, light G p = row_light G core
    [5.60921; 5.72377; 4.46477; 2.83675; 1.51974; 0.686093; 0.240192; 0.0426452]%Q
    [8.40275; 1.33355; 0.287321; 0.0685146; 0.0169499; 0.00418865; 0.00100242; 0.000223784]%Q).
Proof.
  destruct (C66_profile lin isort isort_good) as (m & E & _). exists m.
  assert (X : exists lo hi grid, In ((lo, hi), grid) fits /\ In (4.00, [5.60921; 5.72377; 4.46477; 2.83675; 1.51974; 0.686093; 0.240192; 0.0426452],
    [8.40275; 1.33355; 0.287321; 0.0685146; 0.0169499; 0.00418865; 0.00100242; 0.000223784])%Q grid /\ lo = 3.0%Q /\ hi = 6.3%Q).
  { eexists _, _, _. split; [apply (nth_error_In fits 7); vm_compute; reflexivity|]. split; [|split; reflexivity].
    apply (nth_error_In _ 6). vm_compute. reflexivity. }
  destruct X as (lo & hi & grid & I1 & I2 & -> & ->).
  destruct (C66_rows lin isort m _ _ grid _ _ _ lin_good isort_good E I1 I2) as (p & core & EP & _ & _ & CO & LI).
  { left. split; [apply Qle_Rle|apply Qlt_Rlt]; vm_compute; congruence. }
  exists p, core. split; [exact E|]. split; [exact EP|].
  assert (CV : core = 10233/1000000).
  { rewrite (CO 4.00%Q 0.010233%Q); [unfold Q2R; cbn; lra| |reflexivity]. apply (nth_error_In _ 12). vm_compute. reflexivity. }
  split; [exact CV|]. split; [|exact LI].
  unfold total. rewrite LI. unfold row_light, total. rewrite Rdiv_diag || (unfold Rdiv; rewrite Rinv_r); [lra|].
  cbn [map combine light]. unfold Q2R. cbn [Qnum Qden]. lra.
Qed.
(** C66: the conditions of continuity at the end of a range (index 1.5, above the
    start of the core). *)
Example C66_continuous_ex : exists m, sersic_mixture lin = Ok m /\
  continuity_pt (fun s => light (fun v => v) (match get_profile isort m s with Ok p => p | Err _ => [] end)) (15/10).
Proof.
  destruct (C66_profile lin isort isort_good) as (m & E & _). exists m. split; [exact E|].
  apply (C66_continuous lin isort m); try exact lin_good; try exact isort_good; try exact E; try lra.
  - intros v _. apply derivable_continuous_pt, derivable_pt_id.
  - assert (C : clamp (15/10) = 15/10) by (destruct (clamp_cases (15/10)) as [[? C]|[[? C]|[? C]]]; lra). rewrite C.
    intros f If Hf.
    assert (X : f_lo f = 15/10 \/ f_hi f = 15/10).
    { rewrite built in E. injection E as <-. apply (in_fits lin) in If as (c & <- & Ic). cbn [fit_of f_lo f_hi] in *.
      assert (K : forallb (fun c => Qeq_bool (c_lo c) (15#10) || Qeq_bool (c_hi c) (15#10) || qlt (c_hi c) (15#10) || qlt (15#10) (c_lo c)) cols = true) by (vm_compute; reflexivity).
      rewrite forallb_forall in K. specialize (K c Ic). assert (B : Q2R (15#10) = 15/10) by (unfold Q2R; cbn; lra).
      rewrite <- B in *. repeat (apply orb_prop in K as [K|K]).
      - left. apply Qeq_eqR, Qeq_bool_eq, K. - right. apply Qeq_eqR, Qeq_bool_eq, K.
      - apply qlt_R in K. lra. - apply qlt_R in K. lra. }
    destruct (C66_no_cancel_at_ends lin m f lin_good E If) as (P1 & P2). destruct X as [X|X]; rewrite X in *; lra.
Qed.
(** C67: at index 1 the step is taken downwards, since stepping up adds the core. *)
Example C67_ex : exists ds g', let g := mkgal [3; 1/2; 0] [1/100; 1/100; 1/100] (sersic_index 1) true true in
  derivative_profiles (gal * nat) (fun g => Ok (g, cnt (i_val (g_index g)))) snd (fun g => Ok (cnt (i_val (g_index g)))) g = Ok (ds, g') /\
  g' = g /\ map (fun d => (fst (fst d), snd d)) ds = [(Shape 0, 1/100); (Shape 1, 1/100); (Shape 2, 1/100); (Index, 1/100 * -1)].
Proof.
  eexists _, _. cbn zeta. unfold derivative_profiles, shape_profiles. cbn [g_thawed_shape g_steps shape_loop g_shape py_get nth_error bind with_shape upd
    g_thawed_index g_index sersic_index i_val i_step i_up i_lo with_index set_index snd].
  unfold passert, rlt. destruct (Rlt_dec 0 (1/100)); [|lra]. cbn [bind]. destruct (Rlt_dec (63/10) (1 + 1/100)); [lra|]. cbn [bind snd g_index i_val].
  assert (C1 : cnt (1 + 1/100) = 7%nat).
  { unfold cnt. repeat (destruct (Rlt_dec (1 + 1/100) _); try lra); destruct (Rle_dec (1 + 1/100) 1); try lra; reflexivity. }
  assert (C2 : cnt (1 - 1/100) = 6%nat).
  { unfold cnt. repeat (destruct (Rlt_dec (1 - 1/100) _); try lra); destruct (Rle_dec (1 - 1/100) 1); try lra; reflexivity. }
  assert (C3 : cnt 1 = 6%nat).
  { unfold cnt. repeat (destruct (Rlt_dec 1 _); try lra); destruct (Rle_dec 1 1); try lra; reflexivity. }
  rewrite C1, C3. cbn [Nat.eqb]. destruct (Rlt_dec (1 - 1/100) (63/10)); [|lra]. destruct (Rlt_dec (29/100) (1 - 1/100)); [|lra].
  cbn [andb bind snd g_index i_val]. rewrite C2. cbn. split; [reflexivity|]. split; reflexivity.
Qed.

(** *** C66, tables whose ranges overlap *)

(** Where two ranges overlap (none of the shipped ones do), the light is a
    blend of the two mixtures, each of unit total, whose weight goes linearly
    from the first at the start of the overlap to the second at its end. *)
Lemma light_app' G p q : light G (p ++ q) = light G p + light G q.
Proof. induction p as [|[a v] p IH]; cbn; [ring|]. rewrite IH. ring. Qed.
Lemma light_scaled G c a v : light G (combine (map (Rmult c) a) v) = c * light G (combine a v).
Proof. revert v. induction a as [|x a IH]; intros [|y v]; cbn; try ring. rewrite IH. ring. Qed.

Theorem C66_blend : forall m0 m1 s, f_lo m0 < f_lo m1 -> f_lo m1 <= s < f_hi m0 ->
  length (f_amps m0) = length (f_logvars m0) -> length (f_amps m1) = length (f_logvars m1) ->
  rsum (eval (f_amps m0) s) <> 0 -> rsum (eval (f_amps m1) s) <> 0 ->
  exists a v a0 v0 a1 v1, interpolate [m0; m1] s = Ok (a, v) /\ length a = length v /\
    interpolate [m0] s = Ok (a0, v0) /\ interpolate [m1] s = Ok (a1, v1) /\
    total (combine a0 v0) = 1 /\ total (combine a1 v1) = 1 /\
    forall G, (f_hi m0 - f_lo m1) * light G (combine a v)
      = (f_hi m0 - s) * light G (combine a0 v0) + (s - f_lo m1) * light G (combine a1 v1).
Proof.
  intros m0 m1 s H1 H2 L0 L1 N0 N1.
  assert (K : forall f, length (f_amps f) = length (f_logvars f) ->
     length (normalized (eval (f_amps f) s)) = length (map exp (eval (f_logvars f) s))).
  { intros f Lf. unfold normalized, eval. rewrite !map_length. exact Lf. }
  unfold interpolate, passert, rlt, rle.
  destruct (Rlt_dec (f_lo m0) (f_lo m1)); [|lra]. destruct (Rlt_dec (f_lo m1) (f_hi m0)); [|lra].
  destruct (Rle_dec (f_lo m1) s); [|lra]. destruct (Rlt_dec s (f_hi m0)); [|lra]. cbn [bind].
  do 6 eexists. split; [reflexivity|]. split; [|split; [reflexivity|split; [reflexivity|]]].
  { rewrite app_length, !map_length. unfold eval. rewrite map_app, app_length, !map_length.
    unfold normalized. rewrite !map_length. congruence. }
  split; [|split].
  - rewrite total_combine by (apply K; auto). apply rsum_normalized; auto.
  - rewrite total_combine by (apply K; auto). apply rsum_normalized; auto.
  - intros G. unfold eval at 3. rewrite !map_app. fold (eval (f_logvars m0) s) (eval (f_logvars m1) s).
    rewrite combine_app by (rewrite map_length; apply K; auto).
    rewrite light_app', !light_scaled. field. lra.
Qed.

Example C66_blend_example :
  let m0 := mkfit 1 3 [fun _ => 2; fun _ => 2] [fun s => s; fun _ => 0] in
  let m1 := mkfit 2 4 [fun _ => 5] [fun s => s + s] in
  exists a v a0 v0 a1 v1, interpolate [m0; m1] (5/2) = Ok (a, v) /\ length a = length v /\
    interpolate [m0] (5/2) = Ok (a0, v0) /\ interpolate [m1] (5/2) = Ok (a1, v1) /\
    total (combine a0 v0) = 1 /\ total (combine a1 v1) = 1 /\
    forall G, (3 - 2) * light G (combine a v)
      = (3 - 5/2) * light G (combine a0 v0) + (5/2 - 2) * light G (combine a1 v1).
Proof. intros m0 m1. apply (C66_blend m0 m1 (5/2)); cbn; try reflexivity; lra. Qed.

Print Assumptions C66_profile.
Print Assumptions C66_clamped.
Print Assumptions C66_rows.
Print Assumptions C66_continuous.
Print Assumptions C66_no_cancel_at_ends.
Print Assumptions C66_jump_refuted.
Print Assumptions C66_blend.
Print Assumptions C67_profiles.
Print Assumptions C67_succeeds.
Print Assumptions C67_counts.
