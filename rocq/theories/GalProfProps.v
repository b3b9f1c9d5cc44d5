(** C102: the exponential and de Vaucouleurs profiles with their smooth
    truncation. *)
From Coq Require Import List Reals Lra Lia.
From Coquelicot Require Import Coquelicot.
From Interval Require Import Tactic.
From Verif Require Import Base GaussPsfModel GalProfModel.
Import ListNotations.
Open Scope R_scope.

(** ** One radius at a time *)

Lemma truncated_map nc cut out rr :
  truncated nc cut out rr = map (fun r => nth 0 (truncated nc cut out [r]) 0) rr.
Proof.
  induction rr as [|r rr IH]; [reflexivity|].
  transitivity (nth 0 (truncated nc cut out [r]) 0 :: truncated nc cut out rr).
  - unfold truncated, above. cbn [map keep].
    destruct (Rlt_dec cut r); cbn [keep map imul_at put_at nth]; reflexivity.
  - rewrite IH at 1. reflexivity.
Qed.

Lemma truncated_one nc cut out r :
  nth 0 (truncated nc cut out [r]) 0 =
  if Rlt_dec out r then 0 else
  if Rlt_dec cut r then nc r * (1 - ((r - cut) / (out - cut)) ^ 2) ^ 2 else nc r.
Proof.
  unfold truncated, above. cbn [map keep]. destruct (Rlt_dec cut r), (Rlt_dec out r); reflexivity.
Qed.

(** ** The truncation *)

Definition clip (t : R) : R := Rmax 0 (Rmin 1 t).
Definition taper (t : R) : R := (1 - clip t ^ 2) ^ 2.

Lemma clip_low t : t <= 0 -> clip t = 0.
Proof. intros. unfold clip. rewrite Rmin_right, Rmax_left; lra. Qed.
Lemma clip_mid t : 0 <= t <= 1 -> clip t = t.
Proof. intros. unfold clip. rewrite Rmin_right, Rmax_right; lra. Qed.
Lemma clip_high t : 1 <= t -> clip t = 1.
Proof. intros. unfold clip. rewrite Rmin_left, Rmax_right; lra. Qed.
Lemma clip_range t : 0 <= clip t <= 1.
Proof.
  destruct (Rle_dec t 0); [rewrite clip_low; lra|].
  destruct (Rle_dec t 1); [rewrite clip_mid; lra|rewrite clip_high; lra].
Qed.
Lemma clip_mono s t : s <= t -> clip s <= clip t.
Proof.
  intros H. pose proof (clip_range s). pose proof (clip_range t).
  destruct (Rle_dec s 0); [rewrite (clip_low s); lra|].
  destruct (Rle_dec 1 t); [rewrite (clip_high t); lra|].
  rewrite !clip_mid; lra.
Qed.

Lemma taper_range t : 0 <= taper t <= 1.
Proof.
  pose proof (clip_range t). unfold taper. assert (0 <= clip t ^ 2 <= 1) by nra. split; nra.
Qed.
Lemma taper_mono s t : s <= t -> taper t <= taper s.
Proof.
  intros H. pose proof (clip_range s). pose proof (clip_range t). pose proof (clip_mono s t H).
  unfold taper. assert (clip s ^ 2 <= clip t ^ 2 <= 1) by nra. nra.
Qed.
Lemma taper_pos t : t < 1 -> 0 < taper t.
Proof.
  intros H. unfold taper. destruct (Rle_dec t 0); [rewrite clip_low; lra|].
  rewrite clip_mid by lra. assert (0 < 1 - t ^ 2) by nra. nra.
Qed.

(** A function within C h^2 of a constant has derivative 0. *)
Lemma flat_derive (f : R -> R) x C : 0 < C ->
  (forall h, Rabs h < 1 -> Rabs (f (x + h) - f x) <= C * h ^ 2) -> derivable_pt_lim f x 0.
Proof.
  intros HC H eps He. assert (P : 0 < Rmin 1 (eps / C)).
  { apply Rmin_pos; [lra|]. apply Rdiv_lt_0_compat; auto. }
  exists (mkposreal _ P). intros h Hh Hs. cbn in Hs.
  assert (H1 : Rabs h < 1) by (eapply Rlt_le_trans; [exact Hs|apply Rmin_l]).
  assert (H2 : Rabs h < eps / C) by (eapply Rlt_le_trans; [exact Hs|apply Rmin_r]).
  rewrite Rminus_0_r. unfold Rdiv. rewrite Rabs_mult, Rabs_inv by auto.
  assert (A : 0 < Rabs h) by (apply Rabs_pos_lt; auto).
  apply Rmult_lt_reg_r with (Rabs h); auto.
  rewrite Rmult_assoc, Rinv_l, Rmult_1_r by lra.
  eapply Rle_lt_trans; [apply H; auto|].
  rewrite <- (pow2_abs h). apply (Rmult_lt_compat_r C) in H2; auto.
  unfold Rdiv in H2. rewrite Rmult_assoc, Rinv_l, Rmult_1_r in H2 by lra. nra.
Qed.

Lemma taper_derive t : exists l, derivable_pt_lim taper t l.
Proof.
  destruct (Rlt_dec t 0) as [H|H]; [|destruct (Req_dec t 0) as [->|H0]].
  - exists 0. apply is_derive_Reals. apply (is_derive_ext_loc (fun _ => 1)).
    + exists (mkposreal (- t) ltac:(lra)). intros y Hy. cbn in Hy.
      apply Rabs_def2 in Hy. unfold taper. rewrite clip_low; unfold minus, plus, opp in Hy; cbn in Hy; lra.
    + auto_derive; auto.
  - exists 0. apply (flat_derive _ _ 2); [lra|]. intros h Hh. apply Rabs_def2 in Hh.
    unfold taper. rewrite (clip_low 0) by lra. rewrite Rplus_0_l.
    destruct (Rle_dec h 0).
    + rewrite clip_low by lra. replace (_ - _) with 0 by ring. rewrite Rabs_R0. nra.
    + rewrite clip_mid by lra. replace ((1 - h ^ 2) ^ 2 - (1 - 0 ^ 2) ^ 2) with (- (h ^ 2 * (2 - h ^ 2))) by ring.
      assert (0 <= h ^ 2 <= 1) by nra. rewrite Rabs_Ropp, Rabs_right by nra. nra.
  - destruct (Rlt_dec t 1) as [H1|H1]; [|destruct (Req_dec t 1) as [->|H2]].
    + exists (2 * (1 - t ^ 2) * (- (2 * t))). apply is_derive_Reals.
      apply (is_derive_ext_loc (fun t => (1 - t ^ 2) ^ 2)).
      * exists (mkposreal (Rmin t (1 - t)) ltac:(apply Rmin_pos; lra)). intros y Hy. cbn in Hy.
        apply Rabs_def2 in Hy. unfold minus, plus, opp in Hy; cbn in Hy.
        pose proof (Rmin_l t (1 - t)). pose proof (Rmin_r t (1 - t)).
        unfold taper. rewrite clip_mid; lra.
      * auto_derive; auto; ring.
    + exists 0. apply (flat_derive _ _ 4); [lra|]. intros h Hh. apply Rabs_def2 in Hh.
      unfold taper. rewrite (clip_high 1) by lra.
      destruct (Rle_dec 0 h).
      * rewrite clip_high by lra. replace (_ - _) with 0 by ring. rewrite Rabs_R0. nra.
      * rewrite clip_mid by lra.
        replace ((1 - (1 + h) ^ 2) ^ 2 - (1 - 1 ^ 2) ^ 2) with (h ^ 2 * (2 + h) ^ 2) by ring.
        assert (0 <= (2 + h) ^ 2 <= 4) by nra. assert (0 <= h ^ 2) by nra.
        rewrite Rabs_right by nra. nra.
    + exists 0. apply is_derive_Reals. apply (is_derive_ext_loc (fun _ => 0)).
      * exists (mkposreal (t - 1) ltac:(lra)). intros y Hy. cbn in Hy.
        apply Rabs_def2 in Hy. unfold minus, plus, opp in Hy; cbn in Hy.
        unfold taper. rewrite clip_high; lra.
      * auto_derive; auto.
Qed.

Section Truncated.
Variables (nc : R -> R) (cut out : R).
Hypothesis cut_pos : 0 <= cut.
Hypothesis cut_out : cut < out.
Hypothesis nc_pos : forall r, 0 < nc r.
Hypothesis nc_mono : forall r s, 0 <= r < s -> nc s < nc r.
Hypothesis nc_derive : forall r, exists l, derivable_pt_lim nc r l.

Let f (r : R) : R := nth 0 (truncated nc cut out [r]) 0.

Lemma f_taper r : f r = nc r * taper ((r - cut) / (out - cut)).
Proof.
  unfold f. rewrite truncated_one.
  assert (D : 0 < / (out - cut)) by (apply Rinv_0_lt_compat; lra).
  assert (U : (out - cut) * / (out - cut) = 1) by (apply Rinv_r; lra).
  assert (T : (r - cut) / (out - cut) = 1 + (r - out) * / (out - cut)).
  { unfold Rdiv. rewrite <- U. ring. }
  unfold taper. destruct (Rlt_dec out r).
  - rewrite clip_high; [ring|]. rewrite T. nra.
  - destruct (Rlt_dec cut r).
    + rewrite clip_mid; auto. split; [unfold Rdiv; nra|]. rewrite T. nra.
    + rewrite clip_low; [ring|]. unfold Rdiv. nra.
Qed.

Lemma f_inside r : r <= cut -> f r = nc r.
Proof. intros. unfold f. rewrite truncated_one. destruct (Rlt_dec out r), (Rlt_dec cut r); lra. Qed.

Lemma f_beyond r : out <= r -> f r = 0.
Proof.
  intros. rewrite f_taper. unfold taper. rewrite clip_high; [ring|].
  apply (Rmult_le_reg_r (out - cut)); [lra|]. unfold Rdiv.
  rewrite Rmult_assoc, Rinv_l by lra. lra.
Qed.

Lemma f_pos r : r < out -> 0 < f r.
Proof.
  intros. rewrite f_taper. apply Rmult_lt_0_compat; auto. apply taper_pos.
  apply (Rmult_lt_reg_r (out - cut)); [lra|]. unfold Rdiv.
  rewrite Rmult_assoc, Rinv_l by lra. lra.
Qed.

Lemma f_mono r s : 0 <= r < s -> s <= out -> f s < f r.
Proof.
  intros H Hs. destruct (Req_dec s out) as [->|N].
  { rewrite (f_beyond out) by lra. apply f_pos. lra. }
  rewrite !f_taper. pose proof (nc_mono r s H). pose proof (nc_pos s).
  assert (T : taper ((s - cut) / (out - cut)) <= taper ((r - cut) / (out - cut))).
  { apply taper_mono. apply Rmult_le_compat_r; [|lra]. left. apply Rinv_0_lt_compat. lra. }
  assert (P : 0 < taper ((r - cut) / (out - cut))).
  { apply taper_pos. apply (Rmult_lt_reg_r (out - cut)); [lra|]. unfold Rdiv.
    rewrite Rmult_assoc, Rinv_l by lra. lra. }
  nra.
Qed.

Lemma f_derive r : exists l, derivable_pt_lim f r l.
Proof.
  destruct (nc_derive r) as (l1 & H1).
  destruct (taper_derive ((r - cut) / (out - cut))) as (l2 & H2).
  eexists. apply is_derive_Reals.
  apply (is_derive_ext (fun r => nc r * taper ((r - cut) / (out - cut)))).
  { intros. symmetry. apply f_taper. }
  apply is_derive_Reals. apply derivable_pt_lim_mult; [exact H1|].
  apply (derivable_pt_lim_comp (fun r => (r - cut) / (out - cut)) taper); [|exact H2].
  apply is_derive_Reals. auto_derive; [auto|reflexivity].
Qed.

End Truncated.

(** ** The two laws *)

Lemma exp_nc_pos r : 0 < exp_nc r.
Proof. unfold exp_nc. pose proof (exp_pos (-1.67835 * (r - 1))). lra. Qed.
Lemma dev_nc_pos r : 0 < dev_nc r.
Proof. unfold dev_nc. pose proof (exp_pos (-7.66925 * (Rpower (r * r + 0.0004) 0.125 - 1))). lra. Qed.
Lemma exp_nc_mono r s : 0 <= r < s -> exp_nc s < exp_nc r.
Proof.
  intros. unfold exp_nc. apply Rmult_lt_compat_l; [lra|]. apply exp_increasing. lra.
Qed.
Lemma dev_nc_mono r s : 0 <= r < s -> dev_nc s < dev_nc r.
Proof.
  intros. unfold dev_nc. apply Rmult_lt_compat_l; [lra|]. apply exp_increasing.
  assert (Rpower (r * r + 0.0004) 0.125 < Rpower (s * s + 0.0004) 0.125); [|lra].
  unfold Rpower. apply exp_increasing. apply Rmult_lt_compat_l; [lra|].
  apply ln_increasing; nra.
Qed.
Lemma exp_nc_derive r : exists l, derivable_pt_lim exp_nc r l.
Proof. eexists. apply is_derive_Reals. unfold exp_nc. auto_derive; [auto|reflexivity]. Qed.
Lemma dev_nc_derive r : exists l, derivable_pt_lim dev_nc r l.
Proof. eexists. apply is_derive_Reals. unfold dev_nc, Rpower. auto_derive; [nra|reflexivity]. Qed.

Lemma exp_cut_3 : exp_cut = 3. Proof. unfold exp_cut, exp_out. lra. Qed.
Lemma dev_cut_7 : dev_cut = 7. Proof. unfold dev_cut, dev_out. lra. Qed.

(** ** Theorems *)

(** Both functions work entry by entry. *)
Theorem C102_entries (rr : list R) :
  profile_exp rr = map profile_exp1 rr /\ profile_dev rr = map profile_dev1 rr.
Proof. split; apply truncated_map. Qed.

(** The exponential profile: 2048 at the half-light radius, a pure exponential
    out to 3 half-light radii, falling all the way to 0 at 4, without a jump
    or a kink anywhere. *)
Theorem C102_exp :
  profile_exp1 1 = 2048 /\
  (forall r, r <= 3 -> profile_exp1 r = profile_exp1 0 * exp (-1.67835 * r)) /\
  (forall r, 0 <= r < 4 -> 0 < profile_exp1 r) /\
  (forall r, 4 <= r -> profile_exp1 r = 0) /\
  (forall r s, 0 <= r < s -> s <= 4 -> profile_exp1 s < profile_exp1 r) /\
  (forall r, exists l, derivable_pt_lim profile_exp1 r l).
Proof.
  pose proof exp_cut_3 as C.
  assert (IN : forall r, r <= 3 -> profile_exp1 r = exp_nc r).
  { intros. apply f_inside; rewrite C; unfold exp_out; lra. }
  repeat split.
  - rewrite IN by lra. unfold exp_nc. replace (-1.67835 * (1 - 1)) with 0 by lra. rewrite exp_0. lra.
  - intros r H. rewrite !IN by lra. unfold exp_nc. rewrite Rmult_assoc, <- exp_plus. do 2 f_equal. lra.
  - intros r H. apply f_pos; [rewrite C; unfold exp_out; lra|apply exp_nc_pos|unfold exp_out; lra].
  - intros r H. apply f_beyond; [rewrite C|]; unfold exp_out; lra.
  - intros r s H H4. apply f_mono; auto; [rewrite C; unfold exp_out; lra|apply exp_nc_pos|apply exp_nc_mono].
  - intros r. apply f_derive; [rewrite C; unfold exp_out; lra|apply exp_nc_derive].
Qed.

(** The de Vaucouleurs profile: within 2.2 per cent of the r^(1/4) law from a
    tenth of a half-light radius to 7, and always below it; finite at the
    centre; falling all the way to 0 at 8, without a jump or a kink. *)
Definition quarter_law (r : R) : R := 512 * exp (-7.66925 * (Rpower r (1 / 4) - 1)).

Theorem C102_dev :
  (forall r, 0.1 <= r <= 7 -> 0.978 * quarter_law r <= profile_dev1 r < quarter_law r) /\
  (forall r, 0 <= r < 8 -> 0 < profile_dev1 r <= profile_dev1 0) /\
  (forall r, 8 <= r -> profile_dev1 r = 0) /\
  (forall r s, 0 <= r < s -> s <= 8 -> profile_dev1 s < profile_dev1 r) /\
  (forall r, exists l, derivable_pt_lim profile_dev1 r l).
Proof.
  pose proof dev_cut_7 as C.
  assert (IN : forall r, r <= 7 -> profile_dev1 r = dev_nc r).
  { intros. apply f_inside; rewrite C; unfold dev_out; lra. }
  assert (M : forall r s, 0 <= r < s -> s <= 8 -> profile_dev1 s < profile_dev1 r).
  { intros r s H H4. apply f_mono; auto; [rewrite C; unfold dev_out; lra|apply dev_nc_pos|apply dev_nc_mono]. }
  assert (P : forall r, r < 8 -> 0 < profile_dev1 r).
  { intros r H. apply f_pos; [rewrite C; unfold dev_out; lra|apply dev_nc_pos|unfold dev_out; lra]. }
  split; [|repeat split; auto].
  - intros r H. rewrite IN by lra. unfold quarter_law, dev_nc.
    assert (E : Rpower r (1 / 4) = Rpower (r * r) 0.125).
    { unfold Rpower. rewrite ln_mult by lra. f_equal. lra. }
    assert (L : Rpower (r * r) 0.125 < Rpower (r * r + 0.0004) 0.125).
    { unfold Rpower. apply exp_increasing, Rmult_lt_compat_l; [lra|]. apply ln_increasing; nra. }
    rewrite E. split.
    + assert (U : exp (0.125 * ln (r * r + 0.0004)) - exp (0.125 * ln (r * r)) <= 0.0029).
      { interval with (i_bisect r, i_depth 20). }
      fold (Rpower (r * r) 0.125) (Rpower (r * r + 0.0004) 0.125) in U.
      set (a := Rpower (r * r) 0.125) in *. set (b := Rpower (r * r + 0.0004) 0.125) in *.
      replace (-7.66925 * (b - 1)) with (-7.66925 * (a - 1) + -7.66925 * (b - a)) by ring.
      rewrite exp_plus. pose proof (exp_pos (-7.66925 * (a - 1))).
      assert (Q : 0.978 <= exp (-7.66925 * (b - a))).
      { assert (0 <= b - a <= 0.0029) by lra. generalize dependent (b - a). intros d _ Hd.
        interval. }
      nra.
    + apply Rmult_lt_compat_l; [lra|]. apply exp_increasing. lra.
  - apply P. lra.
  - destruct (Req_dec r 0) as [->|]; [lra|]. left. apply M; lra.
  - intros r H. apply f_beyond; [rewrite C|]; unfold dev_out; lra.
  - intros r. apply f_derive; [rewrite C; unfold dev_out; lra|apply dev_nc_derive].
Qed.

(** ** Light *)

(** The light inside radius [b] of a round profile. *)
Definition light (f : R -> R) (b : R) : R := RInt (fun r => 2 * PI * r * f r) 0 b.

Lemma light_ex (f : R -> R) : (forall r, exists l, derivable_pt_lim f r l) ->
  forall a b, ex_RInt (fun r => 2 * PI * r * f r) a b.
Proof.
  intros D a b. apply (ex_RInt_continuous (V := R_CompleteNormedModule)). intros z _.
  apply (ex_derive_continuous (V := R_NormedModule)). destruct (D z) as (l & H).
  apply is_derive_Reals in H. exists (2 * PI * f z + 2 * PI * z * l).
  apply (is_derive_ext (fun r => (2 * PI * r) * f r)); [reflexivity|].
  evar_last.
  - apply is_derive_Reals. apply derivable_pt_lim_mult; [|apply is_derive_Reals; exact H].
    apply is_derive_Reals. auto_derive; [auto|reflexivity].
  - ring.
Qed.

Lemma light_split (f : R -> R) a b : (forall r, exists l, derivable_pt_lim f r l) ->
  light f b = light f a + RInt (fun r => 2 * PI * r * f r) a b.
Proof.
  intros D. unfold light. symmetry.
  apply (RInt_Chasles (V := R_CompleteNormedModule) (fun r => 2 * PI * r * f r) 0 a b);
    apply light_ex; auto.
Qed.

Lemma piece (f g : R -> R) a b : a <= b -> (forall r, a < r < b -> f r = g r) ->
  RInt (fun r => 2 * PI * r * f r) a b = RInt (fun r => 2 * PI * r * g r) a b.
Proof.
  intros L H. apply RInt_ext. rewrite Rmin_left, Rmax_right by auto. intros x Hx. rewrite H; auto.
Qed.

Lemma exp_light_1 : 5.974 * 2048 <= light profile_exp1 1 <= 5.975 * 2048.
Proof.
  unfold light. rewrite (piece _ (fun r => 2048 * exp (-1.67835 * (r - 1)))); [|lra|].
  - integral.
  - intros r H. apply (f_inside exp_nc exp_cut exp_out); rewrite exp_cut_3; unfold exp_out; lra.
Qed.

Lemma exp_light_4 : 11.717 * 2048 <= light profile_exp1 4 <= 11.718 * 2048.
Proof.
  rewrite (light_split _ 3) by apply C102_exp. unfold light.
  rewrite (piece profile_exp1 (fun r => 2048 * exp (-1.67835 * (r - 1))) 0 3); [|lra|].
  2:{ intros r H. apply (f_inside exp_nc exp_cut exp_out); rewrite exp_cut_3; unfold exp_out; lra. }
  rewrite (piece profile_exp1
    (fun r => 2048 * exp (-1.67835 * (r - 1)) * (1 - ((r - 3) / (4 - 3)) ^ 2) ^ 2) 3 4); [|lra|].
  2:{ intros r H. unfold profile_exp1, profile_exp. rewrite truncated_one, exp_cut_3.
      unfold exp_out. destruct (Rlt_dec 4 r), (Rlt_dec 3 r); try lra. reflexivity. }
  assert (A : 11.4793 * 2048 <= RInt (fun r => 2 * PI * r * (2048 * exp (-1.67835 * (r - 1)))) 0 3
     <= 11.4794 * 2048) by integral.
  assert (B : 0.2379 * 2048 <= RInt (fun r => 2 * PI * r *
     (2048 * exp (-1.67835 * (r - 1)) * (1 - ((r - 3) / (4 - 3)) ^ 2) ^ 2)) 3 4 <= 0.2380 * 2048)
    by integral.
  lra.
Qed.

Lemma dev_light_1 : 11.116 * 512 <= light profile_dev1 1 <= 11.117 * 512.
Proof.
  unfold light. rewrite (piece _ (fun r => 512 * exp (-7.66925 * (exp (0.125 * ln (r * r + 0.0004)) - 1)))); [|lra|].
  - integral.
  - intros r H. apply (f_inside dev_nc dev_cut dev_out); rewrite dev_cut_7; unfold dev_out; lra.
Qed.

Lemma dev_light_8 : 21.0202 * 512 <= light profile_dev1 8 <= 21.0203 * 512.
Proof.
  rewrite (light_split _ 7) by apply C102_dev. unfold light.
  rewrite (piece profile_dev1 (fun r => 512 * exp (-7.66925 * (exp (0.125 * ln (r * r + 0.0004)) - 1))) 0 7); [|lra|].
  2:{ intros r H. apply (f_inside dev_nc dev_cut dev_out); rewrite dev_cut_7; unfold dev_out; lra. }
  rewrite (piece profile_dev1
    (fun r => 512 * exp (-7.66925 * (exp (0.125 * ln (r * r + 0.0004)) - 1)) * (1 - ((r - 7) / (8 - 7)) ^ 2) ^ 2) 7 8); [|lra|].
  2:{ intros r H. unfold profile_dev1, profile_dev. rewrite truncated_one, dev_cut_7.
      unfold dev_out. destruct (Rlt_dec 8 r), (Rlt_dec 7 r); try lra. reflexivity. }
  assert (A : 20.8449 * 512 <= RInt (fun r => 2 * PI * r * (512 * exp (-7.66925 * (exp (0.125 * ln (r * r + 0.0004)) - 1)))) 0 7
     <= 20.84493 * 512) by integral.
  assert (B : 0.17534 * 512 <= RInt (fun r => 2 * PI * r *
     (512 * exp (-7.66925 * (exp (0.125 * ln (r * r + 0.0004)) - 1)) * (1 - ((r - 7) / (8 - 7)) ^ 2) ^ 2)) 7 8 <= 0.17535 * 512)
    by integral.
  lra.
Qed.

(** "r in half-light radii": of all the light (none lies beyond 4 and 8), the
    part inside r = 1 is a half to within one and three per cent. *)
Theorem C102_half_light :
  0.509 < light profile_exp1 1 / light profile_exp1 4 < 0.51 /\
  0.528 < light profile_dev1 1 / light profile_dev1 8 < 0.53.
Proof.
  pose proof exp_light_1 as A1. pose proof exp_light_4 as A4.
  pose proof dev_light_1 as B1. pose proof dev_light_8 as B8.
  repeat split; (apply Rmult_lt_reg_r with (light profile_exp1 4);
    [|unfold Rdiv; rewrite Rmult_assoc, Rinv_l]; lra) ||
    (apply Rmult_lt_reg_r with (light profile_dev1 8);
    [|unfold Rdiv; rewrite Rmult_assoc, Rinv_l]; lra).
Qed.

(** Inside, in the truncated part, and outside. *)
Example ex_profile :
  profile_exp [1; 3.5; 5] = [2048; 2048 * exp (-1.67835 * 2.5) * 0.5625; 0].
Proof.
  unfold profile_exp, truncated, above. rewrite exp_cut_3. unfold exp_out, exp_nc. cbn [map keep].
  destruct (Rlt_dec 3 1), (Rlt_dec 3 3.5), (Rlt_dec 3 5), (Rlt_dec 4 1), (Rlt_dec 4 3.5), (Rlt_dec 4 5);
    try lra. cbn [map keep imul_at put_at].
  replace (-1.67835 * (1 - 1)) with 0 by lra. rewrite exp_0, Rmult_1_r.
  replace (3.5 - 1) with 2.5 by lra.
  replace ((3.5 - 3) / (4 - 3)) with (1 / 2) by lra.
  replace ((1 - (1 / 2) ^ 2) ^ 2) with 0.5625 by lra. reflexivity.
Qed.

Print Assumptions C102_entries.
Print Assumptions C102_exp.
Print Assumptions C102_dev.
Print Assumptions C102_half_light.
