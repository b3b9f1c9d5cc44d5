(** Rounding errors of sums. *)
From Coq Require Import Reals List ZArith Lia Lra.
From Flocq Require Import Core Plus_error Relative Mult_error.
From Verif Require Import RoundModel.
Import ListNotations.
Open Scope R_scope.

Section Float.
Variables (prec emin : Z).
Context (P : (0 < prec)%Z).
Notation fmt := (fmt prec emin).
Notation rn := (rn prec emin).
Notation fadd := (fadd prec emin).
Notation fsub := (fsub prec emin).
Notation u := (unit_err prec).
Local Instance Pgt : Prec_gt_0 prec := P.

Lemma u_pos : 0 < u.
Proof. apply bpow_gt_0. Qed.
Lemma u_ro_u : u_ro radix2 prec = u.
Proof.
  unfold u_ro, unit_err. replace (- prec + 1)%Z with (1 + - prec)%Z by lia. rewrite bpow_plus. simpl (bpow radix2 1). 
  change (IZR (Z.pow_pos radix2 1)) with 2. lra.
Qed.
Lemma fmt_rn x : fmt (rn x).
Proof. apply generic_format_round; typeclasses eauto. Qed.
Lemma rn_fmt x : fmt x -> rn x = x.
Proof. intros H. apply round_generic; auto. typeclasses eauto. Qed.
Lemma fmt_0 : fmt 0.
Proof. apply generic_format_0. Qed.
Lemma rn_le x y : x <= y -> rn x <= rn y.
Proof. apply round_le; typeclasses eauto. Qed.
Lemma fmt_opp x : fmt x -> fmt (- x).
Proof. apply generic_format_opp. Qed.

Lemma add_err x y : fmt x -> fmt y -> Rabs (fadd x y - (x + y)) <= u * Rabs (x + y).
Proof.
  intros Fx Fy. destruct (FLT_plus_error_N_ex radix2 emin prec (fun n => negb (Z.even n)) x y Fx Fy) as (e & He & E).
  pose proof (u_rod1pu_ro_le_u_ro radix2 prec) as L. rewrite u_ro_u in *.
  unfold RoundModel.fadd, RoundModel.rn. rewrite E.
  replace ((x + y) * (1 + e) - (x + y)) with (e * (x + y)) by ring. rewrite Rabs_mult.
  apply Rmult_le_compat_r; [apply Rabs_pos|lra].
Qed.
Lemma sub_add x y : fsub x y = fadd x (- y).
Proof. reflexivity. Qed.

(** x is X up to k roundings of terms whose absolute values add up to A *)
Definition near (k : nat) (A x X : R) : Prop :=
  fmt x /\ Rabs X <= A /\ Rabs (x - X) <= ((1 + u) ^ k - 1) * A.

Lemma near_exact x : fmt x -> near 0 (Rabs x) x x.
Proof. intros F. repeat split; auto; [lra|]. rewrite Rminus_eq_0, Rabs_R0. simpl. lra. Qed.
Lemma pow_grow k k' : (k <= k')%nat -> 1 <= (1 + u) ^ k <= (1 + u) ^ k'.
Proof. pose proof u_pos. intros L. split; [apply pow_R1_Rle; lra|apply Rle_pow; auto; lra]. Qed.
Lemma near_weaken k k' A A' x X : (k <= k')%nat -> A <= A' -> near k A x X -> near k' A' x X.
Proof.
  intros K L (F & B & E). repeat split; auto; [lra|]. pose proof (pow_grow k k' K). pose proof (Rabs_pos X).
  eapply Rle_trans; [exact E|]. apply Rmult_le_compat; lra.
Qed.
Lemma near_opp k A x X : near k A x X -> near k A (- x) (- X).
Proof.
  intros (F & B & E). repeat split; [apply fmt_opp; auto|rewrite Rabs_Ropp; auto|].
  replace (- x - - X) with (- (x - X)) by ring. rewrite Rabs_Ropp. auto.
Qed.
Lemma near_add k A B x X y Y : near k A x X -> near k B y Y -> near (S k) (A + B) (fadd x y) (X + Y).
Proof.
  intros (Fx & Bx & Ex) (Fy & By & Ey). pose proof u_pos as U. pose proof (pow_grow k k (le_n k)) as G.
  set (g := (1 + u) ^ k) in *. repeat split; [apply fmt_rn| |].
  - eapply Rle_trans; [apply Rabs_triang|lra].
  - pose proof (add_err x y Fx Fy) as E.
    assert (S : Rabs (x + y) <= g * (A + B)).
    { replace (x + y) with ((x - X) + (y - Y) + X + Y) by ring.
      eapply Rle_trans; [apply Rabs_triang|]. eapply Rle_trans; [apply Rplus_le_compat_r, Rabs_triang|].
      eapply Rle_trans; [apply Rplus_le_compat_r, Rplus_le_compat_r, Rabs_triang|]. lra. }
    replace (fadd x y - (X + Y)) with ((fadd x y - (x + y)) + ((x - X) + (y - Y))) by ring.
    eapply Rle_trans; [apply Rabs_triang|]. eapply Rle_trans; [apply Rplus_le_compat; [exact E|apply Rabs_triang]|].
    assert (u * Rabs (x + y) <= u * (g * (A + B))) by (apply Rmult_le_compat_l; lra).
    simpl. fold g. lra.
Qed.
Lemma near_sub k A B x X y Y : near k A x X -> near k B y Y -> near (S k) (A + B) (fsub x y) (X - Y).
Proof. intros H K. rewrite sub_add. apply near_add; auto. apply near_opp. auto. Qed.

(** Integers of at most prec bits are numbers of the type. *)
Lemma fmt_int n : (emin <= 0)%Z -> IZR (Z.abs n) <= bpow radix2 prec -> fmt (IZR n).
Proof.
  intros Em H. apply generic_format_abs_inv. rewrite <- abs_IZR.
  destruct (Rle_lt_or_eq_dec _ _ H) as [L|E].
  - apply generic_format_FLT. exists (Float radix2 (Z.abs n) 0).
    + unfold F2R; simpl. ring.
    + cbn [Fnum]. rewrite Z.abs_eq by lia. apply lt_IZR. rewrite (IZR_Zpower radix2) by lia. exact L.
    + simpl. lia.
  - rewrite E. apply generic_format_bpow. unfold FLT_exp. lia.
Qed.
End Float.
