(** Extended numbers: exact rationals with NaN and the two infinities, with
    the IEEE rules for the special values.  Every finite double is a rational;
    rounding and overflow of arithmetic are not modelled. *)
From Coq Require Import QArith Bool Lia Lqa.
Open Scope Q_scope.

Inductive ext : Type := Fin (q : Q) | PInf | NInf | NaN.

Definition isnan (a : ext) : bool := match a with NaN => true | _ => false end.
Definition isfinite (a : ext) : bool := match a with Fin _ => true | _ => false end.

Definition eopp (a : ext) : ext :=
  match a with Fin q => Fin (- q) | PInf => NInf | NInf => PInf | NaN => NaN end.

Definition eadd (a b : ext) : ext :=
  match a, b with
  | NaN, _ | _, NaN => NaN
  | Fin x, Fin y => Fin (x + y)
  | PInf, NInf | NInf, PInf => NaN
  | PInf, _ | _, PInf => PInf
  | NInf, _ | _, NInf => NInf
  end.

Definition esub (a b : ext) : ext := eadd a (eopp b).

(** The infinity (or NaN) that a finite factor makes of an infinity. *)
Definition escale (q : Q) (a : ext) : ext :=
  match q ?= 0 with Eq => NaN | Gt => a | Lt => eopp a end.

Definition emul (a b : ext) : ext :=
  match a, b with
  | NaN, _ | _, NaN => NaN
  | Fin x, Fin y => Fin (x * y)
  | Fin x, i | i, Fin x => escale x i
  | PInf, i => i
  | NInf, i => eopp i
  end.

Definition qltb (x y : Q) : bool := negb (Qle_bool y x).

(** a < b; false if either is NaN. *)
Definition eltb (a b : ext) : bool :=
  match a, b with
  | NaN, _ | _, NaN => false
  | Fin x, Fin y => qltb x y
  | NInf, NInf => false
  | NInf, _ => true
  | _, NInf => false
  | PInf, _ => false
  | Fin _, PInf => true
  end.
Definition egtb (a b : ext) : bool := eltb b a.

(** Equality of values (Fin up to ==), as a proposition; NaN equals itself. *)
Definition eeq (a b : ext) : Prop :=
  match a, b with
  | Fin x, Fin y => x == y
  | PInf, PInf | NInf, NInf | NaN, NaN => True
  | _, _ => False
  end.

Lemma qltb_lt x y : qltb x y = true <-> x < y.
Proof.
  unfold qltb. destruct (Qle_bool y x) eqn:E; simpl.
  - apply Qle_bool_iff in E. split; [discriminate|]. intros; exfalso; lra.
  - split; auto. intros _. apply Qnot_le_lt. intros H. apply Qle_bool_iff in H. congruence.
Qed.
Lemma qltb_ge x y : qltb x y = false <-> y <= x.
Proof.
  unfold qltb. destruct (Qle_bool y x) eqn:E; simpl.
  - apply Qle_bool_iff in E. tauto.
  - split; [discriminate|]. intros H. apply Qle_bool_iff in H. congruence.
Qed.
