(** Shared vocabulary: Python exceptions as values, Python indexing and
    slicing of lists. *)
From Coq Require Import List ZArith Lia Bool.
Import ListNotations.

(** The Python exceptions that the modelled code can raise. *)
Inductive exn : Type :=
| AssertionError | IndexError | KeyError | ValueError | AttributeError
| RuntimeError | TypeError | ZeroDivisionError | UnboundLocalError | NameError.

Inductive res (A : Type) : Type :=
| Ok (a : A)
| Err (e : exn).
Arguments Ok {A} _.
Arguments Err {A} _.

Definition bind {A B} (m : res A) (f : A -> res B) : res B :=
  match m with Ok a => f a | Err e => Err e end.

Notation "x <- m ;; k" := (bind m (fun x => k))
  (at level 61, m at next level, right associativity).
Notation "' pat <- m ;; k" := (bind m (fun x => match x with pat => k end))
  (at level 61, pat pattern, m at next level, right associativity).

Definition is_ok {A} (m : res A) : bool :=
  match m with Ok _ => true | Err _ => false end.

(** [l[i] = x] for a valid index; identity otherwise (callers test). *)
Fixpoint upd {A} (i : nat) (x : A) (l : list A) : list A :=
  match l, i with
  | [], _ => []
  | _ :: r, O => x :: r
  | a :: r, S j => a :: upd j x r
  end.

(** Python [l[lo:hi]] for 0 <= lo <= hi. *)
Definition slice {A} (lo hi : nat) (l : list A) : list A :=
  firstn (hi - lo) (skipn lo l).

(** Python index normalisation: negative indices count from the end. *)
Definition py_index (n : nat) (i : Z) : option nat :=
  if (0 <=? i)%Z then
    if (i <? Z.of_nat n)%Z then Some (Z.to_nat i) else None
  else
    if (0 <=? i + Z.of_nat n)%Z then Some (Z.to_nat (i + Z.of_nat n)) else None.

(** [l[i] = x] with Python index rules. *)
Definition py_set {A} (l : list A) (i : Z) (x : A) : res (list A) :=
  match py_index (length l) i with
  | Some k => Ok (upd k x l)
  | None => Err IndexError
  end.

Definition py_get {A} (l : list A) (i : nat) : res A :=
  match nth_error l i with Some a => Ok a | None => Err IndexError end.

(** [x for (m, x) in zip(mask, l) if m]: Python [zip] stops at the shorter. *)
Fixpoint keep {A} (mask : list bool) (l : list A) : list A :=
  match mask, l with
  | true :: m, a :: r => a :: keep m r
  | false :: m, _ :: r => keep m r
  | _, _ => []
  end.

Definition count_true (l : list bool) : nat := length (filter (fun b => b) l).

(** ** Lemmas *)

Lemma upd_length {A} i (x : A) l : length (upd i x l) = length l.
Proof. revert i; induction l; destruct i; simpl; auto. Qed.

Lemma nth_error_upd_same {A} i (x : A) l :
  i < length l -> nth_error (upd i x l) i = Some x.
Proof. revert i; induction l; destruct i; simpl; intros; try lia; auto.
  apply IHl; lia. Qed.

Lemma nth_error_upd_other {A} i j (x : A) l :
  i <> j -> nth_error (upd i x l) j = nth_error l j.
Proof. revert i j; induction l; destruct i, j; simpl; intros; try congruence; auto. Qed.

Lemma upd_self {A} i (x : A) l : nth_error l i = Some x -> upd i x l = l.
Proof. revert i; induction l; destruct i; simpl; intros; try congruence; auto.
  rewrite IHl; auto. Qed.

Lemma upd_upd {A} i (x y : A) l : upd i x (upd i y l) = upd i x l.
Proof. revert i; induction l; destruct i; simpl; intros; auto. rewrite IHl; auto. Qed.

Lemma upd_map {A B} (f : A -> B) i x l : map f (upd i x l) = upd i (f x) (map f l).
Proof. revert i; induction l; destruct i; simpl; intros; auto. rewrite IHl; auto. Qed.

Lemma count_true_cons b l : count_true (b :: l) = (if b then 1 else 0) + count_true l.
Proof. unfold count_true; destruct b; simpl; auto. Qed.

Lemma count_true_app a b : count_true (a ++ b) = count_true a + count_true b.
Proof. unfold count_true. rewrite filter_app, app_length. auto. Qed.

Lemma keep_length {A} m (l : list A) :
  length m = length l -> length (keep m l) = count_true m.
Proof. revert l; induction m; destruct l; simpl; intros; try lia; auto.
  rewrite count_true_cons. destruct a; simpl; rewrite IHm; lia. Qed.

Lemma keep_app {A} m1 m2 (l1 l2 : list A) :
  length m1 = length l1 -> keep (m1 ++ m2) (l1 ++ l2) = keep m1 l1 ++ keep m2 l2.
Proof. revert l1; induction m1; destruct l1; simpl; intros; try lia; auto.
  destruct a; simpl; rewrite IHm1 by lia; auto. Qed.

Lemma keep_map {A B} (f : A -> B) m l : keep m (map f l) = map f (keep m l).
Proof. revert l; induction m; destruct l; simpl; auto; destruct a; simpl; auto.
  rewrite IHm; auto. Qed.

Lemma slice_full {A} (l : list A) n : length l <= n -> slice 0 n l = l.
Proof. intros; unfold slice; simpl. rewrite Nat.sub_0_r. apply firstn_all2; auto. Qed.

Lemma slice_length {A} (l : list A) lo hi :
  lo <= hi -> hi <= length l -> length (slice lo hi l) = hi - lo.
Proof. intros; unfold slice. rewrite firstn_length, skipn_length. lia. Qed.

Lemma skipn_add {A} (a b : nat) (l : list A) : skipn a (skipn b l) = skipn (b + a) l.
Proof. revert l; induction b; simpl; intros; auto. destruct l; simpl; auto.
  apply skipn_nil. Qed.

Lemma firstn_slice_split {A} (l : list A) lo n :
  skipn lo l = slice lo (lo + n) l ++ skipn (lo + n) l.
Proof. unfold slice. replace (lo + n - lo) with n by lia.
  rewrite <- (firstn_skipn n (skipn lo l)) at 1. f_equal.
  apply skipn_add. Qed.

Lemma bind_ok {A B} (m : res A) (f : A -> res B) b :
  bind m f = Ok b -> exists a, m = Ok a /\ f a = Ok b.
Proof. destruct m; simpl; intros; try discriminate; eauto. Qed.
