(** What a patch means: a partial image of the plane. *)
From Coq Require Import List ZArith Bool Lia.
From Verif Require Import Base PatchModel.
Import ListNotations.
Open Scope Z_scope.

Section Spec.
Context {V : Type}.

Definition wf_arr (a : arr V) : Prop := 0 <= ah a /\ 0 <= aw a.
Definition wf_patch (p : patch V) : Prop :=
  match pimg p with None => True | Some a => wf_arr a end.

(** The value of a patch at pixel (X, Y) of the plane, if it covers it. *)
Definition val_at (p : patch V) (X Y : Z) : option V :=
  match pimg p with
  | None => None
  | Some a =>
      if (x0 p <=? X) && (X <? x0 p + aw a) && (y0 p <=? Y) && (Y <? y0 p + ah a)
      then Some (px a (Y - y0 p) (X - x0 p)) else None
  end.

Definition in_box (bx0 bx1 by0 by1 X Y : Z) : bool :=
  (bx0 <=? X) && (X <? bx1) && (by0 <=? Y) && (Y <? by1).

(** Read as an image that is zero outside the patch. *)
Definition img_at (zero : V) (p : patch V) (X Y : Z) : V :=
  match val_at p X Y with Some v => v | None => zero end.
End Spec.
