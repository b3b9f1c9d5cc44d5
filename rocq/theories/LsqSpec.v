(** What the least-squares system of the optimizer is meant to be. *)
From Coq Require Import List ZArith QArith Qabs Bool.
From Verif Require Import Base PatchModel PatchSpec PriorModel PriorProps LsqModel.
Import ListNotations.
Open Scope Q_scope.

(** Row [r] of the matrix (given by its elements) times [d]. *)
Definition row_sum (es : list (Z * nat * Q)) (d : list Q) (r : Z) : Q :=
  qsum (map (fun e => let '(r', c, v) := e in if (r' =? r)%Z then v * nth c d 0 else 0) es).

(** |A d - b|^2. *)
Definition objective (s : lsys) (d : list Q) : Q :=
  qsum (map (fun k => qsq (row_sum (ls_elems s) d (Z.of_nat k) - nth k (ls_b s) 0))
            (seq 0 (Z.to_nat (ls_nrows s)))).

Definition wf_image (i : image) : Prop :=
  (0 <= im_h i /\ 0 <= im_w i /\
  ah (im_ie i) = im_h i /\ aw (im_ie i) = im_w i /\
  ah (im_chi i) = im_h i /\ aw (im_chi i) = im_w i)%Z.

(** Derivative patches are arrays, images are well formed, and an identifier
    names one image. *)
Definition derivs_ok (ds : derivs) : Prop :=
  (forall p i, In (p, i) (concat ds) -> wf_patch p /\ wf_image i) /\
  (forall p i q j, In (p, i) (concat ds) -> In (q, j) (concat ds) -> im_id i = im_id j -> i = j).

(** The images that have derivatives, each once. *)
Definition images_of (imgs : list image) (ds : derivs) : Prop :=
  NoDup (map im_id imgs) /\ forall i, In i imgs <-> exists p, In (p, i) (concat ds).

Definition total (imgs : list image) : Z := fold_right (fun i n => (npix i + n)%Z) 0%Z imgs.
(** First row of the k-th image. *)
Definition offset (imgs : list image) (k : nat) : Z := total (firstn k imgs).

(** Change of the model image at pixel (X, Y), in units of its error, for the
    parameter step d. *)
Definition model_change (ds : derivs) (i : image) (d : list Q) (X Y : Z) : Q :=
  qsum (map (fun e => let '(c, l) := e in
    nth c d 0 * qsum (map (fun pj => if (im_id (snd pj) =? im_id i)%nat
                                     then img_at 0 (fst pj) X Y * px (im_ie i) Y X else 0) l))
    (combine (seq 0 (length ds)) ds)).

(** Sum over all pixels of all images of (linearized model change - chi)^2. *)
Definition linear_chisq (imgs : list image) (ds : derivs) (d : list Q) : Q :=
  qsum (map (fun i => qsum (map (fun yx =>
    qsq (model_change ds i d (snd yx) (fst yx) - px (im_chi i) (fst yx) (snd yx)))
    (grid (im_h i) (im_w i)))) imgs).

(** Sum of the squares of the elements of column c. *)
Definition col_norm2 (es : list (Z * nat * Q)) (c : nat) : Q :=
  qsum (map (fun e => if (snd (fst e) =? c)%nat then qsq (snd e) else 0) es).

(** Sum of |x_c| over the elements of row r. *)
Definition abs_row (es : list (Z * nat * Q)) (x : list Q) (r : Z) : Q :=
  qsum (map (fun e => let '(r', c, _) := e in if (r' =? r)%Z then Qabs (nth c x 0) else 0) es).

(** One value per distinct parameter, copied to every place it occupies. *)
Definition spread (m : list nat) (y : list Q) : list Q := map (fun u => nth u y 0) m.
