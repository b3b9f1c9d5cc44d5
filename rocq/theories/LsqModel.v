(** Model of tractor/lsqr_optimizer.py: assembly of the sparse least-squares
    system and of the update vector, getUpdateDirection (328-644).

    Numbers are rationals: rounding (b is stored as float32) and the tests for
    infinities (line 541, 544-548) are not modelled.  np.sqrt and
    scipy.sparse.linalg.lsqr are parameters.  Images are compared by identity
    ([im_id]); [im_chi] is chiImages[img] or tractor.getChiImage(img).  Row
    numbers are computed in 32 bits as in getPixelIndices.  The logging and
    the two early returns scales_only and get_A_matrix are left out. *)
From Coq Require Import List ZArith QArith Qabs Bool Lia.
From Verif Require Import Base PatchModel PriorModel.
Import ListNotations.
Open Scope Q_scope.

(** What is used of an Image: shape, getInvError(), and its chi image. *)
Record image : Type := mkImage { im_id : nat; im_h : Z; im_w : Z; im_ie : arr Q; im_chi : arr Q }.

(** Image.numberOfPixels, image.py:159-161. *)
Definition npix (i : image) : Z := (im_w i * im_h i)%Z.

Notation derivs := (list (list (patch Q * image))).

(** One block of matrix elements: one entry each of sprows, spcols, spvals. *)
Record blk : Type := mkBlk { b_rows : list Z; b_col : nat; b_vals : list Q }.

(** imgoffs.get(img). *)
Fixpoint off_of (offs : list (image * Z)) (i : image) : option Z :=
  match offs with
  | [] => None
  | (j, o) :: r => if im_id j =? im_id i then Some o else off_of r i
  end%nat.

(** Row offset of each image, lsqr_optimizer.py:387-395; returns imgoffs (in
    insertion order) and nextrow. *)
Fixpoint place (ds : list (patch Q * image)) (offs : list (image * Z)) (next : Z) : list (image * Z) * Z :=
  match ds with
  | [] => (offs, next)
  | (_, i) :: r =>
      match off_of offs i with
      | Some _ => place r offs next
      | None => place r (offs ++ [(i, next)]) (next + npix i)%Z
      end
  end.

(** The pixel coordinates of an array in C order: a.flat. *)
Definition grid (h w : Z) : list (Z * Z) :=
  flat_map (fun y => map (fun x => (Z.of_nat y, Z.of_nat x)) (seq 0 (Z.to_nat w))) (seq 0 (Z.to_nat h)).
Definition ravel (a : arr Q) : list Q := map (fun yx => px a (fst yx) (snd yx)) (grid (ah a) (aw a)).

(** The body of the loop over derivatives, lsqr_optimizer.py:404-434; None for
    the two "continue" branches. *)
Definition deriv_block (offs : list (image * Z)) (col : nat) (d : patch Q) (i : image) : res (option blk) :=
  row0 <- match off_of offs i with Some o => Ok o | None => Err KeyError end ;;
  '(p, _) <- clip_to d (im_w i) (im_h i) ;;
  let pix := get_pixel_indices p (im_w i) in
  match pix with
  | [] => Ok None
  | _ =>
    if forallb (fun k => k <? npix i)%Z pix then
      match pimg p, get_slice_in p (im_h i) (im_w i) with
      | Some a, Some (ys, xs) =>
          let w := asub (im_ie i) ys xs in
          if same_shape a w then
            let vals := map (fun yx => px a (fst yx) (snd yx) * px w (fst yx) (snd yx)) (grid (ah a) (aw a)) in
            let nz := filter (fun e => negb (Qeq_bool (snd e) 0)) (combine pix vals) in
            match nz with
            | [] => Ok None
            | _ => Ok (Some (mkBlk (map (fun e => wrap32 (row0 + fst e)%Z) nz) col (map snd nz)))
            end
          else Err ValueError
      | _, _ => Err ValueError
      end
    else Err AssertionError
  end.

(** The loops "for col, param ... for deriv, img", lsqr_optimizer.py:402-434. *)
Fixpoint param_blocks (offs : list (image * Z)) (col : nat) (ds : list (patch Q * image)) : res (list blk) :=
  match ds with
  | [] => Ok []
  | (d, i) :: r =>
      ob <- deriv_block offs col d i ;;
      bs <- param_blocks offs col r ;;
      Ok (match ob with None => bs | Some b => b :: bs end)
  end.
Fixpoint all_blocks (offs : list (image * Z)) (col : nat) (ds : derivs) : res (list blk) :=
  match ds with
  | [] => Ok []
  | p :: r => b <- param_blocks offs col p ;; bs <- all_blocks offs (S col) r ;; Ok (b ++ bs)
  end.

(** zip(rA, cA, vA) with the rows moved down, lsqr_optimizer.py:444-451. *)
Definition prior_blocks (nrows : Z) (x : psys) : list blk :=
  map (fun e => let '(r, c, v) := e in mkBlk (map (fun k => (Z.of_nat k + nrows)%Z) r) c v)
      (combine (combine (ps_rows x) (ps_cols x)) (ps_vals x)).

(** colscales[col] += dot(vals, vals) for every block, lsqr_optimizer.py:427,
    446. *)
Definition dot (a b : list Q) : Q := qsum (map (fun e => fst e * snd e) (combine a b)).
Fixpoint col_scales (bs : list blk) (acc : list Q) : res (list Q) :=
  match bs with
  | [] => Ok acc
  | b :: r => x <- py_get acc (b_col b) ;; col_scales r (upd (b_col b) (x + dot (b_vals b) (b_vals b)) acc)
  end.

Definition tiny : Q := 1 # 100000000.

(** Column scaling with removal of tiny elements, lsqr_optimizer.py:476-495. *)
Fixpoint scale_blocks (scales : list Q) (bs : list blk) : res (list blk) :=
  match bs with
  | [] => Ok []
  | b :: r =>
      s <- py_get scales (b_col b) ;;
      rest <- scale_blocks scales r ;;
      Ok (if Qeq_bool s 0 then rest
          else
            let big := filter (fun e => negb (Qle_bool (Qabs (snd e)) tiny))
                         (combine (b_rows b) (map (fun v => v / s) (b_vals b))) in
            match big with
            | [] => rest
            | _ => mkBlk (map fst big) (b_col b) (map snd big) :: rest
            end)
  end.

(** b[lo : lo+len(v)] = v. *)
Definition set_slice (b : list Q) (lo : nat) (v : list Q) : list Q :=
  firstn lo b ++ v ++ skipn (lo + length v)%nat b.

(** for img, row0 in imgoffs.items(): the right-hand side,
    lsqr_optimizer.py:530-540. *)
Fixpoint fill_chi (offs : list (image * Z)) (b : list Q) : res (list Q) :=
  match offs with
  | [] => Ok b
  | (i, o) :: r =>
      let chi := ravel (im_chi i) in
      if forallb (fun v => Qeq_bool v 0) (slice (Z.to_nat o) (Z.to_nat o + length chi)%nat b)
      then if (length (slice (Z.to_nat o) (Z.to_nat o + length chi)%nat b) =? length chi)%nat
           then fill_chi r (set_slice b (Z.to_nat o) chi)
           else Err ValueError
      else Err AssertionError
  end.

(** [x for e in l], failing if one of them fails. *)
Fixpoint mapm {A B} (f : A -> res B) (l : list A) : res (list B) :=
  match l with
  | [] => Ok []
  | a :: r => x <- f a ;; xs <- mapm f r ;; Ok (x :: xs)
  end.

(** The assembled system: matrix elements (row, column, value), shape,
    right-hand side, and the column scales (squared: before np.sqrt). *)
Record lsys : Type := mkLsys {
  ls_elems : list (Z * nat * Q); ls_nrows : Z; ls_ncols : nat; ls_b : list Q; ls_scales : list Q }.

Definition blk_elems (bs : list blk) : list (Z * nat * Q) :=
  flat_map (fun b => map (fun e => (fst e, b_col b, snd e)) (combine (b_rows b) (b_vals b))) bs.

Section Update.
Variable sqrtf : Q -> Q.

(** getUpdateDirection up to the call of csr_matrix, lsqr_optimizer.py:380-585.
    [scale]: scale_columns; [pm]: paramindexmap if shared_params; [prior]:
    tractor.getLogPriorDerivatives(), None if absent or priors=False.  The
    result None is the "return []" of line 464. *)
Definition assemble (scale : bool) (pm : option (list nat)) (ds : derivs) (prior : option psys) : res (option lsys) :=
  let '(offs, n0) := place (concat ds) [] 0%Z in
  bs <- all_blocks offs 0 ds ;;
  let ncols := length ds in
  let pbs := match prior with None => [] | Some x => prior_blocks n0 x end in
  sc <- (if scale then col_scales (bs ++ pbs) (repeat 0 ncols) else Ok (repeat 0 ncols)) ;;
  '(nrows, b0) <- match prior with
                  | None => Ok (n0, repeat 0 (Z.to_nat n0))
                  | Some x =>
                      let nr := Z.of_nat (listmax1 (ps_rows x)) in
                      match ps_b x with
                      | [] => Err ValueError
                      | _ => if (Z.of_nat (length (concat (ps_b x))) =? nr)%Z
                             then Ok ((n0 + nr)%Z, repeat 0 (Z.to_nat n0) ++ concat (ps_b x))
                             else Err ValueError
                      end
                  end ;;
  match bs ++ pbs with
  | [] => Ok None
  | all =>
      all' <- (if scale then scale_blocks (map sqrtf sc) all else Ok all) ;;
      '(all'', nc) <- match pm with
                      | None => Ok (all', ncols)
                      | Some m =>
                          all'' <- mapm (fun b => c <- py_get m (b_col b) ;; Ok (mkBlk (b_rows b) c (b_vals b))) all' ;;
                          match all'' with
                          | [] => Err ValueError
                          | _ => Ok (all'', S (fold_right (fun b k => Nat.max (b_col b) k) 0%nat all''))
                          end
                      end ;;
      b <- fill_chi offs b0 ;;
      match all'' with
      | [] => Err ValueError
      | _ => Ok (Some (mkLsys (blk_elems all'') nrows nc b sc))
      end
  end.

(** X[colscales > 0] /= colscales[colscales > 0], lsqr_optimizer.py:633. *)
Definition unscale (x sc : list Q) : res (list Q) :=
  if (length x =? length sc)%nat
  then Ok (map (fun e => if Qle_bool (snd e) 0 then fst e else fst e / snd e) (combine x sc))
  else Err IndexError.

(** getUpdateDirection, lsqr_optimizer.py:600-644 after lsqr returned; [lsqr]
    gives one value per column.  [] if the matrix is empty. *)
Definition update_direction (lsqr : lsys -> list Q) (scale : bool) (pm : option (list nat)) (ds : derivs)
    (prior : option psys) : res (list Q) :=
  o <- assemble scale pm ds prior ;;
  match o with
  | None => Ok []
  | Some s =>
      let x := lsqr s in
      x1 <- match pm with None => Ok x | Some m => mapm (py_get x) m end ;;
      if scale then unscale x1 (map sqrtf (ls_scales s)) else Ok x1
  end.

(** The variances returned with variance=True, lsqr_optimizer.py:473, 637-642:
    before taking the reciprocal. *)
Definition update_var (pm : option (list nat)) (s : lsys) : res (list Q) :=
  match pm with None => Ok (ls_scales s) | Some m => mapm (py_get (ls_scales s)) m end.

End Update.

(** ** Shared parameters: lsqr_optimizer.py:366-375 *)

(** A parameter vector whose entry k is stored in slot [nth k slots]; the same
    object may sit at several positions.  setParams assigns in order, getParams
    reads. *)
Section Shared.
Variable A : Type.
Definition view_get (slots : list nat) (st : nat -> A) : list A := map st slots.
Fixpoint view_set (slots : list nat) (vals : list A) (st : nat -> A) : nat -> A :=
  match slots, vals with
  | s :: ss, v :: vs => view_set ss vs (fun k => if (k =? s)%nat then v else st k)
  | _, _ => st
  end.
End Shared.
Arguments view_get {A}.
Arguments view_set {A}.

(** np.unique(p, return_inverse=True)[1]: the rank of each value among the
    distinct values. *)
Definition inverse (p : list nat) : list nat :=
  map (fun v => length (nodup Nat.eq_dec (filter (fun u => (u <? v)%nat) p))) p.

(** paramindexmap. *)
Definition param_index_map (slots : list nat) (st : nat -> nat) : list nat :=
  inverse (view_get slots (view_set slots (seq 0 (length slots)) st)).
