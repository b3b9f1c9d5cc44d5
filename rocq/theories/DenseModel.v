(** Model of tractor/dense_optimizer.py (ConstrainedDenseOptimizer) and
    tractor/smarter_dense_optimizer.py (SmarterDenseOptimizer): assembly of the
    dense least-squares system and of the update vector.

    Numbers are of any type [V] with the operations used; rounding to float32 is
    not modelled.  np.sqrt, "> 0", isfinite and numpy.linalg.lstsq are
    parameters.  Images are compared by identity ([im_id]); [im_chi] is the
    entry of chiImages or tractor.getChiImage(img).  Matrices are functions of
    row and column together with their shape.  Printing is left out. *)
From Coq Require Import List ZArith Bool Lia.
From Verif Require Import Base PatchModel.
Import ListNotations.
Open Scope nat_scope.

Section Dense.
Context {V : Type}.
Variables zero one : V.
Variables add mul div : V -> V -> V.
Variable sqrtf : V -> V.
Variable pos : V -> bool.
Variable finite : V -> bool.

(** What is used of an Image: shape, getInvError() and its chi image, both
    indexed by row and column. *)
Record image : Type := mkImage { im_id : nat; im_h : Z; im_w : Z; im_ie : Z -> Z -> V; im_chi : Z -> Z -> V }.

Local Notation ent := (patch V * image)%type.
Definition mat : Type := nat -> nat -> V.
Definition vec : Type := nat -> V.

(** One element each of rA, cA, vA, pb of getLogPriorDerivatives (the four
    lists have equal lengths). *)
Record term : Type := mkTerm { t_rows : list nat; t_col : nat; t_vals : list V; t_b : list V }.

(** What lstsq is called with, and what is needed afterwards. *)
Record sys : Type := mkSys { s_nrows : nat; s_ncols : nat; s_A : mat; s_B : vec; s_scales : vec; s_inv : list nat }.

Definition lsum {A} (f : A -> V) (l : list A) : V := fold_right (fun a s => add (f a) s) zero l.
Definition dotp (u v : list V) : V := lsum (fun e => mul (fst e) (snd e)) (combine u v).

(** M[off : off+n, col] = f.flat. *)
Definition set_block (M : mat) (off n col : nat) (f : nat -> V) : mat :=
  fun r c => if (c =? col) && (off <=? r) && (r <? off + n) then f (r - off) else M r c.
(** M[r0, c0] = v. *)
Definition set1 (M : mat) (r0 c0 : nat) (v : V) : mat :=
  fun r c => if (r =? r0) && (c =? c0) then v else M r c.
(** b[off : off+n] = f.flat. *)
Definition set_vec (b : vec) (off n : nat) (f : nat -> V) : vec :=
  fun r => if (off <=? r) && (r <? off + n) then f (r - off) else b r.
(** f[k] = v. *)
Definition setf {A} (f : nat -> A) (k : nat) (v : A) : nat -> A := fun j => if j =? k then v else f j.

(** imgoffs[img], img_offsets[img]. *)
Fixpoint off_of (offs : list (image * nat)) (i : image) : option nat :=
  match offs with
  | [] => None
  | (j, o) :: r => if im_id j =? im_id i then Some o else off_of r i
  end.

(** Npriors = max([1+max(r) for r in rA]), dense_optimizer.py:107-111,
    smarter_dense_optimizer.py:140-143; [None]: no priors. *)
Definition npriors (pri : option (list term)) : res nat :=
  match pri with
  | None => Ok 0
  | Some ts =>
      if (match ts with [] => true | _ => false end) || existsb (fun t => match t_rows t with [] => true | _ => false end) ts
      then Err ValueError
      else Ok (fold_right (fun t m => Nat.max (S (fold_right Nat.max 0 (t_rows t))) m) 0 ts)
  end.

(** for rij,vij,bij in zip(ri, vi, bi): A[Npixels + rij, col] = vij;
    B[Npixels + rij] += bij, dense_optimizer.py:159-161,
    smarter_dense_optimizer.py:224-226. *)
Fixpoint prior_rows (npix col : nat) (rvb : list (nat * V * V)) (M : mat) (b : vec) : mat * vec :=
  match rvb with
  | [] => (M, b)
  | (r, v, x) :: rest =>
      prior_rows npix col rest (set1 M (npix + r) col v) (setf b (npix + r) (add (b (npix + r)) x))
  end.

(** ** SmarterDenseOptimizer *)

(** The box of an image: x0, x1, y0, y1. *)
Definition box : Type := (Z * Z * Z * Z)%type.

(** img_bounds[img] widened by an extent, smarter_dense_optimizer.py:110-114. *)
Definition widen (old : option box) (e : box) : box :=
  let '(dx0, dx1, dy0, dy1) := e in
  match old with
  | Some (a0, a1, b0, b1) => (Z.min dx0 a0, Z.max dx1 a1, Z.min dy0 b0, Z.max dy1 b1)
  | None => e
  end.

(** The loop over derivatives that clips them to their images (in place) and
    collects the bounds, smarter_dense_optimizer.py:90-114. *)
Fixpoint clip_param (ds : list ent) (bd : nat -> option box) : res (list ent * (nat -> option box)) :=
  match ds with
  | [] => Ok ([], bd)
  | (d, i) :: r =>
      '(p, ok) <- clip_to d (im_w i) (im_h i) ;;
      let bd' := if ok then setf bd (im_id i) (Some (widen (bd (im_id i)) (get_extent p))) else bd in
      '(r', bd'') <- clip_param r bd' ;;
      Ok ((p, i) :: r', bd'')
  end.
Fixpoint clip_all (ds : list (list ent)) (bd : nat -> option box) : res (list (list ent) * (nat -> option box)) :=
  match ds with
  | [] => Ok ([], bd)
  | d :: r => '(d', bd') <- clip_param d bd ;; '(r', bd'') <- clip_all r bd' ;; Ok (d' :: r', bd'')
  end.

Definition width (b : box) : nat := let '(a0, a1, _, _) := b in Z.to_nat (a1 - a0).
Definition height (b : box) : nat := let '(_, _, b0, b1) := b in Z.to_nat (b1 - b0).
Definition area (b : box) : nat := width b * height b.

(** img_offsets, smarter_dense_optimizer.py:146-157. *)
Fixpoint place (bd : nat -> option box) (ds : list ent) (offs : list (image * nat)) (next : nat)
  : res (list (image * nat) * nat) :=
  match ds with
  | [] => Ok (offs, next)
  | (_, i) :: r =>
      match off_of offs i with
      | Some _ => place bd r offs next
      | None => match bd (im_id i) with
                | None => Err KeyError
                | Some b => place bd r (offs ++ [(i, next)]) (next + area b)
                end
      end
  end.

(** cols_live, smarter_dense_optimizer.py:87-93, 144. *)
Definition live (ds : list (list ent)) (pri : option (list term)) : res (list bool) :=
  let l := map (fun d => match d with [] => false | _ => true end) ds in
  match pri with
  | None => Ok l
  | Some ts =>
      if forallb (fun t => t_col t <? length ds) ts
      then Ok (fold_left (fun l t => upd (t_col t) true l) ts l)
      else Err IndexError
  end.

(** np.flatnonzero(cols_live). *)
Definition flatnonzero (l : list bool) : list nat := filter (fun k => nth k l false) (seq 0 (length l)).

(** column_map[p]: the place of p in inv_column_map, None for -1,
    smarter_dense_optimizer.py:170-173. *)
Fixpoint index_of (p : nat) (inv : list nat) : option nat :=
  match inv with
  | [] => None
  | q :: r => if q =? p then Some 0 else option_map S (index_of p r)
  end.

(** The values of one derivative over its box, in C order:
    (deriv.patch * inverrs[y0:y1, x0:x1]).flat. *)
Definition apix (a : arr V) (i : image) (b : box) : nat -> V :=
  let '(a0, _, b0, _) := b in
  fun k => let y := Z.of_nat (k / width b) in
           let x := Z.of_nat (k mod width b) in
           mul (px a y x) (im_ie i (b0 + y) (a0 + x)).

Definition box_eqb (a b : box) : bool :=
  let '(a0, a1, b0, b1) := a in
  let '(c0, c1, d0, d1) := b in (a0 =? c0)%Z && (a1 =? c1)%Z && (b0 =? d0)%Z && (b1 =? d1)%Z.

(** for deriv, img in derivs: fill one column, smarter_dense_optimizer.py:184-210. *)
Fixpoint fill_param (bd : nat -> option box) (offs : list (image * nat)) (col : nat) (ds : list ent) (M : mat) (s : V)
  : res (mat * V) :=
  match ds with
  | [] => Ok (M, s)
  | (d, i) :: r =>
      match pimg d with
      | None => fill_param bd offs col r M s
      | Some a =>
          match bd (im_id i), off_of offs i with
          | Some b, Some o =>
              if box_eqb b (get_extent d)
              then let v := apix a i b in
                   fill_param bd offs col r (set_block M o (area b) col v)
                     (add s (lsum (fun k => mul (v k) (v k)) (seq 0 (area b))))
              else Err RuntimeError
          | _, _ => Err KeyError
          end
      end
  end.

(** for iparam, derivs in enumerate(allderivs), smarter_dense_optimizer.py:178-213. *)
Fixpoint fill_all (scale : bool) (bd : nat -> option box) (offs : list (image * nat)) (inv : list nat) (ip : nat)
    (ds : list (list ent)) (M : mat) (sc : vec) : res (mat * vec) :=
  match ds with
  | [] => Ok (M, sc)
  | [] :: r => fill_all scale bd offs inv (S ip) r M sc
  | d :: r =>
      match index_of ip inv with
      | None => Err AssertionError
      | Some col =>
          '(M', s) <- fill_param bd offs col d M zero ;;
          fill_all scale bd offs inv (S ip) r M' (if scale then setf sc col s else sc)
      end
  end.

(** for ri,ci,vi,bi in zip(rA, cA, vA, pb), smarter_dense_optimizer.py:215-227. *)
Fixpoint smart_priors (scale : bool) (inv : list nat) (npix : nat) (ts : list term) (M : mat) (b : vec) (sc : vec)
  : res (mat * vec * vec) :=
  match ts with
  | [] => Ok (M, b, sc)
  | t :: r =>
      match index_of (t_col t) inv with
      | None => Err AssertionError
      | Some col =>
          let '(M', b') := prior_rows npix col (combine (combine (t_rows t) (t_vals t)) (t_b t)) M b in
          smart_priors scale inv npix r M' b'
            (if scale then setf sc col (add (sc col) (dotp (t_vals t) (t_vals t))) else sc)
      end
  end.

(** for img,rowstart in img_offsets.items(): B[...] = chi[y0:y1, x0:x1].flat,
    smarter_dense_optimizer.py:243-253. *)
Fixpoint smart_chi (bd : nat -> option box) (offs : list (image * nat)) (b : vec) : res vec :=
  match offs with
  | [] => Ok b
  | (i, o) :: r =>
      match bd (im_id i) with
      | None => Err KeyError
      | Some bx =>
          let '(a0, _, b0, _) := bx in
          smart_chi bd r (set_vec b o (area bx) (fun k => im_chi i (b0 + Z.of_nat (k / width bx)) (a0 + Z.of_nat (k mod width bx))))
      end
  end.

(** getUpdateDirection up to the call of lstsq, smarter_dense_optimizer.py:47-253.
    [unsupported]: shared_params or scales_only or damp>0 or variance; [None]:
    the "return None" of line 163. *)
Definition smart_system (unsupported scale : bool) (ds : list (list ent)) (pri : option (list term)) : res (option sys) :=
  if unsupported then Err RuntimeError else
  '(cs, bd) <- clip_all ds (fun _ => None) ;;
  np <- npriors pri ;;
  lv <- live ds pri ;;
  '(offs, npix) <- place bd (concat cs) [] 0 ;;
  if npix + np =? 0 then Ok None else
  let inv := flatnonzero lv in
  '(M, sc) <- fill_all scale bd offs inv 0 cs (fun _ _ => zero) (fun _ => zero) ;;
  '(M2, b, sc2) <- smart_priors scale inv npix (match pri with None => [] | Some ts => ts end) M (fun _ => zero) sc ;;
  let root := fun c => sqrtf (sc2 c) in
  let M3 := if scale then (fun r c => if pos (root c) then div (M2 r c) (root c) else M2 r c) else M2 in
  let sc3 := if scale then (fun c => if pos (root c) then root c else one) else sc2 in
  b3 <- smart_chi bd offs b ;;
  Ok (Some (mkSys (npix + np) (length inv) M3 b3 sc3 inv)).

(** X /= colscales. *)
Definition unscale (scale : bool) (x : list V) (sc : vec) : list V :=
  if scale then map (fun k => div (nth k x zero) (sc k)) (seq 0 (length x)) else x.

(** X_full = zeros; X_full[inv_column_map] = X, smarter_dense_optimizer.py:304-306. *)
Definition expand (n : nat) (inv : list nat) (x : list V) : list V :=
  fold_left (fun l e => upd (fst e) (snd e) l) (combine inv x) (repeat zero n).

(** getUpdateDirection, smarter_dense_optimizer.py:37-306 (without get_A and
    get_cov); [lstsq s = None] for LinAlgError. *)
Definition smart_update (lstsq : sys -> option (list V)) (unsupported scale : bool) (ds : list (list ent))
    (pri : option (list term)) : res (option (list V)) :=
  o <- smart_system unsupported scale ds pri ;;
  match o with
  | None => Ok None
  | Some s =>
      match lstsq s with
      | None => Ok None
      | Some x0 =>
          let x := unscale scale x0 (s_scales s) in
          if forallb finite x then Ok (Some (expand (length ds) (s_inv s) x)) else Ok None
      end
  end.

(** The second result with get_cov=True: matmul(A.T, A) times the outer product
    of colscales, smarter_dense_optimizer.py:287-290, and the third,
    inv_column_map. *)
Definition smart_cov (s : sys) : mat :=
  fun j k => mul (lsum (fun r => mul (s_A s r j) (s_A s r k)) (seq 0 (s_nrows s))) (mul (s_scales s k) (s_scales s j)).

(** ** ConstrainedDenseOptimizer *)

(** img.numberOfPixels(). *)
Definition numpix (i : image) : nat := Z.to_nat (im_w i) * Z.to_nat (im_h i).

(** imgoffs and Npixels, dense_optimizer.py:66-75. *)
Fixpoint dplace (ds : list ent) (offs : list (image * nat)) (next : nat) : list (image * nat) * nat :=
  match ds with
  | [] => (offs, next)
  | (_, i) :: r =>
      match off_of offs i with
      | Some _ => dplace r offs next
      | None => dplace r (offs ++ [(i, next)]) (next + numpix i)
      end
  end.

(** dimg: the derivative on the whole image times the inverse errors,
    dense_optimizer.py:133-139. *)
Definition dimg (d : patch V) (a : arr V) (i : image) : res (nat -> V) :=
  f <- (if (x0 d =? 0)%Z && (y0 d =? 0)%Z && (ah a =? im_h i)%Z && (aw a =? im_w i)%Z
        then Ok (fun y x => mul (px a y x) (im_ie i y x))
        else g <- add_to add mul d (mkArr (im_h i) (im_w i) (fun _ _ => zero)) one ;;
             Ok (fun y x => mul (px g y x) (im_ie i y x))) ;;
  let w := Z.to_nat (im_w i) in
  Ok (fun k => f (Z.of_nat (k / w)) (Z.of_nat (k mod w))).

(** for (deriv, img) in param, dense_optimizer.py:124-148. *)
Fixpoint dfill_param (offs : list (image * nat)) (col : nat) (ds : list ent) (M : mat) (s : V) : res (mat * V) :=
  match ds with
  | [] => Ok (M, s)
  | (d, i) :: r =>
      match pimg d with
      | None => dfill_param offs col r M s
      | Some a =>
          match off_of offs i with
          | None => Err KeyError
          | Some o =>
              v <- dimg d a i ;;
              if forallb (fun k => finite (v k)) (seq 0 (numpix i))
              then dfill_param offs col r (set_block M o (numpix i) col v)
                     (add s (lsum (fun k => mul (v k) (v k)) (seq 0 (numpix i))))
              else Err AssertionError
          end
      end
  end.

(** for col, param in enumerate(allderivs), dense_optimizer.py:122-150. *)
Fixpoint dfill_all (scale : bool) (offs : list (image * nat)) (col : nat) (ds : list (list ent)) (M : mat) (sc : vec)
  : res (mat * vec) :=
  match ds with
  | [] => Ok (M, sc)
  | d :: r =>
      '(M', s) <- dfill_param offs col d M zero ;;
      dfill_all scale offs (S col) r M' (if scale then setf sc col s else sc)
  end.

(** for ri,ci,vi,bi in zip(rA, cA, vA, pb), dense_optimizer.py:153-162. *)
Fixpoint dense_priors (scale : bool) (ncols npix : nat) (ts : list term) (M : mat) (b : vec) (sc : vec)
  : res (mat * vec * vec) :=
  match ts with
  | [] => Ok (M, b, sc)
  | t :: r =>
      if t_col t <? ncols then
        let '(M', b') := prior_rows npix (t_col t) (combine (combine (t_rows t) (t_vals t)) (t_b t)) M b in
        dense_priors scale ncols npix r M' b'
          (if scale then setf sc (t_col t) (add (sc (t_col t)) (dotp (t_vals t) (t_vals t))) else sc)
      else Err IndexError
  end.

(** for img, (row0,npix) in imgoffs.items(), dense_optimizer.py:178-185. *)
Fixpoint dense_chi (offs : list (image * nat)) (b : vec) : vec :=
  match offs with
  | [] => b
  | (i, o) :: r =>
      let w := Z.to_nat (im_w i) in
      dense_chi r (set_vec b o (numpix i) (fun k => im_chi i (Z.of_nat (k / w)) (Z.of_nat (k mod w))))
  end.

(** getUpdateDirection up to the call of lstsq, dense_optimizer.py:23-185; [None]:
    the "return []" of line 115. *)
Definition dense_system (unsupported scale : bool) (ds : list (list ent)) (pri : option (list term)) : res (option sys) :=
  if unsupported then Err RuntimeError else
  let '(offs, npix) := dplace (concat ds) [] 0 in
  np <- npriors pri ;;
  if npix + np =? 0 then Ok None else
  let ncols := length ds in
  '(M, sc) <- dfill_all scale offs 0 ds (fun _ _ => zero) (fun _ => one) ;;
  '(M2, b, sc2) <- dense_priors scale ncols npix (match pri with None => [] | Some ts => ts end) M (fun _ => zero) sc ;;
  let M3 := if scale then (fun r c => if pos (sc2 c) then div (M2 r c) (sqrtf (sc2 c)) else M2 r c) else M2 in
  let sc3 := fun c => sqrtf (if pos (sc2 c) then sc2 c else one) in
  Ok (Some (mkSys (npix + np) ncols M3 (dense_chi offs b) sc3 (seq 0 ncols))).

(** getUpdateDirection, dense_optimizer.py:17-266; [Some []] for "return []". *)
Definition dense_update (lstsq : sys -> option (list V)) (unsupported scale : bool) (ds : list (list ent))
    (pri : option (list term)) : res (option (list V)) :=
  o <- dense_system unsupported scale ds pri ;;
  match o with
  | None => Ok (Some [])
  | Some s =>
      match lstsq s with
      | None => Ok None
      | Some x0 =>
          let x := unscale scale x0 (s_scales s) in
          if forallb finite x then Ok (Some x) else Ok None
      end
  end.

End Dense.
