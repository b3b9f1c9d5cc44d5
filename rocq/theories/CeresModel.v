(** Model of forced photometry with the Ceres solver:
    CeresOptimizer._ceres_forced_photom (tractor/ceres_optimizer.py:228-387),
    real_ceres_forced_phot (tractor/ceres.i:42-280) and
    ForcedPhotCostFunction (tractor/ceres-tractor.cc:24-160).

    Real numbers stand for floats and the float32 copies of the arrays
    (rounding not modelled).  An image is known by its position in imlist.  The
    solver is a parameter that gets the cost function and the start.  The dict
    usedParamMap, whose values number its keys in the order of insertion, is the
    list of its keys.  clipTo and trimToNonZero change the patches of the caller
    in place; C17 and C20 say that the images they stand for stay the same.
    The images of before and after (wantims0, wantims1) are those of
    ForcedModel.getims for the whole list of parameters. *)
From Coq Require Import List ZArith Bool Reals.
From Verif Require Import Base PatchModel GpuMixModel CompositeModel.
From Verif Require ForcedModel.
Import ListNotations.
Open Scope Z_scope.

(** One image of imlist: its shape, getImage(), mods0 and getInvError(). *)
Record fim : Type := mkFim { f_H : Z; f_W : Z; f_img : arr R; f_mod0 : arr R; f_ie : arr R }.

(** One item of Z, ceres_optimizer.py:254-267: (umods, img, scale, ..., paramoffset). *)
Record entry : Type := mkEntry {
  e_umods : list (option (patch R)); e_img : nat; e_scale : R; e_off : nat }.

(** One residual block: x0, y0, the three arrays, and the sources with the
    number of their flux. *)
Record block : Type := mkBlock {
  b_x0 : Z; b_y0 : Z; b_img : arr R; b_mod0 : arr R; b_ie : arr R; b_srcs : list (nat * patch R) }.

Record dst : Type := mkDst {
  d_blocks : list block; d_start : list (nat * (nat * nat * nat)); d_used : list nat }.

(** int(np.ceil(a / float(b))) *)
Definition cdiv (a b : Z) : Z := - ((- a) / b).

Fixpoint lookup {A : Type} (n : nat) (l : list (nat * A)) : option A :=
  match l with
  | [] => None
  | (k, a) :: l => if (k =? n)%nat then Some a else lookup n l
  end.
Fixpoint index (n : nat) (l : list nat) : option nat :=
  match l with
  | [] => None
  | k :: l => if (k =? n)%nat then Some O else match index n l with Some i => Some (S i) | None => None end
  end.
(** l[n] = f(l[n]) (nothing happens beyond the end; the indices used are in
    range for images with pixels). *)
Fixpoint upd_at {A : Type} (n : nat) (f : A -> A) (l : list A) : list A :=
  match l, n with
  | [], _ => []
  | b :: l, O => f b :: l
  | b :: l, S n => b :: upd_at n f l
  end.

Section Dice.
Variables BW BH : Z.

Definition nbw (im : fim) : nat := Z.to_nat (cdiv (f_W im) BW).
Definition nbh (im : fim) : nat := Z.to_nat (cdiv (f_H im) BH).

(** ceres_optimizer.py:283-291 *)
Definition new_block (im : fim) (iy ix : nat) : block :=
  let x0 := Z.of_nat ix * BW in
  let y0 := Z.of_nat iy * BH in
  let ys := mkSl y0 (Z.min (y0 + BH) (f_H im)) in
  let xs := mkSl x0 (Z.min (x0 + BW) (f_W im)) in
  mkBlock x0 y0 (asub (f_img im) ys xs) (asub (f_mod0 im) ys xs) (asub (f_ie im) ys xs) [].

(** ceres_optimizer.py:281-291: for iy in range(nbh): for ix in range(nbw). *)
Definition dice (im : fim) : list block :=
  flat_map (fun iy => map (new_block im iy) (seq 0 (nbw im))) (seq 0 (nbh im)).

Definition add_src (s : nat * patch R) (b : block) : block :=
  mkBlock (b_x0 b) (b_y0 b) (b_img b) (b_mod0 b) (b_ie b) (b_srcs b ++ [s]).

(** ceres_optimizer.py:325-332: range(lo, hi + 1) in both directions. *)
Definition spread (b0 nbw bx0 bx1 by0 by1 : nat) (s : nat * patch R) (bl : list block) : list block :=
  fold_left (fun bl by_ =>
    fold_left (fun bl bx => upd_at (b0 + (by_ * nbw + bx)) (add_src s) bl) (seq bx0 (S bx1 - bx0)) bl)
    (seq by0 (S by1 - by0)) bl.

(** ceres_optimizer.py:293-332, one umod; [parami] = paramoffset + modi. *)
Definition add_umod (im : fim) (scale : R) (parami b0 nw nh : nat) (um : option (patch R)) (st : dst) : res dst :=
  match um with
  | None => Ok st
  | Some p =>
      '(p1, _) <- clip_to p (f_W im) (f_H im) ;;
      let p2 := trim (fun v => reqb v 0) p1 in
      match pimg p2 with
      | None => Ok st
      | Some a =>
          let clip z n := Z.to_nat (np_clip z 0 (Z.of_nat n - 1)) in
          let bx0 := clip (x0 p2 / BW) nw in
          let bx1 := clip (cdiv (x0 p2 + aw a) BW) nw in
          let by0 := clip (y0 p2 / BH) nh in
          let by1 := clip (cdiv (y0 p2 + ah a) BH) nh in
          let '(k, used) := match index parami (d_used st) with
                            | Some k => (k, d_used st)
                            | None => (length (d_used st), d_used st ++ [parami])
                            end in
          Ok (mkDst (spread b0 nw bx0 bx1 by0 by1 (k, pmul p2 scale) (d_blocks st)) (d_start st) used)
      end
  end.

(** for modi, umod in enumerate(umods), ceres_optimizer.py:293. *)
Fixpoint add_umods (im : fim) (scale : R) (parami b0 nw nh : nat) (ums : list (option (patch R))) (st : dst) : res dst :=
  match ums with
  | [] => Ok st
  | um :: ums => st <- add_umod im scale parami b0 nw nh um st ;;
                 add_umods im scale (S parami) b0 nw nh ums st
  end.

(** One pass of the loop over Z, ceres_optimizer.py:271-332. *)
Definition add_entry (imgs : list fim) (e : entry) (st : dst) : res dst :=
  match nth_error imgs (e_img e) with
  | None => Err IndexError
  | Some im =>
      match lookup (e_img e) (d_start st) with
      | Some (b0, nw, nh) => add_umods im (e_scale e) (e_off e) b0 nw nh (e_umods e) st
      | None =>
          let b0 := length (d_blocks st) in
          add_umods im (e_scale e) (e_off e) b0 (nbw im) (nbh im) (e_umods e)
            (mkDst (d_blocks st ++ dice im) ((e_img e, (b0, nbw im, nbh im)) :: d_start st) (d_used st))
      end
  end.
Fixpoint add_entries (imgs : list fim) (es : list entry) (st : dst) : res dst :=
  match es with
  | [] => Ok st
  | e :: es => st <- add_entry imgs e st ;; add_entries imgs es st
  end.
Definition setup (imgs : list fim) (es : list entry) : res dst := add_entries imgs es (mkDst [] [] []).
End Dice.

(** ceres_optimizer.py:254-267: the derivatives of the sky by image, numbered on,
    then the sources; [sky] lists (deriv, position of its image). *)
Fixpoint sky_entries (sky : list (patch R * nat)) (ims : list nat) (n : nat) : list entry * nat :=
  match ims with
  | [] => ([], n)
  | i :: ims =>
      let mods := map (fun s => Some (fst s)) (filter (fun s => (snd s =? i)%nat) sky) in
      let '(es, m) := sky_entries sky ims (n + length mods) in
      (mkEntry mods i 1%R n :: es, m)
  end.
Fixpoint src_entries (us : list (list (option (patch R)) * R)) (i nsky : nat) : list entry :=
  match us with
  | [] => []
  | (ums, scale) :: us => mkEntry ums i scale nsky :: src_entries us (S i) nsky
  end.
Definition entries (nimg : nat) (sky : option (list (patch R * nat))) (us : list (list (option (patch R)) * R)) : list entry :=
  match sky with
  | None => src_entries us 0 0
  | Some sky => let '(es, nsky) := sky_entries sky (seq 0 nimg) 0 in es ++ src_entries us 0 nsky
  end.

(** ** The cost function *)

(** A C array by its flat index. *)
Definition flat (a : arr R) (k : Z) : R := px a (k / aw a) (k mod aw a).
Definition zlist (lo hi : Z) : list Z := map (fun i => lo + Z.of_nat i) (seq 0 (Z.to_nat (hi - lo))).
Definition npix (b : block) : Z := aw (b_img b) * ah (b_img b).

(** ceres-tractor.cc:82-135: the rows and columns where source and data overlap,
    with the flat indices of the data and the source. *)
Definition overlap (b : block) (x0 y0 : Z) (a : arr R) : list (Z * Z) :=
  let w := aw (b_img b) in
  let xlo := Z.max x0 (b_x0 b) in
  let xhi := Z.min (x0 + aw a) (b_x0 b + w) in
  let ylo := Z.max y0 (b_y0 b) in
  let yhi := Z.min (y0 + ah a) (b_y0 b + ah (b_img b)) in
  flat_map (fun y => map (fun x => ((y - b_y0 b) * w + (xlo - b_x0 b) + x,
                                    (y - y0) * aw a + (xlo - x0) + x)) (zlist 0 (xhi - xlo)))
           (zlist ylo yhi).

Definition put (m : Z -> R) (k : Z) (v : R) : Z -> R := fun j => if j =? k then v else m j.

(** flux = parameters[i][0], or its exponential, ceres-tractor.cc:70-75. *)
Definition flux_of (nonneg : bool) (p : R) : R := if nonneg then exp p else p.

(** ceres-tractor.cc:62-144, the model image; one parameter per source. *)
Definition add_model (b : block) (nonneg : bool) (m : Z -> R) (sp : patch R * R) : Z -> R :=
  match pimg (fst sp) with
  | None => m
  | Some a => fold_left (fun m kk => put m (fst kk) (m (fst kk) + flat a (snd kk) * flux_of nonneg (snd sp))%R)
                        (overlap b (x0 (fst sp)) (y0 (fst sp)) a) m
  end.
Definition model (b : block) (nonneg : bool) (ps : list R) : Z -> R :=
  fold_left (add_model b nonneg) (combine (map snd (b_srcs b)) ps) (flat (b_mod0 b)).
(** ceres-tractor.cc:146-153 *)
Definition residual (b : block) (nonneg : bool) (ps : list R) (k : Z) : R :=
  ((flat (b_img b) k - model b nonneg ps k) * flat (b_ie b) k)%R.
(** ceres-tractor.cc:88-91 and 104-133: the derivatives for source [s] with
    parameter [p]. *)
Definition jacobian (b : block) (nonneg : bool) (s : patch R) (p : R) : Z -> R :=
  match pimg s with
  | None => fun _ => 0%R
  | Some a => fold_left (fun j kk =>
      put j (fst kk) (if nonneg then -1 * (flat a (snd kk) * flux_of nonneg p) * flat (b_ie b) (fst kk)
                      else -1 * flat a (snd kk) * flat (b_ie b) (fst kk))%R)
      (overlap b (x0 s) (y0 s) a) (fun _ => 0%R)
  end.

(** The parameters of a block: fluxes.push_back(realfluxes + index), ceres.i:151. *)
Definition block_params (b : block) (v : list R) : list R := map (fun s => nth (fst s) v 0%R) (b_srcs b).
(** The objective of Ceres without a loss function: half the sum of the squared
    residuals of all blocks. *)
Definition ceres_cost (nonneg : bool) (bl : list block) (v : list R) : R :=
  (/ 2 * rsum (fun b => rsum (fun k => residual b nonneg (block_params b v) k
                                       * residual b nonneg (block_params b v) k)
                             (zlist 0 (npix b))) bl)%R.

(** ceres_optimizer.py:342-380: None if there is nothing to do; otherwise the
    new parameters of the tractor, [p0] being the old ones.  ceres_forced_phot
    returns a dict (Py_BuildValue, ceres.i:265), so [assert(x == 0)] after the
    first run with nonneg fails. *)
Definition forced_photom (solve : (list R -> R) -> list R -> list R)
    (BW BH : Z) (imgs : list fim) (es : list entry) (nonneg : bool) (p0 : list R) : res (option (list R)) :=
  st <- setup BW BH imgs es ;;
  if (length (d_blocks st) =? 0)%nat || (length (d_used st) =? 0)%nat then Ok None else
  let fluxes := map (fun i => nth i p0 0%R) (d_used st) in
  if nonneg then Err AssertionError else
  let v := solve (ceres_cost false (d_blocks st)) fluxes in
  Ok (Some (map (fun i => match index i (d_used st) with Some k => nth k v 0%R | None => 0%R end)
                (seq 0 (length p0)))).

(** ceres_optimizer.py:382-386 (and 335-340 for the images of
    before): result.ims1 = self._getims(params, ...) with all the parameters of
    the tractor, the sky levels first; setParams has set the sky levels to the
    first of them.  Over the integers, which is enough for a counterexample. *)
Definition result_ims (params : list Z) (is : list (@ForcedModel.fimg Z)) (sky : bool) : res (list (@ForcedModel.rim Z)) :=
  ForcedModel.getims 0 1 Z.add Z.mul Z.sub Z.gtb (Z.eqb 0) (fun _ => true) params is
    (if sky then Some (firstn (length is) params) else None) None.
