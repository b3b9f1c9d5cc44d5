(** Model of the general optimizer with Ceres: CeresOptimizer.getDynamicScales,
    optimize, _ceres_opt, _getOneImageDerivs and CeresTractorAdapter
    (tractor/ceres_optimizer.py:19-228 and 389-424), ImageCostFunction
    (tractor/ceres-tractor.cc:185-370) and ceres_opt (tractor/ceres.i:345-640).

    Real numbers stand for floats (rounding not modelled).  The tractor is given
    by its parameters, its chi images as functions of the parameters, and the
    derivative patches.  The solver is a parameter that gets the objective and
    the start.  Options of the solver and printing are left out. *)
From Coq Require Import List ZArith Bool Reals.
From Verif Require Import Base PatchModel GpuMixModel CompositeModel CeresModel.
Import ListNotations.
Open Scope Z_scope.

(** ** Scaling *)

(** np.sum(der**2) *)
Definition sumsq (a : arr R) : R :=
  rsum (fun y => rsum (fun x => (px a y x * px a y x)%R) (zlist 0 (aw a))) (zlist 0 (ah a)).

(** getDynamicScales, ceres_optimizer.py:19-36; [ders] is the concatenation of
    the lists of all images. *)
Definition sum_scales (n : nat) (ders : list (nat * arr R)) : list R :=
  fold_left (fun s jd => upd_at (fst jd) (fun v => (v + sumsq (snd jd))%R) s) ders (repeat 0%R n).
Definition dynamic_scales (steps : list R) (ders : list (nat * arr R)) : list R :=
  map (fun sv => let '(s, v) := sv in let r := sqrt v in if CompositeModel.reqb r 0 then s else (1 / r)%R)
      (combine steps (sum_scales (length steps) ders)).

(** p0 = pp - scales, ceres_optimizer.py:66-79. *)
Definition offset (pp scales : list R) : list R := map (fun ps => (fst ps - snd ps)%R) (combine pp scales).
(** np.ones_like(p0) *)
Definition ones_like (pp : list R) : list R := map (fun _ => 1%R) pp.
(** self.offset + self.scale * p, ceres_optimizer.py:424, and p0 + params * scales, 144. *)
Definition to_params (p0 scales x : list R) : list R :=
  map (fun t => let '((o, s), v) := t in (o + s * v)%R) (combine (combine p0 scales) x).

(** Gaussian priors (index, mu, sigma), ceres_optimizer.py:93-104. *)
Definition gprior : Type := (nat * R * R)%type.
Definition scale_prior (p0 scales : list R) (g : gprior) : gprior :=
  let '(i, mu, sig) := g in (i, ((mu - nth i p0 0) / nth i scales 0)%R, (sig / nth i scales 0)%R).
(** A ParamList with Gaussian priors: which of its parameters are thawed, and the
    terms by the number of the parameter among all of them, utils.py:82-102. *)
Record leaf : Type := mkLeaf { l_thawed : list bool; l_terms : list gprior }.
(** MultiParams.getGaussianPriors, utils.py:1201-1209, over the active
    ParamLists in order (nested MultiParams only add up the offsets). *)
Fixpoint gaussian_priors (offset : nat) (ls : list leaf) : list gprior :=
  match ls with
  | [] => []
  | l :: ls => map (fun t => let '(i, mu, sig) := t in ((offset + i)%nat, mu, sig)) (l_terms l)
               ++ gaussian_priors (offset + count_occ Bool.bool_dec (l_thawed l) true) ls
  end.
(** ceres::NormalPrior(1/sigma, mu): the residual (x - mu) / sigma, ceres.i:497-507. *)
Definition prior_residual (x : list R) (g : gprior) : R :=
  let '(i, mu, sig) := g in ((nth i x 0 - mu) * (1 / sig))%R.

(** Bounds, ceres_optimizer.py:106-131: (index, bound, islower). *)
Fixpoint scale_bounds (p0 scales : list R) (bs : list (option R)) : list (option R) :=
  match p0, scales, bs with
  | o :: p0, s :: scales, b :: bs =>
      match b with Some b => Some ((b - o) / s)%R | None => None end :: scale_bounds p0 scales bs
  | _, _, _ => []
  end.
Fixpoint list_bounds (i : nat) (lower : bool) (bs : list (option R)) : list (nat * R * bool) :=
  match bs with
  | [] => []
  | Some b :: bs => (i, b, lower) :: list_bounds (S i) lower bs
  | None :: bs => list_bounds (S i) lower bs
  end.
Definition lubounds (lowers uppers : list (option R)) : list (nat * R * bool) :=
  list_bounds 0 true lowers ++ list_bounds 0 false uppers.
(** SetParameterLowerBound / SetParameterUpperBound, ceres.i:556-560. *)
Definition obeys (x : list R) (b : nat * R * bool) : Prop :=
  let '(i, v, lower) := b in if lower then (v <= nth i x 0)%R else (nth i x 0 <= v)%R.

(** The objective: half the sum of the squared residuals of the images and the
    priors; [chi p n] is getChiImage(n) with parameters p. *)
Definition opt_cost (chi : list R -> nat -> arr R) (nims : nat) (p0 scales : list R) (gs : list gprior) (x : list R) : R :=
  (/ 2 * (rsum (fun n => sumsq (chi (to_params p0 scales x) n)) (seq 0 nims)
          + rsum (fun g => prior_residual x g * prior_residual x g) gs))%R.

(** _ceres_opt with scaled=True, ceres_optimizer.py:55-150: None without
    parameters; otherwise the new parameters and (initial_cost, final_cost);
    [own]: the ParamLists of the tractor, whose Gaussian priors are used if
    priors is set. *)
Definition ceres_opt_scaled (solve : (list R -> R) -> list R -> list R) (chi : list R -> nat -> arr R) (nims : nat)
    (scales : list R) (priors : bool) (own : list leaf) (pp : list R) : option (list R * (R * R)) :=
  match pp with
  | [] => None
  | _ =>
      let p0 := offset pp scales in
      let gs := if priors then map (scale_prior p0 scales) (gaussian_priors 0 own) else [] in
      let cost := opt_cost chi nims p0 scales gs in
      let x0 := ones_like pp in
      let x := solve cost x0 in
      Some (to_params p0 scales x, (cost x0, cost x))
  end.
(** optimize, ceres_optimizer.py:42-51: dlnp. *)
Definition optimize (solve : (list R -> R) -> list R -> list R) (chi : list R -> nat -> arr R) (nims : nat)
    (scales : list R) (priors : bool) (own : list leaf) (pp : list R) : res (R * list R) :=
  match ceres_opt_scaled solve chi nims scales priors own pp with
  | None => Err TypeError
  | Some (p, (c0, c1)) => Ok ((c0 - c1)%R, p)
  end.

(** variance_out *= scales**2, ceres_optimizer.py:145-146. *)
Definition scale_variance (scales var : list R) : list R :=
  map (fun sv => (snd sv * (fst sv * fst sv))%R) (combine scales var).

(** ** The derivatives of one image *)

(** What Image.getParamDerivatives returns for a parameter: None, False (to be
    computed by the caller) or a patch. *)
Inductive dkind : Type := DNone | DFalse | DPatch (p : patch R).

Fixpoint ready_derivs (j parami : nat) (ds : list dkind) : list (nat * patch R) :=
  match ds with
  | [] => []
  | DPatch p :: ds => ((parami + j)%nat, p) :: ready_derivs (S j) parami ds
  | _ :: ds => ready_derivs (S j) parami ds
  end.
Fixpoint needed (j : nat) (ds : list dkind) : list nat :=
  match ds with
  | [] => []
  | DFalse :: ds => j :: needed (S j) ds
  | _ :: ds => needed (S j) ds
  end.
(** The loop over the thawed images, ceres_optimizer.py:174-202; [numder j] is
    the finite difference of the model image; images given as (index, number of
    parameters). *)
Fixpoint image_derivs (imgi : nat) (ds : list dkind) (numder : nat -> patch R) (ims : list (nat * nat)) (parami : nat)
  : list (nat * patch R) * nat :=
  match ims with
  | [] => ([], parami)
  | (i, n) :: ims =>
      let own := if (i =? imgi)%nat
                 then ready_derivs 0 parami ds ++ map (fun j => ((parami + j)%nat, numder j)) (needed 0 ds)
                 else [] in
      let '(l, m) := image_derivs imgi ds numder ims (parami + n) in
      (own ++ l, m)
  end.
(** ceres_optimizer.py:204-211: (number of parameters, derivatives) per source. *)
Fixpoint src_ready (j parami : nat) (ds : list (option (patch R))) : list (nat * patch R) :=
  match ds with
  | [] => []
  | Some p :: ds => ((parami + j)%nat, p) :: src_ready (S j) parami ds
  | None :: ds => src_ready (S j) parami ds
  end.
Fixpoint source_derivs (srcs : list (nat * list (option (patch R)))) (parami : nat) : list (nat * patch R) :=
  match srcs with
  | [] => []
  | (n, ds) :: srcs => src_ready 0 parami ds ++ source_derivs srcs (parami + n)
  end.
Definition all_derivs (imgi : nat) (ds : list dkind) (numder : nat -> patch R) (ims : list (nat * nat))
    (srcs : list (nat * list (option (patch R)))) : list (nat * patch R) :=
  let '(l, m) := image_derivs imgi ds numder ims 0 in l ++ source_derivs srcs m.

(** ceres_optimizer.py:216-224: clip to the image, times -1 and the inverse
    error; then CeresTractorAdapter._getOneImageDerivs, 416-420: times the scale. *)
Fixpoint chi_derivs (W H : Z) (ie : arr R) (scales : list R) (l : list (nat * patch R)) : res (list (nat * patch R)) :=
  match l with
  | [] => Ok []
  | (ind, d) :: l =>
      '(d1, _) <- clip_to d W H ;;
      rest <- chi_derivs W H ie scales l ;;
      match pimg d1 with
      | None => Ok rest
      | Some a =>
          let s := asub ie (mkSl (y0 d1) (y0 d1 + ah a)) (mkSl (x0 d1) (x0 d1 + aw a)) in
          if negb ((ah s =? ah a) && (aw s =? aw a)) then Err ValueError else
          Ok ((ind, mkPatch (x0 d1) (y0 d1)
                 (Some (mkArr (ah a) (aw a) (fun y x => (-1 * px a y x * px s y x * nth ind scales 0)%R)))) :: rest)
      end
  end.

(** ** The Jacobian, ceres-tractor.cc:344-362 *)
Definition memset (J : Z -> R) (lo n : Z) : Z -> R := fun i => if (lo <=? i) && (i <? lo + n) then 0%R else J i.
Definition memcpy (J : Z -> R) (lo : Z) (src : Z -> R) (s n : Z) : Z -> R :=
  fun i => if (lo <=? i) && (i <? lo + n) then src (s + (i - lo)) else J i.
Definition fill (W H x0 y0 : Z) (a : arr R) (J : Z -> R) : Z -> R :=
  let J := if y0 =? 0 then J else memset J 0 (y0 * W) in
  let J := if y0 + ah a <? H then memset J ((y0 + ah a) * W) ((H - (y0 + ah a)) * W) else J in
  fold_left (fun J k =>
    let row0 := (y0 + k) * W in
    let J := if x0 =? 0 then J else memset J row0 x0 in
    let row0 := row0 + x0 in
    let J := memcpy J row0 (flat a) (k * aw a) (aw a) in
    if x0 + aw a <? W then memset J (row0 + aw a) (W - (x0 + aw a)) else J)
    (zlist 0 (ah a)) J.
(** The loop over the derivatives, ceres-tractor.cc:316-363; [Js] is the memory
    for the Jacobians by parameter. *)
Definition fill_all (W H : Z) (ders : list (nat * patch R)) (Js : nat -> Z -> R) : nat -> Z -> R :=
  fold_left (fun Js id => match pimg (snd id) with
                          | None => Js
                          | Some a => fun n => if (n =? fst id)%nat then fill W H (x0 (snd id)) (y0 (snd id)) a (Js n) else Js n
                          end) ders Js.

(** ** The loop over the images, ceres.i:410-450 *)
(** [for (i=0; i<nims; i++) { ...; if (numeric) for (i=0; i<nparams; i++) ...; AddResidualBlock }]
    with one [i]: the images whose residuals are added; None if it has not come
    to an end after [fuel] rounds. *)
Fixpoint add_blocks (fuel : nat) (numeric : bool) (nparams nims i : nat) : option (list nat) :=
  if (i <? nims)%nat then
    match fuel with
    | O => None
    | S fuel =>
        let i1 := if numeric then nparams else i in
        match add_blocks fuel numeric nparams nims (S i1) with
        | Some l => Some (i :: l)
        | None => None
        end
    end
  else Some [].
