(** Model of the Gaussian priors: tractor/utils.py _GaussianPriors (65-133),
    GaussianPriorsMixin (136-192), MultiParams.getLogPrior and
    getLogPriorDerivatives (1237-1269), BaseParams (284-292).

    Numbers are rationals: rounding is not modelled.  isLegal() is the default
    True (171); subclasses with other priors are not covered (the spline sky
    has its own model).  A prior with sigma = 0 divides by zero in Python and
    is excluded where it matters. *)
From Coq Require Import String List ZArith QArith Bool Lia.
From Verif Require Import Base ParamsModel.
Import ListNotations.

Notation tree := (ptree Q).

Definition qsum (l : list Q) : Q := fold_right Qplus 0 l.
Definition qsq (x : Q) : Q := x * x.

(** _GaussianPriors.add, utils.py:83-90. *)
Definition add_gaussian_prior (l : plist Q) (name : string) (mu sigma : Q) : res (plist Q) :=
  match named_param_index (l_names l) name with
  | None => Err KeyError
  | Some i => Ok (mkPlist (l_names l) (l_vals l) (l_liquid l) (l_lowers l) (l_uppers l)
                    (l_maxstep l) (l_steps l) (l_priors l ++ [mkPrior name i mu sigma]))
  end.

(** _GaussianPriors.getLogPrior, utils.py:92-99: the loop over the terms;
    [p] is getAllParams(). *)
Fixpoint prior_chisq (terms : list (prior Q)) (p : list Q) (chisq : Q) : res Q :=
  match terms with
  | [] => Ok chisq
  | t :: r =>
      x <- py_get p (pr_idx t) ;;
      prior_chisq r p (chisq + qsq (x - pr_mu t) / qsq (pr_sigma t))
  end.

(** MultiParams.getLogPrior, utils.py:1237-1241. *)
Definition log_prior_walk (f : tree -> res Q) :=
  fix go (subs : list tree) (liq : list bool) (lnp : Q) : res Q :=
    match subs, liq with
    | s :: ss, l :: ls =>
        if l && negb (is_none s) then x <- f s ;; go ss ls (lnp + x) else go ss ls lnp
    | _, _ => Ok lnp
    end.

(** getLogPrior: BaseParams utils.py:284-289, GaussianPriorsMixin 175-192. *)
Fixpoint log_prior (t : tree) : res Q :=
  match t with
  | PNone => Err AttributeError
  | PFixed | PScalar _ => Ok 0
  | PList l => c <- prior_chisq (l_priors l) (l_vals l) 0 ;; Ok ((-1 # 2) * c)
  | PMulti _ subs liq => log_prior_walk log_prior subs liq 0
  end.

(** The five lists rows, cols, vals, bs, mus. *)
Record psys : Type := mkPsys {
  ps_rows : list (list nat); ps_cols : list nat; ps_vals : list (list Q);
  ps_b : list (list Q); ps_mu : list (list Q) }.

Definition psys_nil : psys := mkPsys [] [] [] [] [].
Definition psys_app (a b : psys) : psys :=
  mkPsys (ps_rows a ++ ps_rows b) (ps_cols a ++ ps_cols b) (ps_vals a ++ ps_vals b)
         (ps_b a ++ ps_b b) (ps_mu a ++ ps_mu b).

(** _GaussianPriors.getDerivs, utils.py:104-133: the loop over the terms;
    [p] is getParams(). *)
Fixpoint gp_derivs (liq : list bool) (p : list Q) (terms : list (prior Q)) (row0 : nat) : res psys :=
  match terms with
  | [] => Ok psys_nil
  | t :: r =>
      i <- liquid_index_of_index liq (pr_idx t) ;;
      if (i =? -1)%Z then gp_derivs liq p r row0
      else
        x <- py_get p (Z.to_nat i) ;;
        rest <- gp_derivs liq p r (S row0) ;;
        Ok (psys_app (mkPsys [[row0]] [Z.to_nat i] [[1 / pr_sigma t]]
                        [[- (x - pr_mu t) / pr_sigma t]] [[pr_mu t]]) rest)
  end.

(** listmax(X, -1) + 1, utils.py:51-55. *)
Definition listmax1 (x : list (list nat)) : nat := fold_right (fun r m => Nat.max (S r) m) 0%nat (concat x).

(** MultiParams.getLogPriorDerivatives, utils.py:1243-1269: the loop; r0, c0
    are the row and column offsets. *)
Definition prior_walk (f : tree -> res (option psys)) :=
  fix go (subs : list tree) (liq : list bool) (r0 c0 : nat) : res psys :=
    match subs, liq with
    | s :: ss, l :: ls =>
        if l && negb (is_none s) then
          ox <- f s ;;
          match ox with
          | None => go ss ls r0 (c0 + number_of_params s)%nat
          | Some x =>
              rest <- go ss ls (r0 + listmax1 (ps_rows x))%nat (c0 + number_of_params s)%nat ;;
              Ok (psys_app (mkPsys (map (map (fun rij => (rij + r0)%nat)) (ps_rows x))
                              (map (fun ci => (ci + c0)%nat) (ps_cols x)) (ps_vals x) (ps_b x) (ps_mu x)) rest)
          end
        else go ss ls r0 c0
    | _, _ => Ok psys_nil
    end.

Fixpoint prior_derivs (t : tree) : res (option psys) :=
  match t with
  | PNone => Err AttributeError
  | PFixed | PScalar _ => Ok None
  | PList l => x <- gp_derivs (l_liquid l) (keep (l_liquid l) (l_vals l)) (l_priors l) 0 ;; Ok (Some x)
  | PMulti _ subs liq =>
      x <- prior_walk prior_derivs subs liq 0 0 ;;
      Ok (match ps_rows x with [] => None | _ => Some x end)
  end.
