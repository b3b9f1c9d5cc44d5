(** Model of the galaxies' light profiles: tractor/galaxy_profiles.py (the
    exponential and de Vaucouleurs laws, truncated as in SDSS) and the tables
    of Gaussian mixtures that stand for them, tractor/mixture_profiles.py:17-45
    with the class attributes of tractor/galaxy.py:711-763.

    Real numbers stand for floats; radii are in half-light radii.  [profile_dev]
    and [profile_exp] are modelled for a list of radii (a one-axis array) and
    for a Python number; arrays of no axes are left out. *)
From Coq Require Import List Reals Lra.
From Verif Require Import Base GaussPsfModel.
Import ListNotations.
Open Scope R_scope.

(** [rr > c] *)
Definition above (c : R) (rr : list R) : list bool :=
  map (fun r => if Rlt_dec c r then true else false) rr.

(** [p[mask] *= f]: one factor for each selected entry. *)
Fixpoint imul_at (mask : list bool) (f p : list R) : list R :=
  match mask, p with
  | true :: m, x :: r =>
      match f with
      | g :: fs => x * g :: imul_at m fs r
      | [] => x :: r
      end
  | false :: m, x :: r => x :: imul_at m f r
  | _, _ => p
  end.

(** [p[mask] = v] *)
Fixpoint put_at (mask : list bool) (v : R) (p : list R) : list R :=
  match mask, p with
  | b :: m, x :: r => (if b then v else x) :: put_at m v r
  | _, _ => p
  end.

(** galaxy_profiles.py:30-34 and 68-72, with the names of either function. *)
Definition truncated (nc : R -> R) (cut out : R) (rr : list R) : list R :=
  let p := map nc rr in
  let p := imul_at (above cut rr)
             (map (fun r => (1 - ((r - cut) / (out - cut)) ^ 2) ^ 2) (keep (above cut rr) rr)) p in
  put_at (above out rr) 0 p.

(** dev_nc, galaxy_profiles.py:25-28. *)
Definition dev_nc (r : R) : R := 512 * exp (-7.66925 * (Rpower (r * r + 0.0004) 0.125 - 1)).
(** exp_nc, galaxy_profiles.py:60-64. *)
Definition exp_nc (r : R) : R := 2048 * exp (-1.67835 * (r - 1)).

(** profile_dev, galaxy_profiles.py:8-37 (DEVOUT, DEVCUT 22-23). *)
Definition dev_out : R := 8.
Definition dev_cut : R := 7 * dev_out / 8.
Definition profile_dev (rr : list R) : list R := truncated dev_nc dev_cut dev_out rr.
(** profile_exp, galaxy_profiles.py:42-75 (EXPOUT, EXPCUT 66-67). *)
Definition exp_out : R := 4.
Definition exp_cut : R := 3 * exp_out / 4.
Definition profile_exp (rr : list R) : list R := truncated exp_nc exp_cut exp_out rr.

(** The result for a number: [p[0]] (35-36, 73-74). *)
Definition profile_dev1 (r : R) : R := nth 0 (profile_dev [r]) 0.
Definition profile_exp1 (r : R) : R := nth 0 (profile_exp [r]) 0.

(** ** The mixtures *)

Definition total (l : list R) : R := fold_right Rplus 0 l.

(** exp_amp, exp_var, mixture_profiles.py:20-23. *)
Definition exp_amp0 : list R :=
  [0.00234853813; 0.0307995260; 0.223364214; 1.17949102; 4.33873750; 5.99820770].
Definition exp_var : list R :=
  [0.00120078965; 0.00884526493; 0.0391463084; 0.139976817; 0.460962500; 1.50159566].
(** line 24 *)
Definition exp_amp : list R := map (fun a => a / total exp_amp0) exp_amp0.

(** dev_amp, dev_var, mixture_profiles.py:27-30. *)
Definition dev_amp0 : list R :=
  [0.0426347652; 0.240127183; 0.685907632; 1.51937350; 2.83627243; 4.46467501; 5.72440830;
   5.60989349].
Definition dev_var0 : list R :=
  [0.000223759216; 0.00100220099; 0.00418731126; 0.0169432589; 0.0684850479; 0.287207080;
   1.33320254; 8.40215071].
(** lines 34-38: a point-like core, put first *)
Definition dev_core : R := 0.010233.
Definition dev_amp : list R :=
  dev_core :: map (fun a => a * ((1 - dev_core) / total dev_amp0)) dev_amp0.
Definition dev_var : list R := 0 :: dev_var0.

(** MixtureOfGaussians(amp, zeros, var) with one variance for each component
    (50-66, set_var 76-82): the variance on both axes. *)
Definition round_mixture (amp var : list R) : list gcomp :=
  map (fun av => mkG (fst av) 0 0 (snd av) 0 0 (snd av)) (combine amp var).

(** normalize, mixture_profiles.py:104-105. *)
Definition normalize (m : list gcomp) : list gcomp :=
  let s := total (map g_amp m) in
  map (fun c => mkG (g_amp c / s) (g_mx c) (g_my c) (g_xx c) (g_xy c) (g_yx c) (g_yy c)) m.

(** The profiles of the classes and their [nre]: GaussianGalaxy, ExpGalaxy,
    DevGalaxy, galaxy.py:711-763. *)
Definition gauss_profile : list gcomp := normalize (round_mixture [1] [1]).
Definition exp_profile : list gcomp := normalize (round_mixture exp_amp exp_var).
Definition dev_profile : list gcomp := normalize (round_mixture dev_amp dev_var).
Definition gauss_nre : R := 6.
Definition exp_nre : R := 4.
Definition dev_nre : R := 8.
