(** The normalised Lanczos-3 filter: tractor/mp_fourier.i lanczos_filter_3
    (lines 355-402) and the Python fallback in tractor/psf.py
    lanczos_shift_image (lines 40-45).  Real numbers; rounding is not
    modelled. *)
From Coq Require Import Reals List Bool Lra Lia.
From Verif Require Import Base.
Import ListNotations.
Open Scope R_scope.

Definition rsum (l : list R) : R := fold_right Rplus 0 l.
(** val = 3 * sin(pi_x) * sin(pi_x / 3.0) / (pi_x*pi_x) with
    pi_x = M_PI * (i - 3.0 + dx); mp_fourier.i:381-382, 395-396 *)
Definition tap (i : nat) (dx : R) : R :=
  let pi_x := PI * (INR i - 3 + dx) in 3 * sin pi_x * sin (pi_x / 3) / (pi_x * pi_x).
(** lanczos_filter_3, mp_fourier.i:355-402 *)
Definition c_filter (dx : R) : res (list R) :=
  if Rlt_dec dx (- (1/2)) then Err AssertionError else
  if Rlt_dec (1/2) dx then Err AssertionError else
  if Req_EM_T dx 0 then Ok [0; 0; 0; 1; 0; 0; 0]
  else if Rlt_dec 0 dx then
    let vals := map (fun i => tap i dx) (seq 0 6) in
    Ok (map (fun v => v / rsum vals) vals ++ [0])
  else
    let vals := map (fun i => tap i dx) (seq 1 6) in
    Ok (0 :: map (fun v => v / rsum vals) vals).

(** astrometry.util.miscutils.lanczos_filter(3, x), from its documentation. *)
Definition lanczos3 (x : R) : R :=
  if Req_EM_T x 0 then 1
  else if Rlt_dec (Rabs x) 3 then 3 * sin (PI * x) * sin (PI * x / 3) / ((PI * x) * (PI * x))
  else 0.
(** Lx = lanczos_filter(L, np.arange(-L, L+1) + dx); Lx /= Lx.sum();
    psf.py:40-45 *)
Definition py_filter (dx : R) : list R :=
  let vals := map (fun i => lanczos3 (INR i - 3 + dx)) (seq 0 7) in
  map (fun v => v / rsum vals) vals.
