(** Fits of Gaussian mixtures by expectation maximisation: tractor/emfit.i
    em_fit_1d_samples_reg (lines 31-261), em_fit_2d_reg (279-543); tractor/emfit2.c
    em_fit_2d_reg2; tractor/psf.py GaussianMixturePSF.fromStamp (536-596) and
    tractor/fitpsf.py em_init_params (73-86).

    Numbers are reals.  Where C would store NaN the model ends in [Nans]; from
    there on every later step has only NaN in C, and the return value is 0.
    [Singular] is the return value -1, with the arrays as they are at that point.
    Arrays are lists of components; the order of summation is not kept (rounding
    left out).  Checks of array types and shapes are left out. *)
From Coq Require Import List ZArith Reals Bool Lia.
From Verif Require Import Base GalPatchModel GpuMixModel.
Import ListNotations.
Open Scope R_scope.

Inductive outcome (A : Type) : Type := Done (a : A) | Singular (a : A) | Nans.
Arguments Done {A}. Arguments Singular {A}. Arguments Nans {A}.
Definition rleb (x y : R) : bool := if Rle_dec x y then true else false.
(** for (step=0; step<steps; step++) *)
Fixpoint iterate {A} (f : A -> outcome A) (steps : nat) (a : A) : outcome A :=
  match steps with
  | O => Done a
  | S n => match f a with Done b => iterate f n b | Singular b => Singular b | Nans => Nans end
  end.
(** Z[i*K + k] after division by the sum, if that is not zero. *)
Definition znorm (z : list R) : list R :=
  let zsum := rsum (fun v => v) z in if reqb zsum 0 then z else map (fun v => v / zsum) z.

(** ** One dimension, emfit.i:31-261 *)
Record comp1 : Type := mkC1 { u_amp : R; u_mean : R; u_var : R }.
Section One.
Variable alpha : R.
Variable xs : list R.
Definition z1 (x : R) (c : comp1) : R :=
  let d := x - u_mean c in
  let mahal := 1 / u_var c * d * d in
  if rleb 100 mahal then 0 else u_amp c / sqrt (2 * PI * u_var c) * exp (- (1 / 2) * mahal).
Definition w1 (cs : list comp1) (k : nat) (x : R) : R := nth k (znorm (map (z1 x) cs)) 0.
(** Zero or negative variances make Z NaN wherever they are used, or else leave
    the component without weight. *)
Definition step1 (cs : list comp1) : outcome (list comp1) :=
  if existsb (fun c => rleb (u_var c) 0) cs then Nans else
  let wsum k := rsum (w1 cs k) xs in
  let ks := seq 0 (length cs) in
  if existsb (fun k => reqb (wsum k) 0 || reqb (wsum k + alpha) 0) ks then Nans else
  Done (map (fun k =>
    let mean := rsum (fun x => w1 cs k x * x) xs / wsum k in
    let var := (alpha + rsum (fun x => w1 cs k x * (x - mean) * (x - mean)) xs) / (wsum k + alpha) in
    mkC1 (wsum k / INR (length xs)) mean var) ks).
Definition fit1 (steps : nat) (cs : list comp1) : outcome (list comp1) := iterate step1 steps cs.
End One.

(** ** Images *)
Record pix : Type := mkPix { p_x : R; p_y : R; p_img : R }.
(** x0 + ix, y0 + iy, img[iy*NX + ix] *)
Definition pixels (x0 y0 : Z) (NX NY : nat) (img : nat -> R) : list pix :=
  flat_map (fun iy => map (fun ix => mkPix (IZR (x0 + Z.of_nat ix)) (IZR (y0 + Z.of_nat iy)) (img (iy * NX + ix)%nat)) (seq 0 NX)) (seq 0 NY).
(** amp, mean (2), var (2 x 2) *)
Record gcomp : Type := mkG { g_amp : R; g_mx : R; g_my : R; g_v0 : R; g_v1 : R; g_v2 : R; g_v3 : R }.
Definition tpd : R := (2 * PI) ^ 2.

(** ** em_fit_2d_reg, emfit.i:279-543 *)
Section Two.
Variable alpha : R.
Variable ps : list pix.
Definition det2 (c : gcomp) : R := g_v0 c * g_v3 c - g_v1 c * g_v2 c.
Definition dsq2 (c : gcomp) (p : pix) : R :=
  let dx := p_x p - g_mx c in
  let dy := p_y p - g_my c in
  g_v3 c / det2 c * dx * dx + - g_v1 c / det2 c * dx * dy + - g_v2 c / det2 c * dx * dy + g_v0 c / det2 c * dy * dy.
Definition z2 (p : pix) (c : gcomp) : R :=
  if rleb 100 (dsq2 c p) then 0 else g_amp c / sqrt (tpd * det2 c) * exp (- (1 / 2) * dsq2 c p).
Definition w2 (cs : list gcomp) (k : nat) (p : pix) : R := p_img p * nth k (znorm (map (z2 p) cs)) 0.
Definition step2 (cs : list gcomp) : outcome (list gcomp) :=
  if existsb (fun c => rleb (det2 c) 0) cs then Singular cs else
  let wsum k := rsum (w2 cs k) ps in
  let ks := seq 0 (length cs) in
  if existsb (fun k => reqb (wsum k) 0 || reqb (wsum k + alpha) 0) ks then Nans else
  Done (map (fun k =>
    let mx := rsum (fun p => w2 cs k p * p_x p) ps / wsum k in
    let my := rsum (fun p => w2 cs k p * p_y p) ps / wsum k in
    let v a f g := (a + rsum (fun p => w2 cs k p * f p * g p) ps) / (wsum k + alpha) in
    let dx p := p_x p - mx in
    let dy p := p_y p - my in
    mkG (wsum k) mx my (v alpha dx dx) (v 0 dx dy) (v 0 dy dx) (v alpha dy dy)) ks).
Definition fit2 (steps : nat) (cs : list gcomp) : outcome (list gcomp) := iterate step2 steps cs.
End Two.

(** ** em_fit_2d_reg2, emfit2.c *)
Section Sky.
Variables (alpha approx : R).
(** The pixels and NX*NY. *)
Variable ps : list pix.
Definition v12 (c : gcomp) : R := (g_v1 c + g_v2 c) / 2.
Definition det3 (c : gcomp) : R := g_v0 c * g_v3 c - v12 c * v12 c.
Definition dsq3 (c : gcomp) (p : pix) : R :=
  let dx := p_x p - g_mx c in
  let dy := p_y p - g_my c in
  g_v3 c / det3 c * dx * dx + -2 * v12 c / det3 c * dx * dy + g_v0 c / det3 c * dy * dy.
(** dsq >= maxD[k]; log of zero is minus infinity, log of a negative number NaN. *)
Definition far (c : gcomp) (p : pix) : bool :=
  rltb 0 approx && rleb (ln (approx * sqrt (tpd * det3 c)) / - (1 / 2)) (dsq3 c p).
Definition z3 (p : pix) (c : gcomp) : R :=
  if far c p then 0 else g_amp c / sqrt (tpd * det3 c) * exp (- (1 / 2) * dsq3 c p).
Definition zsum3 (cs : list gcomp) (p : pix) : R := rsum (fun v => v) (map (z3 p) cs).
(** What a pixel adds to skyamp, and wi. *)
Definition skyshare (psky : R) (cs : list gcomp) (p : pix) : R :=
  if rleb (p_img p) 0 then Rabs (p_img p)
  else if reqb (zsum3 cs p) 0 then p_img p
  else p_img p * (psky / (zsum3 cs p + psky)).
Definition w3 (psky : R) (cs : list gcomp) (k : nat) (p : pix) : R :=
  if rleb (p_img p) 0 then 0
  else if reqb (zsum3 cs p) 0 then 0
  else p_img p * nth k (map (z3 p) cs) 0 / (zsum3 cs p + psky).
Definition step3 (st : list gcomp * R) : outcome (list gcomp * R) :=
  let '(cs, psky) := st in
  if existsb (fun c => rleb (det3 c) 0) cs then Singular st else
  let amp k := rsum (w3 psky cs k) ps in
  let ks := seq 0 (length cs) in
  if existsb (fun k => reqb (amp k) 0 || reqb (amp k + alpha) 0) ks then Nans else
  Done (map (fun k =>
    let c := nth k cs (mkG 0 0 0 0 0 0 0) in
    let v a f g := (a + rsum (fun p => w3 psky cs k p * f p * g p) ps) / (amp k + alpha) in
    let dx p := p_x p - g_mx c in
    let dy p := p_y p - g_my c in
    mkG (amp k) (rsum (fun p => w3 psky cs k p * p_x p) ps / amp k) (rsum (fun p => w3 psky cs k p * p_y p) ps / amp k)
        (v alpha dx dx) (v 0 dx dy) (v 0 dx dy) (v alpha dy dy)) ks,
    rsum (skyshare psky cs) ps / INR (length ps)).
(** psky before the first step; without steps it is 0. *)
Definition first_sky (steps : nat) : R := match steps with O => 0 | S _ => 1 / 100 * rsum p_img ps / INR (length ps) end.
Definition fit3 (steps : nat) (cs : list gcomp) : outcome (list gcomp * R) := iterate step3 steps (cs, first_sky steps).
End Sky.

(** ** fromStamp without v2 and v3, psf.py:549-596 *)
(** em_init_params(N, None, None, None) *)
Definition init_params (N : nat) : list gcomp :=
  map (fun i => mkG (1 / INR N / rsum (fun _ => 1 / INR N) (seq 0 N)) 0 0 (INR (i + 1)) 0 0 (INR (i + 1))) (seq 0 N).
(** stamp /= stamp.sum(); np.maximum(stamp, 0) *)
Definition prepared (NX NY : nat) (stamp : nat -> R) : nat -> R :=
  let s := rsum stamp (seq 0 (NY * NX)) in fun i => Rmax (stamp i / s) 0.
(** The default origin -(n // 2).  The return value of the fit is ignored; [None]:
    NaN in the mixture. *)
Definition from_stamp (NX NY : nat) (stamp : nat -> R) (N : nat) (P0 : option (list gcomp)) (alpha : R) (steps : nat) : option (list gcomp) :=
  let cs := match P0 with Some cs => cs | None => init_params N end in
  let ps := pixels (- (Z.of_nat NX / 2)) (- (Z.of_nat NY / 2)) NX NY (prepared NX NY stamp) in
  match fit2 alpha ps steps cs with Done c => Some c | Singular c => Some c | Nans => None end.
