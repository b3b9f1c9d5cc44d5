(** Galaxy stamps of the GPU optimizer: tractor/gpu_optimizer.py
    gpu_get_unitflux_galaxy_profiles (lines 927-1102) and the padding of PSF
    mixtures in get_vectorized_psfs (1106-1125).

    Numbers are reals.  The batch is a list of images, each a list of profiles
    (steps or derivatives), each a list of components; arrays padded to a common
    size are lists padded with components that are all zero.  The inverse
    transform of a spectrum times the transform of image i's PSF is an oracle
    [back i].  The final sub-pixel shift is GpuModel.correlate7_2d. *)
From Coq Require Import List ZArith Reals Bool Lia.
From Verif Require Import Base GalPatchModel.
Import ListNotations.

(** Amplitude and variance (00, 01, 11). *)
Record mcomp : Type := mkMcomp { m_amp : R; m_a : R; m_b : R; m_d : R }.
Definition mnull : mcomp := mkMcomp 0 0 0 0.
Definition reqb (x y : R) : bool := if Req_EM_T x y then true else false.

Section Mix.
Open Scope R_scope.
(** irfft2(Fsum * P[i]) at pixel (y, x); Fsum is a function of the frequencies
    (w, v). *)
Variable back : nat -> (R -> R -> R) -> Z -> Z -> R.
Variable pW pH : Z.
(** The PSF mixture of image i, before padding. *)
Variable psf_mog : nat -> list mcomp.

Definition pad_to (K : nat) (l : list mcomp) : list mcomp := l ++ repeat mnull (K - length l).
Definition maxlen {A} (ls : list (list A)) : nat := fold_right Nat.max 0%nat (map (@length A) ls).
(** Lines 943-963: mix_vars and mix_amps. *)
Definition kmax (mogs : list (list (list mcomp))) : nat := fold_right Nat.max 0%nat (map maxlen mogs).
Definition mixes (K N : nat) (row : list (list mcomp)) : list (list mcomp) :=
  map (pad_to K) row ++ repeat (repeat mnull K) (N - length row).

Definition vv (c : mcomp) : R := m_a c + m_d c.
Definition sz : R := IZR pW / 2.
(** IM and IF, lines 971-972; nsigma1 = 3, nsigma2 = 4. *)
Definition im (c : mcomp) : bool := rltb (sz * sz) (4 * 4 * vv c) && negb (reqb (m_amp c) 0).
Definition if_ (c : mcomp) : bool := rltb (3 * 3 * vv c) (sz * sz) && negb (reqb (m_amp c) 0).
(** Is the flag set anywhere in column k? *)
Definition column (f : mcomp -> bool) (grid : list (list (list mcomp))) (k : nat) : bool :=
  existsb (fun row => existsb (fun cs => f (nth k cs mnull)) row) grid.
(** Nmog and Nfft, lines 978-987. *)
Definition n_mog (K : nat) (grid : list (list (list mcomp))) : nat :=
  match filter (column im grid) (seq 0 K) with [] => 0 | k :: _ => K - k end.
Definition n_fft (K : nat) (grid : list (list (list mcomp))) : nat :=
  match filter (column if_ grid) (seq 0 K) with [] => 0 | k :: l => S (last l k) end.
(** [..., -Nmog:] and [..., :Nfft]; -0 is 0. *)
Definition back_part (K Nmog : nat) (cs : list mcomp) : list mcomp := if (Nmog =? 0)%nat then cs else skipn (K - Nmog) cs.
Definition front_part (Nfft : nat) (cs : list mcomp) : list mcomp := firstn Nfft cs.
Definition total_of (f : mcomp -> bool) (grid : list (list (list mcomp))) : nat :=
  length (filter f (concat (concat grid))).

(** np.clip(t, 0., 1.) *)
Definition clip01 (t : R) : R := Rmax 0 (Rmin 1 t).
Definition nsigmas (c : mcomp) : R := sz / Rmax (1 / 1000000) (sqrt (vv c)).
Definition ind (b : bool) : R := if b then 1 else 0.
(** Lines 1008-1016 *)
Definition wmog (c : mcomp) : R := clip01 ((4 - nsigmas c) / (4 - 3)) * ind (im c).
Definition wfft (c : mcomp) : R := clip01 ((nsigmas c - 3) / (4 - 3)) * ind (if_ c).
Definition weigh (w : mcomp -> R) (cs : list mcomp) : list mcomp :=
  map (fun c => mkMcomp (w c * m_amp c) (m_a c) (m_b c) (m_d c)) cs.

(** One term of Fsum, lines 1037-1042. *)
Definition spectrum (c : mcomp) (w v : R) : R :=
  exp (- 2 * PI ^ 2 * (m_a c * v ^ 2 + 2 * m_b c * (v * w) + m_d c * w ^ 2)).
Definition fsum (cs : list mcomp) : R -> R -> R :=
  fold_left (fun s c w v => s w v + m_amp c * spectrum c w v) cs (fun _ _ => 0).

(** Lines 1062-1091: the product of a component with a PSF component, its check
    and its value at offset (x, y) from the centre. *)
Definition cdet (c q : mcomp) : R := (m_a c + m_a q) * (m_d c + m_d q) - (m_b c + m_b q) ^ 2.
Definition det_ok (c q : mcomp) : bool :=
  rltb 0 (cdet c q) || (reqb (cdet c q) 0 && reqb (m_amp c * m_amp q) 0).
Definition gauss (c q : mcomp) (x y : R) : R :=
  let det := Rmax (cdet c q) (1 / 10 ^ 30) in
  let iv0 := (m_d c + m_d q) / det in
  let iv1 := - 2 * (m_b c + m_b q) / det in
  let iv2 := (m_a c + m_a q) / det in
  exp (- 0.5 * (iv0 * x ^ 2 + iv1 * (x * y) + iv2 * y ^ 2)) * ((m_amp c * m_amp q) / (2 * PI * sqrt det)).
Definition rsum {A} (f : A -> R) (l : list A) : R := fold_right (fun a s => f a + s) 0 l.
Definition mog_value (cs qs : list mcomp) (x y : R) : R := rsum (fun c => rsum (fun q => gauss c q x y) qs) cs.

(** One stamp of the batch; [None] for G = None. *)
Definition stamp (i Kp : nat) (Nmog Nfft : nat) (mcs fcs : list mcomp) (y x : Z) : R :=
  let cx := (pW / 2)%Z in
  let cy := (pH / 2)%Z in
  let g := if (0 <? Nfft)%nat then back i (fsum fcs) y x else 0 in
  if (0 <? Nmog)%nat then g + mog_value mcs (pad_to Kp (psf_mog i)) (IZR (x - cx)) (IZR (y - cy)) else g.

Definition parts (K Nmog Nfft : nat) (cs : list mcomp) : list mcomp * list mcomp :=
  let m := back_part K Nmog cs in
  let f := front_part Nfft cs in
  if (K <? Nmog + Nfft)%nat then (weigh wmog m, weigh wfft f) else (m, f).

(** The grid of stamps, images x profiles. *)
Definition enum {A} (l : list A) : list (nat * A) := combine (seq 0 (length l)) l.
Definition galaxy_profiles (mogs : list (list (list mcomp))) : res (list (list (Z -> Z -> R))) :=
  match mogs with
  | [] => Err ValueError
  | _ =>
    let N := maxlen mogs in
    let K := kmax mogs in
    let grid := map (mixes K N) mogs in
    let Nmog := n_mog K grid in
    let Nfft := n_fft K grid in
    if negb (total_of im grid =? total_of im (map (map (back_part K Nmog)) grid))%nat then Err AssertionError
    else if negb (total_of if_ grid =? total_of if_ (map (map (front_part Nfft)) grid))%nat then Err AssertionError
    else
      let Kp := fold_right Nat.max 0%nat (map (fun i => length (psf_mog i)) (seq 0 (length mogs))) in
      let split := map (map (parts K Nmog Nfft)) grid in
      if (0 <? Nmog)%nat && negb (forallb (fun ir => forallb (fun mf => forallb (fun c =>
            forallb (det_ok c) (pad_to Kp (psf_mog (fst ir)))) (fst mf)) (snd ir)) (enum split))
      then Err AssertionError
      else if (Nmog =? 0)%nat && (Nfft =? 0)%nat then Err AttributeError
      else Ok (map (fun ir => map (fun mf => stamp (fst ir) Kp Nmog Nfft (fst mf) (snd mf)) (snd ir)) (enum split))
  end.
End Mix.
