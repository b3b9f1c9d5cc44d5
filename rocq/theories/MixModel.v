(** Mixtures of Gaussians: tractor/mixture_profiles.py MixtureOfGaussians and
    gaussian_fourier_transform_zero_mean of tractor/mp_fourier.i, over the real
    numbers (rounding not modelled).  A mean is a function of the coordinate, a
    variance a function of two coordinates; only values below D matter.  The
    shapes of the arrays agree by construction, so the shape assertions of
    extend and __add__ hold. *)
From Coq Require Import List Reals Lra Lia Bool Arith.
From Verif Require Import Base.
Import ListNotations.
Open Scope R_scope.

Record comp : Type := mkComp { c_amp : R; c_mean : nat -> R; c_var : nat -> nat -> R }.
Record mog : Type := mkMog { mg_D : nat; mg_comps : list comp }.

(** np.sum over D coordinates, and over a list. *)
Fixpoint dsum (n : nat) (f : nat -> R) : R := match n with O => 0 | S n => dsum n f + f n end.
Definition lsum (l : list R) : R := fold_right Rplus 0 l.
Definition amps (m : mog) : list R := map c_amp (mg_comps m).

(** set_var with one variance per component, mixture_profiles.py:76-80; the
    other case (line 82) takes the matrices as they are. *)
Definition diag_var (v : R) : nat -> nat -> R := fun i j => if (i =? j)%nat then v else 0.
(** symmetrize, mixture_profiles.py:84-89, on one component: the two loops. *)
Definition set2 (v : nat -> nat -> R) (i j : nat) (x : R) : nat -> nat -> R :=
  fun a b => if ((a =? i) && (b =? j))%nat then x else v a b.
Fixpoint sym_inner (i j : nat) (v : nat -> nat -> R) : nat -> nat -> R :=
  match j with
  | O => v
  | S j' => let v := sym_inner i j' v in
            let t := 0.5 * (v i j' + v j' i) in set2 (set2 v i j' t) j' i t
  end.
Fixpoint sym_outer (n : nat) (v : nat -> nat -> R) : nat -> nat -> R :=
  match n with O => v | S i => sym_inner i i (sym_outer i v) end.
(** __init__ with quick=False, mixture_profiles.py:50-66 ([var] after
    set_var). *)
Definition mog_init (D : nat) (cs : list comp) : mog :=
  mkMog D (map (fun c => mkComp (c_amp c) (c_mean c) (sym_outer D (c_var c))) cs).

(** normalize, mixture_profiles.py:104-105. *)
Definition normalize (m : mog) : mog :=
  mkMog (mg_D m) (map (fun c => mkComp (c_amp c / lsum (amps m)) (c_mean c) (c_var c)) (mg_comps m)).
(** extend, mixture_profiles.py:107-115. *)
Definition extend (a b : mog) : res mog :=
  if (mg_D a =? mg_D b)%nat then Ok (mkMog (mg_D a) (mg_comps a ++ mg_comps b)) else Err AssertionError.
(** __add__, mixture_profiles.py:117-129. *)
Definition mog_add (a b : mog) : res mog := s <- extend a b ;; Ok (normalize s).
(** scale @ var @ scale.T. *)
Definition sandwich (D : nat) (s v : nat -> nat -> R) : nat -> nat -> R :=
  fun i j => dsum D (fun l => dsum D (fun k => s i k * v k l) * s j l).
(** apply_affine, mixture_profiles.py:131-144. *)
Definition apply_affine (m : mog) (shift : nat -> R) (scale : nat -> nat -> R) : mog :=
  mkMog (mg_D m) (map (fun c => mkComp (c_amp c) (fun i => c_mean c i + shift i)
                                  (sandwich (mg_D m) scale (c_var c))) (mg_comps m)).
(** apply_shear, mixture_profiles.py:146-155. *)
Definition apply_shear (m : mog) (scale : nat -> nat -> R) : mog :=
  mkMog (mg_D m) (map (fun c => mkComp (c_amp c) (c_mean c) (sandwich (mg_D m) scale (c_var c))) (mg_comps m)).
(** convolve, mixture_profiles.py:158-172: for each component of [other] a
    block with all components of [self]. *)
Definition conv1 (s o : comp) : comp :=
  mkComp (c_amp s * c_amp o) (fun i => c_mean s i + c_mean o i) (fun i j => c_var s i j + c_var o i j).
Definition convolve (a b : mog) : res mog :=
  if (mg_D a =? mg_D b)%nat
  then Ok (mkMog (mg_D a) (flat_map (fun o => map (fun s => conv1 s o) (mg_comps a)) (mg_comps b)))
  else Err AssertionError.

(** Complex numbers as pairs. *)
Definition cplx : Type := R * R.
Definition cadd (a b : cplx) : cplx := (fst a + fst b, snd a + snd b).
Definition cmul (a b : cplx) : cplx := (fst a * fst b - snd a * snd b, fst a * snd b + snd a * fst b).
Definition cscale (k : R) (a : cplx) : cplx := (k * fst a, k * snd a).
(** exp(-i t) *)
Definition phase (t : R) : cplx := (cos t, - sin t).

(** One component of getFourierTransform at frequencies (v, w),
    mixture_profiles.py:199-216. *)
Definition ft_comp (v w : R) (c : comp) : cplx :=
  let F := exp (- 2 * (PI * PI) * (c_var c 0%nat 0%nat * (v * v) + c_var c 1%nat 1%nat * (w * w)
                                   + 2 * c_var c 0%nat 1%nat * v * w)) in
  let F := if Req_EM_T (c_mean c 0%nat) 0 then
             if Req_EM_T (c_mean c 1%nat) 0 then (F, 0)
             else cscale F (phase (2 * PI * (c_mean c 0%nat * v + c_mean c 1%nat * w)))
           else cscale F (phase (2 * PI * (c_mean c 0%nat * v + c_mean c 1%nat * w))) in
  cscale (c_amp c) F.
(** The loop, mixture_profiles.py:196-218; no components: None. *)
Definition fourier (m : mog) (v w : R) : option cplx :=
  match mg_comps m with
  | [] => None
  | c :: r => Some (fold_left (fun acc c => cadd acc (ft_comp v w c)) r (ft_comp v w c))
  end.
(** gaussian_fourier_transform_zero_mean at one pair of frequencies,
    mp_fourier.i:451-476. *)
Definition fourier_zero_mean (m : mog) (v w : R) : R :=
  fold_left (fun sum c =>
    let a := c_var c 0%nat 0%nat in let b := c_var c 0%nat 1%nat in let d := c_var c 1%nat 1%nat in
    if Req_EM_T a 0 then
      if Req_EM_T b 0 then
        if Req_EM_T d 0 then sum + c_amp c
        else sum + c_amp c * exp (- 2 * PI * PI * (a * (v * v) + 2 * b * v * w + d * (w * w)))
      else sum + c_amp c * exp (- 2 * PI * PI * (a * (v * v) + 2 * b * v * w + d * (w * w)))
    else sum + c_amp c * exp (- 2 * PI * PI * (a * (v * v) + 2 * b * v * w + d * (w * w)))) (mg_comps m) 0.
