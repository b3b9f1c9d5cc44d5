(** Point-source stamps of Gaussian PSFs: GaussianMixturePSF.getPointSourcePatch
    (tractor/psf.py:458-528), NCircularGaussianPSF (psf.py:785-944) with the
    mixtures it shares through functools.lru_cache, the caller
    PointSource.getUnitFluxModelPatch (pointsource.py:103-125), and the
    evaluation of a mixture on a grid: mixture_profiles.py:268-283, 305-343,
    414-428, mix.i:82-135, 452-520, gauss_masked.c.

    Real numbers stand for floats (no rounding, no inf or nan: variances with
    positive determinant).  Python's distinction between int and float is kept,
    since numpy refuses a float as an array size.  The ring-growing evaluation
    for minval > 0 (Approx3Model.v) is an arbitrary function here. *)
From Coq Require Import List ZArith Bool Reals Lra Lia.
From Verif Require Import Base PatchModel GalPatchModel.
Import ListNotations.
Open Scope R_scope.

(** A component: amplitude, mean, 2 x 2 variance. *)
Record gcomp : Type := mkG { g_amp : R; g_mx : R; g_my : R; g_xx : R; g_xy : R; g_yx : R; g_yy : R }.

(** c_gauss_2d_grid, mix.i:483-508, one component at one pixel. *)
Definition grid_comp (c : gcomp) (x y : R) : R :=
  let det := g_xx c * g_yy c - g_xy c * g_yx c in
  let i0 := g_yy c / det in
  let i1 := - (g_xy c + g_yx c) / det in
  let i2 := g_xx c / det in
  let scale := g_amp c / sqrt ((2 * PI) ^ 2 * det) in
  let dx := x - g_mx c in
  let dy := y - g_my c in
  let dsq := i0 * dx * dx + i1 * dx * dy + i2 * dy * dy in
  if Rle_dec 100 dsq then 0 else scale * exp (- 0.5 * dsq).
Definition grid_val (m : list gcomp) (x y : R) : R := fold_left (fun r c => r + grid_comp c x y) m 0.

(** Numbers as Python has them. *)
Inductive num : Type := NI (z : Z) | NF (r : R).
Definition nval (a : num) : R := match a with NI z => IZR z | NF r => r end.
Definition nadd (a b : num) : num :=
  match a, b with NI x, NI y => NI (x + y) | _, _ => NF (nval a + nval b) end.
Definition nsub (a b : num) : num :=
  match a, b with NI x, NI y => NI (x - y) | _, _ => NF (nval a - nval b) end.
(** max(a, b) and min(a, b): the first of equal ones *)
Definition nmax (a b : num) : num := if Rlt_dec (nval a) (nval b) then b else a.
Definition nmin (a b : num) : num := if Rlt_dec (nval b) (nval a) then b else a.
Definition box : Type := num * num * num * num.  (* x0, x1, y0, y1 *)

(** A patch with data: corner and array. *)
Record gpatch : Type := mkGP { q_x0 : Z; q_y0 : Z; q_arr : arr R }.

(** np.zeros((y1 - y0, x1 - x0)): the corner and the size, or the exception.
    All four are ints if both differences are. *)
Definition alloc (b : box) : res (Z * Z * Z * Z) :=
  let '(x0, x1, y0, y1) := b in
  match nsub y1 y0, nsub x1 x0, x0, y0 with
  | NI h, NI w, NI x, NI y => if ((h <? 0) || (w <? 0))%Z then Err ValueError else Ok (x, y, w, h)
  | _, _, _, _ => Err TypeError
  end.
(** evaluate_grid_dstn, mixture_profiles.py:268-283. *)
Definition evaluate_grid (m : list gcomp) (b : box) (cx cy : R) : res gpatch :=
  '(x, y, w, h) <- alloc b ;;
  Ok (mkGP x y (mkArr h w (fun j i => grid_val m (IZR (x + i) - cx) (IZR (y + j) - cy)))).

(** *** gauss_masked.c *)
(** Lines 66-82: the scaled inverse; eval_all_dxy_f (mix.i:82-135), one
    component: value and derivatives; [None]: the component is skipped. *)
Definition masked_comp (c : gcomp) (x y : R) : option (R * R * R) :=
  let v1 := (g_xy c + g_yx c) * 0.5 in
  let det := g_xx c * g_yy c - v1 * v1 in
  let isc := - 0.5 / det in
  let i0 := g_yy c * isc in
  let i1 := - v1 * isc * 2 in
  let i2 := g_xx c * isc in
  let scale := g_amp c / sqrt ((2 * PI) ^ 2 * det) in
  if Req_EM_T scale 0 then None
  else
    let dx := x - g_mx c in
    let dy := y - g_my c in
    let dsq := i0 * dx * dx + i1 * dx * dy + i2 * dy * dy in
    if Rle_dec (- 30) dsq then
      let G := scale * exp dsq in
      Some (G, - G * (2 * i0 * dx + i1 * dy), - G * (2 * i2 * dy + i1 * dx))
    else None.
Definition masked_val (m : list gcomp) (x y : R) : R * R * R :=
  fold_left (fun r c => match masked_comp c x y with
                        | None => r
                        | Some (v, dx, dy) => let '(rv, rx, ry) := r in (rv + v, rx + dx, ry + dy)
                        end) m (0, 0, 0).
(** What the three arrays hold at pixel (j, i); pixels outside the mask are
    never written.  (If every scale is zero nothing is written, which is the
    same.) *)
Definition masked_px (m : list gcomp) (x0 y0 : Z) (mask : arr bool) (fx fy : R) (j i : Z) : R * R * R :=
  if px mask j i then masked_val m (IZR (x0 + i) - fx) (IZR (y0 + j) - fy) else (0, 0, 0).

Inductive gresult : Type := GNone | GOne (p : gpatch) | GThree (p dx dy : gpatch).
(** evaluate_grid_masked, mixture_profiles.py:305-343. *)
Definition evaluate_masked (m : list gcomp) (x0 y0 : Z) (mask : arr bool) (fx fy : R) (derivs : bool) : gresult :=
  let a g := mkGP x0 y0 (mkArr (ah mask) (aw mask) (fun j i => g (masked_px m x0 y0 mask fx fy j i))) in
  if derivs then GThree (a (fun t => fst (fst t))) (a (fun t => snd (fst t))) (a snd)
  else GOne (a (fun t => fst (fst t))).

(** A ModelMask (patch.py:3-57): box and perhaps pixels. *)
Record mask : Type := mkMask { k_x0 : Z; k_y0 : Z; k_w : Z; k_h : Z; k_px : option (arr bool) }.
Definition mask_box (k : mask) : box := (NI (k_x0 k), NI (k_x0 k + k_w k), NI (k_y0 k), NI (k_y0 k + k_h k)).

Section Psf.
(** evaluate_grid_approx3 (mixture_profiles.py:345-411) after its allocation:
    mixture, position and size of the box, offset, minval, derivs, doslice. *)
Variable approx : list gcomp -> Z * Z * Z * Z -> R * R -> R -> bool -> bool -> res gresult.
Variable rnd : R -> Z.  (* int(round(x)) *)

(** *** GaussianMixturePSF *)
(** get_extent, psf.py:475-488; [clip] is [xl, xh, yl, yh]. *)
Definition get_extent (x y rr : R) (clip : option (Z * Z * Z * Z)) : Z * Z * Z * Z :=
  let x0 := rfloor (x - rr) in let x1 := (rceil (x + rr) + 1)%Z in
  let y0 := rfloor (y - rr) in let y1 := (rceil (y + rr) + 1)%Z in
  match clip with
  | None => (x0, x1, y0, y1)
  | Some (xl, xh, yl, yh) => (Z.max x0 xl, Z.min x1 xh, Z.max y0 yl, Z.min y1 yh)
  end.
Definition ibox (e : Z * Z * Z * Z) : box := let '(x0, x1, y0, y1) := e in (NI x0, NI x1, NI y0, NI y1).
Definition empty (e : Z * Z * Z * Z) : bool := let '(x0, x1, y0, y1) := e in ((x0 >=? x1) || (y0 >=? y1))%Z.
(** The mixture and self.radius (25 unless set, psf.py:388; None not modelled). *)
Record gmpsf : Type := mkGm { gm_mog : list gcomp; gm_radius : R }.
(** getPointSourcePatch, psf.py:458-528, without further keyword arguments. *)
Definition gm_patch (p : gmpsf) (x y : R) (minval : option R) (radius : option R) (derivs : bool)
    (minradius : option Z) (k : option mask) (clip : option (Z * Z * Z * Z)) : res gresult :=
  match k with
  | Some k =>
      match k_px k with
      | None => g <- evaluate_grid (gm_mog p) (mask_box k) x y ;; Ok (GOne g)
      | Some m => Ok (evaluate_masked (gm_mog p) (k_x0 k) (k_y0 k) m x y derivs)
      end
  | None =>
      let minval := match minval with None => 0 | Some v => v end in
      let r := match radius with Some r => r | None => gm_radius p end in
      let e := get_extent x y r clip in
      if (if Rlt_dec 0 minval then true else match minradius with Some _ => true | None => false end)
      then
        if empty e then Ok GNone
        else b <- alloc (ibox e) ;; approx (gm_mog p) b (x, y) minval derivs true
      else
        if empty e then Ok GNone
        else g <- evaluate_grid (gm_mog p) (ibox e) x y ;; Ok (GOne g)
  end.

(** *** NCircularGaussianPSF *)
(** The arguments of getCircularMog: amplitudes and sigmas; the mixture it
    builds, psf.py:931-938. *)
Definition key : Type := list R * list R.
Definition circ_mog (k : key) : list gcomp :=
  map (fun ws => mkG (fst ws) 0 0 (snd ws ^ 2) 0 0 (snd ws ^ 2)) (combine (fst k) (snd k)).
Definition key_eq (a b : key) : {a = b} + {a <> b}.
Proof. repeat decide equality; apply Req_EM_T. Defined.
(** functools.lru_cache(maxsize=16): the shared mixture objects, the latest
    used first. *)
Definition lru : Type := list (key * list gcomp).
Definition lru_find (k : key) (c : lru) : option (list gcomp) :=
  match find (fun e => if key_eq (fst e) k then true else false) c with Some e => Some (snd e) | None => None end.
Definition lru_drop (k : key) (c : lru) : lru := filter (fun e => if key_eq (fst e) k then false else true) c.
Definition lru_get (k : key) (c : lru) : lru * list gcomp :=
  match lru_find k c with
  | Some m => ((k, m) :: lru_drop k c, m)
  | None => (firstn 16 ((k, circ_mog k) :: c), circ_mog k)
  end.
(** Assigning to the mean of the shared object. *)
Definition lru_put (k : key) (m : list gcomp) (c : lru) : lru := (k, m) :: lru_drop k c.
Definition move (dx dy : R) (m : list gcomp) : list gcomp :=
  map (fun c => mkG (g_amp c) (g_mx c + dx) (g_my c + dy) (g_xx c) (g_xy c) (g_yx c) (g_yy c)) m.

(** sigmas, weights, and the attribute radius if somebody has set it. *)
Record ncpsf : Type := mkNc { nc_sigmas : list R; nc_weights : list R; nc_radius : option R }.
Definition nc_key (p : ncpsf) : key := (nc_weights p, nc_sigmas p).
(** getRadius, psf.py:892-895; max of nothing is a ValueError. *)
Definition nc_get_radius (p : ncpsf) : res R :=
  match nc_radius p with
  | Some r => Ok r
  | None => match nc_sigmas p with
            | [] => Err ValueError
            | s :: l => Ok (Rmax 1 (fold_left Rmax l s * 5))
            end
  end.
(** The box, psf.py:900-918. *)
Definition nc_box (p : ncpsf) (x y : R) (radius : option num) (k : option mask) (clip : option (Z * Z * Z * Z)) : res box :=
  b <- match k with
       | Some k => Ok (mask_box k)
       | None =>
           let ix := NI (rnd x) in let iy := NI (rnd y) in
           rad <- match radius with
                  | None => r <- nc_get_radius p ;; Ok (NI (rceil r))
                  | Some r => Ok r
                  end ;;
           Ok (nsub ix rad, nadd (nadd ix rad) (NI 1), nsub iy rad, nadd (nadd iy rad) (NI 1))
       end ;;
  match clip with
  | None => Ok b
  | Some (xl, xh, yl, yh) =>
      let '(x0, x1, y0, y1) := b in
      Ok (nmax x0 (NI xl), nmin x1 (NI xh), nmax y0 (NI yl), nmin y1 (NI yh))
  end.
(** mixture_to_patch, mixture_profiles.py:414-428. *)
Definition mixture_to_patch (m : list gcomp) (b : box) (minval : option R) (exact_extent : bool) : res gresult :=
  match minval with
  | None => g <- evaluate_grid m b 0 0 ;; Ok (GOne g)
  | Some v =>
      if Req_EM_T v 0 then g <- evaluate_grid m b 0 0 ;; Ok (GOne g)
      else s <- alloc b ;; approx m s (0, 0) v false (negb exact_extent)
  end.
(** getPointSourcePatch, psf.py:897-929.  An exception leaves the moved mean in
    the shared object. *)
Record ncargs : Type := mkNcArgs { a_x : R; a_y : R; a_minval : option R; a_radius : option num;
  a_mask : option mask; a_clip : option (Z * Z * Z * Z) }.
Definition nc_patch (c : lru) (p : ncpsf) (a : ncargs) : lru * res gresult :=
  match nc_box p (a_x a) (a_y a) (a_radius a) (a_mask a) (a_clip a) with
  | Err e => (c, Err e)
  | Ok b =>
      let '(c, m) := lru_get (nc_key p) c in
      let m' := move (a_x a) (a_y a) m in
      let c := lru_put (nc_key p) m' c in
      match mixture_to_patch m' b (a_minval a) (match a_mask a with Some _ => true | None => false end) with
      | Err e => (c, Err e)
      | Ok r => (lru_put (nc_key p) m c, Ok r)
      end
  end.
(** A history of renderings by any PSFs. *)
Definition nc_run (h : list (ncpsf * ncargs)) : lru := fold_left (fun c pa => fst (nc_patch c (fst pa) (snd pa))) h [].

(** PointSource.getUnitFluxModelPatch, pointsource.py:103-125, on an image of
    width W and height H with this PSF. *)
Definition ps_patch (c : lru) (p : ncpsf) (W H : Z) (x y : R) (minval : option R) (fixed : option num) (k : option mask)
    : lru * res gresult :=
  match (match fixed with Some r => Ok (nval r) | None => nc_get_radius p end) with
  | Err e => (c, Err e)
  | Ok r =>
      if Rlt_dec (x + r) 0 then (c, Ok GNone)
      else if Rlt_dec (IZR W) (x - r) then (c, Ok GNone)
      else if Rlt_dec (y + r) 0 then (c, Ok GNone)
      else if Rlt_dec (IZR H) (y - r) then (c, Ok GNone)
      else nc_patch c p (mkNcArgs x y minval fixed k (match k with None => Some (0, W, 0, H)%Z | Some _ => None end))
  end.
End Psf.
