(** Padded frames of the GPU optimizer: tractor/gpu_optimizer.py
    get_image_params (lines 97-108), cache_image_params (113-131), the
    chi-squares of gpu_one_source_try_updates (184-431), gpu_setup_image_params
    (813-902), gpu_get_unitflux_psf (904-925), the PSF padding of
    get_vectorized_psfs (1121-1159), correlate7_2d_gpu (1212-1325) and
    gpu_one_source_models (1327-1425).

    The arrays over images and steps are lists.  Pixel values come from any
    type with operations; cupy and numpy are the same.  Positions enter as the
    rounded pixel and the remainder; the unit-flux stamp of a galaxy is an
    oracle; GpuMix*.v is about it.  Left out: the assertions about types of sky,
    PSF and calibration, float32 rounding, plots. *)
From Coq Require Import List ZArith Bool Lia.
From Verif Require Import Base PatchModel.
Import ListNotations.
Open Scope Z_scope.

Section Gpu.
Context {V D : Type} (zero : V) (add mul sub : V -> V -> V).
(** v > 0 *)
Variable pos : V -> bool.
(** lanczos_filter(3, np.arange(-3, 4) + mu), gpu_optimizer.py:1430-1438 *)
Variable filt : D -> list V.
Notation arr := (@arr V).
Definition zeros (h w : Z) : arr := mkArr h w (fun _ _ => zero).
Definition put (a : arr) (ys xs : sl) (b : arr) : res arr := aupd (fun _ v => v) a ys xs b.

(** tim.getImage(), tim.getInvError(), tim.getPsf().img *)
Record tim : Type := mkTim { t_pix : arr; t_ie : arr; t_psf : arr }.
(** A model mask's extent. *)
Record extent : Type := mkExtent { e_x0 : Z; e_x1 : Z; e_y0 : Z; e_y1 : Z }.
(** An image with its mask and the source's rounded position on it. *)
Record target : Type := mkTarget { g_tim : tim; g_ext : extent; g_ipx : Z; g_ipy : Z }.

(** margin + np.max([1+ipx-x0, 1+x1-ipx, 1+ipy-y0, 1+y1-ipy]), lines 105; the
    maximum of nothing is a ValueError. *)
Definition reach (g : target) : Z :=
  let e := g_ext g in
  Z.max (Z.max (1 + g_ipx g - e_x0 e) (1 + e_x1 e - g_ipx g)) (Z.max (1 + g_ipy g - e_y0 e) (1 + e_y1 e - g_ipy g)).
Definition halfsize (gs : list target) : res Z :=
  match gs with
  | [] => Err ValueError
  | g :: r => Ok (5 + fold_left Z.max (map reach r) (reach g))
  end.
(** 2**int(np.ceil(np.log2(halfsize * 2.))), line 1126 *)
Definition frame_size (hs : Z) : Z := 2 ^ Z.log2_up (2 * hs).

(** The PSF image centred in the frame, lines 1128-1159. *)
Definition psf_axis (c n W : Z) : Z * Z * Z :=
  let pc := n / 2 in
  if pc >=? c then (0, pc - c, Z.min n W) else (c - pc, 0, Z.min n W).
Definition pad_psf (W : Z) (img : arr) : res arr :=
  let c := W / 2 in
  let '(ox, ix, nx) := psf_axis c (aw img) W in
  let '(oy, iy, ny) := psf_axis c (ah img) W in
  put (zeros W W) (mkSl oy (oy + ny)) (mkSl ox (ox + nx)) (asub img (mkSl iy (iy + ny)) (mkSl ix (ix + nx))).

(** One axis of correlate7_2d_gpu, lines 1232-1269: the three leftmost and the
    three rightmost numbers with the taps that fall inside, the rest with all
    seven. *)
Definition total (l : list V) : V := fold_left add l zero.
Definition row7 (f : list V) (W : Z) (row : Z -> V) (x : Z) : V :=
  if (3 <=? x) && (x <? W - 3) then total (map (fun k => mul (row (x - 3 + Z.of_nat k)) (nth k f zero)) (seq 0 7))
  else if x <? 3 then
    total (map (fun i => mul (row (Z.of_nat i)) (nth (3 - Z.to_nat x + i) f zero)) (seq 0 (4 + Z.to_nat x)))
  else
    let j := W - 1 - x in
    total (map (fun i => mul (row (W - 4 - j + Z.of_nat i)) (nth i f zero)) (seq 0 (4 + Z.to_nat j))).
(** Below six pixels the shapes do not fit. *)
Definition correlate7_2d (a : arr) (fx fy : list V) : res arr :=
  if (aw a <? 6) || (ah a <? 6) then Err ValueError
  else
    let work := mkArr (ah a) (aw a) (fun y x => row7 fx (aw a) (fun x' => px a y x') x) in
    Ok (mkArr (ah a) (aw a) (fun y x => row7 fy (ah a) (fun y' => px work y' x) y)).
(** gpu_get_unitflux_psf for one image and one remainder. *)
Definition unit_psf (pad : arr) (mux muy : D) : res arr := correlate7_2d pad (filt mux) (filt muy).

(** One image of gpu_setup_image_params, lines 846-878. *)
Record frame : Type := mkFrame {
  f_pix : arr; f_ie : arr; f_psf : arr; f_ipx : Z; f_ipy : Z;
  f_mindx : Z; f_maxdx : Z; f_mindy : Z; f_maxdy : Z }.
Definition range (n : Z) (h : Z -> bool) : Z * Z :=
  match filter h (map Z.of_nat (seq 0 (Z.to_nat n))) with
  | [] => (- n, n)
  | a :: l => (last l a - n + 1, a)
  end.
Definition col_hot (a : arr) (x : Z) : bool := existsb (fun y => pos (px a (Z.of_nat y) x)) (seq 0 (Z.to_nat (ah a))).
Definition row_hot (a : arr) (y : Z) : bool := existsb (fun x => pos (px a y (Z.of_nat x))) (seq 0 (Z.to_nat (aw a))).
Definition setup_one (W : Z) (g : target) : res frame :=
  let e := g_ext g in
  let dx := W / 2 - g_ipx g in
  let dy := W / 2 - g_ipy g in
  let ys := mkSl (e_y0 e) (e_y1 e) in
  let xs := mkSl (e_x0 e) (e_x1 e) in
  let pys := mkSl (e_y0 e + dy) (e_y1 e + dy) in
  let pxs := mkSl (e_x0 e + dx) (e_x1 e + dx) in
  psf <- pad_psf W (t_psf (g_tim g)) ;;
  pix <- put (zeros W W) pys pxs (asub (t_pix (g_tim g)) ys xs) ;;
  ie <- put (zeros W W) pys pxs (asub (t_ie (g_tim g)) ys xs) ;;
  let '(mindx, maxdx) := range W (col_hot ie) in
  let '(mindy, maxdy) := range W (row_hot ie) in
  Ok (mkFrame pix ie psf (g_ipx g) (g_ipy g) mindx maxdx mindy maxdy).
Fixpoint mapM {A B} (f : A -> res B) (l : list A) : res (list B) :=
  match l with [] => Ok [] | a :: r => b <- f a ;; bs <- mapM f r ;; Ok (b :: bs) end.
Record params : Type := mkParams { ip_size : Z; ip_frames : list frame }.
(** get_image_params without a cache, lines 100-107. *)
Definition setup (gs : list target) : res params :=
  hs <- halfsize gs ;;
  let W := frame_size hs in
  frs <- mapM (setup_one W) gs ;;
  Ok (mkParams W frs).
(** get_image_params, lines 97-108: [st] is self.image_params. *)
Definition get_image_params (st : option params) (gs : list target) : res params :=
  match st with Some p => Ok p | None => setup gs end.
(** cache_image_params, lines 113-131, for at least one image; and
    clear_cached_image_params, line 111. *)
Definition cache_image_params (st : option params) (gs : list target) : res (option params) :=
  p <- get_image_params st gs ;; Ok (Some p).
Definition clear_cached (st : option params) : option params := None.

(** What is known about one image at one step: rounded position, counts of the
    source and of the surface brightness, unit-flux stamp. *)
Record cell : Type := mkCell { c_ix : Z; c_iy : Z; c_counts : V; c_sb : option V; c_unit : arr }.

(** The slices of lines 372-392: (frame, model). *)
Definition slices (d n : Z) : sl * sl :=
  if 0 <? d then (mkSl d n, mkSl 0 (- d))
  else if d =? 0 then (sl_all n, sl_all n)
  else (mkSl 0 d, mkSl (- d) n).
Definition amap2 (f : V -> V -> V) (a b : arr) : arr := mkArr (ah a) (aw a) (fun y x => f (px a y x) (px b y x)).
Definition amap (f : V -> V) (a : arr) : arr := mkArr (ah a) (aw a) (fun y x => f (px a y x)).
(** The chi image of one step, lines 319-404. *)
Definition chi (W : Z) (fr : frame) (c : cell) : res arr :=
  let dx := c_ix c - f_ipx fr in
  let dy := c_iy c - f_ipy fr in
  let mod_ := amap (fun v => mul v (c_counts c)) (c_unit c) in
  if (dx =? 0) && (dy =? 0) then
    let mod_ := match c_sb c with None => mod_ | Some s => amap (fun v => add v s) mod_ end in
    Ok (amap2 mul (amap2 sub (f_pix fr) mod_) (f_ie fr))
  else
    let work := match c_sb c with None => f_pix fr | Some s => amap (fun v => sub v s) (f_pix fr) end in
    let '(xp, xm) := slices dx W in
    let '(yp, ym) := slices dy W in
    work <- aupd sub work yp xp (asub mod_ ym xm) ;;
    Ok (amap2 mul work (f_ie fr)).
(** cp.sum over an array *)
Definition asum (a : arr) : V :=
  total (map (fun y => total (map (fun x => px a (Z.of_nat y) (Z.of_nat x)) (seq 0 (Z.to_nat (aw a))))) (seq 0 (Z.to_nat (ah a)))).
(** dchisqs[imod] for one image: 2. * sum(chi0 * dchi) + sum(dchi**2). *)
Definition dchi_one (W : Z) (fr : frame) (c0 c : cell) : res V :=
  chi0 <- chi W fr c0 ;;
  chik <- chi W fr c ;;
  let d := amap2 sub chik chi0 in
  let s := asum (amap2 mul chi0 d) in
  Ok (add (add s s) (asum (amap2 mul d d))).
Fixpoint dchi_images (W : Z) (frs : list frame) (c0 c : list cell) (s : V) : res V :=
  match frs, c0, c with
  | fr :: frs, a :: c0, b :: c => v <- dchi_one W fr a b ;; dchi_images W frs c0 c (add s v)
  | [], [], [] => Ok s
  | _, _, _ => Err ValueError
  end.
(** Has the position moved too far for the frame?  lines 269-273. *)
Definition off (d mn mx : Z) : bool := ((0 <? d) && (mx <? d)) || ((d <? 0) && (d <? mn)).
Definition clipped_one (fr : frame) (c : cell) : bool :=
  off (c_ix c - f_ipx fr) (f_mindx fr) (f_maxdx fr) || off (c_iy c - f_ipy fr) (f_mindy fr) (f_maxdy fr).
Definition clipped (frs : list frame) (grid : list (list cell)) : bool :=
  existsb (fun row => existsb (fun fc => clipped_one (fst fc) (snd fc)) (combine frs row)) grid.
Definition dchisqs_with (p : params) (grid : list (list cell)) : res (list V) :=
  match grid with
  | [] => Ok []
  | c0 :: r => l <- mapM (fun c => dchi_images (ip_size p) (ip_frames p) c0 c zero) r ;; Ok (zero :: l)
  end.
(** The chi-square changes of the steps; [cells p] the grid rendered for the
    frames [p]; lines 212-402. *)
Definition dchisqs (st : option params) (gs : list target) (cells : params -> res (list (list cell))) : res (list V) :=
  p <- get_image_params st gs ;;
  grid <- cells p ;;
  match st with
  | Some _ => if clipped (ip_frames p) grid
              then p <- get_image_params None gs ;; grid <- cells p ;; dchisqs_with p grid
              else dchisqs_with p grid
  | None => dchisqs_with p grid
  end.

(** The model patch of one image, gpu_one_source_models, lines 1400-1424. *)
Definition model_patch (W : Z) (fr : frame) (e : extent) (c : cell) : res (@patch V) :=
  let m := amap (fun v => mul v (c_counts c)) (c_unit c) in
  let padx0 := f_ipx fr - W / 2 in
  let pady0 := f_ipy fr - W / 2 in
  let dx := c_ix c - f_ipx fr in
  let dy := c_iy c - f_ipy fr in
  let mx0 := e_x0 e - padx0 - dx in
  let mx1 := e_x1 e - padx0 - dx in
  let my0 := e_y0 e - pady0 - dy in
  let my1 := e_y1 e - pady0 - dy in
  if (mx0 <? 0) || (my0 <? 0) || (mx1 >=? W) || (my1 >=? W) then
    let z := zeros (e_y1 e - e_y0 e) (e_x1 e - e_x0 e) in
    match get_overlapping_region mx0 (mx1 - 1) 0 (W - 1), get_overlapping_region my0 (my1 - 1) 0 (W - 1) with
    | Some (xi, xo), Some (yi, yo) =>
        m <- put z yo xo (asub m yi xi) ;; Ok (mkPatch (e_x0 e) (e_y0 e) (Some m))
    | _, _ => Ok (mkPatch (e_x0 e) (e_y0 e) (Some z))
    end
  else Ok (mkPatch (e_x0 e) (e_y0 e) (Some (asub m (mkSl my0 my1) (mkSl mx0 mx1)))).
(** The same for a point source: per image its pixel (ix, iy), remainder
    (mux, muy) and counts. *)
Record place : Type := mkPlace { q_ix : Z; q_iy : Z; q_mux : D; q_muy : D; q_counts : V }.
Fixpoint ps_models (W : Z) (frs : list frame) (gs : list target) (qs : list place) : res (list (@patch V)) :=
  match frs, gs, qs with
  | fr :: frs, g :: gs, q :: qs =>
      u <- unit_psf (f_psf fr) (q_mux q) (q_muy q) ;;
      p <- model_patch W fr (g_ext g) (mkCell (q_ix q) (q_iy q) (q_counts q) None u) ;;
      ps <- ps_models W frs gs qs ;;
      Ok (p :: ps)
  | [], [], [] => Ok []
  | _, _, _ => Err ValueError
  end.
Definition point_source_models (st : option params) (gs : list target) (qs : list place) : res (list (@patch V)) :=
  p <- get_image_params st gs ;; ps_models (ip_size p) (ip_frames p) gs qs.
End Gpu.
