(** Update direction of the GPU optimizer: tractor/gpu_optimizer.py
    gpu_one_source_update (lines 467-811).

    Numbers are reals (float32 rounding and the isfinite assertion are left out).
    np.linalg.lstsq is a parameter, and so is np.unique.  Bands are numbers.
    Stamps are those of GpuModel (point sources) and GpuMixModel (galaxies),
    after [placed].  Frames are pH x pW; matrices are functions of row and
    column, with DenseModel's writes.  The fall-back to fresh frames (lines
    517-536) is C68's. *)
From Coq Require Import List ZArith Reals Bool Lia.
From Verif Require Import Base PatchModel GpuModel DenseModel GalPatchModel GpuMixModel.
Import ListNotations.
Open Scope nat_scope.

(** Lines 558-585: the stamp moved within its frame of [W] pixels a side. *)
Definition placed (W dx dy : Z) (g : arr R) : res (arr R) :=
  let '(xo, xi) := slices dx W in
  let '(yo, yi) := slices dy W in
  aupd (fun _ v => v) (mkArr W W (fun _ _ => 0%R)) yo xo (asub g yi xi).

(** What is used of the source: number of position parameters, names of the
    (thawed) brightness parameters, number of shape derivatives, number of all
    its parameters; per image its counts, the inverse CD matrix (00, 01, 10, 11),
    the step of each shape derivative and the stamps (0: current; k+1: k-th
    derivative) by row and column. *)
Record gsrc : Type := mkGsrc {
  s_npos : nat; s_bands : list nat; s_nshapes : nat; s_nparams : nat; s_counts : nat -> R;
  s_cdi : nat -> R * R * R * R; s_steps : nat -> nat -> R; s_stamp : nat -> nat -> nat -> nat -> R }.
(** The surface-brightness source: band names, counts and pixel scale. *)
Record gsb : Type := mkGsb { b_bands : list nat; b_counts : nat -> R; b_scale : nat -> R }.

Section Lsq.
Variables (pH pW : nat).
Variable uniq : list nat -> list nat.
Variable lstsq : nat -> list (list R) -> list R -> list R.
(** Per image: band, pixels, inverse errors. *)
Variable tim_bands : list nat.
Variables (padpix padie : nat -> nat -> nat -> R).
Variable src : option gsrc.
Variable sb : option gsb.

Definition nimages : nat := length tim_bands.
Definition npix : nat := nimages * (pH * pW).
(** The element of a raveled (Nimages, pH, pW) array. *)
Definition flat (f : nat -> nat -> nat -> R) (k : nat) : R := f (k / (pH * pW)) (k mod (pH * pW) / pW) (k mod pW).

Definition npos : nat := match src with Some s => s_npos s | None => 0 end.
Definition src_bands : list nat := match src with Some s => s_bands s | None => [] end.
Definition sb_bands : list nat := match sb with Some b => b_bands b | None => [] end.
Definition nshapes : nat := match src with Some s => s_nshapes s | None => 0 end.
Definition ubands : list nat := uniq tim_bands.
(** Nbands after line 641, and Nsb. *)
Definition nbands : nat := match src with Some _ => length ubands | None => 0 end.
Definition nsb : nat := match sb with Some _ => length ubands | None => 0 end.
Definition ncols : nat := npos + nbands + nshapes + nsb.
Fixpoint index_of (b : nat) (l : list nat) : option nat :=
  match l with [] => None | a :: r => if a =? b then Some 0 else option_map S (index_of b r) end.
(** tim_band_index[i] *)
Definition band_col (i : nat) : nat := match index_of (nth i tim_bands 0) ubands with Some c => c | None => 0 end.

(** param_indices, lines 652-674: (source index, matrix column). *)
Definition band_pairs (s0 c0 : nat) (bs : list nat) : list (nat * nat) :=
  flat_map (fun ib => match index_of (snd ib) ubands with Some c => [(s0 + fst ib, c0 + c)] | None => [] end) (enum bs).
Definition param_indices : list (nat * nat) :=
  (if npos =? 0 then [] else [(0, 0); (1, 1)])
  ++ band_pairs npos npos src_bands
  ++ map (fun i => (npos + length src_bands + i, npos + nbands + i)) (seq 0 nshapes)
  ++ band_pairs (npos + length src_bands + nshapes) (npos + nbands + nshapes) sb_bands.
(** dict(pairs)[k] *)
Definition dict_get (d : list (nat * nat)) (k : nat) : res nat :=
  match find (fun p => fst p =? k) (rev d) with Some p => Ok (snd p) | None => Err KeyError end.
Definition src_to_fit : list (nat * nat) := param_indices.
Definition fit_to_src : list (nat * nat) := map (fun p => (snd p, fst p)) param_indices.

(** dx and dy of the current stamp, lines 697-717. *)
Definition inner (y x : nat) : bool := (1 <=? y) && (y <? pH - 1) && (1 <=? x) && (x <? pW - 1).
Definition ddx (g : nat -> nat -> R) (y x : nat) : R := if inner y x then ((g y (x - 1)%nat - g y (x + 1)%nat) / 2)%R else 0%R.
Definition ddy (g : nat -> nat -> R) (y x : nat) : R := if inner y x then ((g (y - 1)%nat x - g (y + 1)%nat x) / 2)%R else 0%R.

Definition zero_mat : nat -> nat -> R := fun _ _ => 0%R.
(** The columns of A in the order they are written, lines 696-758. *)
Definition write_pos (s : gsrc) (A : nat -> nat -> R) : nat -> nat -> R :=
  if s_npos s =? 0 then A else
  let col (pick : R * R * R * R -> R * R) := flat (fun i y x =>
    let '(cx, cy) := pick (s_cdi s i) in
    (s_counts s i * (ddx (s_stamp s i 0%nat) y x * cx + ddy (s_stamp s i 0%nat) y x * cy) * padie i y x)%R) in
  let A := set_block A 0 npix 0 (col (fun m => let '(a, b, c, d) := m in (a, c))) in
  set_block A 0 npix 1 (col (fun m => let '(a, b, c, d) := m in (b, d))).
Definition write_flux (s : gsrc) (A : nat -> nat -> R) : nat -> nat -> R :=
  fold_left (fun A i => set_block A (i * (pH * pW)) (pH * pW) (npos + band_col i)
      (fun k => (s_stamp s i 0%nat (k / pW)%nat (k mod pW)%nat * padie i (k / pW)%nat (k mod pW)%nat)%R)) (seq 0 nimages) A.
Definition write_shapes (s : gsrc) (A : nat -> nat -> R) : nat -> nat -> R :=
  fold_left (fun A j => set_block A 0 npix (npos + nbands + j) (flat (fun i y x =>
      (s_counts s i * (s_stamp s i (j + 1)%nat y x - s_stamp s i 0%nat y x) / s_steps s i j * padie i y x)%R))) (seq 0 nshapes) A.
Definition write_sb (b : gsb) (A : nat -> nat -> R) : nat -> nat -> R :=
  fold_left (fun A i => set_block A (i * (pH * pW)) (pH * pW) (npos + nbands + nshapes + band_col i)
      (fun k => (b_scale b i ^ 2 * padie i (k / pW)%nat (k mod pW)%nat)%R)) (seq 0 nimages) A.
Definition pixel_A : nat -> nat -> R :=
  let A := match src with Some s => write_shapes s (write_flux s (write_pos s zero_mat)) | None => zero_mat end in
  match sb with Some b => write_sb b A | None => A end.
(** B, lines 760-768. *)
Definition pixel_B : nat -> R :=
  let m i y x :=
    match src, sb with
    | Some s, Some b => (s_counts s i * s_stamp s i 0%nat y x + b_counts b i * b_scale b i ^ 2)%R
    | None, Some b => (b_counts b i * b_scale b i ^ 2)%R
    | Some s, None => (s_counts s i * s_stamp s i 0%nat y x)%R
    | None, None => 0%R
    end in
  set_vec (fun _ => 0%R) 0 npix (flat (fun i y x => ((padpix i y x - m i y x) * padie i y x)%R)).

(** Priors, lines 770-779; the column is looked up anew for every row. *)
Fixpoint prior_term (col : nat) (rvb : list (nat * R * R)) (A : nat -> nat -> R) (B : nat -> R)
  : res ((nat -> nat -> R) * (nat -> R)) :=
  match rvb with
  | [] => Ok (A, B)
  | (r, v, x) :: rest =>
      col <- dict_get src_to_fit col ;;
      prior_term col rest (set1 A (npix + r) col v) (setf B (npix + r) (B (npix + r)%nat + x)%R)
  end.
Fixpoint prior_terms (ts : list (@term R)) (A : nat -> nat -> R) (B : nat -> R) : res ((nat -> nat -> R) * (nat -> R)) :=
  match ts with
  | [] => Ok (A, B)
  | t :: r =>
      '(A, B) <- prior_term (t_col t) (combine (combine (t_rows t) (t_vals t)) (t_b t)) A B ;;
      prior_terms r A B
  end.

Fixpoint mapR {A B} (f : A -> res B) (l : list A) : res (list B) :=
  match l with [] => Ok [] | a :: r => b <- f a ;; bs <- mapR f r ;; Ok (b :: bs) end.

Record gsys : Type := mkGsys { q_cols : list nat; q_rows : list nat; q_A : nat -> nat -> R; q_B : nat -> R; q_scale : nat -> R; q_idx : list nat; q_nrows : nat }.
(** Up to the call of lstsq, lines 681-792; [None]: all derivatives are zero. *)
Definition system (pri : option (list (@term R))) : res (option gsys) :=
  if negb ((npos =? 0) || (npos =? 2)) then Err AssertionError else
  np <- npriors pri ;;
  let nrows := npix + np in
  '(A, B) <- match pri with None => Ok (pixel_A, pixel_B) | Some ts => prior_terms ts pixel_A pixel_B end ;;
  let scale c := sqrt (lsum 0%R Rplus (fun r => (A r c * A r c)%R) (seq 0 nrows)) in
  let cols := filter (fun c => negb (reqb (scale c) 0)) (seq 0 ncols) in
  if (length cols <? ncols) && (length cols =? 0) then Ok None else
  idx <- mapR (dict_get fit_to_src) cols ;;
  let rows := filter (fun r => existsb (fun c => negb (reqb (A r c) 0)) cols) (seq 0 nrows) in
  Ok (Some (mkGsys cols rows A B scale idx nrows)).
(** Nout, line 796. *)
Definition nout : nat := (match src with Some s => s_nparams s | None => 0 end) + length sb_bands.
(** sX[I] = X *)
Definition scatter (n : nat) (idx : list nat) (xs : list R) : res (list R) :=
  if forallb (fun k => k <? n) idx then Ok (expand 0%R n idx xs) else Err IndexError.
(** The update, lines 789-801. *)
Definition gpu_update (pri : option (list (@term R))) : res (option (list R)) :=
  o <- system pri ;;
  match o with
  | None => Ok None
  | Some q =>
      let rowA r := map (fun c => (q_A q r c / q_scale q c)%R) (q_cols q) in
      let X := lstsq (length (q_cols q)) (map rowA (q_rows q)) (map (q_B q) (q_rows q)) in
      let X := map (fun xc => (fst xc / q_scale q (snd xc))%R) (combine X (q_cols q)) in
      sX <- scatter nout (q_idx q) X ;;
      Ok (Some sX)
  end.
(** The matrix returned with get_A, lines 802-811: A is written to a copy
    (sA[goodrows,:] is a new array), so sA stays zero; scales and B are kept. *)
Definition gpu_matrix (pri : option (list (@term R))) : res (option ((nat -> nat -> R) * list R)) :=
  o <- system pri ;;
  match o with
  | None => Ok None
  | Some q => sc <- scatter nout (q_idx q) (map (q_scale q) (q_cols q)) ;; Ok (Some (zero_mat, sc))
  end.
End Lsq.
