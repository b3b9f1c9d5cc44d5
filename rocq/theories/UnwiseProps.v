(** C98: unWISE images show the requested part of the coadd, and tiles that
    overlap an image are found (wise/unwise.py). *)
From Coq Require Import String List ZArith QArith Reals Bool Lia Lra.
From Verif Require Import Base RoiModel RoiProps SdssImgModel SdssImgProps UnwiseModel.
Import ListNotations.
Local Open Scope Z_scope.
Local Open Scope list_scope.

(** ** Vocabulary *)

(** The directory has all files of the tile, images of [h] rows and [w]
    columns: image, inverse variance, counts, counts without masking. *)
Record complete (d : dir) (mu : bool) (h w : nat) (img iv n nu : arr) : Prop := {
  c_img : d_img d mu = Some img; c_iv : either (d_iv d mu) = Some iv;
  c_n : either (d_n d mu) = Some n; c_nu : either (d_n d false) = Some nu;
  s_img : shape img h w; s_iv : shape iv h w; s_n : shape n h w; s_nu : shape nu h w;
  c_h : (0 < h)%nat; c_w : (0 < w)%nat }.
(** The directory lacks one of them. *)
Definition lacks (mu : bool) (d : dir) : Prop :=
  d_img d mu = None \/ either (d_iv d mu) = None \/ either (d_n d mu) = None \/ either (d_n d false) = None.

(** [u] shows the region: pixel for pixel the files' values; the weight is the
    inverse variance (a quarter of it in band 4) where there are exposures,
    else zero; positions are where they are in the full image, moved by the
    corner of the region. *)
Definition shows_coadd (d : dir) (band : nat) (r : region) (img iv n nu : arr) (u : image) : Prop :=
  let '(x0, x1, y0, y1) := r in
  let h := Z.to_nat (y1 - y0) in let w := Z.to_nat (x1 - x0) in
  u_roi u = r /\ shape (u_img u) h w /\ shape (u_iv u) h w /\ shape (u_n u) h w /\ shape (u_nu u) h w /\
  (forall i j, (i < h)%nat -> (j < w)%nat ->
    let at_ a := pix a (Z.to_nat y0 + i) (Z.to_nat x0 + j) in
    pix (u_img u) i j = at_ img /\ pix (u_n u) i j = at_ n /\ pix (u_nu u) i j = at_ nu /\
    exists v k, at_ iv = Some v /\ at_ n = Some k /\
      ((0 < k)%R -> pix (u_iv u) i j = Some (if (band =? 4)%nat then v / 4 else v)%R) /\
      (~ (0 < k)%R -> pix (u_iv u) i j = Some 0%R)) /\
  (forall p, fst (u_to_pix u p) == fst (d_to_pix d p) - inject_Z x0 /\ snd (u_to_pix u p) == snd (d_to_pix d p) - inject_Z y0)%Q.

(** ** Lemmas *)
Lemma map2_length {A B C} (f : A -> B -> C) : forall l m, length l = length m -> length (map2 f l m) = length l.
Proof. induction l; destruct m; cbn; intros; try discriminate; auto. Qed.
Lemma map2_nth {A B C} (f : A -> B -> C) : forall l m i,
  nth_error (map2 f l m) i = match nth_error l i, nth_error m i with Some a, Some b => Some (f a b) | _, _ => None end.
Proof.
  induction l as [|a l IH]; intros [|b m] [|i]; cbn; auto.
  - destruct (nth_error l i); auto.
Qed.
Lemma same_shape_ok a n h w : shape a h w -> shape n h w -> same_shape a n = true.
Proof.
  intros (A1 & A2) (N1 & N2). unfold same_shape. rewrite A1, N1, Nat.eqb_refl. cbn [andb]. apply forallb_forall.
  intros [u v] I. apply in_combine_l in I as I1. apply in_combine_r in I as I2. rewrite Forall_forall in *.
  cbn [fst snd]. rewrite (A2 _ I1), (N2 _ I2). apply Nat.eqb_refl.
Qed.
Lemma row_of a h w i : shape a h w -> (i < h)%nat -> exists r, nth_error a i = Some r /\ length r = w.
Proof.
  intros (A1 & A2) L. destruct (nth_error a i) as [r|] eqn:E; [|apply nth_error_None in E; lia].
  exists r. split; auto. rewrite Forall_forall in A2. apply A2. eapply nth_error_In, E.
Qed.
Lemma shape_map g a h w : shape a h w -> shape (map (map g) a) h w.
Proof.
  intros (A1 & A2). split; [now rewrite map_length|]. rewrite Forall_forall in *. intros r I. apply in_map_iff in I.
  destruct I as (r' & <- & I). rewrite map_length. auto.
Qed.
Lemma pix_map g a i j : pix (map (map g) a) i j = option_map g (pix a i j).
Proof. unfold pix. rewrite nth_error_map. destruct (nth_error a i); cbn; auto. now rewrite nth_error_map. Qed.
Lemma shape_blank a n h w : shape a h w -> shape n h w -> shape (blank a n) h w.
Proof.
  intros (A1 & A2) (N1 & N2). unfold blank. split; [rewrite map2_length; congruence|]. rewrite Forall_forall in *. intros r I.
  apply In_nth_error in I. destruct I as (k & E). rewrite map2_nth in E.
  destruct (nth_error a k) as [ra|] eqn:EA; [|discriminate]. destruct (nth_error n k) as [rn|] eqn:EN; [|discriminate].
  injection E as <-. apply nth_error_In in EA, EN. rewrite map2_length; rewrite ?(A2 _ EA), ?(N2 _ EN); auto.
Qed.
Lemma pix_blank a n i j :
  pix (blank a n) i j = match pix a i j, pix n i j with Some v, Some k => Some (if positive k then v else 0%R) | _, _ => None end.
Proof.
  unfold pix, blank. rewrite map2_nth. destruct (nth_error a i) as [ra|]; [|reflexivity].
  destruct (nth_error n i) as [rn|]; [|destruct (nth_error ra j); auto]. now rewrite map2_nth.
Qed.
Lemma pix_get a h w i j : shape a h w -> (i < h)%nat -> (j < w)%nat -> exists v, pix a i j = Some v.
Proof. intros S I J. apply (pix_some a h w S). auto. Qed.

Section Img.
Context (median : list R -> option R).
Lemma finish_ok d mu h w img iv n nu band name x0 x1 y0 y1 : complete d mu h w img iv n nu -> inside (x0, x1, y0, y1) h w ->
  exists u, finish median d band name (x0, x1, y0, y1) (slice2 (x0, x1, y0, y1) img) iv n nu = Ok u /\
    shows_coadd d band (x0, x1, y0, y1) img iv n nu u /\
    u_band u = match name with Some s => s | None => "w" ++ digit band end%string /\ u_psf u = band /\
    u_mjd u = option_map (fun p => (fst p + snd p) / 2)%R (d_mjd d) /\
    u_sig1 u = option_map (fun m => / sqrt m)%R (median (chosen (u_iv u) (u_n u))).
Proof.
  intros [] (X & XW & Y & YH). set (r := (x0, x1, y0, y1)).
  set (h' := Z.to_nat (y1 - y0)). set (w' := Z.to_nat (x1 - x0)).
  assert (CUT : forall a, shape a h w -> shape (slice2 r a) h' w') by (intros a Sa; apply (shape_slice2 a h w); auto; lia).
  assert (PIX : forall a i j, shape a h w -> (i < h')%nat -> (j < w')%nat -> pix (slice2 r a) i j = pix a (Z.to_nat y0 + i) (Z.to_nat x0 + j)).
  { intros a i j Sa I J. apply (pix_slice2 a h w); auto; lia. }
  unfold finish. fold r.
  set (iv' := if (band =? 4)%nat then _ else _).
  assert (SI : shape iv' h' w') by (unfold iv'; destruct (band =? 4)%nat; [apply shape_map|]; apply CUT; auto).
  rewrite (same_shape_ok iv' (slice2 r n) h' w') by auto. cbn [negb]. cbv zeta. eexists. split; [reflexivity|].
  split; [|cbn; split; [reflexivity|]; split; [reflexivity|]; split; [try (destruct (d_mjd d) as [[]|]); reflexivity|try destruct (median _); reflexivity]].
  unfold shows_coadd. fold r h' w'. cbn [u_roi u_img u_iv u_n u_nu u_to_pix fst snd].
  split; [reflexivity|]. split; [auto|]. split; [apply shape_blank; auto|]. split; [auto|]. split; [auto|].
  split; [|intros; split; reflexivity].
  intros i j I J. cbv zeta. rewrite !PIX by auto. split; [reflexivity|]. split; [reflexivity|]. split; [reflexivity|].
  destruct (pix_get iv h w (Z.to_nat y0 + i) (Z.to_nat x0 + j)) as (v & Ev); auto; [unfold h' in I; lia|unfold w' in J; lia|].
  destruct (pix_get n h w (Z.to_nat y0 + i) (Z.to_nat x0 + j)) as (k & Ek); auto; [unfold h' in I; lia|unfold w' in J; lia|].
  exists v, k. split; [auto|]. split; [auto|].
  rewrite pix_blank, PIX by auto. rewrite Ek.
  assert (EI : pix iv' i j = Some (if (band =? 4)%nat then v / 4 else v)%R).
  { unfold iv'. destruct (band =? 4)%nat; [rewrite pix_map|]; rewrite PIX, Ev by auto; reflexivity. }
  rewrite EI. unfold positive. destruct (Rlt_dec 0 k); split; intros; auto; contradiction.
Qed.

Lemma get_ok d mu h w img iv n nu band name roi rs rb r flag post : complete d mu h w img iv n nu -> inside r h w ->
  interpret_roi (d_to_pix d) (Z.of_nat h) (Z.of_nat w) roi rs rb = Some (r, flag) ->
  get_image median (d :: post) band name mu roi rs rb
  = (u <- finish median d band name r (slice2 r img) iv n nu ;; Ok (Some u)).
Proof.
  intros C I E. destruct C. cbn [get_image]. rewrite c_img0. destruct (shape_width img h w) as [-> ->]; auto.
  rewrite E. rewrite c_iv0, c_n0, c_nu0. reflexivity.
Qed.
Lemma get_skip d mu band name roi rs rb post : lacks mu d -> (rs = None /\ rb = None) ->
  get_image median (d :: post) band name mu roi rs rb = get_image median post band name mu roi rs rb.
Proof.
  intros L [-> ->]. cbn [get_image]. destruct (d_img d mu) as [img|] eqn:E; auto.
  assert (G : exists r f, interpret_roi (d_to_pix d) (height img) (width img) roi None None = Some (r, f)).
  { unfold interpret_roi. destruct roi as [[[[a b] c] e]|]; eauto. }
  destruct G as (r & f & ->). destruct L as [L|[L|[L|L]]]; try congruence; rewrite L; auto;
    destruct (either (d_iv d mu)); auto; destruct (either (d_n d mu)); auto.
Qed.

(** ** C98_region: an explicit region, or the whole tile, from the first
    directory that has all files. *)
Theorem C98_region : forall pre d post mu h w img iv n nu band name r,
  Forall (lacks mu) pre -> complete d mu h w img iv n nu -> inside r h w ->
  exists u, get_image median (pre ++ d :: post) band name mu (Some r) None None = Ok (Some u) /\
    shows_coadd d band r img iv n nu u /\
    u_band u = match name with Some s => s | None => "w" ++ digit band end%string /\ u_psf u = band.
Proof.
  intros pre d post mu h w img iv n nu band name r L C I. induction L as [|e pre L1 L IH].
  - cbn [app]. destruct (interpret_explicit (d_to_pix d) (Z.of_nat h) (Z.of_nat w) r) as (flag & E & _).
    rewrite (get_ok d mu h w img iv n nu band name (Some r) None None r flag post C I E).
    destruct r as [[[x0 x1] y0] y1]. destruct (finish_ok d mu h w img iv n nu band name x0 x1 y0 y1 C I) as (u & -> & S1 & S2 & S3 & _).
    exists u. auto.
  - cbn [app]. rewrite get_skip; auto.
Qed.
Theorem C98_whole : forall pre d post mu h w img iv n nu band name,
  Forall (lacks mu) pre -> complete d mu h w img iv n nu ->
  exists u, get_image median (pre ++ d :: post) band name mu None None None = Ok (Some u) /\
    shows_coadd d band (0, Z.of_nat w, 0, Z.of_nat h) img iv n nu u.
Proof.
  intros pre d post mu h w img iv n nu band name L C. assert (I : inside (0, Z.of_nat w, 0, Z.of_nat h) h w) by (destruct C; cbn; lia).
  induction L as [|e pre L1 L IH].
  - cbn [app]. rewrite (get_ok d mu h w img iv n nu band name None None None _ _ post C I (C41_default _ _ _)).
    destruct (finish_ok d mu h w img iv n nu band name _ _ _ _ C I) as (u & -> & S1 & _). exists u. auto.
  - cbn [app]. rewrite get_skip; auto.
Qed.
(** No directory has all files: IOError. *)
Theorem C98_missing : forall dirs mu band name roi, Forall (lacks mu) dirs ->
  get_image median dirs band name mu roi None None = Err RuntimeError.
Proof. intros dirs mu band name roi L. induction L as [|d dirs L1 L IH]; auto. rewrite get_skip; auto. Qed.

(** ** C98_around: a region by position and half-size.  None exactly if the
    tile has no pixel in it; else its pixels in the tile, with the position at
    most half a pixel from the middle one. *)
Theorem C98_around : forall d post mu h w img iv n nu band name roi ra dec sz, complete d mu h w img iv n nu -> 0 <= sz ->
  let xc := np_round (fst (d_to_pix d (ra, dec))) in
  let yc := np_round (snd (d_to_pix d (ra, dec))) in
  (get_image median (d :: post) band name mu roi (Some (ra, dec, sz)) None = Ok None /\
   forall x y, 0 <= x < Z.of_nat w -> 0 <= y < Z.of_nat h -> ~ (xc - sz <= x <= xc + sz /\ yc - sz <= y <= yc + sz)) \/
  (exists x0 x1 y0 y1 u, get_image median (d :: post) band name mu roi (Some (ra, dec, sz)) None = Ok (Some u) /\
   shows_coadd d band (x0, x1, y0, y1) img iv n nu u /\
   (forall x, x0 <= x < x1 <-> 0 <= x < Z.of_nat w /\ xc - sz <= x <= xc + sz) /\
   (forall y, y0 <= y < y1 <-> 0 <= y < Z.of_nat h /\ yc - sz <= y <= yc + sz)).
Proof.
  intros d post mu h w img iv n nu band name roi ra dec sz C SZ xc yc.
  pose proof (C41_around_position (d_to_pix d) (Z.of_nat h) (Z.of_nat w) ra dec sz roi ltac:(lia) ltac:(lia) SZ) as G. cbv zeta in G. fold xc yc in G.
  destruct (interpret_roi (d_to_pix d) (Z.of_nat h) (Z.of_nat w) roi (Some (ra, dec, sz)) None) as [[[[[x0 x1] y0] y1] flag]|] eqn:E.
  - right. destruct G as [G _]. unfold is_intersection in G. destruct G as (G1 & G2 & G3 & G4 & G5 & G6).
    assert (I : inside (x0, x1, y0, y1) h w) by (cbn; lia).
    destruct (finish_ok d mu h w img iv n nu band name _ _ _ _ C I) as (u & F & S1 & _).
    exists x0, x1, y0, y1, u. rewrite (get_ok d mu h w img iv n nu band name _ _ _ _ _ post C I E), F. auto.
  - left. split.
    + cbn [get_image]. rewrite (c_img _ _ _ _ _ _ _ _ C). destruct (shape_width img h w) as [-> ->]; [apply C|apply C|]. rewrite E. reflexivity.
    + intros x y HX HY [K1 K2]. exact (G x y HX HY K1 K2).
Qed.

(** ** C98_noise: sig1 is one over the root of the median weight of the pixels
    with exposures, taken row by row. *)
Definition exposed (u : image) (h w : nat) : list R :=
  flat_map (fun i => flat_map (fun j => match pix (u_n u) i j, pix (u_iv u) i j with
    | Some k, Some v => if Rlt_dec 0 k then [v] else [] | _, _ => [] end) (seq 0 w)) (seq 0 h).
Lemma keep_row (k v : list R) : length k = length v ->
  keep (map positive k) v = flat_map (fun j => match nth_error k j, nth_error v j with
    | Some k, Some v => if Rlt_dec 0 k then [v] else [] | _, _ => [] end) (seq 0 (length v)).
Proof.
  revert k. induction v as [|v vs IH]; intros [|k ks] L; cbn in L; try discriminate; auto.
  cbn [map length seq flat_map nth_error]. rewrite <- seq_shift, flat_map_concat_map, map_map, <- flat_map_concat_map. cbn [nth_error].
  rewrite <- IH by lia. unfold positive at 1. destruct (Rlt_dec 0 k); reflexivity.
Qed.
Lemma chosen_rows : forall (a n : arr) h w, shape a h w -> shape n h w ->
  chosen a n = flat_map (fun i => flat_map (fun j => match pix n i j, pix a i j with
    | Some k, Some v => if Rlt_dec 0 k then [v] else [] | _, _ => [] end) (seq 0 w)) (seq 0 h).
Proof.
  induction a as [|ra a IH]; intros [|rn n] h w (A1 & A2) (N1 & N2); cbn in A1, N1; try (subst; discriminate); [subst; reflexivity|].
  subst h. inversion A2 as [|? ? A3 A4]; subst. inversion N2 as [|? ? N3 N4]; subst.
  cbn [seq flat_map]. rewrite <- seq_shift, (flat_map_concat_map _ (map S _)), map_map, <- flat_map_concat_map.
  unfold chosen. cbn [map2 concat]. f_equal.
  - rewrite keep_row by auto. reflexivity.
  - apply (IH n (length a) (length ra)); split; auto.
Qed.
Theorem C98_noise : forall pre d post mu h w img iv n nu band name x0 x1 y0 y1,
  Forall (lacks mu) pre -> complete d mu h w img iv n nu -> inside (x0, x1, y0, y1) h w ->
  exists u, get_image median (pre ++ d :: post) band name mu (Some (x0, x1, y0, y1)) None None = Ok (Some u) /\
    u_sig1 u = option_map (fun m => / sqrt m)%R (median (exposed u (Z.to_nat (y1 - y0)) (Z.to_nat (x1 - x0)))).
Proof.
  intros pre d post mu h w img iv n nu band name x0 x1 y0 y1 L C I. induction L as [|e pre L1 L IH].
  - cbn [app]. destruct (interpret_explicit (d_to_pix d) (Z.of_nat h) (Z.of_nat w) (x0, x1, y0, y1)) as (flag & E & _).
    rewrite (get_ok d mu h w img iv n nu band name (Some (x0, x1, y0, y1)) None None (x0, x1, y0, y1) flag post C I E).
    destruct (finish_ok d mu h w img iv n nu band name x0 x1 y0 y1 C I) as (u & -> & S1 & _ & _ & _ & S4).
    exists u. split; [reflexivity|]. rewrite S4. do 2 f_equal. destruct S1 as (_ & _ & T1 & T2 & _). now apply chosen_rows.
  - cbn [app]. rewrite get_skip; auto.
Qed.
(** The time of the image is the middle of its exposures. *)
Theorem C98_time : forall d post mu h w img iv n nu band name r a b,
  complete d mu h w img iv n nu -> inside r h w -> d_mjd d = Some (a, b) ->
  exists u, get_image median (d :: post) band name mu (Some r) None None = Ok (Some u) /\ u_mjd u = Some ((a + b) / 2)%R.
Proof.
  intros d post mu h w img iv n nu band name [[[x0 x1] y0] y1] a b C I M.
  destruct (interpret_explicit (d_to_pix d) (Z.of_nat h) (Z.of_nat w) (x0, x1, y0, y1)) as (flag & E & _).
  rewrite (get_ok d mu h w img iv n nu band name _ None None _ flag post C I E).
  destruct (finish_ok d mu h w img iv n nu band name x0 x1 y0 y1 C I) as (u & -> & _ & _ & _ & S3 & _).
  exists u. split; [reflexivity|]. rewrite S3, M. reflexivity.
Qed.
End Img.

(** A directory without inverse variances, then one with all files, band 4,
    two rows of three pixels, one of them without exposures. *)
Definition empty_dir : dir := mkDir (fun _ => Some [[1%R]]) (fun p => p) None (fun _ _ => None) (fun _ _ => None).
Definition small_dir : dir := mkDir (fun _ => Some [[1; 2; 3]; [4; 5; 6]]%R) (fun p => p) (Some (10, 20)%R)
  (fun _ gz => if gz then None else Some [[8; 8; 8]; [8; 12; 16]]%R) (fun _ _ => Some [[1; 1; 1]; [1; 0; 2]]%R).
Lemma small_complete : complete small_dir true 2 3 [[1; 2; 3]; [4; 5; 6]]%R [[8; 8; 8]; [8; 12; 16]]%R [[1; 1; 1]; [1; 0; 2]]%R [[1; 1; 1]; [1; 0; 2]]%R.
Proof. constructor; cbn; auto; try lia; split; auto. Qed.
Example C98_ex : Forall (lacks true) [empty_dir] /\ inside (1, 3, 1, 2) 2 3 /\
  exists u, get_image (fun l => nth_error l 0) [empty_dir; small_dir] 4 None true (Some (1, 3, 1, 2)) None None = Ok (Some u) /\
    u_img u = [[5; 6]]%R /\ u_iv u = [[0; 16 * / 4]]%R /\ u_band u = "w4"%string.
Proof.
  split; [repeat constructor; right; left; reflexivity|]. split; [cbn; lia|].
  eexists. split; [reflexivity|]. split; [reflexivity|]. split; [|reflexivity].
  transitivity (blank [[12 * / 4; 16 * / 4]] [[0; 2]])%R; [reflexivity|].
  unfold blank, positive. cbn [map2]. destruct (Rlt_dec 0 0); [lra|]. destruct (Rlt_dec 0 2); [|lra]. reflexivity.
Qed.
(** Without exposures in the region there is no noise level (NaN). *)
Example C98_no_exposures_ex : exists u, get_image (fun l => nth_error l 0) [small_dir] 1 None true (Some (1, 2, 1, 2)) None None = Ok (Some u) /\ u_sig1 u = None.
Proof.
  eexists. split; [reflexivity|].
  transitivity (match nth_error (chosen (blank [[12]] [[0]]) [[0]]) 0 with Some m => Some (/ sqrt m) | None => None end)%R; [reflexivity|].
  unfold chosen, positive. cbn [map2 map keep concat app blank]. destruct (Rlt_dec 0 0); [lra|]. reflexivity.
Qed.

(** ** Tiles *)
Section Tiles.
Local Open Scope R_scope.
(** [tile_radius] is the distance of the corners of a tile from its centre in
    the tangent plane: all of the tile is at most that far. *)
Definition tile_offset (x y : R) : R := let p := plane (tile_wcs 2048 2048 2.75) x y in sqrt (fst p * fst p + snd p * snd p).
Theorem C98_tile_size : forall x y, 1 / 2 <= x <= 2048 + 1 / 2 -> 1 / 2 <= y <= 2048 + 1 / 2 -> tile_offset x y <= tile_radius.
Proof.
  intros x y X Y. unfold tile_offset, plane, tile_wcs, tile_radius. cbn [fst snd].
  replace (sqrt 2 / 2 * 2048 * 2.75 / 3600) with (sqrt 2 * (1024 * 2.75 / 3600)) by lra.
  rewrite <- (sqrt_square (1024 * 2.75 / 3600)) by lra. rewrite <- sqrt_mult by lra. apply sqrt_le_1_alt.
  set (dx := x - (2048 + 1) / 2). set (dy := y - (2048 + 1) / 2).
  assert (DX : dx * dx <= 1024 * 1024) by (unfold dx; nra). assert (DY : dy * dy <= 1024 * 1024) by (unfold dy; nra).
  replace (- (2.75) / 3600 * dx * (- (2.75) / 3600 * dx) + 2.75 / 3600 * dy * (2.75 / 3600 * dy))
    with ((dx * dx + dy * dy) * ((2.75 / 3600) * (2.75 / 3600))) by lra.
  replace (2 * (1024 * 2.75 / 3600 * (1024 * 2.75 / 3600))) with ((1024 * 1024 + 1024 * 1024) * ((2.75 / 3600) * (2.75 / 3600))) by lra.
  apply Rmult_le_compat_r; lra.
Qed.
Theorem C98_tile_size_tight : tile_offset (1 / 2) (1 / 2) = tile_radius.
Proof.
  unfold tile_offset, plane, tile_wcs, tile_radius. cbn [fst snd].
  replace (sqrt 2 / 2 * 2048 * 2.75 / 3600) with (sqrt 2 * (1024 * 2.75 / 3600)) by lra.
  rewrite <- (sqrt_square (1024 * 2.75 / 3600)) by lra. rewrite <- sqrt_mult by lra. f_equal. lra.
Qed.

Context (dist : R * R -> R * R -> R) (meets : R * R -> bool).
(** Distances on the sky: a metric in which declinations differ by no more. *)
Context (dist_sym : forall p q, dist p q = dist q p) (dist_tri : forall p q r, dist p r <= dist p q + dist q r)
        (dist_dec : forall p q, Rabs (snd p - snd q) <= dist p q).
(** ** C98_tiles: a tile that has a pixel inside the circle around the image
    is found, and with outlines compared if these meet; all tiles found are of
    the atlas, in its order.  A pixel is at most as far from the centre of its
    tile as in the tangent plane. *)
Theorem C98_tiles : forall atlas centre radius t p x y, In t atlas ->
  1 / 2 <= x <= 2048 + 1 / 2 -> 1 / 2 <= y <= 2048 + 1 / 2 -> dist p t <= tile_offset x y -> dist p centre < radius ->
  (exists l, touching dist meets atlas centre radius false = Ok l /\ In t l) /\
  (meets t = true -> exists l, touching dist meets atlas centre radius true = Ok l /\ In t l).
Proof.
  intros atlas centre radius t p x y HI X Y D1 D2. pose proof (C98_tile_size x y X Y) as TS.
  assert (D : dist t centre < radius + tile_radius) by (pose proof (dist_tri t p centre); rewrite (dist_sym t p) in *; lra).
  assert (K : close dist centre (radius + tile_radius) t = true).
  { unfold close, lt_b. pose proof (dist_dec t centre). destruct (Rlt_dec (Rabs _) _); [|lra]. destruct (Rlt_dec (dist t centre) _); [reflexivity|lra]. }
  assert (IN : In t (filter (close dist centre (radius + tile_radius)) atlas)) by (apply filter_In; auto).
  split.
  - eexists. split; [reflexivity|]. exact IN.
  - intros M. unfold touching. cbn [negb]. assert (IM : In t (filter meets (filter (close dist centre (radius + tile_radius)) atlas))) by (apply filter_In; auto).
    destruct (filter meets _) as [|a l]; [destruct IM|]. exists (a :: l). auto.
Qed.
Theorem C98_tiles_sound : forall atlas centre radius polygons l, touching dist meets atlas centre radius polygons = Ok l ->
  (exists f, l = filter f atlas) /\ (polygons = true -> l <> [] /\ Forall (fun t => meets t = true) l) /\
  Forall (fun t => dist t centre < radius + tile_radius) l.
Proof.
  intros atlas centre radius polygons l E. unfold touching in E.
  set (t := filter (close dist centre (radius + tile_radius)) atlas) in E.
  assert (HT : Forall (fun t => dist t centre < radius + tile_radius) t).
  { apply Forall_forall. intros q Hq. apply filter_In in Hq. destruct Hq as [_ Hq]. unfold close, lt_b in Hq.
    destruct (Rlt_dec (Rabs _) _); [|discriminate]. destruct (Rlt_dec (dist q centre) _); [auto|discriminate]. }
  destruct polygons; cbn [negb] in E.
  - assert (l = filter meets t /\ l <> []) as [-> N] by (destruct (filter meets t); [discriminate|]; injection E as <-; split; [auto|discriminate]).
    split; [|split].
    + exists (fun q => close dist centre (radius + tile_radius) q && meets q). unfold t.
      clear. induction atlas as [|q l IH]; cbn; auto. destruct (close _ _ _ q); cbn; [|auto]. destruct (meets q); [f_equal|]; auto.
    + intros _. split; auto. apply Forall_forall. intros q Hq. now apply filter_In in Hq.
    + rewrite Forall_forall in *. intros q Hq. apply filter_In in Hq. apply HT, Hq.
  - injection E as <-. split; [eexists; reflexivity|]. split; [discriminate|auto].
Qed.
(** Where no tile meets the image: IndexError rather than an empty table. *)
Theorem C98_no_tile_refuted : forall atlas centre radius, (forall t, In t atlas -> meets t = false) ->
  touching dist meets atlas centre radius true = Err IndexError.
Proof.
  intros atlas centre radius H. unfold touching. cbn [negb].
  assert (filter meets (filter (close dist centre (radius + tile_radius)) atlas) = []) as ->; auto.
  induction atlas as [|q l IH]; cbn; auto. destruct (close _ _ _ q); cbn; [rewrite (H q) by now left|]; apply IH; intros; apply H; now right.
Qed.
End Tiles.
(** A small sky (flat, distances along RA and Dec added) with two tiles. *)
Example C98_tiles_ex : let dist p q := (Rabs (fst p - fst q) + Rabs (snd p - snd q))%R in
  (forall p q : R * R, dist p q = dist q p) /\ (forall p q r, dist p r <= dist p q + dist q r)%R /\
  (forall p q, Rabs (snd p - snd q) <= dist p q)%R /\
  dist (10, 0)%R (10, 0)%R = 0%R /\ (0 <= tile_offset 1 1)%R.
Proof.
  cbv zeta. repeat split.
  - intros. rewrite (Rabs_minus_sym (fst p)), (Rabs_minus_sym (snd p)). reflexivity.
  - intros. pose proof (Rabs_triang (fst p - fst q) (fst q - fst r)). pose proof (Rabs_triang (snd p - snd q) (snd q - snd r)).
    replace (fst p - fst q + (fst q - fst r))%R with (fst p - fst r)%R in * by ring.
    replace (snd p - snd q + (snd q - snd r))%R with (snd p - snd r)%R in * by ring. lra.
  - intros. pose proof (Rabs_pos (fst p - fst q)). lra.
  - cbn. rewrite !Rminus_diag_eq, Rabs_R0 by reflexivity. lra.
  - apply sqrt_pos.
Qed.

Print Assumptions C98_region.
Print Assumptions C98_whole.
Print Assumptions C98_missing.
Print Assumptions C98_around.
Print Assumptions C98_noise.
Print Assumptions C98_time.
Print Assumptions C98_tile_size.
Print Assumptions C98_tile_size_tight.
Print Assumptions C98_tiles.
Print Assumptions C98_tiles_sound.
Print Assumptions C98_no_tile_refuted.
