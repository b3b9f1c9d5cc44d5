(** Forced photometry of unWISE tiles: wise/forcedphot.py unwise_forcedphot
    (lines 18-309); the magnitudes by brightness.py NanoMaggies.nanomaggiesToMag.
    Real numbers (the conversions to float32 and to int16 are not modelled).
    Arrays of indices made by flatnonzero are the masks they come from.  An image
    of a tile is given by what is asked of it: the pixel of each source, its
    distance from the centre of the tile, the counts of exposures, the dates, and
    the forced photometry with it, a function of the list of sources.  Options for
    plots, saved images and models, broadened and pixelized PSFs are not modelled. *)
From Coq Require Import String List ZArith Reals Bool.
From Verif Require Import Base.
Import ListNotations.
Local Open Scope R_scope.
Local Open Scope list_scope.

Definition le_b (a b : R) : bool := if Rle_dec a b then true else false.
Definition lt_b (a b : R) : bool := if Rlt_dec a b then true else false.
(** np.round: to even at halves *)
Definition np_round (x : R) : Z :=
  let f := Int_part x in
  if Rlt_dec (x - IZR f) (/ 2) then f
  else if Rlt_dec (/ 2) (x - IZR f) then (f + 1)%Z
  else if Z.even f then f else (f + 1)%Z.
Definition zclip (i lo hi : Z) : Z := Z.min (Z.max i lo) hi.
Fixpoint map2 {A B C} (f : A -> B -> C) (l : list A) (m : list B) : list C :=
  match l, m with a :: l, b :: m => f a b :: map2 f l m | _, _ => [] end.
(** a[mask] = v, elementwise *)
Fixpoint assign {A} (cut : list bool) (l v : list A) : list A :=
  match cut, l with
  | true :: cut, x :: l => match v with y :: v => y :: assign cut l v | [] => x :: l end
  | false :: cut, x :: l => x :: assign cut l v
  | _, _ => l
  end.

Section Wise.
Context (src stat : Type) (flux : src -> R) (copy : src -> src) (no_stat : stat).

Record tim : Type := mkTim {
  t_id : string; t_w : Z; t_h : Z;
  t_x : nat -> R; t_y : nat -> R;                 (* 0-indexed pixel of each source *)
  t_dist : nat -> R;                              (* from the tile centre *)
  t_nuims : Z -> Z -> Z;
  t_mjd : option (R * R);
  t_phot : list src -> res (list src * list R * option (list stat)) }.
Record st : Type := mkSt {
  s_cat : list src; s_dist : list R; s_iv : list R; s_stat : list stat;
  s_nexp : list Z; s_mjd : list R; s_tile : list string }.

(** Lines 137-138 *)
Definition within (t : tim) (i : nat) : bool :=
  le_b (-10) (t_x t i) && lt_b (t_x t i) (IZR (t_w t) + 10) && le_b (-10) (t_y t i) && lt_b (t_y t i) (IZR (t_h t) + 10).
(** Lines 141-142 *)
Definition inbox (t : tim) (i : nat) : bool :=
  le_b (- / 2) (t_x t i) && lt_b (t_x t i) (IZR (t_w t) - / 2) && le_b (- / 2) (t_y t i) && lt_b (t_y t i) (IZR (t_h t) - / 2).
(** Lines 163-164 *)
Definition exposures (t : tim) (i : nat) : Z :=
  t_nuims t (zclip (np_round (t_y t i)) 0 (t_h t - 1)) (zclip (np_round (t_x t i)) 0 (t_w t - 1)).
(** One turn of the loop over tiles, lines 68-270; None where the tile does not
    overlap the region. *)
Definition tile_step (s : st) (t : option tim) : res st :=
  match t with
  | None => Ok s
  | Some t =>
    let ix := seq 0 (length (s_cat s)) in
    let ins := map (within t) ix in
    let closest := map2 (fun i d => within t i && lt_b (t_dist t i) d) ix (s_dist s) in
    let dist := assign closest (s_dist s) (map (t_dist t) (keep closest ix)) in
    let kept := map2 andb (map (inbox t) ix) closest in
    let n := count_true kept in
    if (n =? 0)%nat then Ok (mkSt (s_cat s) dist (s_iv s) (s_stat s) (s_nexp s) (s_mjd s) (s_tile s)) else
    let tile := assign kept (s_tile s) (map (fun _ => t_id t) (keep kept ix)) in
    let nexp := assign kept (s_nexp s) (map (exposures t) (keep kept ix)) in
    let margi := map2 (fun a b => a && negb b) ins kept in
    let sub := keep kept (s_cat s) ++ map copy (keep margi (s_cat s)) in
    '(sub', iv, fs) <- t_phot t sub ;;
    (* the kept sources are the objects of the catalogue *)
    let cat := assign kept (s_cat s) (firstn n sub') in
    let ivs := assign kept (s_iv s) (firstn n iv) in
    let mjd := match t_mjd t with
               | Some (a, b) => assign kept (s_mjd s) (map (fun _ => (a + b) / 2) (keep kept ix))
               | None => s_mjd s end in
    let st' := match fs with Some l => assign kept (s_stat s) (firstn n l) | None => s_stat s end in
    Ok (mkSt cat dist ivs st' nexp mjd tile)
  end.
Fixpoint tiles_run (s : st) (ts : list (option tim)) : res st :=
  match ts with [] => Ok s | t :: ts => s <- tile_step s t ;; tiles_run s ts end.
(** The arrays at the start of a band, lines 61-66; the catalogue and the tile
    names go on from band to band. *)
Definition band_start (cat : list src) (tile : list string) : st :=
  let z {A} (a : A) := map (fun _ => a) cat in
  mkSt cat (z (10 ^ 100)) (z 0) (z no_stat) (z 0%Z) (z 0) tile.
Definition log10 (x : R) : R := ln x / ln 10.
Definition nanomaggies_to_mag (f : R) : R := - (5 / 2) * (log10 f - 9).
(** A row of the table for a band, lines 275-302; None is NaN. *)
Record row : Type := mkRow { r_flux : R; r_iv : R; r_mag : option R; r_mag_err : option R; r_stat : stat; r_nexp : Z }.
Definition make_row (f iv : R) (x : stat) (n : Z) : row :=
  let f := if Req_EM_T iv 0 then 0 else f in
  let d := if lt_b 0 iv then 1 / sqrt iv else 0 in
  mkRow f iv (if lt_b 0 f then Some (nanomaggies_to_mag f) else None)
    (if lt_b 0 f && lt_b 0 iv then Some (Rabs ((- (5 / 2) / ln 10) * d / f)) else None) x n.
Definition rows (s : st) : list row :=
  map2 (fun fi xn => make_row (fst fi) (snd fi) (fst xn) (snd xn))
    (map2 pair (map flux (s_cat s)) (s_iv s)) (map2 pair (s_stat s) (s_nexp s)).
(** w?_mjd is only written if one is not zero, lines 304-305 *)
Definition mjd_column (s : st) : option (list R) :=
  if forallb (fun m => if Req_EM_T m 0 then true else false) (s_mjd s) then None else Some (s_mjd s).
(** The loop over bands, lines 55-305: the images of the tiles in each. *)
Fixpoint bands_run (cat : list src) (tile : list string) (bs : list (list (option tim))) : res (list src * list string * list (list row * option (list R))) :=
  match bs with
  | [] => Ok (cat, tile, [])
  | b :: bs =>
    s <- tiles_run (band_start cat tile) b ;;
    '(cat, tile, out) <- bands_run (s_cat s) (s_tile s) bs ;;
    Ok (cat, tile, (rows s, mjd_column s) :: out)
  end.
Definition unwise_forcedphot (cat : list src) (bs : list (list (option tim))) :=
  bands_run cat (map (fun _ => "        "%string) cat) bs.
End Wise.
