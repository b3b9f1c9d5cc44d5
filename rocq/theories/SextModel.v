(** Sources of a SourceExtractor model-fit catalogue:
    tractor/source_extractor.py get_se_modelfit_cat (7-65), with
    MultiBandBrightness.__init__ (tractor/brightness.py:35-56); and
    tractor/sdss_dr7.py _dr7_getBrightness (4-32).

    Real numbers stand for floats, None for NaN (all comparisons are false);
    infinities are left out.  Columns other than magnitudes and chi-squared
    values are real numbers.  Local variables that are assigned in one pass of
    the loop and read in a later one are part of the state. *)
From Coq Require Import String List Reals Bool.
From Verif Require Import Base MagsModel.
Import ListNotations.
Open Scope R_scope.

Definition num : Type := option R.
Definition lt (a b : num) : bool := match a, b with Some x, Some y => if Rlt_dec x y then true else false | _, _ => false end.
Definition le (a b : num) : bool := match a, b with Some x, Some y => if Rle_dec x y then true else false | _, _ => false end.
Definition nmap (f : R -> R) (a : num) : num := option_map f a.
Definition nop (f : R -> R -> R) (a b : num) : num := match a, b with Some x, Some y => Some (f x y) | _, _ => None end.

(** A row of the table. *)
Record srow : Type := mkRow {
  chi2_psf : num; chi2_model : num; mag_psf : num; mag_disk : num; mag_spheroid : num;
  ra : R; dec : R; alphamodel : R; deltamodel : R;
  spheroid_reff : R; spheroid_aspect : R; spheroid_theta : R;
  disk_scale : R; disk_aspect : R; disk_theta : R }.

(** GalaxyShape: re, ab, phi. *)
Definition gshape : Type := (R * R * R)%type.
(** A brightness: the bands in order with their values. *)
Definition nbright : Type := list (string * num).
Inductive source : Type :=
| PointS (pos : R * R) (b : nbright)
| DevS (pos : R * R) (b : nbright) (s : gshape)
| ExpS (pos : R * R) (b : nbright) (s : gshape)
| CompS (pos : R * R) (b : nbright) (fdev : num) (exp dev : gshape).

(** NanoMaggies(order=bands, **dict([(k, nm) for k in bands])),
    brightness.py:35-56: a band that comes twice is one key. *)
Definition memb (k : string) (l : list string) : bool := existsb (String.eqb k) l.
Fixpoint repeats (l : list string) : bool := match l with [] => false | k :: r => memb k r || repeats r end.
Definition same_in_all (bands : list string) (nm : num) : res nbright :=
  if memb "order" bands then Err TypeError
  else if repeats bands then Err AssertionError
  else Ok (map (fun k => (k, nm)) bands).

Definition unbound {A} (o : option A) : res A := match o with Some a => Ok a | None => Err UnboundLocalError end.

(** The local variables shape_dev and shape_exp. *)
Definition locals : Type := (option gshape * option gshape)%type.
(** The body of the loop, lines 11-62: the locals afterwards and the source, if
    any. *)
Definition one_row (maglim : num) (bands : list string) (t : srow) (v : locals) : res (locals * option source) :=
  if lt (chi2_psf t) (chi2_model t) && le (mag_psf t) maglim then
    m <- same_in_all bands (nmap mag_to_nanomaggies (mag_psf t)) ;;
    Ok (v, Some (PointS (ra t, dec t) m))
  else if lt maglim (mag_disk t) && lt maglim (mag_spheroid t) then Ok (v, None)
  else
    let dmag := mag_spheroid t in
    let emag := mag_disk t in
    let shape_dev := if le dmag maglim then Some (spheroid_reff t * 3600, spheroid_aspect t, spheroid_theta t + 90) else fst v in
    let shape_exp := if le emag maglim then Some (disk_scale t * 1.68 * 3600, disk_aspect t, disk_theta t + 90) else snd v in
    let v := (shape_dev, shape_exp) in
    let pos := (alphamodel t, deltamodel t) in
    if lt maglim emag && le dmag maglim then
      m <- same_in_all bands (nmap mag_to_nanomaggies dmag) ;; s <- unbound shape_dev ;; Ok (v, Some (DevS pos m s))
    else if le emag maglim && lt maglim dmag then
      m <- same_in_all bands (nmap mag_to_nanomaggies emag) ;; s <- unbound shape_exp ;; Ok (v, Some (ExpS pos m s))
    else
      let nmd := nmap mag_to_nanomaggies dmag in
      let nme := nmap mag_to_nanomaggies emag in
      let nm := nop Rplus nmd nme in
      let fdev := nop Rdiv nmd nm in
      m <- same_in_all bands nm ;; e <- unbound shape_exp ;; d <- unbound shape_dev ;; Ok (v, Some (CompS pos m fdev e d)).
(** The loop, lines 8-65: sources and isrcs. *)
Fixpoint rows_from (maglim : num) (bands : list string) (i : nat) (T : list srow) (v : locals) : res (list source * list nat) :=
  match T with
  | [] => Ok ([], [])
  | t :: T =>
      '(v, o) <- one_row maglim bands t v ;;
      '(s, k) <- rows_from maglim bands (S i) T v ;;
      match o with None => Ok (s, k) | Some x => Ok (x :: s, i :: k) end
  end.
Definition get_se_modelfit_cat (T : list srow) (maglim : num) (bands : list string) : res (list source * list nat) :=
  rows_from maglim bands 0 T (None, None).

(** ** _dr7_getBrightness, sdss_dr7.py:4-32

    [names]: band_name(i), [to_mag counts i]: tsf.counts_to_mag, that is None
    if not finite.  The module does not import numpy: np.isfinite (line 21)
    raises NameError.  kwargs.update(b=BAD_MAG) has the key "b".  Returned are
    the bands in order with their magnitudes; the assertions are those of
    MultiBandBrightness.__init__, brightness.py:45-46. *)
Fixpoint dr7_loop (names : nat -> string) (i : nat) (counts : list R) (bands : list string) : res unit :=
  match counts with
  | [] => Ok tt
  | c :: r => if memb (names i) bands then Err NameError else dr7_loop names (S i) r bands
  end.
Definition dr7_brightness (names : nat -> string) (counts : list R) (bands extrabands : list string) : res nbright :=
  _ <- dr7_loop names 0 counts bands ;;
  let kwargs := match extrabands with [] => [] | _ => [("b"%string, Some 99)] end in
  if negb (Nat.eqb (length kwargs) (length extrabands)) then Err AssertionError
  else if negb (forallb (fun k => memb k extrabands) (map fst kwargs) && forallb (fun k => memb k (map fst kwargs)) extrabands) then Err AssertionError
  else Ok kwargs.
