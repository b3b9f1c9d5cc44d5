(** Model of tractor/sdss.py _get_sources (lines 197-513): Tractor sources from
    the rows of an SDSS catalogue, for data releases 8 and 9.

    Numbers are reals (no NaN; no rounding).  The table is a list of rows;
    columns with one entry per SDSS band are functions of the band number.  Given
    are the numbers of the bands (astrometry.sdss.band_index), the conversion of
    nanomaggies to magnitudes and the rows near a sky position
    (astrometry.libkd.spherematch.match_radec).  Not modelled: reading of files, data release 7, the
    classmap and ellipse arguments (which classes are instantiated). *)
From Coq Require Import String List ZArith Reals Bool Lia.
From Verif Require Import Base.
Import ListNotations.
Open Scope R_scope.
Local Open Scope list_scope.

Definition leb (a b : R) : bool := if Rle_dec a b then true else false.
Definition ltb (a b : R) : bool := if Rlt_dec a b then true else false.
Definition eqb (a b : R) : bool := if Req_EM_T a b then true else false.

(** Radius, axis ratio, angle. *)
Record shape : Type := mkShape { h_re : R; h_ab : R; h_phi : R }.

(** The columns used; [r_index] is the column "index" set at line 280. *)
Record row : Type := mkRow {
  r_index : nat; r_ra : R; r_dec : R; r_colc : nat -> R; r_rowc : nat -> R;
  r_nchild : Z; r_isbright : bool; r_isprimary : bool; r_type : Z;
  r_prob : nat -> R; r_fracdev : nat -> R;
  r_psf : nat -> R; r_cmodel : nat -> R; r_devflux : nat -> R; r_expflux : nat -> R;
  r_dev : nat -> shape; r_exp : nat -> shape }.

(** NanoMaggies or Mags, with the values in order. *)
Record bright : Type := mkBright { b_nmgy : bool; b_vals : list (string * R) }.
Definition pos : Type := (R * R)%type.

Inductive source : Type :=
| Point (p : pos) (b : bright)
| Dev (p : pos) (b : bright) (h : shape)
| Exp (p : pos) (b : bright) (h : shape)
| Comp (p : pos) (be : bright) (he : shape) (bd : bright) (hd : shape)
| Fixed (p : pos) (b : bright) (fdev : R) (he hd : shape).

(** The arguments. *)
Record config : Type := mkConfig {
  c_bandnum : nat;                              (* band_index(bandname) *)
  c_bands : list (string * nat);                (* bands, with their band_index *)
  c_extra : list string;                        (* extrabands *)
  c_roi : option (R * R * R * R); c_radecroi : option (R * R * R * R);
  c_near : option (list row -> list nat);       (* radecrad: J of match_radec *)
  c_objcuts : bool; c_primary : bool; c_force : bool; c_usetype : bool; c_fixed : bool;
  c_nmgy : bool; c_badmag : R; c_wantobjs : bool }.  (* any of getobjs, getobjinds, getsourceobjs *)

Section Src.
Variable nmgy_to_mag : R -> R.
Variable c : config.

(** objs.index = np.arange(len(objs)), line 280. *)
Definition with_index (r : row) (i : nat) : row :=
  mkRow i (r_ra r) (r_dec r) (r_colc r) (r_rowc r) (r_nchild r) (r_isbright r) (r_isprimary r) (r_type r)
    (r_prob r) (r_fracdev r) (r_psf r) (r_cmodel r) (r_devflux r) (r_expflux r) (r_dev r) (r_exp r).
Fixpoint number (i : nat) (l : list row) : list row :=
  match l with [] => [] | r :: l => with_index r i :: number (S i) l end.

(** objs.cut(J) *)
Fixpoint pick (l : list row) (J : list nat) : res (list row) :=
  match J with
  | [] => Ok []
  | j :: J => r <- py_get l j ;; rs <- pick l J ;; Ok (r :: rs)
  end.

(** The cuts, lines 284-313. *)
Definition in_roi (r : row) : bool :=
  match c_roi c with
  | None => true
  | Some (x0, x1, y0, y1) =>
      let x := r_colc r (c_bandnum c) in let y := r_rowc r (c_bandnum c) in
      leb x0 x && ltb x x1 && leb y0 y && ltb y y1
  end.
Definition in_radecroi (r : row) : bool :=
  match c_radecroi c with
  | None => true
  | Some (r0, r1, d0, d1) => leb r0 (r_ra r) && leb (r_ra r) r1 && leb d0 (r_dec r) && leb (r_dec r) d1
  end.
Definition good (r : row) : bool := if c_objcuts c then (r_nchild r =? 0)%Z && negb (r_isbright r) else true.
Definition primary (r : row) : bool := if c_primary c then r_isprimary r else true.
Definition cuts (l : list row) : res (list row) :=
  let l := filter in_roi l in
  let l := filter in_radecroi l in
  l <- match c_near c with None => Ok l | Some near => pick l (near l) end ;;
  let l := filter good l in
  Ok (filter primary l).

(** Lines 334-340: angles change sign, radii are at least 1/30. *)
Definition fix_shape (h : shape) : shape := mkShape (Rmax (h_re h) (1 / 30)) (h_ab h) (- h_phi h).
Definition fix_row (r : row) : row :=
  mkRow (r_index r) (r_ra r) (r_dec r) (r_colc r) (r_rowc r) (r_nchild r) (r_isbright r) (r_isprimary r) (r_type r)
    (r_prob r) (r_fracdev r) (r_psf r) (r_cmodel r) (r_devflux r) (r_expflux r)
    (fun b => fix_shape (r_dev r b)) (fun b => fix_shape (r_exp r b)).

Definition num (b : bool) : R := if b then 1 else 0.
(** Lines 342-361: the cut on objc_type, and Lstar, Ldev, Lexp of a row. *)
Definition typed (l : list row) : list row :=
  if negb (c_force c) && c_usetype c then filter (fun r => (r_type r =? 6)%Z || (r_type r =? 3)%Z) l else l.
Definition weights (r : row) : R * R * R :=
  if c_force c then (1, 0, 0)
  else
    let '(ls, lg) := if c_usetype c then (num (r_type r =? 6)%Z, num (r_type r =? 3)%Z)
                     else (num (eqb (r_prob r (c_bandnum c)) 1), num (eqb (r_prob r (c_bandnum c)) 0)) in
    let f := r_fracdev r (c_bandnum c) in
    (ls, lg * f, lg * (1 - f)).

(** nmgy2bright, lines 390-411. *)
Definition nmgy2bright (flux : nat -> R) : bright :=
  let fl := match c_bands c with [] => [flux (c_bandnum c)] | bs => map (fun b => flux (snd b)) bs end in
  let bb := map fst (c_bands c) ++ c_extra c in
  if c_nmgy c then
    let fl := match c_extra c with
              | [] => fl
              | ex => match c_bands c with
                      | [] => map (fun _ => nth 0 fl 0) ex
                      | _ => fl ++ map (fun _ => 0) ex
                      end
              end in
    mkBright true (combine bb fl)
  else
    let mag := map (fun f => if ltb 0 f then nmgy_to_mag f else c_badmag c) fl in
    let mag := match c_extra c with [] => mag | ex => mag ++ map (fun _ => c_badmag c) ex end in
    mkBright false (combine bb mag).

(** comp2bright, lines 413-418. *)
Definition comp2bright (flux : nat -> R) (ldev lexp : R) : bright * bright :=
  (nmgy2bright (fun b => flux b * ldev), nmgy2bright (fun b => flux b * lexp)).

(** The body of the loop, lines 432-495; None: skipped. *)
Definition make (r : row) : option source :=
  let '(ls, ldev, lexp) := weights r in
  let p := (r_ra r, r_dec r) in
  let hd := r_dev r (c_bandnum c) in
  let he := r_exp r (c_bandnum c) in
  if negb (eqb ls 0) then Some (Point p (nmgy2bright (r_psf r)))
  else
    let hasdev := ltb 0 ldev in
    let hasexp := ltb 0 lexp in
    if hasdev && hasexp then
      if c_fixed c then Some (Fixed p (nmgy2bright (r_cmodel r)) (ldev / (ldev + lexp)) he hd)
      else let '(db, eb) := comp2bright (r_cmodel r) ldev lexp in Some (Comp p eb he db hd)
    else if hasdev then Some (Dev p (nmgy2bright (r_devflux r)) hd)
    else if hasexp then Some (Exp p (nmgy2bright (r_expflux r)) he)
    else None.

(** The loop: sources and isources. *)
Fixpoint loop (i : nat) (l : list row) : list source * list nat :=
  match l with
  | [] => ([], [])
  | r :: l =>
      let '(ss, is) := loop (S i) l in
      match make r with
      | None => (ss, is)
      | Some s => (s :: ss, i :: is)
      end
  end.

(** What is returned: the sources; with getobjs, getobjinds, getsourceobjs also
    the whole table, the row numbers and the rows of the sources (entries for
    options that were not given are not returned); None is Python's None. *)
Record extras : Type := mkExtras { e_objs : option (list row); e_inds : option (list nat); e_rows : option (list row) }.

(** The whole, lines 280-513.  The last component is the caller's table, which
    is changed in place. *)
Definition get_sources (objs : list row) : res (list source * option extras) * list row :=
  let all := number 0 objs in
  match cuts all with
  | Err e => (Err e, all)
  | Ok [] => (Ok ([], if c_wantobjs c then Some (mkExtras None None None) else None), [])
  | Ok kept =>
      let l := typed (map fix_row kept) in
      let '(ss, is) := loop 0 l in
      let out :=
        if c_wantobjs c then
          if (length ss <? length l)%nat then
            (* objs[np.array(isources)]: an empty list makes an array of
               floats, which is not an index *)
            match is with
            | [] => Err IndexError
            | _ => rows <- pick l is ;; Ok (ss, Some (mkExtras (Some all) (Some (map r_index rows)) (Some rows)))
            end
          else Ok (ss, Some (mkExtras (Some all) (Some (map r_index l)) (Some l)))
        else Ok (ss, None) in
      (out, l)
  end.
End Src.
