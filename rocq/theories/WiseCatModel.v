(** The WISE catalogues, stored in parts by declination: wise/wisecat.py
    _read_wise_cats_wcs, _read_wise_cats, wise_catalog_radecbox (lines 7-77),
    wise/allwisecat.py allwise_catalog_wcs, allwise_catalog_radecbox (8-26), and
    their tables of ranges.

    Real numbers (no NaN).  A file is what fits_table reads from it, by the
    number of the part: the positions in one, the full rows in the other;
    reading a file may fail.  Selecting columns of a row is a function.  Of the
    coordinate system are given radec_bounds (its declinations), pixel_scale,
    size and radec2pixelxy.  Messages are left out. *)
From Coq Require Import List ZArith Reals Bool.
From Verif Require Import Base.
Import ListNotations.
Local Open Scope R_scope.

Definition le_b (a b : R) : bool := if Rle_dec a b then true else false.
Definition lt_b (a b : R) : bool := if Rlt_dec a b then true else false.

(** np.flatnonzero of a condition on the elements, numbered from [i] *)
Fixpoint flatnonzero {A} (f : A -> bool) (i : nat) (l : list A) : list nat :=
  match l with [] => [] | a :: l => if f a then i :: flatnonzero f (S i) l else flatnonzero f (S i) l end.
Fixpoint mapr {A B} (f : A -> res B) (l : list A) : res (list B) :=
  match l with [] => Ok [] | a :: l => b <- f a ;; m <- mapr f l ;; Ok (b :: m) end.

Section Cats.
Context {A C : Type} (column : option (list C) -> A -> A).
(** fits_table(rdpattern % k), fits_table(pattern % k) *)
Context (rd : nat -> res (list (R * R))) (full : nat -> res (list A)).
Context (cols : option (list C)).

(** fits_table(fn, rows=I, columns=cols) *)
Definition read_rows (k : nat) (I : list nat) : res (list A) :=
  t <- full k ;; mapr (fun i => a <- py_get t i ;; Ok (column cols a)) I.
(** None, the only table, or merge_tables: lines 39-43 and 66-70 *)
Definition merged (l : list (list A)) : option (list A) :=
  match l with [] => None | [t] => Some t | _ => Some (concat l) end.

(** The loop of _read_wise_cats, lines 51-65; [i] counts from 0 *)
Fixpoint box_loop (r0 r1 d0 d1 : R) (i : nat) (ranges : list (R * R)) : res (list (list A)) :=
  match ranges with
  | [] => Ok []
  | (dlo, dhi) :: rest =>
      if lt_b d1 dlo || lt_b dhi d0 then box_loop r0 r1 d0 d1 (S i) rest
      else
        t <- rd (i + 1) ;;
        let I := flatnonzero (fun p => le_b r0 (fst p) && le_b (fst p) r1 && le_b d0 (snd p) && le_b (snd p) d1) 0 t in
        if (length I =? 0)%nat then box_loop r0 r1 d0 d1 (S i) rest
        else
          t <- read_rows (i + 1) I ;;
          more <- box_loop r0 r1 d0 d1 (S i) rest ;;
          Ok (t :: more)
  end.
(** _read_wise_cats, lines 46-70 *)
Definition read_box (ranges : list (R * R)) (r0 r1 d0 d1 : R) : res (option (list A)) :=
  l <- box_loop r0 r1 d0 d1 0 ranges ;; Ok (merged l).

(** _read_wise_cats_wcs, lines 7-43.  The two selections (by declination, line
    20, then by pixel, 21-27) are one of elements that pass both. *)
Context (dmin dmax scale : R) (W H : Z) (to_pixel : R * R -> bool * R * R).
Definition in_margin (pm : R) (p : R * R) : bool :=
  let '(ok, x, y) := to_pixel p in
  ok && le_b (1 / 2 - pm) x && le_b (1 / 2 - pm) y && le_b x (IZR W + 1 / 2 + pm) && le_b y (IZR H + 1 / 2 + pm).
Fixpoint wcs_loop (d0 d1 pm : R) (i : nat) (ranges : list (R * R)) : res (list (list A)) :=
  match ranges with
  | [] => Ok []
  | (dlo, dhi) :: rest =>
      if lt_b d1 dlo || lt_b dhi d0 then wcs_loop d0 d1 pm (S i) rest
      else
        t <- rd (i + 1) ;;
        let I := flatnonzero (fun p => le_b d0 (snd p) && le_b (snd p) d1 && in_margin pm p) 0 t in
        if (length I =? 0)%nat then wcs_loop d0 d1 pm (S i) rest
        else
          t <- read_rows (i + 1) I ;;
          more <- wcs_loop d0 d1 pm (S i) rest ;;
          Ok (t :: more)
  end.
Definition read_wcs (ranges : list (R * R)) (pm : R) : res (option (list A)) :=
  let margin := sqrt 2 * pm * scale / 3600 in
  l <- wcs_loop (dmin - margin) (dmax + margin) pm 0 ranges ;; Ok (merged l).
End Cats.

(** The ranges in units of 1/10000 degree: wisecat.py:80-130 and
    allwisecat.py:29-78 *)
Definition degrees (l : list (Z * Z)) : list (R * R) := map (fun p => (IZR (fst p) / 10000, IZR (snd p) / 10000)) l.
Local Open Scope Z_scope.
Definition wise_ranges : list (Z * Z) :=
   [(-900000, -744136); (-744136, -685021); (-685021, -639184); (-639184, -599494); (-599494, -564176); (-564176, -532041);
   (-532041, -501737); (-501737, -472370); (-472370, -443990); (-443990, -416214); (-416214, -389014); (-389014, -362475);
   (-362475, -336239); (-336239, -310392); (-310392, -284833); (-284833, -259208); (-259208, -233635); (-233635, -208182);
   (-208182, -182736); (-182736, -157314); (-157314, -131899); (-131899, -106404); (-106404, -80910); (-80910, -55299);
   (-55299, -29446); (-29446, -3636); (-3636, 22252); (22252, 48384); (48384, 74580); (74580, 100901); (100901, 127325);
   (127325, 154077); (154077, 181078); (181078, 208353); (208353, 235923); (235923, 263853); (263853, 292147); (292147, 320866);
   (320866, 350062); (350062, 379866); (379866, 410452); (410452, 441864); (441864, 473853); (473853, 506780); (506780, 540887);
   (540887, 576976); (576976, 617911); (617911, 665832); (665832, 733078); (733078, 900000)].
Definition allwise_ranges : list (Z * Z) :=
   [(-900000, -742400); (-742400, -679273); (-679273, -629444); (-629444, -586128); (-586128, -547759); (-547759, -512676);
   (-512676, -479581); (-479581, -448072); (-448072, -417844); (-417844, -388607); (-388607, -360298); (-360298, -332572);
   (-332572, -305514); (-305514, -278965); (-278965, -252503); (-252503, -226299); (-226299, -200431); (-200431, -174529);
   (-174529, -148629); (-148629, -122779); (-122779, -96845); (-96845, -70835); (-70835, -44765); (-44765, -18619);
   (-18619, 7462); (7462, 33570); (33570, 59876); (59876, 86199); (86199, 112752); (112752, 139438); (139438, 166417);
   (166417, 193621); (193621, 221116); (221116, 249064); (249064, 277332); (277332, 306057); (306057, 335461); (335461, 365487);
   (365487, 396453); (396453, 428419); (428419, 461530); (461530, 496061); (496061, 532608); (532608, 571806); (571806, 616195);
   (616195, 668237); (668237, 736202); (736202, 900000)].
Local Close Scope Z_scope.

(** wise_catalog_radecbox; allwise_catalog_radecbox, allwise_catalog_wcs *)
Definition wise_catalog_radecbox {A C} (column : option (list C) -> A -> A) rd full cols r0 r1 d0 d1 :=
  read_box column rd full cols (degrees wise_ranges) r0 r1 d0 d1.
Definition allwise_catalog_radecbox {A C} (column : option (list C) -> A -> A) rd full cols r0 r1 d0 d1 :=
  read_box column rd full cols (degrees allwise_ranges) r0 r1 d0 d1.
Definition allwise_catalog_wcs {A C} (column : option (list C) -> A -> A) rd full cols dmin dmax scale W H to_pixel pm :=
  read_wcs column rd full cols dmin dmax scale W H to_pixel (degrees allwise_ranges) pm.
