(** Calibrations of SDSS and CFHT images: tractor/sdss.py SdssWcs (lines
    909-1023), tractor/cfht.py CfhtLinearPhotoCal and CfhtPhotoCal (31-103),
    tractor/sdss_dr7.py SdssMagsPhotoCal and SdssFluxPhotoCal (207-291), with what
    they inherit from tractor/utils.py ParamList, ScalarParam and BaseParams.

    Real numbers.  The AsTrans object of astrometry.net is the dictionary of
    its values (trans) and functions of it; these objects are cells of a store,
    since a SdssWcs keeps a reference.  sdss_dr7.py imports neither BaseParams
    nor np, so that importing it raises NameError; its classes are modelled as
    if it did.  Header values are positive where their logarithm is taken. *)
From Coq Require Import String List ZArith Reals Bool.
From Verif Require Import Base MagsModel.
Import ListNotations.
Local Open Scope R_scope.
Local Open Scope list_scope.

(** ** Parameter lists over any state: utils.py:690-707 and 769-797 *)
Section List.
Context {S : Type} (get_thing : S -> nat -> res R) (set_thing : S -> nat -> R -> res S).
Fixpoint set_from (s : S) (liq : list bool) (j : nat) (p : list R) : res S :=
  match liq with
  | [] => Ok s
  | false :: liq => set_from s liq (Datatypes.S j) p
  | true :: liq => match p with
                   | [] => Err IndexError
                   | v :: p => s <- set_thing s j v ;; set_from s liq (Datatypes.S j) p
                   end
  end.
Fixpoint index_liquid (liq : list bool) (j raw : nat) : res nat :=
  match liq with
  | [] => Err IndexError
  | false :: liq => index_liquid liq j (Datatypes.S raw)
  | true :: liq => match j with 0%nat => Ok raw | Datatypes.S j => index_liquid liq j (Datatypes.S raw) end
  end.
Definition set_one (liq : list bool) (s : S) (i : nat) (v : R) : res (S * R) :=
  j <- index_liquid liq i 0 ;; old <- get_thing s j ;; s <- set_thing s j v ;; Ok (s, old).
End List.

(** ** SdssWcs *)
Definition matrix : Type := (R * R) * (R * R).
Definition mdet (m : matrix) : R := fst (fst m) * snd (snd m) - snd (fst m) * fst (snd m).
(** np.linalg.inv of a 2x2 matrix, singular: LinAlgError *)
Definition minv (m : matrix) : res matrix :=
  if Req_EM_T (mdet m) 0 then Err ValueError else
  Ok ((snd (snd m) / mdet m, - snd (fst m) / mdet m), (- fst (snd m) / mdet m, fst (fst m) / mdet m)).

(** astrans.trans: values by name. *)
Definition trans : Type := string -> R.
Definition put (t : trans) (k : string) (v : R) : trans := fun n => if String.eqb n k then v else t n.
(** pnames, lines 910-914 *)
Definition pnames : list string :=
  ["a"; "b"; "c"; "d"; "e"; "f"; "drow0"; "drow1"; "drow2"; "drow3"; "dcol0"; "dcol1"; "dcol2"; "dcol3";
   "csrow"; "cscol"; "ccrow"; "cccol"; "x0"; "y0"]%string.

Section Wcs.
(** AsTrans.radec_to_pixel_single (no colour), radec_to_pixel_single_py,
    pixel_to_radec, cd_at_pixel *)
Context (to_pixel : trans -> R * R -> R * R) (to_pixel_color : trans -> R * R -> R -> R * R)
        (to_radec : trans -> R * R -> R * R) (cd_at : trans -> R -> R -> matrix).

Definition store : Type := list trans.
Record swcs : Type := mkSw {
  s_ref : nat; s_x0 : R; s_y0 : R; s_liquid : list bool; s_cd : option matrix; s_cdi : option matrix;
  s_steps : option (list R) (* stepsizes, once set *) }.
Definition state : Type := store * swcs.
Definition get_trans (s : state) : res trans := py_get (fst s) (s_ref (snd s)).
(** __init__, lines 923-933; liquid has _numberOfThings() = 20 entries *)
Definition new_sdss (h : store) (r : nat) : state := (h, mkSw r 0 0 (repeat true 20) None None None).
(** _setThing, _getThing, _getThings: lines 939-960 *)
Definition set_thing (s : state) (i : nat) (v : R) : res state :=
  let '(h, w) := s in
  if (i =? 18)%nat then Ok (h, mkSw (s_ref w) v (s_y0 w) (s_liquid w) (s_cd w) (s_cdi w) (s_steps w))
  else if (i =? 19)%nat then Ok (h, mkSw (s_ref w) (s_x0 w) v (s_liquid w) (s_cd w) (s_cdi w) (s_steps w))
  else t <- get_trans s ;; k <- py_get pnames i ;; Ok (upd (s_ref w) (put t k v) h, w).
Definition get_thing (s : state) (i : nat) : res R :=
  if (i =? 18)%nat then Ok (s_x0 (snd s))
  else if (i =? 19)%nat then Ok (s_y0 (snd s))
  else t <- get_trans s ;; k <- py_get pnames i ;; Ok (t k).
Definition get_things (s : state) : res (list R) :=
  t <- get_trans s ;; Ok (map t (firstn 18 pnames) ++ [s_x0 (snd s); s_y0 (snd s)]).
(** getParams, setParams, setParam, utils.py:769-786 *)
Definition get_params (s : state) : res (list R) := l <- get_things s ;; Ok (keep (s_liquid (snd s)) l).
Definition set_params (s : state) (p : list R) : res state := set_from set_thing s (s_liquid (snd s)) 0 p.
Definition set_param (s : state) (i : nat) (v : R) : res (state * R) :=
  set_one get_thing set_thing (s_liquid (snd s)) s i v.
(** getNamedParams, lines 916-921: without x0 and y0 *)
Definition named_params : list (string * nat) := combine (firstn 18 pnames) (seq 0 18).
(** hashkey, utils.py:209-210 *)
Definition hashkey (s : state) : res (list R) := get_things s.
(** copy, utils.py:722-725 and 206-207: __class__ of all twenty values *)
Definition copy (s : state) : res state := _ <- get_things s ;; Err TypeError.
(** getLowerBounds etc., utils.py:799-806, of the three entries made for
    ParamList.__init__(x0, y0, astrans) *)
Definition lower_bounds (s : state) : list (option R) := keep (s_liquid (snd s)) [None; None; None].
(** getStepSizes, lines 965-978; setStepSizes (first call, utils.py:444-455) and
    getAllStepSizes (434-442) are inherited *)
Definition step_list : list R :=
  let deg := 0.396 / 3600 in
  let P := 2000 in
  [deg; deg / P; deg / P; deg; deg / P; deg / P; 1; 1 / P; 1 / P ^ 2; 1 / P ^ 3; 1; 1 / P; 1 / P ^ 2; 1 / P ^ 3;
   1; 1; 1; 1; 1; 1].
Definition step_sizes (s : state) : list R := keep (s_liquid (snd s)) step_list.
Fixpoint spread (liq : list bool) (ss : list R) : res (list R) :=
  match liq with
  | [] => Ok []
  | true :: liq => match ss with [] => Err IndexError | x :: ss => r <- spread liq ss ;; Ok (x :: r) end
  | false :: liq => r <- spread liq ss ;; Ok (1 :: r)
  end.
Definition set_step_sizes (s : state) (ss : list R) : res state :=
  let '(h, w) := s in
  l <- spread (s_liquid w) ss ;; Ok (h, mkSw (s_ref w) (s_x0 w) (s_y0 w) (s_liquid w) (s_cd w) (s_cdi w) (Some l)).
Definition all_step_sizes (s : state) : res (list R) :=
  match s_steps (snd s) with Some l => Ok l | None => l <- get_things s ;; Ok (repeat 1 (length l)) end.
(** cdAtPixel, cdInverseAtPixel, pixscale_at, setConstantCd: lines 935-937,
    991-1007 *)
Definition cd_at_pixel (s : state) (x y : R) : res matrix :=
  match s_cd (snd s) with
  | Some m => Ok m
  | None => t <- get_trans s ;; Ok (cd_at t (x + s_x0 (snd s)) (y + s_y0 (snd s)))
  end.
Definition cd_inverse_at_pixel (s : state) (x y : R) : res matrix :=
  match s_cdi (snd s) with
  | Some m => Ok m
  | None => t <- get_trans s ;; minv (cd_at t (x + s_x0 (snd s)) (y + s_y0 (snd s)))
  end.
Definition pixscale_at (s : state) (x y : R) : res R := cd <- cd_at_pixel s x y ;; Ok (sqrt (Rabs (mdet cd))).
Definition set_constant_cd (s : state) (x y : R) : res state :=
  cd <- cd_at_pixel s x y ;; cdi <- minv cd ;;
  let '(h, w) := s in Ok (h, mkSw (s_ref w) (s_x0 w) (s_y0 w) (s_liquid w) (Some cd) (Some cdi) (s_steps w)).
(** setX0Y0, lines 980-982 *)
Definition set_x0y0 (s : state) (x0 y0 : R) : state :=
  let '(h, w) := s in (h, mkSw (s_ref w) x0 y0 (s_liquid w) (s_cd w) (s_cdi w) (s_steps w)).
(** positionToPixel, pixelToPosition: lines 1011-1023 *)
Definition position_to_pixel (s : state) (p : R * R) (color : R) : res (R * R) :=
  t <- get_trans s ;;
  let xy := if Req_EM_T color 0 then to_pixel t p else to_pixel_color t p color in
  Ok (fst xy - s_x0 (snd s), snd xy - s_y0 (snd s)).
Definition pixel_to_position (s : state) (x y : R) : res (R * R) :=
  t <- get_trans s ;; Ok (to_radec t (x + s_x0 (snd s), y + s_y0 (snd s))).
End Wcs.

(** ** Photometric calibrations *)
(** EXPTIME, PHOT_C, PHOT_K, AIRMASS *)
Record header : Type := mkHdr { exptime : R; phot_c : R; phot_k : R; airmass : R }.

(** CfhtLinearPhotoCal, cfht.py:31-58; its scale is its parameter
    (ScalarParam, utils.py:316-361) *)
Record clin : Type := mkClin { cl_val : R; cl_band : option string; cl_hdr : option header }.
Definition zeropoint (h : header) : R := 2.5 * log10 (exptime h) + phot_c h + phot_k h * (airmass h - 1).
Definition new_linear (hdr : option header) (band : option string) (scale : R) : clin :=
  mkClin (match hdr with Some h => zeropoint_to_scale (zeropoint h) | None => scale end) band hdr.
Definition linear_copy (c : clin) : res clin :=
  match cl_hdr c with
  | None => Err AttributeError
  | Some h => Ok (mkClin (cl_val (new_linear None (cl_band c) (cl_val c))) (cl_band c) (Some h))
  end.
Definition linear_set (c : clin) (i : nat) (v : R) : res (clin * R) :=
  if (i =? 0)%nat then Ok (mkClin v (cl_band c) (cl_hdr c), cl_val c) else Err AssertionError.
(** brightness.py:339-344, with a band *)
Definition linear_to_counts (c : clin) (b : bands) : res R :=
  match cl_band c with None => Err AttributeError | Some k => linear_counts (cl_val c) k b end.

(** A parameter that may be None. *)
Definition pval : Type := option R.
Definition num (v : pval) : res R := match v with Some x => Ok x | None => Err TypeError end.

(** CfhtPhotoCal, cfht.py:61-103 *)
Record cfht : Type := mkCfht { c_exptime : R; c_c : pval; c_k : R; c_airmass : R; c_band : string }.
Definition new_cfht (h : header) (band : string) : cfht :=
  mkCfht (exptime h) (Some (phot_c h)) (phot_k h) (airmass h) band.
Definition cfht_params (c : cfht) : list pval := [c_c c].
Definition cfht_set (c : cfht) (i : nat) (v : pval) : res (cfht * pval) :=
  if (i =? 0)%nat then Ok (mkCfht (c_exptime c) v (c_k c) (c_airmass c) (c_band c), None) else Err AssertionError.
Definition cfht_set_all (c : cfht) (p : list pval) : res cfht :=
  match p with [v] => '(c, _) <- cfht_set c 0 v ;; Ok c | _ => Err AssertionError end.
Definition cfht_copy (c : cfht) : cfht := mkCfht (c_exptime c) (c_c c) (c_k c) (c_airmass c) (c_band c).
Definition cfht_hash (c : cfht) : R * pval * R * R := (c_exptime c, c_c c, c_k c, c_airmass c).
Definition cfht_counts (c : cfht) (b : bands) : res R :=
  m <- get_band b (c_band c) ;;
  v <- num (c_c c) ;;
  Ok (c_exptime c * pow10 ((m - v - c_k c * (c_airmass c - 1)) / - 2.5)).

(** SdssMagsPhotoCal, sdss_dr7.py:207-274; [mag] is None if not finite *)
Record smags : Type := mkSm { m_band : string; m_exptime : R; m_aa : pval; m_kk : R; m_airmass : R }.
Definition smags_set (c : smags) (i : nat) (v : pval) : res (smags * pval) :=
  if (i =? 0)%nat then Ok (mkSm (m_band c) (m_exptime c) v (m_kk c) (m_airmass c), None) else Err AssertionError.
Definition smags_hash (c : smags) : string * R * pval * R * R := (m_band c, m_exptime c, m_aa c, m_kk c, m_airmass c).
(** copy, utils.py:206-207: __class__(aa), which lacks an argument *)
Definition smags_copy (c : smags) : res smags := Err TypeError.
Definition smags_counts_of (c : smags) (mag : option R) : res R :=
  match mag with
  | None => Ok 0
  | Some m => if Rlt_dec 50 m then Ok 0 else
      aa <- num (m_aa c) ;;
      Ok (pow10 (- 0.4 * m + log10 (m_exptime c) - 0.4 * (aa + m_kk c * m_airmass c)))
  end.
Definition smags_counts (c : smags) (b : bands) : res R := m <- get_band b (m_band c) ;; smags_counts_of c (Some m).
(** BaseParams.getLowerBounds etc., utils.py:290-297, for both *)
Definition base_lower_bounds : list (option R) := [].

(** How the Tractor takes a derivative by an image parameter: engine.py:312-320
    (through Image and MultiParams.setParam, which hand the result through).
    [set] is setParam; p0 + step needs a number. *)
Definition step_and_back {S} (set : S -> nat -> pval -> res (S * pval)) (s : S) (p0 : list pval) (i : nat) (step : R) : res S :=
  v <- py_get p0 i ;; x <- num v ;;
  '(s, old) <- set s i (Some (x + step)) ;;
  '(s, _) <- set s i old ;; Ok s.
Definition linear_set_p (c : clin) (i : nat) (v : pval) : res (clin * pval) :=
  x <- num v ;; '(c, o) <- linear_set c i x ;; Ok (c, Some o).
