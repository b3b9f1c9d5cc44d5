(** Model of spatially varying mixture-of-Gaussians PSFs: VaryingGaussianPSF
    (tractor/psfex.py:8-152), VaryingGaussianPsfEx with its FITS files
    (psfex.py:523-684), CachingPsfEx (psfex.py:694-733), and PsfExModel's file
    and copies (psfex.py:155-286).

    Real numbers stand for floats (rounding not modelled).  The class of the
    PSFs, the PSF images, and scipy's RectBivariateSpline are parameters.  A FITS
    file gives back what was written to it; names of columns are lists of
    characters, and the header cards PSF_A0, PSF_A1, ... are one list. *)
From Coq Require Import String Ascii.
From Coq Require Import List ZArith Bool Reals.
From Verif Require Import Base CacheModel.
Import ListNotations.
Open Scope Z_scope.

Section Vary.
Context {img psf : Type}.

(** psfClass: fromStamp(im, N=K, P0=p0), getParams(), getAllParams(), the
    constructor applied to all the parameters, and getParamNames(). *)
Record pclass : Type := mkClass {
  from_stamp : nat -> img -> option (list R) -> res psf;
  get_params : psf -> list R;
  all_params : psf -> list R;
  make : list R -> res psf;
  names_of : psf -> list (list ascii) }.

(** scipy.interpolate.RectBivariateSpline(XX, YY, data.T): z indexed by x first. *)
Definition spliner : Type := list R -> list R -> (nat -> nat -> R) -> res (R -> R -> R).

(** (pp, XX, YY): pp[iy][ix][i] *)
Definition pgrid : Type := list (list (list R)).

(** VaryingGaussianPSF.__init__, psfex.py:16-32, and instantiateAt. *)
Record vpsf : Type := mkV {
  v_class : pclass;
  v_at : R -> R -> res img;
  v_W : R; v_H : R; v_nx : nat; v_ny : nat; v_K : nat;
  v_save : bool;
  v_splines : option (list (R -> R -> R));
  v_data : option (pgrid * list R * list R) }.

Definition with_splines (v : vpsf) (s : list (R -> R -> R)) : vpsf :=
  mkV (v_class v) (v_at v) (v_W v) (v_H v) (v_nx v) (v_ny v) (v_K v) (v_save v) (Some s) (v_data v).
Definition with_data (v : vpsf) (d : pgrid * list R * list R) : vpsf :=
  mkV (v_class v) (v_at v) (v_W v) (v_H v) (v_nx v) (v_ny v) (v_K v) (v_save v) (v_splines v) (Some d).

(** np.linspace(0, a, n) *)
Definition linspace (a : R) (n : nat) : list R :=
  map (fun i => if (n =? 1)%nat then 0%R else (INR i * (a / INR (n - 1)))%R) (seq 0 n).

(** One row, psfex.py:125-143: the row of psfs' parameters and px0.  (first:
    ix == 0.) *)
Fixpoint fit_row (v : vpsf) (y : R) (xs : list R) (p0 px0 : option (list R)) (first : bool)
  : res (list (list R) * option (list R)) :=
  match xs with
  | [] => Ok ([], px0)
  | x :: xs' =>
      im <- v_at v x y ;;
      psf <- from_stamp (v_class v) (v_K v) im p0 ;;
      let p0' := Some (get_params (v_class v) psf) in
      let px0' := if first then p0' else px0 in
      '(row, px) <- fit_row v y xs' p0' px0' false ;;
      Ok (all_params (v_class v) psf :: row, px)
  end.

(** The rows, psfex.py:119-144. *)
Fixpoint fit_rows (v : vpsf) (ys xs : list R) (px0 : option (list R)) : res pgrid :=
  match ys with
  | [] => Ok []
  | y :: ys' =>
      '(row, px) <- fit_row v y xs px0 px0 true ;;
      rows <- fit_rows v ys' xs px ;;
      Ok (row :: rows)
  end.

Definition pentry (pp : pgrid) (iy ix i : nat) : R := nth i (nth ix (nth iy pp []) []) 0%R.

(** np.array(pp) needs all the lists of parameters to be as long. *)
Definition rectangular (pp : pgrid) (n : nat) : bool :=
  forallb (fun row => forallb (fun p => (length p =? n)%nat) row) pp.

Fixpoint seqr {A : Type} (l : list (res A)) : res (list A) :=
  match l with
  | [] => Ok []
  | x :: r => a <- x ;; t <- seqr r ;; Ok (a :: t)
  end.

(** fitSavedData, psfex.py:51-60. *)
Definition fit_saved (spl : spliner) (v : vpsf) (d : pgrid * list R * list R) : res vpsf :=
  let '(pp, XX, YY) := d in
  match pp with
  | [] | [] :: _ => Err IndexError
  | (p :: _) :: _ =>
      if rectangular pp (length p) then
        s <- seqr (map (fun i => spl XX YY (fun ix iy => pentry pp iy ix i)) (seq 0 (length p))) ;;
        Ok (with_splines v s)
      else Err ValueError
  end.

(** ensureSplines, psfex.py:62-64. *)
Definition ensure_splines (spl : spliner) (v : vpsf) : res vpsf :=
  match v_splines v with
  | Some _ => Ok v
  | None => match v_data v with
            | Some d => fit_saved spl v d
            | None => Err AttributeError
            end
  end.

(** _fitParamGrid with its default arguments, psfex.py:110-149. *)
Definition fit_grid (spl : spliner) (v : vpsf) : res vpsf :=
  let YY := linspace (v_H v) (v_ny v) in
  let XX := linspace (v_W v) (v_nx v) in
  pp <- fit_rows v YY XX None ;;
  v' <- fit_saved spl v (pp, XX, YY) ;;
  Ok (if v_save v then with_data v' (pp, XX, YY) else v').

(** ensureFit, psfex.py:66-72. *)
Definition ensure_fit (spl : spliner) (v : vpsf) : res vpsf :=
  match v_splines v with Some _ => Ok v | None => fit_grid spl v end.

(** psfParamsAt, psfex.py:88-105: the object afterwards and the values.  (An
    exception leaves the object as it was.) *)
Definition params_at (spl : spliner) (v : vpsf) (x y : R) : vpsf * res (list R) :=
  match ensure_fit spl v with
  | Ok v' => (v', Ok (map (fun f => f x y) (match v_splines v' with Some s => s | None => [] end)))
  | Err e => (v, Err e)
  end.

(** psfAt, psfex.py:78-84. *)
Definition psf_at (spl : spliner) (v : vpsf) (x y : R) : vpsf * res psf :=
  let '(v', r) := params_at spl v x y in
  (v', p <- r ;; make (v_class v) p).

(** A series of calls of psfAt. *)
Fixpoint psf_run (spl : spliner) (v : vpsf) (qs : list (R * R)) : vpsf * list (res psf) :=
  match qs with
  | [] => (v, [])
  | (x, y) :: r => let '(v', a) := psf_at spl v x y in
                   let '(v'', l) := psf_run spl v' r in (v'', a :: l)
  end.

(** ** CachingPsfEx, psfex.py:694-733 *)

(** int(): towards zero. *)
Definition rtrunc (x : R) : Z := if Rle_dec 0 x then Int_part x else - Int_part (- x).

(** The key, psfex.py:722-724. *)
Definition cell (rounding : Z) (x : R) : Z :=
  rtrunc (x / IZR rounding) * rounding + rounding / 2.

Definition zz_dec (a b : Z * Z) : {a = b} + {a <> b}.
Proof. decide equality; apply Z.eq_dec. Defined.

(** psfAt, psfex.py:720-733; the values in the cache are never None, so the
    default None of cache.get is a miss. *)
Definition caching_at (spl : spliner) (rounding : Z) (st : vpsf * cache (Z * Z) psf) (x y : R)
  : (vpsf * cache (Z * Z) psf) * res psf :=
  let '(v, c) := st in
  let cx := cell rounding x in
  let cy := cell rounding y in
  match cache_getitem zz_dec c (cx, cy) with
  | (c', Ok m) => ((v, c'), Ok m)
  | (c', Err _) =>
      let '(v', r) := psf_at spl v (IZR cx) (IZR cy) in
      match r with
      | Err e => ((v', c'), Err e)
      | Ok m => match cache_put zz_dec c' (cx, cy) m with
                | Ok c'' => ((v', c''), Ok m)
                | Err e => ((v', c'), Err e)
                end
      end
  end.

Fixpoint caching_run (spl : spliner) (rounding : Z) (st : vpsf * cache (Z * Z) psf) (qs : list (R * R))
  : list (res psf) :=
  match qs with
  | [] => []
  | (x, y) :: r => let '(st', a) := caching_at spl rounding st x y in
                   a :: caching_run spl rounding st' r
  end.

(** getRadius, psfex.py:45-49: hasattr(self, 'radius') is the outer option,
    its value the inner one (Python None). *)
Definition get_radius (attr : option (option R)) : option R :=
  match attr with Some r => r | None => Some 25%R end.

(** fromPsfEx, psfex.py:696-705: the new object has an empty PsfExModel (so
    instantiateAt raises AttributeError), the attributes splines and splinedata
    of the given one, and the attribute radius, None unless the given object has
    one. *)
Definition from_psfex (v : vpsf) (radius : option (option R))
  : (vpsf * cache (Z * Z) psf) * option (option R) :=
  ((mkV (v_class v) (fun _ _ => Err AttributeError) (v_W v) (v_H v) (v_nx v) (v_ny v) (v_K v)
        false (v_splines v) (v_data v),
    cache_new 100),
   Some (match radius with Some r => r | None => None end)).

(** ** FITS, psfex.py:560-684 *)

Inductive column : Type :=
| ColXY (xs : list R)                      (* xx, yy *)
| ColOne (a : list (list R))               (* (ny, nx) *)
| ColMany (a : list (list (list R))).      (* (K, ny, nx) *)

Record fits : Type := mkFits {
  h_type : string; h_psf : string; h_W : R; h_H : R; h_K : nat; h_nx : nat; h_ny : nat;
  h_names : list (list ascii);
  f_cols : list (list ascii * column) }.

Definition name_eqb (a b : list ascii) : bool := if list_eq_dec ascii_dec a b then true else false.

Fixpoint get_col (nm : list ascii) (l : list (list ascii * column)) : option column :=
  match l with
  | [] => None
  | (n, c) :: r => if name_eqb nm n then Some c else get_col nm r
  end.

(** T.set: a later column of the same name takes the place of the earlier. *)
Fixpoint set_col (nm : list ascii) (c : column) (l : list (list ascii * column)) :=
  match l with
  | [] => [(nm, c)]
  | (n, c') :: r => if name_eqb nm n then (n, c) :: r else (n, c') :: set_col nm c r
  end.

Definition chars (s : string) : list ascii := list_ascii_of_string s.

Definition digit (k : nat) : ascii := ascii_of_nat (48 + k).

(** nm[-1] in '0123456789'[:K] *)
Definition in_digits (K : nat) (c : ascii) : bool :=
  (48 <=? nat_of_ascii c)%nat && (nat_of_ascii c <? 48 + Nat.min K 10)%nat.

(** nm[-1] and nm[:-1] *)
Definition last_char (nm : list ascii) : res ascii :=
  match nm with [] => Err IndexError | _ => Ok (last nm "000"%char) end.

(** pp[:, :, i] *)
Definition plane (pp : pgrid) (i : nat) : list (list R) :=
  map (fun row => map (fun p => nth i p 0%R) row) pp.

(** The set pnames as a list; list.sort changes only the order of the columns
    and is not modelled. *)
Fixpoint uniq (l : list (list ascii)) : list (list ascii) :=
  match l with
  | [] => []
  | a :: r => if existsb (name_eqb a) r then uniq r else a :: uniq r
  end.

(** namemap: the last index with that name *)
Fixpoint name_index (nm : list ascii) (l : list (list ascii)) (i : nat) : option nat :=
  match l with
  | [] => None
  | n :: r => match name_index nm r (S i) with
              | Some j => Some j
              | None => if name_eqb nm n then Some i else None
              end
  end.

(** psfex.py:661-675 *)
Definition pnames_of (K nparams : nat) (names : list (list ascii)) : res (list (list ascii)) :=
  if (K <? 10)%nat then
    _ <- seqr (map (fun nm => c <- last_char nm ;;
                              if in_digits K c then Ok tt else Err AssertionError) names) ;;
    let pn := uniq (map (@removelast ascii) names) in
    if (length pn * K =? nparams)%nat then Ok pn else Err AssertionError
  else Err AssertionError.

(** psfex.py:676-679 *)
Definition merged_col (K : nat) (names : list (list ascii)) (pp : pgrid) (nm : list ascii) : res column :=
  a <- seqr (map (fun k => match name_index (nm ++ [digit k]) names 0 with
                           | Some i => Ok (plane pp i)
                           | None => Err KeyError
                           end) (seq 0 K)) ;;
  Ok (ColMany a).

(** toFits, psfex.py:613-684; data is splinedata or the argument.  ptype is
    typestring of the psfClass.  The shape of pp is (ny, nx, nparams). *)
Definition to_fits (ptype : string) (v : vpsf) (data : option (pgrid * list R * list R)) (merge : bool)
  : res fits :=
  '(pp, XX, YY) <- (match data with
                    | Some d => Ok d
                    | None => match v_data v with Some d => Ok d | None => Err AttributeError end
                    end) ;;
  if (length pp =? v_ny v)%nat then
    if forallb (fun row => (length row =? v_nx v)%nat) pp then
      match pp with
      | [] | [] :: _ => Err IndexError
      | (p :: _) :: _ =>
          X <- make (v_class v) p ;;
          let names := names_of (v_class v) X in
          let T0 := [(chars "xx", ColXY XX); (chars "yy", ColXY YY)] in
          cols <- (if merge then
                     pn <- pnames_of (v_K v) (length p) names ;;
                     cs <- seqr (map (fun nm => c <- merged_col (v_K v) names pp nm ;; Ok (nm, c)) pn) ;;
                     Ok (fold_left (fun t nc => set_col (fst nc) (snd nc) t) cs T0)
                   else if (length names <=? length p)%nat
                   then Ok (fold_left (fun t inm => set_col (snd inm) (ColOne (plane pp (fst inm))) t)
                                      (combine (seq 0 (length names)) names) T0)
                   else Err IndexError) ;;
          Ok (mkFits "tractor.psfex.VaryingGaussianPsfEx"%string ptype (v_W v) (v_H v) (v_K v)
                     (v_nx v) (v_ny v) names cols)
      end
    else Err AssertionError
  else Err AssertionError.

Definition shape2 (a : list (list R)) (ny nx : nat) : bool :=
  (length a =? ny)%nat && forallb (fun r => (length r =? nx)%nat) a.

(** One parameter, psfex.py:593-609. *)
Definition read_param (f : fits) (nm : list ascii) : res (list (list R)) :=
  match get_col nm (f_cols f) with
  | Some (ColOne a) => if shape2 a (h_ny f) (h_nx f) then Ok a else Err AssertionError
  | Some _ => Err AssertionError
  | None =>
      c <- last_char nm ;;
      if in_digits (h_K f) c then
        match get_col (removelast nm) (f_cols f) with
        | Some (ColMany a) =>
            if (length a =? h_K f)%nat && forallb (fun p => shape2 p (h_ny f) (h_nx f)) a then
              match nth_error a (nat_of_ascii c - 48) with
              | Some p => Ok p
              | None => Err IndexError
              end
            else Err AssertionError
        | Some _ => Err AssertionError
        | None => Err AttributeError
        end
      else Err AssertionError
  end.

(** The part of fromFits that fills pp, psfex.py:590-611. *)
Definition read_data (f : fits) : res (pgrid * list R * list R) :=
  ps <- seqr (map (read_param f) (h_names f)) ;;
  match get_col (chars "xx") (f_cols f), get_col (chars "yy") (f_cols f) with
  | Some (ColXY XX), Some (ColXY YY) =>
      Ok (map (fun iy => map (fun ix => map (fun a => nth ix (nth iy a []) 0%R) ps)
                             (seq 0 (h_nx f))) (seq 0 (h_ny f)), XX, YY)
  | _, _ => Err AttributeError
  end.

(** fromFits, psfex.py:560-611.  GaussianMixtureEllipsePSF is a global name of
    the module only if it is imported (the module's imports are psfex.py:1-6);
    imported says whether.  known: the class for a PSF_TYPE. *)
Definition from_fits (imported : bool) (known : string -> option pclass) (f : fits) : res vpsf :=
  if (h_type f =? "tractor.psfex.PsfEx")%string then
    if imported then
      match known (h_psf f) with
      | None => Err KeyError
      | Some cls =>
          d <- read_data f ;;
          Ok (mkV cls (fun _ _ => Err AttributeError) (h_W f) (h_H f) (h_nx f) (h_ny f) (h_K f)
                  false None (Some d))
      end
    else Err NameError
  else Err AssertionError.
End Vary.
Arguments pclass : clear implicits.
Arguments vpsf : clear implicits.

(** GaussianMixturePSF as psfClass, psf.py:537-596 and utils.py:1305-1372: a
    PSF is its 6 K parameters; fromStamp unpacks P0 in three (psf.py:551-554).
    em: the fit from the start in the stamp of N components. *)
Definition gm_from_stamp {img : Type} (em : nat -> img -> res (list R)) (N : nat) (im : img)
    (P0 : option (list R)) : res (list R) :=
  match P0 with
  | None => em N im
  | Some p => if (length p =? 3)%nat then em N im else Err ValueError
  end.

(** _set_param_names, utils.py:1348-1360, in the order of the indices. *)
Definition gm_names (K : nat) : list (list ascii) :=
  map (fun k => chars "amp" ++ [digit k]) (seq 0 K)
  ++ flat_map (fun k => [chars "meanx" ++ [digit k]; chars "meany" ++ [digit k]]) (seq 0 K)
  ++ flat_map (fun k => [chars "varxx" ++ [digit k]; chars "varyy" ++ [digit k];
                         chars "varxy" ++ [digit k]]) (seq 0 K).

Definition gm_class {img : Type} (em : nat -> img -> res (list R)) : pclass img (list R) :=
  mkClass (gm_from_stamp em) (fun p => p) (fun p => p)
          (fun p => if (length p mod 6 =? 0)%nat then Ok p else Err AssertionError)
          (fun p => gm_names (length p / 6)).

(** ** PsfExModel: the attributes, writeto, reading, and copies *)

Record pxmodel : Type := mkPx {
  p_samp : R; p_bases : list (list (list R)); p_xscale : R; p_yscale : R; p_degree : nat;
  p_radius : R; p_x0 : R; p_y0 : R;
  p_fwhm : option R }.   (* None: no such attribute *)

Record pxfile : Type := mkPxFile {
  x_ngrp : Z; x_name1 : string; x_name2 : string; x_grp1 : Z; x_grp2 : Z; x_axis3 : nat;
  x_zero1 : R; x_zero2 : R; x_scal1 : R; x_scal2 : R; x_deg1 : nat; x_samp : R; x_fwhm : R;
  x_mask : list (list (list R)) }.

Definition nterms (degree : nat) : nat := (degree + 1) * (degree + 2) / 2.

(** writeto, psfex.py:236-258. *)
Definition px_write (m : pxmodel) : res pxfile :=
  match p_fwhm m with
  | None => Err AttributeError
  | Some fw => Ok (mkPxFile 1 "X_IMAGE" "Y_IMAGE" 1 1 (nterms (p_degree m)) (p_x0 m) (p_y0 m)
                            (p_xscale m) (p_yscale m) (p_degree m) (p_samp m) fw (p_bases m))
  end.

(** __init__ with fn, psfex.py:160-207. *)
Definition px_read (f : pxfile) : res pxmodel :=
  if (x_ngrp f =? 0) || (x_ngrp f =? 1) then
    '(degree, x0, y0, xs, ys) <-
       (if x_ngrp f =? 0 then Ok (0%nat, 0%R, 0%R, 1%R, 1%R)
        else if ((x_name1 f =? "X_IMAGE") || (x_name1 f =? "XWIN_IMAGE"))%string
                && ((x_name2 f =? "Y_IMAGE") || (x_name2 f =? "YWIN_IMAGE"))%string
                && (x_grp1 f =? 1) && (x_grp2 f =? 1)
        then Ok (x_deg1 f, x_zero1 f, x_zero2 f, x_scal1 f, x_scal2 f)
        else Err AssertionError) ;;
    if (x_axis3 f =? nterms degree)%nat && (length (x_mask f) =? nterms degree)%nat then
      match x_mask f with
      | [] => Err IndexError
      | b :: _ => Ok (mkPx (x_samp f) (x_mask f) xs ys degree ((INR (length b) + 1) / 2)
                           x0 y0 (Some (x_fwhm f)))
      end
    else Err AssertionError
  else Err AssertionError.

(** shifted, copy and shift, psfex.py:273-286. *)
Definition px_shifted (m : pxmodel) (dx dy : R) : pxmodel :=
  mkPx (p_samp m) (p_bases m) (p_xscale m) (p_yscale m) (p_degree m) (p_radius m)
       (p_x0 m - dx) (p_y0 m - dy) None.
Definition px_copy (m : pxmodel) : pxmodel := px_shifted m 0 0.
