(** Mixture-of-Gaussians parameters: tractor/utils.py MogParams (lines
    1297-1406), tractor/psf.py GaussianMixtureEllipsePSF (lines 658-755), and
    parameters in FITS headers: tractor/ducks.py ImageCalibration (lines
    162-193), tractor/psf.py GaussianMixturePSF.fromFitsHeader (lines 407-425).
    Values are of any type; [avg a b] is 0.5*(a+b). *)
From Coq Require Import String List Bool Arith Lia.
From Verif Require Import Base.
Import ListNotations.

Section Mog.
Context {V : Type} (avg : V -> V -> V).

(** One component: amplitude, mean, variance matrix (rows first). *)
Record mog : Type := mkMog { amp : list V; mean : list (V * V); var : list (V * V * V * V) }.
Definition mog_K (m : mog) : nat := length (mean m).

Definition flat2 (l : list (V * V)) : list V := flat_map (fun p => [fst p; snd p]) l.
Fixpoint pairs (l : list V) : list (V * V) :=
  match l with a :: b :: r => (a, b) :: pairs r | _ => [] end.
(** l[o::3] for o = 0, 1, 2 *)
Fixpoint every3 (o : nat) (l : list V) : list V :=
  match l with
  | [] => []
  | x :: r => match o with O => x :: every3 2 r | S o => every3 o r end
  end.
(** a[:, i, j] = l for K rows: equal length, or one value for all. *)
Definition column (K : nat) (l : list V) : res (list V) :=
  if length l =? K then Ok l
  else match l with [x] => Ok (repeat x K) | _ => Err ValueError end.
Fixpoint zip_var (xx yy xy : list V) : list (V * V * V * V) :=
  match xx, yy, xy with
  | a :: xx, b :: yy, c :: xy => (a, c, c, b) :: zip_var xx yy xy
  | _, _, _ => []
  end.

(** MogParams._getThings, utils.py:1366-1370 *)
Definition get_things (m : mog) : list V :=
  amp m ++ flat2 (mean m) ++ flat_map (fun v => let '(xx, xy, yx, yy) := v in [xx; yy; xy]) (var m).
(** MogParams._getThing, utils.py:1372-1373 *)
Definition get_thing (m : mog) (i : nat) : res V := py_get (get_things m) i.
(** MogParams._setThings, utils.py:1375-1383 *)
Definition set_things (m : mog) (p : list V) : res mog :=
  let K := mog_K m in
  let a := firstn K p in
  let pp := skipn K p in
  if negb (length (firstn (K * 2) pp) =? K * 2) then Err ValueError else
  let mn := pairs (firstn (K * 2) pp) in
  let pp := skipn (K * 2) pp in
  xx <- column K (every3 0 pp) ;;
  yy <- column K (every3 1 pp) ;;
  xy <- column K (every3 2 pp) ;;
  Ok (mkMog a mn (zip_var xx yy xy)).
(** MogParams._setThing, utils.py:1385-1406: new object and old value. *)
Definition set_thing (m : mog) (i : nat) (p : V) : res (mog * V) :=
  let K := mog_K m in
  if i <? K then
    match nth_error (amp m) i with
    | None => Err IndexError
    | Some old => Ok (mkMog (upd i p (amp m)) (mean m) (var m), old)
    end
  else
    let i := i - K in
    if i <? K * 2 then
      match nth_error (flat2 (mean m)) i with
      | None => Err IndexError
      | Some old => Ok (mkMog (amp m) (pairs (upd i p (flat2 (mean m)))) (var m), old)
      end
    else
      let i := i - K * 2 in
      let j := i / 3 in
      let k := i mod 3 in
      match nth_error (var m) j with
      | None => Err IndexError
      | Some (xx, xy, yx, yy) =>
          match k with
          | 0 => Ok (mkMog (amp m) (mean m) (upd j (p, xy, yx, yy) (var m)), xx)
          | 1 => Ok (mkMog (amp m) (mean m) (upd j (xx, xy, yx, p) (var m)), yy)
          | _ => Ok (mkMog (amp m) (mean m) (upd j (xx, p, p, yy) (var m)), xy)
          end
      end.
(** MixtureOfGaussians.__init__ for (K,2), (K,2,2) arrays,
    mixture_profiles.py:52-89: the variances are symmetrized. *)
Definition new_mog (a : list V) (mn : list (V * V)) (v : list (V * V * V * V)) : mog :=
  mkMog a mn (map (fun m => let '(xx, xy, yx, yy) := m in (xx, avg yx xy, avg yx xy, yy)) v).
(** MogParams.__init__ with 6K numbers, utils.py:1320-1332 *)
Definition mog_of_args (args : list V) : res mog :=
  if negb (length args mod 6 =? 0) then Err AssertionError else
  let K := length args / 6 in
  let a := firstn K args in
  let mn := pairs (firstn (2 * K) (skipn K args)) in
  let args := skipn (3 * K) args in
  xx <- column K (every3 0 args) ;;
  yy <- column K (every3 1 args) ;;
  xy <- column K (every3 2 args) ;;
  Ok (new_mog a mn (zip_var xx yy xy)).
(** ParamList.setParams, setAllParams, utils.py:770-772, 790-792, on a MogParams
    with flags [liq]. *)
Fixpoint set_params (m : mog) (liq : list bool) (j : nat) (p : list V) : res mog :=
  match liq with
  | [] => Ok m
  | false :: liq => set_params m liq (S j) p
  | true :: liq =>
      match p with
      | [] => Err IndexError
      | v :: p => '(m, _) <- set_thing m j v ;; set_params m liq (S j) p
      end
  end.
Fixpoint set_all_params (m : mog) (i : nat) (p : list V) : res mog :=
  match p with
  | [] => Ok m
  | v :: p => '(m, _) <- set_thing m i v ;; set_all_params m (S i) p
  end.
(** ParamList.__init__ is called without values, so lowers, uppers and maxstep
    are empty lists (utils.py:716-720, 1335); getLowerBounds zips them with the
    flags (utils.py:794-801). *)
Definition lower_bounds (liq : list bool) : list (option V) :=
  let lowers : list (option V) := [] in
  map snd (filter fst (combine liq lowers)).

(** Names, utils.py:1350-1362.  Names are written as constructors; Python
    formats them with the component number. *)
Inductive mname : Type := NAmp (k : nat) | NMeanX (k : nat) | NMeanY (k : nat) | NVarXX (k : nat) | NVarYY (k : nat) | NVarXY (k : nat).
Definition names (K : nat) : list (mname * nat) :=
  flat_map (fun k => [(NAmp k, k); (NMeanX k, K + k * 2); (NMeanY k, K + k * 2 + 1);
                      (NVarXX k, K * 3 + k * 3); (NVarYY k, K * 3 + k * 3 + 1); (NVarXY k, K * 3 + k * 3 + 2)]) (seq 0 K).

(** *** GaussianMixtureEllipsePSF, psf.py:658-755: three numbers per ellipse;
    [cov] is ellipseToVariance. *)
Context (cov : V * V * V -> V * V * V * V).
Record emog : Type := mkEmog { e_amp : list V; e_mean : list (V * V); e_ell : list (V * V * V); e_var : list (V * V * V * V) }.
Definition e_K (m : emog) : nat := length (e_mean m).
(** psf.py:677-694 *)
Definition new_emog (a : list V) (mn : list (V * V)) (ell : list (V * V * V)) : emog :=
  mkEmog a mn ell (var (new_mog a mn (map cov ell))).
(** psf.py:732-736 *)
Definition e_get_things (m : emog) : list V :=
  e_amp m ++ flat2 (e_mean m) ++ flat_map (fun e => let '(a, b, c) := e in [a; b; c]) (e_ell m).
(** e.setAllParams(pp[:3]); pp = pp[3:] for each ellipse, psf.py:744-748.
    Missing values leave the old ones. *)
Fixpoint set_ells (ells : list (V * V * V)) (pp : list V) : list (V * V * V) :=
  match ells with
  | [] => []
  | (a, b, c) :: r =>
      (match firstn 3 pp with
       | [] => (a, b, c) | [x] => (x, b, c) | [x; y] => (x, y, c) | x :: y :: z :: _ => (x, y, z)
       end) :: set_ells r (skipn 3 pp)
  end.
(** psf.py:738-748 *)
Definition e_set_things (m : emog) (p : list V) : res emog :=
  let K := e_K m in
  let a := firstn K p in
  let pp := skipn K p in
  if negb (length (firstn (K * 2) pp) =? K * 2) then Err ValueError else
  let mn := pairs (firstn (K * 2) pp) in
  let ell := set_ells (e_ell m) (skipn (K * 2) pp) in
  Ok (mkEmog a mn ell (map cov ell)).
(** psf.py:749-755 *)
Definition e_set_thing (m : emog) (i : nat) (p : V) : res (emog * V) :=
  let things := e_get_things m in
  match nth_error things i with
  | None => Err IndexError
  | Some old => m <- e_set_things m (upd i p things) ;; Ok (m, old)
  end.

(** *** FITS headers: records (key prefix, number, value, comment).  Keys are
    prefix + 'P' + number. *)
Context {C : Type}.                 (* comments: parameter names *)
Definition header : Type := list (string * nat * (V * C)).
(** ImageCalibration.toFitsHeader, ducks.py:163-168: [names] getParamNames,
    [params] getAllParams. *)
Definition to_header (prefix : string) (names : list C) (params : list V) (hdr : header) : header :=
  hdr ++ map (fun e => (prefix, fst e, (snd (snd e), fst (snd e)))) (combine (seq 0 (length names)) (combine names params)).
Definition lookup (prefix : string) (i : nat) (hdr : header) : option V :=
  match find (fun e => String.eqb (fst (fst e)) prefix && (snd (fst e) =? i)) hdr with
  | Some e => Some (fst (snd e))
  | None => None
  end.
(** The loop over range(100), ducks.py:186-191, psf.py:410-415. *)
Fixpoint read_params (n i : nat) (prefix : string) (hdr : header) : list V :=
  match n with
  | O => []
  | S n => match lookup prefix i hdr with
           | None => []
           | Some v => v :: read_params n (S i) prefix hdr
           end
  end.
Definition header_params (prefix : string) (hdr : header) : list V := read_params 100 0 prefix hdr.
(** GaussianMixturePSF.fromFitsHeader, psf.py:407-425; [zero] fills the new
    object. *)
Definition gmpsf_from_header (zero : V) (prefix : string) (hdr : header) : res mog :=
  let params := header_params prefix hdr in
  if (length params =? 0) || negb (length params mod 6 =? 0) then Err RuntimeError else
  let K := length params / 6 in
  let m := new_mog (repeat zero K) (repeat (zero, zero) K) (repeat (zero, zero, zero, zero) K) in
  set_params m (repeat true (6 * K)) 0 params.
(** ImageCalibration.fromFitsHeader, ducks.py:173-193, for a class whose
    constructor without arguments gives the list [dflt] of values. *)
Fixpoint assign (vals : list V) (i : nat) (p : list V) : res (list V) :=
  match p with
  | [] => Ok vals
  | v :: p => if i <? length vals then assign (upd i v vals) (S i) p else Err IndexError
  end.
Definition from_header (dflt : list V) (prefix : string) (hdr : header) : res (list V) :=
  assign dflt 0 (header_params prefix hdr).
End Mog.
