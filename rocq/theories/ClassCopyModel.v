(** Classes that override copy, and the arithmetic of ArithmeticParams:
    brightness.py (multi-band brightness, calibrations), sersic.py
    (SersicGalaxy), psf.py (NCircularGaussianPSF), utils.py (ArithmeticParams).
    Objects are the values of ParamsModel.v. *)
From Coq Require Import String List ZArith Bool Lia Reals.
From Verif Require Import Base ParamsModel.
Import ListNotations.

(** ** Multi-band brightness *)
Section Bands.
Context {V : Type}.

(** Attributes of a MultiBandBrightness: [order] and the ParamList. *)
Record mbb : Type := mkMbb { m_order : list string; m_list : plist V }.

Fixpoint lookup {A} (k : string) (d : list (string * A)) : option A :=
  match d with [] => None | (k', v) :: r => if String.eqb k k' then Some v else lookup k r end.
Definition mem (k : string) (l : list string) : bool := existsb (String.eqb k) l.

(** [dict((k, i) for i, k in enumerate(keys))] *)
Fixpoint index_names (i : nat) (keys : list string) : list (string * nat) :=
  match keys with [] => [] | k :: r => (k, i) :: index_names (S i) r end.

Fixpoint collect {A} (keys : list string) (kw : list (string * A)) : res (list A) :=
  match keys with
  | [] => Ok []
  | k :: r => match lookup k kw with None => Err KeyError | Some v => vs <- collect r kw ;; Ok (v :: vs) end
  end.

(** MultiBandBrightness.__init__ with order= given, brightness.py:36-54; [kw]
    is the dictionary of the other arguments, so its keys are distinct.
    [steps] are the step sizes a subclass sets (Mags, brightness.py:87-88). *)
Definition mbb_new (steps : option V) (order : list string) (kw : list (string * V)) : res mbb :=
  if negb (length kw =? length order) then Err AssertionError
  else if negb (forallb (fun e => mem (fst e) order) kw && forallb (fun k => mem k (map fst kw)) order)
  then Err AssertionError
  else
    vals <- collect order kw ;;
    Ok (mkMbb order
         (mkPlist (add_named_params (mkNames [] []) (index_names 0 order)) vals
            (map (fun _ => true) vals) (map (fun _ => None) vals) (map (fun _ => None) vals)
            (map (fun _ => None) vals)
            (match steps with Some s => Some (map (fun _ => s) vals) | None => None end) [])).

(** getBand, brightness.py:65-66: the attribute named like the band is the
    value at its index (named parameters, utils.py:468-496).  A band named
    like an existing attribute is not considered. *)
Definition get_band (m : mbb) (b : string) : res V :=
  match named_param_index (l_names (m_list m)) b with
  | None => Err AttributeError
  | Some i => py_get (l_vals (m_list m)) i
  end.

(** The loop building the new object in Mags.__mul__ and Fluxes.__mul__,
    brightness.py:118-132, 147-152: [f] maps a stored value. *)
Fixpoint band_kw (m : mbb) (f : V -> V) (bs : list string) : res (list (string * V)) :=
  match bs with
  | [] => Ok []
  | b :: r => v <- get_band m b ;; kw <- band_kw m f r ;; Ok ((b, f v) :: kw)
  end.
Definition band_map (steps : option V) (f : V -> V) (m : mbb) : res mbb :=
  kw <- band_kw m f (m_order m) ;; mbb_new steps (m_order m) kw.
End Bands.
Arguments mbb : clear implicits.

Definition log10 (x : R) : R := (ln x / ln 10)%R.
(** Fluxes.__mul__, brightness.py:147-152. *)
Definition fluxes_mul (m : mbb R) (factor : R) : res (mbb R) := band_map None (fun v => v * factor)%R m.
(** Mags.__mul__, brightness.py:118-132. *)
Definition mags_mul (m : mbb R) (factor : R) : res (mbb R) :=
  band_map (Some (-1 / 100)%R) (fun v => v + -5 / 2 * log10 (Rabs factor))%R m.
(** MultiBandBrightness.copy, brightness.py:62-63. *)
Definition fluxes_copy (m : mbb R) : res (mbb R) := fluxes_mul m 1.
Definition mags_copy (m : mbb R) : res (mbb R) := mags_mul m 1.

(** ** Galaxies and calibrations *)
Section Copies.
Context {V : Type}.

(** SersicGalaxy.copy, sersic.py:391-393: a new galaxy of copies of the four
    members ([cp] is the member's own copy). *)
Definition sersic_copy (cp : ptree V -> res (ptree V)) (t : ptree V) : res (ptree V) :=
  match t with
  | PMulti nm [pos; bright; shape; index] liq =>
      pos' <- cp pos ;; bright' <- cp bright ;; shape' <- cp shape ;; index' <- cp index ;;
      Ok (mk_multi nm [pos'; bright'; shape'; index'])
  | _ => Err TypeError
  end.

(** MagsPhotoCal.copy, brightness.py:281-282: a new object of the zeropoint,
    which is read by name; the band is not a parameter. *)
Definition magsphotocal_copy (l : plist V) : res (ptree V) :=
  v <- py_get (l_vals l) 0 ;; Ok (mk_plist (l_names l) [v]).

(** ** NCircularGaussianPSF *)

(** [tuple(self.sigmas)], [for s in self.sigmas]: ParamList.__iter__ goes over
    the thawed values, utils.py:818-836. *)
Definition iter_list (l : plist V) : list V := keep (l_liquid l) (l_vals l).

Definition ncirc_names : names := add_named_params (mkNames [] []) [("sigmas", 0); ("weights", 1)]%string.

(** NCircularGaussianPSF.__init__, psf.py:798-816. *)
Definition ncirc_new (step : V) (sigmas weights : list V) : res (ptree V) :=
  if negb (length sigmas =? length weights) then Err AssertionError
  else
    let pl (vs : list V) :=
      PList (mkPlist (mkNames [] []) vs (map (fun _ => true) vs) (map (fun _ => None) vs)
               (map (fun _ => None) vs) (map (fun _ => None) vs) (Some (map (fun _ => step) vs)) []) in
    Ok (mk_multi ncirc_names [pl sigmas; pl weights]).

(** NCircularGaussianPSF.copy, psf.py:874-876, of a PSF with lists [s], [w]. *)
Definition ncirc_copy (step : V) (s w : plist V) : res (ptree V) := ncirc_new step (iter_list s) (iter_list w).

(** NCircularGaussianPSF.hashkey, psf.py:870-872. *)
Definition ncirc_hashkey (s w : plist V) : list V * list V := (iter_list s, iter_list w).

(** NCircularGaussianPSF.getMixtureOfGaussians, psf.py:851-868, 931-938:
    amplitude and standard deviation of each component. *)
Definition ncirc_mog (s w : plist V) : list (V * V) := combine (l_vals w) (l_vals s).

(** ** ArithmeticParams *)

(** The other operand: an object with getAllParams, or a plain number. *)
Inductive operand : Type := OParams (t : ptree V) | ONumber (x : V).

(** [[op(x, y) for x, y in zip(a, b)]], [[op(x, other) for x in a]] *)
Fixpoint zip_op (f : V -> V -> V) (a b : list V) : list V :=
  match a, b with x :: a', y :: b' => f x y :: zip_op f a' b' | _, _ => [] end.
Definition op_list (f : V -> V -> V) (a : list V) (o : operand) : list V :=
  match o with
  | OParams t => zip_op f a (get_all_params t)
  | ONumber x => map (fun v => f v x) a
  end.

(** __add__, __sub__, __mul__, __div__, utils.py:841-879. *)
Definition arith (one : V) (f : V -> V -> V) (t : ptree V) (o : operand) : res (ptree V) :=
  t' <- copy one t ;; set_all_params t' (op_list f (get_all_params t') o).
(** __iadd__, __isub__, __imul__, __idiv__, utils.py:881-915. *)
Definition arith_in_place (f : V -> V -> V) (t : ptree V) (o : operand) : res (ptree V) :=
  set_all_params t (op_list f (get_all_params t) o).

(** Python 3 operators: the method names tried, and the methods the class
    has (utils.py:841-920; [__radd__ = __add__] and so on). *)
Inductive opname := Add | Sub | Mul | Div.
Definition opfun (add sub mul div : V -> V -> V) (o : opname) : V -> V -> V :=
  match o with Add => add | Sub => sub | Mul => mul | Div => div end.
Definition methods : list (string * opname) :=
  [("__add__", Add); ("__sub__", Sub); ("__mul__", Mul); ("__div__", Div);
   ("__iadd__", Add); ("__isub__", Sub); ("__imul__", Mul); ("__idiv__", Div);
   ("__radd__", Add); ("__rsub__", Sub); ("__rmul__", Mul); ("__rdiv__", Div)]%string.
Definition py3_method (o : opname) : string :=
  match o with Add => "__add__" | Sub => "__sub__" | Mul => "__mul__" | Div => "__truediv__" end%string.
Definition py3_reflected (o : opname) : string :=
  match o with Add => "__radd__" | Sub => "__rsub__" | Mul => "__rmul__" | Div => "__rtruediv__" end%string.

(** [p op other] *)
Definition py_binop (one : V) (fs : opname -> V -> V -> V) (o : opname) (t : ptree V) (x : operand) : res (ptree V) :=
  match lookup (py3_method o) methods with
  | Some m => arith one (fs m) t x
  | None => Err TypeError
  end.
Definition py3_in_place (o : opname) : string :=
  match o with Add => "__iadd__" | Sub => "__isub__" | Mul => "__imul__" | Div => "__itruediv__" end%string.
(** [p op= other]: without an in-place method Python takes the other one. *)
Definition py_ibinop (one : V) (fs : opname -> V -> V -> V) (o : opname) (t : ptree V) (x : operand) : res (ptree V) :=
  match lookup (py3_in_place o) methods with
  | Some m => arith_in_place (fs m) t x
  | None => py_binop one fs o t x
  end.
(** [x op p] for a plain number x *)
Definition py_rbinop (one : V) (fs : opname -> V -> V -> V) (o : opname) (x : V) (t : ptree V) : res (ptree V) :=
  match lookup (py3_reflected o) methods with
  | Some m => arith one (fs m) t (ONumber x)
  | None => Err TypeError
  end.
End Copies.
Arguments operand : clear implicits.
