(** Model of the per-source derivative code: PointSource (pointsource.py),
    Galaxy, FixedCompositeGalaxy, CompositeGalaxy (galaxy.py), SersicGalaxy
    (sersic.py), SersicCoreGalaxy (sercore.py), DevCoreGalaxy (devcore.py),
    Image.getParamDerivatives (image.py) and Tractor.getDerivs (engine.py).

    Parameters are stepped through the parameter objects of ParamsModel, so
    that what a derivative computation does to the parameters is visible.
    Numbers are of an arbitrary type [V] with arbitrary operations: nothing
    depends on rounding.  Rendering, photometric calibration and WCS are
    arbitrary functions of the parameter objects they are given.

    Simplifications:
    - the image, the model mask and the keyword arguments are fixed during a
      call and not shown as arguments of the rendering functions;
    - a Patch is an opaque value with subtraction, addition and scaling;
    - the patch names (setName) are not modelled;
    - a composite passes its own members to the temporary galaxies; what those
      calls leave in the shared members is written back explicitly. *)
From Coq Require Import String List ZArith Bool Lia.
From Verif Require Import Base ParamsModel.
Import ListNotations.

Section Deriv.
Variable V : Type.
Variables one two : V.
Variables vadd vsub vmul vdiv : V -> V -> V.
Variable vneg : V -> V.
Variables veqb vgtb : V -> V -> bool.
Variable zero : V.
Variable P : Type.                     (* patches *)
Variable psub padd : P -> P -> P.
Variable pscale : P -> V -> P.
Variable PX : Type.                    (* pixel positions *)

Notation ptree := (ptree V).

(** Image-dependent oracles. *)
Variable counts : ptree -> V.          (* photocal.brightnessToCounts *)
Variable minval_of : V -> option V.    (* minsb / counts if counts > 0 else None *)
Variable pixel : ptree -> ptree -> PX. (* wcs.positionToPixel(pos, src) *)
Variable cdi : ptree -> ptree -> nat -> V * V. (* column i of cdInverseAtPosition(pos, src) *)

(** [self.k], a member of the source. *)
Definition sub (t : ptree) (k : nat) : res ptree :=
  match t with PMulti _ subs _ => py_get subs k | _ => Err AttributeError end.

(** isParamFrozen of member k, utils.py:631-634. *)
Definition is_frozen (t : ptree) (k : nat) : bool :=
  match t with PMulti _ _ liq => negb (nth k liq false) | _ => false end.

Definition with_sub (t : ptree) (k : nat) (s : ptree) : ptree :=
  match t with PMulti nm subs liq => PMulti nm (upd k s subs) liq | _ => t end.

(** [self.k.setParam(i, v)]: the new source and the old value. *)
Definition sub_set (t : ptree) (k i : nat) (v : V) : res (ptree * V) :=
  s <- sub t k ;;
  r <- set_param s (Z.of_nat i) v ;;
  Ok (with_sub t k (fst r), snd r).

(** [oldval = sub.setParam(i, v); x = look; sub.setParam(i, oldval)]. *)
Definition stepped {X} (t : ptree) (k i : nat) (v : V) (look : ptree -> res X)
  : res (X * ptree) :=
  r <- sub_set t k i v ;;
  x <- look (fst r) ;;
  r' <- sub_set (fst r) k i (snd r) ;;
  Ok (x, fst r').

(** [for i, step in enumerate(steps): derivs.append(body)], with vals[i]. *)
Fixpoint step_loop {D} (body : nat -> V -> V -> ptree -> res (D * ptree))
    (i : nat) (steps vals : list V) (t : ptree) : res (list D * ptree) :=
  match steps with
  | [] => Ok ([], t)
  | st :: r =>
      v <- py_get vals i ;;
      x <- body i v st t ;;
      rs <- step_loop body (S i) r vals (snd x) ;;
      Ok (fst x :: fst rs, snd rs)
  end.

(** One brightness derivative: pointsource.py:230-241, galaxy.py:185-195. *)
Definition bright_body (k : nat) (counts0 : V) (patch0 : P)
    (i : nat) (v st : V) (t : ptree) : res (option P * ptree) :=
  x <- stepped t k i (vadd v st) (fun t' => b <- sub t' k ;; Ok (counts b)) ;;
  let ci := fst x in
  Ok (if veqb ci counts0 then None
      else Some (pscale patch0 (vdiv (vsub ci counts0) st)), snd x).

(** The short cut of pointsource.py:143-155: does any brightness parameter
    change the counts in this image?  The loop stops at the first that does. *)
Fixpoint allzero_loop (counts0 : V) (i : nat) (steps vals : list V) (t : ptree)
  : res (bool * ptree) :=
  match steps with
  | [] => Ok (true, t)
  | st :: r =>
      v <- py_get vals i ;;
      x <- stepped t 1 i (vadd v st) (fun t' => b <- sub t' 1 ;; Ok (counts b)) ;;
      if negb (veqb (fst x) counts0) then Ok (false, snd x)
      else allzero_loop counts0 (S i) r vals (snd x)
  end.

(** WCS.pixelDerivsToPositionDerivs, ducks.py:413-423: [cdi[0, i]] raises for
    a raw index i >= 2 (the matrix is 2 by 2). *)
Fixpoint pos_derivs_loop (pos src : ptree) (counts0 : V) (dx dy : P)
    (i : nat) (liq : list bool) : res (list (option P)) :=
  match liq with
  | [] => Ok []
  | true :: ls =>
      if i <? 2 then
        let c := cdi pos src i in
        r <- pos_derivs_loop pos src counts0 dx dy (S i) ls ;;
        Ok (Some (pscale (padd (pscale dx (fst c)) (pscale dy (snd c))) counts0) :: r)
      else Err IndexError
  | false :: ls => pos_derivs_loop pos src counts0 dx dy (S i) ls
  end.
Definition pixel_derivs_to_position_derivs (pos src : ptree) (counts0 : V) (dx dy : P)
  : res (list (option P)) :=
  match pos with
  | PList l => pos_derivs_loop pos src counts0 dx dy 0 (l_liquid l)
  | PMulti _ _ liq => pos_derivs_loop pos src counts0 dx dy 0 liq
  | _ => Err AttributeError
  end.

Definition nones (n : nat) : list (option P) := repeat None n.

(** ** Point sources *)
Section Point.
(** getUnitFluxModelPatch(minval) and the same with derivs=True, which
    returns a patch or a triple. *)
Variable ps_patch : option V -> ptree -> option P.
Variable ps_patches : option V -> ptree -> option (P * option (P * P)).
Variable overlaps : P -> bool.   (* patch0.overlapsBbox((0, W, 0, H)) *)

(** One stepped position derivative, pointsource.py:205-226. *)
Definition pos_body (sym : bool) (minval : option V) (counts0 : V) (patch0 : P)
    (i : nat) (v st : V) (t : ptree) : res (option P * ptree) :=
  r <- sub_set t 0 i (vadd v st) ;;
  let patchx := ps_patch minval (fst r) in
  r2 <- (if sym then sub_set (fst r) 0 i (vsub v st) else Ok r) ;;
  let p0 := if sym then ps_patch minval (fst r2) else Some patch0 in
  let pdiff := if sym then vmul st two else st in
  r3 <- sub_set (fst r2) 0 i (snd r) ;;
  dx <- match patchx with
        | None => Ok (pscale patch0 (vdiv (vneg counts0) st))
        | Some px =>
            match p0 with
            | Some q => Ok (pscale (psub px q) (vdiv counts0 pdiff))
            | None => Err AssertionError
            end
        end ;;
  Ok (Some dx, fst r3).

(** PointSource.getParamDerivatives, pointsource.py:130-243. *)
Definition point_derivs (fast sym : bool) (t : ptree) : res (list (option P) * ptree) :=
  pos <- sub t 0 ;;
  br <- sub t 1 ;;
  let pos_frozen := is_frozen t 0 || (number_of_params pos =? 0) in
  let bright_frozen := is_frozen t 1 in
  let counts0 := counts br in
  z <- (if pos_frozen && negb bright_frozen
        then allzero_loop counts0 0 (get_step_sizes one br) (get_params br) t
        else Ok (false, t)) ;;
  let t := snd z in
  if fst z then Ok (nones (number_of_params t), t)
  else
    let minval := minval_of counts0 in
    let patches :=
      if negb pos_frozen && fast then ps_patches minval t
      else match ps_patch minval t with Some p => Some (p, None) | None => None end in
    match patches with
    | None => Ok (nones (number_of_params t), t)
    | Some (patch0, dxy) =>
        if negb (overlaps patch0) then Ok (nones (number_of_params t), t)
        else
          d1 <- (if pos_frozen then Ok ([], t)
                 else match dxy with
                 | Some (dx, dy) =>
                     ds <- pixel_derivs_to_position_derivs pos t counts0 dx dy ;; Ok (ds, t)
                 | None =>
                     if veqb counts0 zero then Ok (nones (number_of_params pos), t)
                     else step_loop (pos_body sym minval counts0 patch0) 0
                            (get_step_sizes one pos) (get_params pos) t
                 end) ;;
          d2 <- (if bright_frozen then Ok ([], snd d1)
                 else b <- sub (snd d1) 1 ;;
                      step_loop (bright_body 1 counts0 patch0) 0
                        (get_step_sizes one b) (get_params b) (snd d1)) ;;
          Ok (fst d1 ++ fst d2, snd d2)
    end.
End Point.

(** ** Galaxies *)

(** How one kind of galaxy renders: [unit0] is getUnitFluxModelPatch with the
    caller's mask, [unit1 patch0] the same in the caller's mask or else in the
    extent of [patch0] (galaxy.py:156-159, 204-207). *)
Record renderer : Type := mkRenderer {
  unit0 : PX -> option V -> ptree -> option P;
  unit1 : P -> PX -> option V -> ptree -> option P
}.
Variables grad_x grad_y : P -> P.  (* the centred differences, galaxy.py:166-172 *)

(** One shape derivative, galaxy.py:202-221. *)
Definition shape_body (R : renderer) (px : PX) (minval : option V) (cts : V) (patch0 : P)
    (i : nat) (v st : V) (t : ptree) : res (option P * ptree) :=
  x <- stepped t 2 i (vadd v st) (fun t' => Ok (unit1 R patch0 px minval t')) ;;
  Ok (match fst x with
      | None => None
      | Some patchx => Some (pscale (psub patchx patch0) (vdiv cts st))
      end, snd x).

(** Galaxy.getParamDerivatives, galaxy.py:137-222. *)
Definition galaxy_derivs (R : renderer) (get_patch0 : bool) (t : ptree)
  : res (list (option P) * ptree) :=
  pos <- sub t 0 ;;
  br <- sub t 1 ;;
  shape <- sub t 2 ;;
  let px := pixel pos t in
  let cts := counts br in
  let minval := minval_of cts in
  let lead (p : option P) := if get_patch0 then [p] else [] in
  match unit0 R px minval t with
  | None => Ok (lead None ++ nones (number_of_params t), t)
  | Some patch0 =>
      d1 <- (if negb (is_frozen t 0) && negb (number_of_params pos =? 0) then
               if veqb cts zero then Ok (nones (length (get_params pos)))
               else pixel_derivs_to_position_derivs pos t cts (grad_x patch0) (grad_y patch0)
             else Ok []) ;;
      d2 <- (if is_frozen t 1 then Ok ([], t)
             else step_loop (bright_body 1 cts patch0) 0
                    (get_step_sizes one br) (get_params br) t) ;;
      d3 <- (if is_frozen t 2 then Ok ([], snd d2)
             else
               s <- sub (snd d2) 2 ;;
               if veqb cts zero then Ok (nones (length (get_params s)), snd d2)
               else step_loop (shape_body R px minval cts patch0) 0
                      (get_step_sizes one s) (get_params s) (snd d2)) ;;
      Ok (lead (Some patch0) ++ d1 ++ fst d2 ++ fst d3, snd d3)
  end.

(** One Sersic-index derivative, sersic.py:419-445: a step over the upper
    bound is reversed; after 'newpatch is None' the code goes on and
    subtracts (no 'continue'), which raises. *)
Definition sersic_body (R : renderer) (px : PX) (cts : V) (patch0 : P) (ups : list (option V))
    (i : nat) (v st : V) (t : ptree) : res (option P * ptree) :=
  u <- py_get ups i ;;
  match u with
  | None => Err TypeError
  | Some up =>
      let st := if vgtb (vadd v st) up then vmul st (vneg one) else st in
      x <- stepped t 3 i (vadd v st) (fun t' => Ok (unit0 R px (Some zero) t')) ;;
      match fst x with
      | None => Err TypeError
      | Some newpatch => Ok (Some (pscale (psub newpatch patch0) (vdiv cts st)), snd x)
      end
  end.

(** SersicGalaxy.getParamDerivatives, sersic.py:402-446. *)
Definition sersic_derivs (R : renderer) (t : ptree) : res (list (option P) * ptree) :=
  g <- galaxy_derivs R true t ;;
  match fst g with
  | [] => Err IndexError
  | patch0 :: derivs =>
      let t := snd g in
      pos <- sub t 0 ;;
      match patch0 with
      | None => Ok (derivs ++ [None], t)
      | Some patch0 =>
          br <- sub t 1 ;;
          ind <- sub t 3 ;;
          if is_frozen t 3 then Ok (derivs, t)
          else
            r <- step_loop (sersic_body R (pixel pos t) (counts br) patch0 (get_upper_bounds ind))
                   0 (get_step_sizes one ind) (get_params ind) t ;;
            Ok (derivs ++ fst r, snd r)
      end
  end.

(** add_patches, patch.py:61-68. *)
Definition add_patches (a b : option P) : option P :=
  match a, b with
  | Some x, Some y => Some (padd x y)
  | Some x, None => Some x
  | None, b => b
  end.

(** [for i in range(n): add_patches(a[i], b[i])]. *)
Fixpoint add_loop (n : nat) (a b : list (option P)) : res (list (option P)) :=
  match n with
  | O => Ok []
  | S n =>
      match a, b with
      | x :: a', y :: b' => r <- add_loop n a' b' ;; Ok (add_patches x y :: r)
      | _, _ => Err IndexError
      end
  end.

(** galaxy.py:1131-1144, sercore.py:100-113, devcore.py:94-107. *)
Definition merge (pos_frozen : bool) (npos : nat) (a b : list (option P))
  : res (list (option P)) :=
  if pos_frozen then Ok (a ++ b)
  else s <- add_loop npos a b ;; Ok (s ++ skipn npos a ++ skipn npos b).

Definition gal_names : names :=
  mkNames [("pos", 0); ("brightness", 1); ("shape", 2)]%string
          [(0, "pos"); (1, "brightness"); (2, "shape")]%string.

(** A temporary galaxy (or point source) made of members [ks] of [t], with the
    same members frozen (galaxy.py:1111-1128). *)
Definition part (t : ptree) (ks : list nat) : res ptree :=
  match t with
  | PMulti _ subs liq =>
      ss <- fold_right (fun k r => s <- py_get subs k ;; rs <- r ;; Ok (s :: rs)) (Ok []) ks ;;
      Ok (PMulti gal_names ss (map (fun k => nth k liq false) ks))
  | _ => Err AttributeError
  end.

(** The members of the temporary are the members of [t]. *)
Fixpoint write_back (ks : list nat) (e : ptree) (t : ptree) : ptree :=
  match ks, e with
  | k :: ks', PMulti nm (s :: ss) liq => write_back ks' (PMulti nm ss liq) (with_sub t k s)
  | _, _ => t
  end.

(** CompositeGalaxy.getParamDerivatives, galaxy.py:1110-1146. *)
Definition composite_derivs (Re Rd : renderer) (t : ptree) : res (list (option P) * ptree) :=
  e <- part t [0; 1; 2] ;;
  de <- galaxy_derivs Re false e ;;
  let t := write_back [0; 1; 2] (snd de) t in
  d <- part t [0; 3; 4] ;;
  dd <- galaxy_derivs Rd false d ;;
  let t := write_back [0; 3; 4] (snd dd) t in
  pos <- sub t 0 ;;
  ds <- merge (is_frozen t 0) (length (get_step_sizes one pos)) (fst de) (fst dd) ;;
  Ok (ds, t).

(** DevCoreGalaxy.getParamDerivatives, devcore.py:73-110: a deVaucouleurs
    galaxy [0; 1; 2] and a point source [0; 3]. *)
Definition devcore_derivs (Rd : renderer)
    (point : ptree -> res (list (option P) * ptree)) (t : ptree)
  : res (list (option P) * ptree) :=
  e <- part t [0; 1; 2] ;;
  de <- galaxy_derivs Rd false e ;;
  let t := write_back [0; 1; 2] (snd de) t in
  d <- part t [0; 3] ;;
  dd <- point d ;;
  let t := write_back [0; 3] (snd dd) t in
  pos <- sub t 0 ;;
  ds <- merge (is_frozen t 0) (length (get_step_sizes one pos)) (fst de) (fst dd) ;;
  Ok (ds, t).

(** SersicCoreGalaxy.getParamDerivatives, sercore.py:76-115. *)
Definition sercore_derivs (Rs : renderer)
    (point : ptree -> res (list (option P) * ptree)) (t : ptree)
  : res (list (option P) * ptree) :=
  e <- part t [0; 1; 2; 3] ;;
  de <- sersic_derivs Rs e ;;
  let t := write_back [0; 1; 2; 3] (snd de) t in
  d <- part t [0; 4] ;;
  dd <- point d ;;
  let t := write_back [0; 4] (snd dd) t in
  pos <- sub t 0 ;;
  ds <- merge (is_frozen t 0) (length (get_step_sizes one pos)) (fst de) (fst dd) ;;
  Ok (ds, t).

(** The temporaries of FixedCompositeGalaxy, galaxy.py:943-954: only 'pos' and
    'shape' are frozen along with the composite; 'brightness' never is. *)
Definition fixed_part (t : ptree) (ks : list nat) : res ptree :=
  e <- part t ks ;;
  match e with
  | PMulti nm ss [a; _; c] => Ok (PMulti nm ss [a; true; c])
  | _ => Ok e
  end.

(** FixedCompositeGalaxy.getParamDerivatives, galaxy.py:942-1029.  [clip] is
    fracDev.clipped(), [dfrac] fracDev.derivative(). *)
Definition fixed_composite_derivs (Re Rd : renderer) (clip dfrac : ptree -> V) (t : ptree)
  : res (list (option P) * ptree) :=
  e <- fixed_part t [0; 1; 3] ;;
  de <- galaxy_derivs Re false e ;;
  let t := write_back [0; 1; 3] (snd de) t in
  d <- fixed_part t [0; 1; 4] ;;
  dd <- galaxy_derivs Rd false d ;;
  let t := write_back [0; 1; 4] (snd dd) t in
  pos <- sub t 0 ;;
  br <- sub t 1 ;;
  frac <- sub t 2 ;;
  let f := clip frac in
  let dexp := map (option_map (fun p => pscale p (vsub one f))) (fst de) in
  let ddev := map (option_map (fun p => pscale p f)) (fst dd) in
  let npos := if is_frozen t 0 then 0 else number_of_params pos in
  d1 <- add_loop npos dexp ddev ;;
  let nb := if is_frozen t 1 then 0 else number_of_params br in
  d2 <- add_loop nb (skipn npos dexp) (skipn npos ddev) ;;
  let i0 := npos + nb in
  let cts := counts br in
  let d3 :=
    if is_frozen t 2 then []
    else if veqb cts zero then [None]
    else
      let pe := pixel pos (snd de) in
      let pd := pixel pos (snd dd) in
      let ue := option_map (fun p => pscale p (vneg (dfrac frac)))
                  (unit0 Re pe (Some zero) (snd de)) in
      let ud := option_map (fun p => pscale p (dfrac frac))
                  (unit0 Rd pd (Some zero) (snd dd)) in
      [option_map (fun p => pscale p cts) (add_patches ud ue)] in
  let d4 := if is_frozen t 3 then [] else skipn i0 dexp in
  let d5 := if is_frozen t 4 then [] else skipn i0 ddev in
  Ok (d1 ++ d2 ++ d3 ++ d4 ++ d5, t).

(** ** All derivatives of an inference problem *)

(** A derivative reported by an image member: a patch, None or False
    ("compute it for me"), image.py:101-121. *)
Inductive ideriv : Type := IPatch (p : P) | INone | IFalse.

Variable sub_derivs : ptree -> option (list ideriv).
   (* getParamDerivatives of a calibration object, None if it has no such method *)

(** Image.getParamDerivatives, image.py:101-121. *)
Definition image_sub_derivs (s : ptree) : res (list ideriv) :=
  match sub_derivs s with
  | Some sd => if length sd =? number_of_params s then Ok sd else Err AssertionError
  | None => Ok (repeat IFalse (number_of_params s))
  end.
Fixpoint concat_res {A} (l : list (res (list A))) : res (list A) :=
  match l with
  | [] => Ok []
  | m :: r => a <- m ;; rs <- concat_res r ;; Ok (a ++ rs)
  end.
Definition image_derivs (img : ptree) : res (list ideriv) :=
  match img with
  | PMulti _ subs liq => concat_res (active_map image_sub_derivs subs liq)
  | _ => Ok []
  end.

(** The whole inference problem: the list of images and the catalog, with
    their flags (engine.py:115-140). *)
Record problem : Type := mkProblem {
  pb_imgs : list ptree;
  pb_imgliq : list bool;      (* frozen flags of the images *)
  pb_imgs_on : bool;          (* 'images' thawed *)
  pb_srcs : list ptree;
  pb_srcliq : list bool;
  pb_srcs_on : bool           (* 'catalog' thawed *)
}.

Definition with_img (pb : problem) (k : nat) (t : ptree) : problem :=
  mkProblem (upd k t (pb_imgs pb)) (pb_imgliq pb) (pb_imgs_on pb)
            (pb_srcs pb) (pb_srcliq pb) (pb_srcs_on pb).
Definition with_src (pb : problem) (k : nat) (t : ptree) : problem :=
  mkProblem (pb_imgs pb) (pb_imgliq pb) (pb_imgs_on pb)
            (upd k t (pb_srcs pb)) (pb_srcliq pb) (pb_srcs_on pb).

(** Its parameter object (Tractor is a MultiParams of 'images' and
    'catalog', engine.py:24, 79-81, 115). *)
Definition tree_of (nm : names) (pb : problem) : ptree :=
  PMulti nm [PMulti nm (pb_imgs pb) (pb_imgliq pb); PMulti nm (pb_srcs pb) (pb_srcliq pb)]
         [pb_imgs_on pb; pb_srcs_on pb].

Variable I : Type.                                (* model images *)
Variable model_image : problem -> nat -> I.       (* getModelImage(img) *)
Variable diff_patch : I -> I -> V -> P.           (* Patch(0, 0, (mod - mod0) / step) *)

(** The inner loop of getDerivs over one image's derivatives, engine.py:306-321. *)
Fixpoint img_loop (pb : problem) (k : nat) (mod0 : I) (p0 steps : list V)
    (di : nat) (ds : list ideriv) : res (list (list (option P * nat)) * problem) :=
  match ds with
  | [] => Ok ([], pb)
  | d :: r =>
      x <- match d with
           | IPatch p => Ok (Some p, pb)
           | INone => Ok (None, pb)
           | IFalse =>
               img <- py_get (pb_imgs pb) k ;;
               v <- py_get p0 di ;;
               st <- py_get steps di ;;
               r1 <- set_param img (Z.of_nat di) (vadd v st) ;;
               let pb1 := with_img pb k (fst r1) in
               let m := model_image pb1 k in
               img1 <- py_get (pb_imgs pb1) k ;;
               r2 <- set_param img1 (Z.of_nat di) (snd r1) ;;
               Ok (Some (diff_patch m mod0 st), with_img pb1 k (fst r2))
           end ;;
      rs <- img_loop (snd x) k mod0 p0 steps (S di) r ;;
      Ok ([(fst x, k)] :: fst rs, snd rs)
  end.

(** engine.py:302-322, over the thawed images. *)
Fixpoint imgs_loop (pb : problem) (k : nat) (liq : list bool)
  : res (list (list (option P * nat)) * problem) :=
  match liq with
  | [] => Ok ([], pb)
  | false :: r => imgs_loop pb (S k) r
  | true :: r =>
      img <- py_get (pb_imgs pb) k ;;
      ds <- image_derivs img ;;
      x <- img_loop pb k (model_image pb k) (get_params img) (get_step_sizes one img) 0 ds ;;
      rs <- imgs_loop (snd x) (S k) r ;;
      Ok (fst x ++ fst rs, snd rs)
  end.

Variable src_derivs : nat -> ptree -> res (list (option P) * ptree).
   (* _getSourceDerivatives(src, images[j]), engine.py:389-395 *)

(** [srcderivs[k].append((deriv, img))] for the non-None derivatives,
    engine.py:330-333. *)
Fixpoint append_derivs (j k : nat) (ds : list (option P)) (acc : list (list (option P * nat)))
  : res (list (list (option P * nat))) :=
  match ds with
  | [] => Ok acc
  | None :: r => append_derivs j (S k) r acc
  | Some p :: r =>
      row <- py_get acc k ;;
      append_derivs j (S k) r (upd k (row ++ [(Some p, j)]) acc)
  end.

(** [for img in self.images], engine.py:328-333. *)
Fixpoint src_loop (j n : nat) (src : ptree) (acc : list (list (option P * nat)))
  : res (list (list (option P * nat)) * ptree) :=
  match n with
  | O => Ok (acc, src)
  | S n =>
      d <- src_derivs j src ;;
      acc' <- append_derivs j 0 (fst d) acc ;;
      src_loop (S j) n (snd d) acc'
  end.

(** engine.py:324-334, over the thawed sources (a None member is skipped by
    _getActiveSubs, utils.py:1030-1034). *)
Fixpoint srcs_loop (pb : problem) (k : nat) (srcs : list ptree) (liq : list bool)
  : res (list (list (option P * nat)) * problem) :=
  match srcs, liq with
  | s :: ss, l :: ls =>
      if l && negb (is_none s) then
        x <- src_loop 0 (length (pb_imgs pb)) s (repeat [] (number_of_params s)) ;;
        rs <- srcs_loop (with_src pb k (snd x)) (S k) ss ls ;;
        Ok (fst x ++ fst rs, snd rs)
      else srcs_loop pb (S k) ss ls
  | _, _ => Ok ([], pb)
  end.

(** Tractor.getDerivs, engine.py:279-339.  Simplified: no keyword arguments
    (Image.getParamDerivatives takes none and would raise). *)
Definition get_derivs (nm : names) (pb : problem)
  : res (list (list (option P * nat)) * problem) :=
  a <- (if pb_imgs_on pb then imgs_loop pb 0 (pb_imgliq pb) else Ok ([], pb)) ;;
  b <- (if pb_srcs_on pb then srcs_loop (snd a) 0 (pb_srcs (snd a)) (pb_srcliq (snd a))
        else Ok ([], snd a)) ;;
  let all := fst a ++ fst b in
  if length all =? number_of_params (tree_of nm (snd b)) then Ok (all, snd b)
  else Err AssertionError.
End Deriv.
