(** Model of forced photometry: tractor/optimize.py _getims, _get_iv and
    tractor/lsqr_optimizer.py _lsqr_forced_photom, _lnp_for_update.

    Numbers are of any type with the operations used.  The unit-flux models, the
    model of the frozen sources, the update direction (getUpdateDirection) and
    the log prior are given.  One sky level per image (asserted at
    optimize.py:51-55), added to every pixel (ConstantSky.addTo, sky.py:31-34).
    The zips of lists that hold one entry per image are written as one list of
    records.  NumPy would broadcast arrays of different shapes if one of them
    has an axis of length 1; that is reported as ValueError here. *)
From Coq Require Import List ZArith Bool Lia.
From Verif Require Import Base PatchModel.
Import ListNotations.
Open Scope Z_scope.

Section Forced.
Context {V : Type}.
Variables zero one : V.
Variables add mul sub : V -> V -> V.
Variable mhalf : V.                       (* -0.5 *)
Variables gtb geb : V -> V -> bool.       (* a > b, a >= b *)
Variable iszero : V -> bool.              (* a == 0. *)
Variable finite : V -> bool.              (* np.isfinite *)
Local Notation arr := (arr V).
Local Notation patch := (patch V).

(** Built-in max(a, b). *)
Definition pymax (a b : V) : V := if gtb b a then b else a.

Definition zrange (n : Z) : list Z := map Z.of_nat (seq 0 (Z.to_nat n)).
Definition lsum {A} (f : A -> V) (l : list A) : V := fold_right (fun a s => add (f a) s) zero l.
(** np.sum over an array; np.all(np.isfinite(a)). *)
Definition asum (a : arr) : V := lsum (fun y => lsum (fun x => px a y x) (zrange (aw a))) (zrange (ah a)).
Definition afinite (a : arr) : bool :=
  forallb (fun y => forallb (fun x => finite (px a y x)) (zrange (aw a))) (zrange (ah a)).
Definition azip (f : V -> V -> V) (a b : arr) : res arr :=
  if same_shape a b then Ok (mkArr (ah a) (aw a) (fun y x => f (px a y x) (px b y x))) else Err ValueError.
Definition amap (f : V -> V) (a : arr) : arr := mkArr (ah a) (aw a) (fun y x => f (px a y x)).
(** Patch.__mul__, patch.py:396-399. *)
Definition pmul (p : patch) (f : V) : patch :=
  mkPatch (x0 p) (y0 p) (match pimg p with None => None | Some a => Some (amap (fun v => mul v f) a) end).

(** One image: data, getInvError(), the model of the frozen sources (mod0), the
    photometric scale, its region and its unit-flux models. *)
Record fimg : Type := mkFimg {
  fi_im : arr; fi_ie : arr; fi_m0 : arr; fi_scale : V; fi_roi : option (sl * sl); fi_um : list (option patch) }.

(** for f, um in zip(fluxes, umods), optimize.py:484-499. *)
Fixpoint add_umods (scale : V) (minFlux : option V) (fluxes : list V) (ums : list (option patch)) (mod_ : arr) : res arr :=
  match fluxes, ums with
  | f :: fluxes, um :: ums =>
      match um with
      | None => add_umods scale minFlux fluxes ums mod_
      | Some p =>
          match pimg p with
          | None => add_umods scale minFlux fluxes ums mod_
          | Some a =>
              let f := match minFlux with None => f | Some m => pymax f m end in
              let counts := mul f scale in
              if iszero counts then add_umods scale minFlux fluxes ums mod_
              else if negb (finite counts) || negb (afinite a) then Err AssertionError
              else mod1 <- add_to add mul (pmul p counts) mod_ one ;;
                   add_umods scale minFlux fluxes ums mod1
          end
      end
  | _, _ => Ok mod_
  end.

Record rim : Type := mkRim { ri_im : arr; ri_mod : arr; ri_ie : arr; ri_chi : arr }.

(** One pass of the loop of _getims, optimize.py:472-520. *)
Definition getim (fluxes : list V) (i : fimg) (sky : option V) (minFlux : option V) : res rim :=
  if negb (afinite (fi_m0 i)) then Err AssertionError else
  let mod0 := match sky with None => fi_m0 i | Some s => amap (fun v => if iszero s then v else add v s) (fi_m0 i) end in
  if negb (afinite mod0) then Err AssertionError else
  mod_ <- add_umods (fi_scale i) minFlux fluxes (fi_um i) mod0 ;;
  let '(im, ie) := match fi_roi i with
                   | None => (fi_im i, fi_ie i)
                   | Some (ys, xs) => let ie := asub (fi_ie i) ys xs in (asub ie ys xs, ie)
                   end in
  d <- azip sub im mod_ ;;
  chi <- azip mul d ie ;;
  if negb (afinite chi) then Err AssertionError else Ok (mkRim im mod_ ie chi).

(** _getims; [sky]: one level per image if the sky is fitted. *)
Fixpoint getims (fluxes : list V) (is : list fimg) (sky : option (list V)) (minFlux : option V) : res (list rim) :=
  match is with
  | [] => Ok []
  | i :: is =>
      let s := match sky with None => None | Some l => Some (nth 0 l zero) end in
      r <- getim fluxes i s minFlux ;;
      rs <- getims fluxes is (match sky with None => None | Some l => Some (tl l) end) minFlux ;;
      Ok (r :: rs)
  end.

(** The parameters of the tractor: fluxes of the catalog and sky levels. *)
Record params : Type := mkParams { fl : list V; sk : list V }.
Variable images : list fimg.
Variable sky : bool.
Variable minFlux : option V.
Variable logprior : option (params -> V).          (* None: priors=False *)

(** [p + alpha * d for p, d in zip(p0, X)] *)
Definition step (p0 : list V) (alpha : V) (X : list V) : list V :=
  map (fun pd => add (fst pd) (mul alpha (snd pd))) (combine p0 X).

Definition chisq (ims : list rim) : V := lsum (fun r => asum (amap (fun v => mul v v) (ri_chi r))) ims.

(** The second half of _lnp_for_update, lsqr_optimizer.py:232-251: [pa] are the
    fluxes, [t] the parameters of the tractor at that time. *)
Definition lnp_at (t : params) (pa : list V) : res (V * option (list rim)) :=
  let lnp := match logprior with None => zero | Some f => add zero (f t) end in
  if match logprior with None => false | Some _ => negb (finite lnp) end then Ok (lnp, None) else
  ims <- getims pa images (if sky then Some (sk t) else None) minFlux ;;
  Ok (add lnp (mul mhalf (chisq ims)), Some ims).
(** The first half, lines 224-230: the sky levels of the tractor are changed. *)
Definition probe (t : params) (p0 p0sky : list V) (X Xsky : list V) (alpha : V) : res (V * option (list rim) * params) :=
  let t := if sky then mkParams (fl t) (step p0sky alpha Xsky) else t in
  '(lnp, ims) <- lnp_at t (step p0 alpha X) ;;
  Ok (lnp, ims, t).

(** for alpha in alphas, lsqr_optimizer.py:158-178: lnpBest with alphaBest and
    imsBest, the last alpha tried, and the parameters. *)
Record found : Type := mkFound { f_lnp : V; f_best : option (V * option (list rim)); f_last : option V; f_t : params }.
Fixpoint search (p0 p0sky X Xsky : list V) (alphas : list V) (b : found) : res found :=
  match alphas with
  | [] => Ok b
  | alpha :: alphas =>
      '(lnp, ims, t) <- probe (f_t b) p0 p0sky X Xsky alpha ;;
      if gtb (sub (f_lnp b) one) lnp then Ok (mkFound (f_lnp b) (f_best b) (Some alpha) t)
      else if negb (finite lnp) then Ok (mkFound (f_lnp b) (f_best b) (Some alpha) t)
      else search p0 p0sky X Xsky alphas
             (if gtb lnp (f_lnp b) then mkFound lnp (Some (alpha, ims)) (Some alpha) t
              else mkFound (f_lnp b) (f_best b) (Some alpha) t)
  end.

(** getUpdateDirection: given the damping, the parameters and the chi images
    (None if there are none), the update of sky levels then fluxes. *)
Variable direction : V -> params -> option (list arr) -> res (option (list V)).
Variables damp damp_init ten damp_max mindlnp : V. (* damp, 1e-3, 10., 1e3 *)
Variable user_alphas : option (list V).
Variable default_alphas : list V.

(** What the loop carries from one pass to the next; [w_ims1]: result.ims1;
    [w_swapped]: tractor.images was left set to the sub-images. *)
Record wstate : Type := mkW {
  w_t : params; w_lnp0 : V; w_chis0 : option (list arr); w_damping : V; w_damp0 : V;
  w_ims1 : option (list rim); w_swapped : bool }.

(** np.all((p0 + X) >= minFlux), lsqr_optimizer.py:136. *)
Definition above (p0 X : list V) (m : V) : bool :=
  forallb (fun pd => geb (add (fst pd) (snd pd)) m) (combine p0 X).

(** One pass of "while True", lsqr_optimizer.py:69-218, after lnp0 is known:
    whether the loop goes on, and the new state. *)
Definition pass (w : wstate) : res (bool * wstate) :=
  let t := w_t w in
  o <- direction (w_damping w) t (w_chis0 w) ;;
  match o with
  | None | Some [] =>
      Ok (false, mkW t (w_lnp0 w) (w_chis0 w) (w_damping w) (w_damp0 w) (w_ims1 w)
                   (existsb (fun i => match fi_roi i with Some _ => true | None => false end) images))
  | Some XX =>
      let p0 := fl t in
      let p0sky := sk t in
      let nsky := if sky then length p0sky else 0%nat in
      let Xsky := firstn nsky XX in
      let X := skipn nsky XX in
      if negb (length X =? length p0)%nat then Err ValueError else
      let fits := match minFlux with None => true | Some m => above p0 X m end in
      let alphas := if fits then [one] else match user_alphas with Some l => l | None => default_alphas end in
      let redamp := negb fits && iszero damp in
      let damping := if redamp then w_damp0 w else w_damping w in
      let damp0 := if redamp then mul (w_damp0 w) ten else w_damp0 w in
      let tryAgain := redamp && gtb damp_max damp0 in
      b <- search p0 p0sky X Xsky alphas (mkFound (w_lnp0 w) None None t) ;;
      let t := f_t b in
      let w' :=
        match f_best b with
        | Some (alphaBest, ims) =>
            let pa := map (fun v => match minFlux with Some m => pymax m v | None => v end) (step p0 alphaBest X) in
            let last := match f_last b with Some a => a | None => alphaBest end in
            mkW (mkParams pa (if sky then step p0sky last Xsky else sk t)) (f_lnp b)
                (match ims with None => None | Some l => Some (map ri_chi l) end) damping damp0 ims false
        | None => mkW (if sky then mkParams (fl t) p0sky else t) (w_lnp0 w) (w_chis0 w) damping damp0 (w_ims1 w) false
        end in
      let dlogprob := match f_best b with Some _ => sub (f_lnp b) (w_lnp0 w) | None => zero end in
      if gtb mindlnp dlogprob && negb tryAgain then Ok (false, w')
      else Ok (negb fits, w')
  end.
Fixpoint loop (fuel : nat) (w : wstate) : res (option wstate) :=
  match fuel with
  | O => Ok None
  | S fuel => '(go, w') <- pass w ;; if go then loop fuel w' else Ok (Some w')
  end.
(** _lsqr_forced_photom, lsqr_optimizer.py:43-221 (justims0=False): the
    first evaluation and the loop.  None: the loop has not ended yet. *)
Definition forced (fuel : nat) (t : params) : res (option wstate) :=
  '(lnp0, ims0) <- lnp_at t (fl t) ;;
  if negb (finite lnp0) then Err AssertionError else
  loop fuel (mkW t lnp0 (match ims0 with None => None | Some l => Some (map ri_chi l) end) damp damp_init None false).

(** ** _get_iv, optimize.py:378-423: [fi_ie] is that of the sub-images if there
    are regions.  Every image has [nsource] unit-flux models (asserted at
    optimize.py:64-65). *)

(** One image of the inner loop: mm and the sums for each unit-flux model. *)
Fixpoint iv_image (scale : V) (ie : arr) (ums : list (option patch)) (mm : arr) : res (list V) :=
  match ums with
  | [] => Ok []
  | None :: ums => r <- iv_image scale ie ums mm ;; Ok (zero :: r)
  | Some um :: ums =>
      mm1 <- add_to add mul um mm one ;;
      let '(uh, uw) := pshape um in
      let '(X, uw) := if x0 um <? 0 then (0, uw + x0 um) else (x0 um, uw) in
      let '(Y, uh) := if y0 um <? 0 then (0, uh + y0 um) else (y0 um, uh) in
      let ys := mkSl Y (Y + uh) in
      let xs := mkSl X (X + uw) in
      let m := asub mm1 ys xs in
      w <- azip mul (amap (fun v => mul v scale) m) (asub ie ys xs) ;;
      mm2 <- aupd (fun _ v => v) mm1 ys xs (amap (fun _ => zero) m) ;;
      r <- iv_image scale ie ums mm2 ;;
      Ok (asum (amap (fun v => mul v v) w) :: r)
  end.
(** IV[Nsky + ui] += dchi2 *)
Fixpoint addl (iv d : list V) : list V :=
  match iv, d with
  | a :: iv, b :: d => add a b :: addl iv d
  | _, _ => iv
  end.
Fixpoint iv_images (is : list fimg) (iv : list V) : res (list V) :=
  match is with
  | [] => Ok iv
  | i :: is =>
      d <- iv_image (fi_scale i) (fi_ie i) (fi_um i) (mkArr (ah (fi_ie i)) (aw (fi_ie i)) (fun _ _ => zero)) ;;
      iv_images is (addl iv d)
  end.
(** The whole of it.  skyderivs has a list with one pair per image
    (optimize.py:101-107), which "for di, (dsky, tim)" cannot take apart. *)
Definition get_iv (fit_sky skyvariance : bool) (is : list fimg) (nsource : nat) : res (list V) :=
  if fit_sky && skyvariance then
    match is with
    | [] => iv_images is (repeat zero nsource)
    | _ => Err ValueError
    end
  else iv_images is (repeat zero nsource).
End Forced.
