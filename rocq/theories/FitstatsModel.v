(** Model of tractor/optimize.py: _get_umodels (147-222) and _get_fitstats
    (233-376).

    Numbers are of any type with the operations used.  Sources are of any type;
    their counts in an image (brightnessToCounts of getBrightnesses) and their
    unit-flux models are given.  One constant sky level per image
    (ConstantSky.addTo, sky.py:31-34).  Sums over selected pixels
    ([.flat[nz]]) are written as sums over all pixels of the slice where the
    others count zero.  NumPy would broadcast arrays of different shapes if one
    has an axis of length 1; that is reported as ValueError here. *)
From Coq Require Import List ZArith Bool Lia.
From Verif Require Import Base PatchModel ForcedModel.
Import ListNotations.
Open Scope Z_scope.

(** ** _get_umodels *)
Section Umodels.
Context {V Src Img : Type}.
(** src.getUnitFluxModelPatches(img, ...). *)
Variable unit_models : Src -> Img -> list (option (patch V)).

(** um.x0 -= x0; um.y0 -= y0, skipped for None and for um.patch None. *)
Definition shift_um (x y : Z) (um : option (patch V)) : option (patch V) :=
  match um with
  | None => None
  | Some p => match pimg p with None => Some p | Some a => Some (mkPatch (x0 p - x) (y0 p - y) (Some a)) end
  end.
(** The loop over sources for one image: the models so far and, in the first
    image, umodsforsource. *)
Fixpoint umods_of (img : Img) (x y : Z) (srcs : list Src) (umods : list (option (patch V))) (ufs : list (list nat)) :
    list (option (patch V)) * list (list nat) :=
  match srcs with
  | [] => (umods, ufs)
  | s :: srcs =>
      let ums := map (shift_um x y) (unit_models s img) in
      umods_of img x y srcs (umods ++ ums) (ufs ++ [map (fun ui => length umods + ui)%nat (seq 0 (length ums))])
  end.
(** umodels and umodsforsource; images with the start of their region (0, 0
    without regions). *)
Definition get_umodels (srcs : list Src) (imgs : list (Img * (Z * Z))) : list (list (option (patch V))) * list (list nat) :=
  (map (fun i => fst (umods_of (fst i) (fst (snd i)) (snd (snd i)) srcs [] [])) imgs,
   match imgs with
   | [] => repeat [] (length srcs)
   | i :: _ => snd (umods_of (fst i) (fst (snd i)) (snd (snd i)) srcs [] [])
   end).
End Umodels.

(** ** _get_fitstats *)
(** Sum over the pixels of an array that are selected; their number. *)
Definition ssum {V} (zero : V) (add : V -> V -> V) (h w : Z) (sel : Z -> Z -> bool) (f : Z -> Z -> V) : V :=
  lsum zero add (fun y => lsum zero add (fun x => if sel y x then f y x else zero) (zrange w)) (zrange h).
Definition scount (h w : Z) (sel : Z -> Z -> bool) : Z := ssum 0 Z.add h w sel (fun _ _ => 1).

Section Fitstats.
Context {V Src : Type}.
Variables zero one : V.
Variables add mul sub div : V -> V -> V.
Variables opp abs : V -> V.
Variable iszero pos : V -> bool.          (* a == 0, a > 0 *)
Variable max1 : V -> V.                   (* np.maximum(1, a) *)
Local Notation arr := (arr V).
Local Notation patch := (patch V).
Local Notation lsum := (lsum zero add).
Local Notation ssum := (ssum zero add).

(** What is known for one image: model, inverse error, chi, its sky level, its
    photometric scale, its unit-flux models, its extra images. *)
Record fsimg : Type := mkFs {
  fs_mod : arr; fs_ie : arr; fs_chi : arr; fs_sky : V; fs_scale : V; fs_um : list (option patch); fs_extra : list arr }.

(** for ui, counts in zip(uis, cc), lines 309-329. *)
Fixpoint accumulate (umods : list (option patch)) (l : list (nat * V)) (srcmod : arr) (box : option (Z * Z * Z * Z)) :
    res (arr * option (Z * Z * Z * Z)) :=
  match l with
  | [] => Ok (srcmod, box)
  | (ui, counts) :: l =>
      if iszero counts then accumulate umods l srcmod box else
      match nth_error umods ui with
      | None => Err IndexError
      | Some None => accumulate umods l srcmod box
      | Some (Some um) =>
          let '(uh, uw) := pshape um in
          let box := match box with
                     | None => (x0 um, x0 um + uw, y0 um, y0 um + uh)
                     | Some (xlo, xhi, ylo, yhi) =>
                         ((if x0 um <? xlo then x0 um else xlo), (if xhi <? x0 um + uw then x0 um + uw else xhi),
                          (if y0 um <? ylo then y0 um else ylo), (if yhi <? y0 um + uh then y0 um + uh else yhi))
                     end in
          srcmod <- add_to add mul (pmul mul um counts) srcmod one ;;
          accumulate umods l srcmod (Some box)
      end
  end.

(** The accumulated numbers of one source. *)
Record stats : Type := mkStats {
  prochi2 : V; pronpix : V; promasked : V; ffnum : V; ffden : V; proflux : V; npix : Z; innum : V; inden : V; extra : list V }.

(** += of the numbers of one image, lines 341-366: [p] is srcmod[slc], the
    others the same slice of the other images. *)
Definition add_stats (s : stats) (p ie chi mod_ : arr) (ex : list arr) (scale counts : V) : stats :=
  let h := ah p in let w := aw p in
  let nz := fun y x => negb (iszero (px p y x)) && pos (px ie y x) in
  mkStats
    (add (prochi2 s) (ssum h w nz (fun y x => mul (abs (px p y x)) (mul (px chi y x) (px chi y x)))))
    (add (pronpix s) (ssum h w nz (fun y x => abs (px p y x))))
    (add (promasked s) (ssum h w (fun y x => iszero (px ie y x)) (fun y x => abs (px p y x))))
    (add (ffnum s) (div (ssum h w nz (fun y x => mul (abs (sub (div (px mod_ y x) counts) (px p y x))) (abs (px p y x))))
                        (ssum h w nz (fun y x => mul (px p y x) (px p y x)))))
    (add (ffden s) (ssum h w nz (fun y x => div (abs (px p y x)) (abs counts))))
    (add (proflux s) (ssum h w nz (fun y x => mul (abs (div (sub (px mod_ y x) (mul (px p y x) counts)) scale)) (abs (px p y x)))))
    (npix s + scount h w nz)
    (add (innum s) (ssum h w (fun _ _ => true) (fun y x => abs (px p y x))))
    (add (inden s) one)
    (map (fun se => add (fst se) (ssum h w nz (fun y x => mul (abs (px p y x)) (px (snd se) y x)))) (combine (extra s) ex)).

(** One source in one image, lines 297-368: its numbers and srcmods[imi]. *)
Definition stat_image (uis : list nat) (cc : list V) (i : fsimg) (mod_ : arr) (srcmod : arr) (s : stats) : res (stats * arr) :=
  let sourcecounts := lsum (fun c => c) cc in
  if iszero sourcecounts then Ok (s, srcmod) else
  '(srcmod, box) <- accumulate (fs_um i) (combine uis cc) srcmod None ;;
  match box with
  | None => Ok (s, srcmod)
  | Some (xlo, xhi, ylo, yhi) =>
      let ys := mkSl ylo yhi in
      let xs := mkSl xlo xhi in
      srcmod <- aupd (fun _ v => v) srcmod ys xs (amap (fun v => div v sourcecounts) (asub srcmod ys xs)) ;;
      let p := asub srcmod ys xs in
      let ie := asub (fs_ie i) ys xs in
      let chi := asub (fs_chi i) ys xs in
      let m := asub mod_ ys xs in
      let ex := map (fun e => asub e ys xs) (fs_extra i) in
      if negb (forallb (same_shape p) (ie :: chi :: m :: ex)) then Err ValueError else
      let s := if (scount (ah p) (aw p) (fun y x => negb (iszero (px p y x)) && pos (px ie y x)) =? 0) then s
               else add_stats s p ie chi m ex (fs_scale i) sourcecounts in
      srcmod <- aupd (fun _ v => v) srcmod ys xs (amap (fun _ => zero) p) ;;
      Ok (s, srcmod)
  end.

(** src.getBrightnesses as counts in the image with this index. *)
Variable counts_of : Src -> nat -> list V.

(** The loop over images for one source. *)
Fixpoint stat_images (uis : list nat) (src : Src) (imi : nat) (is : list (fsimg * arr)) (srcmods : list arr) (s : stats) : res (stats * list arr) :=
  match is, srcmods with
  | (i, m) :: is, sm :: srcmods =>
      '(s, sm) <- stat_image uis (counts_of src imi) i m sm s ;;
      '(s, sms) <- stat_images uis src (S imi) is srcmods s ;;
      Ok (s, sm :: sms)
  | _, _ => Ok (s, srcmods)
  end.
Definition stats0 (nextra : nat) : stats := mkStats zero zero zero zero zero zero 0%Z zero zero (repeat zero nextra).
(** The loop over sources: src = catalog[si]. *)
Fixpoint stat_sources (nextra : nat) (catalog : list Src) (si : nat) (ufs : list (list nat)) (is : list (fsimg * arr)) (srcmods : list arr) : res (list stats) :=
  match ufs with
  | [] => Ok []
  | uis :: ufs =>
      match nth_error catalog si with
      | None => Err IndexError
      | Some src =>
          '(s, srcmods) <- stat_images uis src 0 is srcmods (stats0 nextra) ;;
          r <- stat_sources nextra catalog (S si) ufs is srcmods ;;
          Ok (s :: r)
      end
  end.

(** ConstantSky.addTo(mod, scale), sky.py:31-34. *)
Definition sky_add (v scale : V) (m : arr) : arr := if iszero v then m else amap (fun x => add x (mul v scale)) m.

(** The whole of it: imchisq, imnpix, the numbers of each source with
    profracflux and fracin, and the model images afterwards. *)
Record fitstats : Type := mkFit {
  imchisq : list V; imnpix : list Z; persrc : list stats; profracflux : list V; fracin : list V; mods_after : list arr }.
Definition get_fitstats (nextra : nat) (catalog : list Src) (ufs : list (list nat)) (is : list fsimg) : res fitstats :=
  let ms := map (fun i => sky_add (fs_sky i) (opp one) (fs_mod i)) is in
  l <- stat_sources nextra catalog 0 ufs (combine is ms) (map (fun i => mkArr (ah (fs_chi i)) (aw (fs_chi i)) (fun _ _ => zero)) is) ;;
  Ok (mkFit (map (fun i => asum zero add (amap (fun v => mul v v) (fs_chi i))) is)
            (map (fun i => scount (ah (fs_ie i)) (aw (fs_ie i)) (fun y x => pos (px (fs_ie i) y x))) is)
            l (map (fun s => div (ffnum s) (max1 (ffden s))) l) (map (fun s => div (innum s) (max1 (inden s))) l)
            (map (fun im => sky_add (fs_sky (fst im)) one (snd im)) (combine is ms))).
End Fitstats.
