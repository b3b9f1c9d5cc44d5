(** Model of how galaxies are put into pixels, tractor/galaxy.py:266-516
    ([ProfileGalaxy._realGetUnitFluxModelPatch]): choosing the pixel box, the
    split of a profile mixture between the two rendering methods (hybrid
    PSFs), and where the Fourier-rendered image lands.

    Real numbers stand for floats (no rounding).  The rendering itself is a
    parameter of the model: [rend cs hs mux muy] is the image obtained by
    inverse FFT and Lanczos shift of the components [cs] (galaxy.py:452-470),
    [mogv cs X Y] the value of the PSF-convolved mixture about (px,py) at
    pixel (X,Y) (galaxy.py:306-331; the analytic convolution and evaluation
    are modelled in Mog*.v), [m2p] the result of mixture_to_patch
    (galaxy.py:320-322; modelled in Approx3*.v).  The warning for giant
    models (galaxy.py:374-375), the debug plots and the float32 conversion
    are not modelled. *)
From Coq Require Import List ZArith Bool Reals.
From Verif Require Import Base PatchModel.
Import ListNotations.
Open Scope Z_scope.

Definition rltb (x y : R) : bool := if Rlt_dec x y then true else false.
Definition rleb (x y : R) : bool := if Rle_dec x y then true else false.

(** np.floor and np.ceil, as integers. *)
Definition rfloor (x : R) : Z := Int_part x.
Definition rceil (x : R) : Z := - Int_part (- x).

(** One component of the profile mixture: its amplitude, the trace of its
    variance (var[0,0] + var[1,1], galaxy.py:415) and everything else. *)
Record comp (D : Type) : Type := mkComp { camp : R; cvv : R; cdat : D }.
Arguments mkComp {D}. Arguments camp {D}. Arguments cvv {D}. Arguments cdat {D}.

(** ModelMask, patch.py:3-56; [mmask] is None for a plain rectangle. *)
Record mmask : Type := mkMask { m_x0 : Z; m_y0 : Z; m_w : Z; m_h : Z; m_mask : option (Z -> Z -> bool) }.

Inductive psfkind : Type := PMog | PPixel | PHybrid.

(** PixelizedPSF.getFourierTransformSize, psf.py:209-212: the next power of two
    (for a radius of at least 1/2; below, 2**negative is not an integer). *)
Definition fft_size (radius : R) : Z := 2 ^ Z.log2_up (rceil (2 * radius)).

(** The centre of the stamp along one axis after _padInImage, psf.py:226-242. *)
Definition pad_centre (N n : Z) : Z :=
  if N >=? n then (N - n) / 2 + n / 2 else n / 2 - (n - N) / 2.

(** PixelizedPSF.getFourierTransform, psf.py:249-280, for a stamp of
    psfh x psfw pixels and sampling 1: the centre and the shape of the padded
    image (its transform is part of [rend] below). *)
Definition pixel_ft (psfh psfw : Z) (px py radius : R) : R * R * (Z * Z) :=
  let sz := fft_size radius in
  (IZR (pad_centre sz psfw), IZR (pad_centre sz psfh), (sz, sz)).

Section Gal.
Context {D : Type}.
Notation comp := (comp D).

(** amps *= weights *)
Definition reweigh (w : R -> R) (cs : list comp) : list comp :=
  map (fun c => mkComp (camp c * w (cvv c))%R (cvv c) (cdat c)) cs.

(** galaxy.py:424-425 *)
Definition isM (n2 : R) (pW : Z) (vv : R) : bool :=
  rltb ((IZR pW / 2) * (IZR pW / 2))%R (n2 * n2 * vv)%R.
Definition isF (n1 : R) (pW : Z) (vv : R) : bool :=
  rltb (n1 * n1 * vv)%R ((IZR pW / 2) * (IZR pW / 2))%R.

(** galaxy.py:434 *)
Definition nsig (pW : Z) (vv : R) : R := ((IZR pW / 2) / Rmax (1 / 1000000) (sqrt vv))%R.
(** galaxy.py:435-436 *)
Definition mogw (n1 n2 : R) (pW : Z) (vv : R) : R := Rmin 1 ((n2 - nsig pW vv) / (n2 - n1)).
Definition fftw (n1 n2 : R) (pW : Z) (vv : R) : R := Rmin 1 ((nsig pW vv - n1) / (n2 - n1)).

(** galaxy.py:412-460: (mogmix, fftmix). *)
Definition split (n1 n2 : R) (pW : Z) (cs : list comp) : res (option (list comp) * option (list comp)) :=
  let im := filter (fun c => isM n2 pW (cvv c)) cs in
  let if_ := filter (fun c => isF n1 pW (cvv c)) cs in
  let ramp := existsb (fun c => isM n2 pW (cvv c) && isF n1 pW (cvv c)) cs in
  mog <- (match im with
          | [] => Ok None
          | _ =>
              if ramp then
                if forallb (fun c => rltb 0 (mogw n1 n2 pW (cvv c))) im
                   && forallb (fun c => rleb (mogw n1 n2 pW (cvv c)) 1) im
                   && forallb (fun c => rltb 0 (fftw n1 n2 pW (cvv c))) if_
                   && forallb (fun c => rleb (fftw n1 n2 pW (cvv c)) 1) if_
                then Ok (Some (reweigh (mogw n1 n2 pW) im))
                else Err AssertionError
              else Ok (Some im)
          end) ;;
  Ok (mog, match if_ with
           | [] => None
           | _ => Some (if ramp then reweigh (fftw n1 n2 pW) if_ else if_)
           end).

Variable rnd : R -> Z.                                  (* int(np.round(x)) *)
Variable ft : R -> R -> R -> R * R * (Z * Z).           (* psf.getFourierTransform: centre, shape *)
Variable rend : list comp -> R -> R -> R -> arr R.
Variable mogv : list comp -> Z -> Z -> R.
Variable m2p : Z -> Z -> Z -> Z -> patch R.

(** run_mog with a mask, galaxy.py:323-331. *)
Definition run_mog (cs : list comp) (m : mmask) : patch R :=
  mkPatch (m_x0 m) (m_y0 m) (Some (mkArr (m_h m) (m_w m) (fun y x =>
    match m_mask m with
    | Some f => if f y x then mogv cs (m_x0 m + x) (m_y0 m + y) else 0%R
    | None => mogv cs (m_x0 m + x) (m_y0 m + y)
    end))).

(** galaxy.py:505-514: the mixture part is added, the shapes must agree. *)
Definition add_mog (mog : option (list comp)) (m : mmask) (G : arr R) : res (arr R) :=
  match mog with
  | None => Ok G
  | Some cs =>
      match pimg (run_mog cs m) with
      | None => Err AttributeError
      | Some a => if same_shape a G
                  then Ok (mkArr (ah G) (aw G) (fun y x => (PatchModel.px G y x + PatchModel.px a y x)%R))
                  else Err AssertionError
      end
  end.

(** galaxy.py:473-491: copying the image into the mask. *)
Definition place_mask (G : arr R) (sx sy : Z) (m : mmask) : res (arr R) :=
  let mh := m_h m in let mw := m_w m in
  G1 <- (if negb (sx =? 0) || negb (sy =? 0) then
           let shG := mkArr mh mw (fun _ _ => 0%R) in
           match get_overlapping_region (- sy) (- sy + mh - 1) 0 (ah G - 1),
                 get_overlapping_region (- sx) (- sx + mw - 1) 0 (aw G - 1) with
           | Some (yi, yo), Some (xi, xo) => aupd (fun _ b => b) shG yo xo (asub G yi xi)
           | _, _ => Ok shG
           end
         else Ok G) ;;
  let G2 := if (ah G >? mh) || (aw G >? mw) then asub G1 (sl_to mh) (sl_to mw) else G1 in
  if (ah G2 =? mh) && (aw G2 =? mw) then Ok G2 else Err AssertionError.

(** galaxy.py:493-503: clipping to the box; (G, ix0, iy0). *)
Definition place_box (G : arr R) (ix iy X0 X1 Y0 Y1 : Z) : arr R * Z * Z :=
  let '(G1, ix1) := if X0 >? ix then (asub G (sl_all (ah G)) (sl_from (X0 - ix) (aw G)), X0) else (G, ix) in
  let '(G2, iy1) := if Y0 >? iy then (asub G1 (sl_from (Y0 - iy) (ah G1)) (sl_all (aw G1)), Y0) else (G1, iy) in
  let gh := ah G2 in let gw := aw G2 in
  let G3 := if gw + ix1 >? X1 then asub G2 (sl_all (ah G2)) (sl_to (X1 - ix1)) else G2 in
  let G4 := if gh + iy1 >? Y1 then asub G3 (sl_to (Y1 - iy1)) (sl_all (aw G3)) else G3 in
  (G4, ix1, iy1).

(** galaxy.py:340-351: the half-size a mask asks for. *)
Definition mask_halfsize (m : mmask) (px py : R) (psfh psfw : Z) (force : option R) : R :=
  let mh := IZR (m_h m) in let mw := IZR (m_w m) in
  let x0 := IZR (m_x0 m) in let y0 := IZR (m_y0 m) in
  let x1 := (x0 + mw)%R in let y1 := (y0 + mh)%R in
  let h1 := Rmax (mh / 2) (mw / 2) in
  let h2 := Rmax h1 (Rmax (Rmax (1 + px - x0) (1 + x1 - px)) (Rmax (1 + py - y0) (1 + y1 - py))) in
  let h3 := Rmax h2 (Rmax (IZR psfw / 2) (IZR psfh / 2)) in
  IZR (rceil (match force with Some h => h | None => h3 end)).

(** galaxy.py:354 *)
Definition source_out (m : mmask) (px py : R) : bool :=
  rltb px (IZR (m_x0 m)) || rltb (IZR (m_x0 m + m_w m) - 1) px
  || rltb py (IZR (m_y0 m)) || rltb (IZR (m_y0 m + m_h m) - 1) py.

(** galaxy.py:357-366 *)
Definition nearest (m : mmask) (px py : R) : R :=
  let near (p lo hi : R) := (if rltb hi p then p - hi else if rltb p lo then lo - p else 0)%R in
  let ndx := near px (IZR (m_x0 m)) (IZR (m_x0 m + m_w m)) in
  let ndy := near py (IZR (m_y0 m)) (IZR (m_y0 m + m_h m)) in
  sqrt (ndx * ndx + ndy * ndy).

(** What the routine is told: the image shape, the PSF, the half-size of the
    galaxy ([_getUnitFluxPatchSize]), its radius in pixels at the mask, the
    two sigma limits of the hybrid split. *)
Record gal : Type := mkGal {
  g_H : Z; g_W : Z; g_kind : psfkind; g_psfh : Z; g_psfw : Z;
  g_half : R; g_rad : R; g_nsig : option (R * R); g_force_half : option R; g_force_out : bool }.

Definition is_hybrid (g : gal) : bool := match g_kind g with PHybrid => true | _ => false end.

(** galaxy.py:408-470: (mogmix, G). *)
Definition render (g : gal) (cs : list comp) (hs mux muy : R) (pH pW : Z)
  : res (option (list comp) * arr R) :=
  '(mog, fft) <- (match is_hybrid g, g_nsig g with
                  | true, Some (n1, n2) => split n1 n2 pW cs
                  | _, _ => Ok (None, Some cs)
                  end) ;;
  Ok (mog, match fft with
           | Some fs => rend fs hs mux muy
           | None => mkArr pH pW (fun _ _ => 0%R)
           end).

(** galaxy.py:266-516 *)
Definition model_patch (g : gal) (cs : list comp) (px py : R) (mm : option mmask) : res (option (patch R)) :=
  match mm with
  | None =>
      match get_overlapping_region (rfloor (px - g_half g)) (rceil (px + g_half g + 1)) 0 (g_W g - 1),
            get_overlapping_region (rfloor (py - g_half g)) (rceil (py + g_half g + 1)) 0 (g_H g - 1) with
      | Some (outx, _), Some (outy, _) =>
          let X0 := sstart outx in let X1 := sstop outx in
          let Y0 := sstart outy in let Y1 := sstop outy in
          match g_kind g with
          | PMog => Ok (Some (m2p X0 X1 Y0 Y1))
          | _ =>
              let '(cx, cy, (pH, pW)) := ft px py (g_half g) in
              let dx := (px - cx)%R in let dy := (py - cy)%R in
              let ix := rnd dx in let iy := rnd dy in
              let mux := (dx - IZR ix)%R in let muy := (dy - IZR iy)%R in
              if rleb (Rabs mux) (1 / 2) && rleb (Rabs muy) (1 / 2) then
                '(mog, G) <- render g cs (g_half g) mux muy pH pW ;;
                let '(G', ix', iy') := place_box G ix iy X0 X1 Y0 Y1 in
                G2 <- add_mog mog (mkMask ix' iy' (aw G') (ah G') None) G' ;;
                Ok (Some (mkPatch ix' iy' (Some G2)))
              else Err AssertionError
          end
      | _, _ => Ok None
      end
  | Some m =>
      match g_kind g with
      | PMog => Ok (Some (run_mog cs m))
      | _ =>
          let hs := mask_halfsize m px py (g_psfh g) (g_psfw g) (g_force_half g) in
          if source_out m px py then
            if rltb (g_rad g) (nearest m px py) && negb (g_force_out g) then Ok None
            else if is_hybrid g then Ok (Some (run_mog cs m))
            else Err RuntimeError
          else
            let '(cx, cy, (pH, pW)) := ft px py hs in
            let mux := (px - cx - IZR (m_x0 m))%R in let muy := (py - cy - IZR (m_y0 m))%R in
            let sx := rnd mux in let sy := rnd muy in
            let mux := (mux - IZR sx)%R in let muy := (muy - IZR sy)%R in
            if rleb (Rabs mux) (1 / 2) && rleb (Rabs muy) (1 / 2) then
              '(mog, G) <- render g cs hs mux muy pH pW ;;
              G' <- place_mask G sx sy m ;;
              G2 <- add_mog mog m G' ;;
              Ok (Some (mkPatch (m_x0 m) (m_y0 m) (Some G2)))
            else Err AssertionError
      end
  end.
End Gal.
