(** Model of tractor/sdss.py SdssBrightPSF and SdssPointSource (lines 33-157):
    bright stars drawn with the SDSS profile of two Gaussians and a power law.

    Real numbers (rounding not modelled), Python floats (division by zero
    raises).  Given are the patch of the ordinary PSF at the source's pixel
    position and the median pixel noise.  Powers are those of positive bases:
    the tolerance [dc] is positive, as are counts above positive thresholds.
    Not modelled: copy (lines 118-119), which raises NameError. *)
From Coq Require Import List ZArith Reals Bool.
From Verif Require Import Base PatchModel.
Import ListNotations.
Local Open Scope R_scope.

Definition floor (x : R) : Z := Int_part x.
Definition ceil (x : R) : Z := (- Int_part (- x))%Z.
Definition clip (x lo hi : R) : R := Rmin (Rmax x lo) hi.

(** The attributes, lines 34-42 *)
Record bpsf : Type := mkB { a1 : R; s1 : R; a2 : R; s2 : R; a3 : R; sigmap : R; beta : R }.

(** Lines 51-63 *)
Definition radius (b : bpsf) (dc : R) : R :=
  let r := if Rlt_dec (a3 b) dc then 25
           else sqrt (beta b * (sigmap b * sigmap b) * (Rpower (dc / a3 b) (- 2 / beta b) - 1)) in
  clip r 25 200.
(** Lines 79-83 *)
Definition profile (b : bpsf) (r2 : R) : R :=
  a1 b * exp (- (1 / 2) * r2 / (s1 b * s1 b)) + a2 b * exp (- (1 / 2) * r2 / (s2 b * s2 b)) +
  a3 b * Rpower (1 + r2 / (beta b * (sigmap b * sigmap b))) (- beta b / 2).
(** getBrightPointSourcePatch, lines 50-85 *)
Definition bright_patch (b : bpsf) (px_ py_ dc : R) : patch R :=
  let r := radius b dc in
  let x0 := floor (px_ - r) in let x1 := ceil (px_ + r) in
  let y0 := floor (py_ - r) in let y1 := ceil (py_ + r) in
  let p := mkArr (y1 + 1 - y0) (x1 + 1 - x0) (fun y x =>
    let X := IZR (x0 + x) in let Y := IZR (y0 + y) in
    profile b ((X - px_) * (X - px_) + (Y - py_) * (Y - py_))) in
  let s := arr_sum Rplus 0 p in
  mkPatch x0 y0 (Some (mkArr (ah p) (aw p) (fun y x => px p y x / s))).

(** SdssPointSource.__init__, lines 107-116: (thresh1, thresh2). *)
Definition point (thresh thresh2 : option R) : res (option R * option R) :=
  match thresh2, thresh with
  | Some t2, Some t => if Rle_dec t2 t then Ok (Some t, Some t2) else Err AssertionError
  | Some _, None => Err TypeError
  | None, Some t => Ok (Some t, Some (t / (5 / 2)))
  | None, None => Ok (None, None)
  end.
(** Patch * f, patch.py:396-399 *)
Definition scaled (p : patch R) (f : R) : patch R :=
  match pimg p with
  | None => mkPatch (x0 p) (y0 p) None
  | Some a => mkPatch (x0 p) (y0 p) (Some (mkArr (ah a) (aw a) (fun y x => px a y x * f)))
  end.

(** The fractions, lines 127-136: (fb, fa). *)
Definition fractions (ts : option R * option R) (counts : R) : res (R * R) :=
  match snd ts with
  | None => Ok (0, 1)
  | Some t2 =>
      if Rle_dec t2 counts then
        match fst ts with
        | None => Err TypeError
        | Some t1 =>
            if Req_EM_T (t1 - t2) 0 then Err ZeroDivisionError
            else let fb := clip ((counts - t2) / (t1 - t2)) 0 1 in Ok (fb, 1 - fb)
        end
      else Ok (0, 1)
  end.
(** getModelPatch, lines 121-157.  [masked]: a modelMask is given. *)
Definition model_patch (b : bpsf) (ordinary : patch R) (noise px_ py_ : R) (ts : option R * option R) (masked : bool) (counts : R)
  : res (option (patch R)) :=
  if masked then Err AssertionError
  else if Req_EM_T counts 0 then Ok None
  else
    '(fb, fa) <- fractions ts counts ;;
    let patch := if Req_EM_T fb 0 then None
                 else Some (scaled (bright_patch b px_ py_ (1 / 1000 * noise / counts)) fb) in
    patch <- (if Req_EM_T fa 0 then Ok patch
              else match patch with
                   | None => Ok (Some ordinary)
                   | Some p => r <- perform_arithmetic 0 Rplus p (scaled ordinary fa) ;; Ok (Some r)
                   end) ;;
    match patch with
    | None => Err TypeError      (* None * counts *)
    | Some p => Ok (Some (scaled p counts))
    end.
