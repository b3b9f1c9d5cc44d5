(** Magnitudes and fluxes: tractor/brightness.py, over the real numbers
    (rounding, overflow and the float32 conversion of line 243 are not
    modelled).  NaN results are [None]. *)
From Coq Require Import String List Reals Lra Bool.
From Verif Require Import Base.
Import ListNotations.
Open Scope R_scope.

Definition log10 (x : R) : R := ln x / ln 10.
Definition pow10 (x : R) : R := Rpower 10 x.

(** NanoMaggies.magToNanomaggies, brightness.py:200-203. *)
Definition mag_to_nanomaggies (mag : R) : R := pow10 ((mag - 22.5) / - 2.5).
(** NanoMaggies.nanomaggiesToMag, brightness.py:205-208. *)
Definition nanomaggies_to_mag (nmgy : R) : R := - 2.5 * (log10 nmgy - 9).
(** NanoMaggies.zeropointToScale, brightness.py:210-217. *)
Definition zeropoint_to_scale (zp : R) : R := pow10 ((zp - 22.5) / 2.5).
(** NanoMaggies.scaleToZeropoint, brightness.py:219-226. *)
Definition scale_to_zeropoint (s : R) : R := 22.5 + 2.5 * log10 s.

(** One element of NanoMaggies.fluxErrorsToMagErrors, brightness.py:228-243. *)
Definition flux_errors_to_mag_errors (flux iv : R) : option R * option R :=
  let okiv := if Rlt_dec 0 iv then true else false in
  let dflux := if okiv then 1 / sqrt iv else 0 in
  let okflux := if Rlt_dec 0 flux then true else false in
  let mag := if okflux then Some (nanomaggies_to_mag flux) else None in
  let dmag := if okiv && okflux then Some (Rabs ((- 2.5 / ln 10) * dflux / flux)) else None in
  (mag, dmag).

(** A multi-band brightness: [order] with the values, brightness.py:26-69.
    Attribute lookup of an unknown band raises AttributeError. *)
Definition bands : Type := list (string * R).
Fixpoint get_band (b : bands) (k : string) : res R :=
  match b with
  | [] => Err AttributeError
  | (k', v) :: r => if String.eqb k k' then Ok v else get_band r k
  end.
Fixpoint over_bands (b : bands) (f : string -> R -> res R) : res bands :=
  match b with
  | [] => Ok []
  | (k, v) :: r => w <- f k v ;; rs <- over_bands r f ;; Ok ((k, w) :: rs)
  end.

(** Mags.__add__ with a number, brightness.py:100-107. *)
Definition mags_add_scalar (b : bands) (x : R) : res bands := over_bands b (fun _ m => Ok (m + x)).
(** Mags.__add__, brightness.py:109-116. *)
Definition mags_add (a b : bands) : res bands :=
  over_bands a (fun k m1 => m2 <- get_band b k ;; Ok (- 2.5 * log10 (pow10 (- m1 / 2.5) + pow10 (- m2 / 2.5)))).
(** Mags.__mul__, brightness.py:118-132. *)
Definition mags_mul (a : bands) (factor : R) : res bands :=
  let dmag := - 2.5 * log10 (Rabs factor) in over_bands a (fun _ m => Ok (m + dmag)).
(** Fluxes.__add__, brightness.py:141-147. *)
Definition fluxes_add (a b : bands) : res bands :=
  over_bands a (fun k m1 => m2 <- get_band b k ;; Ok (m1 + m2)).
(** Fluxes.__mul__, brightness.py:149-154. *)
Definition fluxes_mul (a : bands) (factor : R) : res bands := over_bands a (fun _ m => Ok (m * factor)).
(** NanoMaggies.fromMag, brightness.py:192-198. *)
Definition from_mag (m : bands) : res bands := over_bands m (fun _ v => Ok (mag_to_nanomaggies v)).
(** NanoMaggies.getMag, brightness.py:186-190. *)
Definition nmgy_get_mag (b : bands) (k : string) : res R := f <- get_band b k ;; Ok (nanomaggies_to_mag f).

(** MagsPhotoCal.brightnessToCounts, brightness.py:291-297 (maxmag = 50, line
    278; [None] is a mag that is not finite). *)
Definition mags_counts_of (zp : R) (mag : option R) : R :=
  match mag with
  | None => 0
  | Some m => if Rlt_dec 50 m then 0 else pow10 (0.4 * (zp - m))
  end.
Definition mags_counts (zp : R) (band : string) (b : bands) : res R :=
  m <- get_band b band ;; Ok (mags_counts_of zp (Some m)).
(** MagsPhotoCal.countsToMag, brightness.py:299-300. *)
Definition counts_to_mag (zp counts : R) : R := zp - 2.5 * log10 counts.
(** LinearPhotoCal.brightnessToCounts with a band, brightness.py:339-344. *)
Definition linear_counts (scale : R) (band : string) (b : bands) : res R :=
  f <- get_band b band ;; Ok (f * scale).
