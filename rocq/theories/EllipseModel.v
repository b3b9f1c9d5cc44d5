(** Ellipse parameterisations: tractor/ellipses.py EllipseE, EllipseESoft and
    tractor/galaxy.py GalaxyShape, over the real numbers (rounding, overflow
    and infinities are not modelled).  np.linalg.svd is an oracle. *)
From Coq Require Import Reals Lra.
From Verif Require Import Base.
Open Scope R_scope.

(** math.hypot. *)
Definition hypot (x y : R) : R := sqrt (x * x + y * y).
(** math.atan2(y, x), as in the C standard. *)
Definition atan2 (y x : R) : R :=
  if Rlt_dec 0 x then atan (y / x)
  else if Rlt_dec x 0 then
    if Rle_dec 0 y then atan (y / x) + PI else atan (y / x) - PI
  else if Rlt_dec 0 y then PI / 2
  else if Rlt_dec y 0 then - (PI / 2) else 0.
(** math.radians, math.degrees. *)
Definition radians (d : R) : R := d * PI / 180.
Definition degrees (a : R) : R := a * 180 / PI.
(** Python division and math.log. *)
Definition pdiv (a b : R) : res R := if Req_EM_T b 0 then Err ZeroDivisionError else Ok (a / b).
Definition mlog (x : R) : res R := if Rlt_dec 0 x then Ok (ln x) else Err ValueError.

Record mat : Type := mkMat { m00 : R; m01 : R; m10 : R; m11 : R }.
Definition mdet (a : mat) : R := m00 a * m11 a - m01 a * m10 a.
(** np.dot of two matrices, transpose, product with a number. *)
Definition mdot (a b : mat) : mat :=
  mkMat (m00 a * m00 b + m01 a * m10 b) (m00 a * m01 b + m01 a * m11 b)
        (m10 a * m00 b + m11 a * m10 b) (m10 a * m01 b + m11 a * m11 b).
Definition mtrans (a : mat) : mat := mkMat (m00 a) (m10 a) (m01 a) (m11 a).
Definition mscale (k : R) (a : mat) : mat := mkMat (k * m00 a) (k * m01 a) (k * m10 a) (k * m11 a).
(** np.linalg.inv; a singular matrix raises LinAlgError, a kind of ValueError. *)
Definition minv (a : mat) : res mat :=
  if Req_EM_T (mdet a) 0 then Err ValueError
  else Ok (mkMat (m11 a / mdet a) (- m01 a / mdet a) (- m10 a / mdet a) (m00 a / mdet a)).

(** EllipseE: re, e1, e2 (ellipses.py:36-40). *)
Record ell : Type := mkEll { el_re : R; el_e1 : R; el_e2 : R }.
(** EllipseESoft: logre, ee1, ee2 (ellipses.py:186-190). *)
Record soft : Type := mkSoft { so_logre : R; so_ee1 : R; so_ee2 : R }.

(** EllipseE.e, theta, ab, isLegal, ellipses.py:76-93, 109-110. *)
Definition el_e (l : ell) : R := hypot (el_e1 l) (el_e2 l).
Definition el_theta (l : ell) : R := atan2 (el_e2 l) (el_e1 l) / 2.
Definition ab_of (e : R) : R := (1 - e) / (1 + e).
Definition el_ab (l : ell) : R := ab_of (el_e l).
Definition el_legal (l : ell) : Prop := el_e1 l * el_e1 l + el_e2 l * el_e2 l < 1 /\ 0 <= el_re l.
(** EllipseESoft.re, e, softe, theta, ellipses.py:231-255 (ab is inherited). *)
Definition so_re (s : soft) : R := exp (so_logre s).
Definition so_softe (s : soft) : R := hypot (so_ee1 s) (so_ee2 s).
Definition so_e (s : soft) : R := 1 - exp (- hypot (so_ee1 s) (so_ee2 s)).
Definition so_theta (s : soft) : R := atan2 (so_ee2 s) (so_ee1 s) / 2.
Definition so_ab (s : soft) : R := ab_of (so_e s).

(** getRaDecBasis of both classes, ellipses.py:126-155, given the properties
    re, e, theta. *)
Definition basis (re e theta : R) : mat :=
  let ct := cos theta in
  let st := sin theta in
  let maxab := 1000 in
  let ab := if Rle_dec 1 e then maxab else Rmin maxab ((1 + e) / (1 - e)) in
  mscale (re / 3600) (mkMat (ct / ab) st (- st / ab) ct).
Definition el_basis (l : ell) : mat := basis (el_re l) (el_e l) (el_theta l).
Definition so_basis (s : soft) : mat := basis (so_re s) (so_e s) (so_theta s).
(** getCovariance, ellipses.py:115-124. *)
Definition covariance (g : mat) : mat := let g := mscale 3600 g in mdot g (mtrans g).
(** getTensor, ellipses.py:157-163, galaxy.py:65-71. *)
Definition tensor (g cd : mat) : res mat := i <- minv g ;; Ok (mdot i cd).

(** EllipseE.fromRAbPhi, ellipses.py:59-66. *)
Definition el_from_rabphi (r ba phi : R) : res ell :=
  ab <- pdiv 1 ba ;;
  e <- pdiv (ab - 1) (ab + 1) ;;
  let angle := radians (2 * (- phi)) in
  Ok (mkEll r (e * cos angle) (e * sin angle)).
(** EllipseESoft.rAbPhiToESoft and fromRAbPhi, ellipses.py:210-223. *)
Definition so_from_rabphi (r ba phi : R) : res soft :=
  ab <- pdiv 1 ba ;;
  e <- pdiv (ab - 1) (ab + 1) ;;
  l <- mlog (1 - e) ;;
  let ee := - l in
  let angle := radians (2 * (- phi)) in
  lr <- mlog r ;;
  Ok (mkSoft lr (ee * cos angle) (ee * sin angle)).
(** EllipseE.fromEllipseESoft, ellipses.py:50-57. *)
Definition el_from_soft (s : soft) (maxe : R) : ell :=
  let re := so_re s in
  let e := Rmin maxe (so_e s) in
  let theta := so_theta s in
  mkEll re (e * cos (2 * theta)) (e * sin (2 * theta)).
(** EllipseESoft.fromEllipseE, ellipses.py:199-204. *)
Definition so_from_el (l : ell) (maxe : R) : res soft :=
  let e := Rmin (el_e l) maxe in
  lg <- mlog (1 - e) ;;
  let esoft := - lg in
  lr <- mlog (el_re l) ;;
  q1 <- pdiv (el_e1 l) e ;;
  q2 <- pdiv (el_e2 l) e ;;
  Ok (mkSoft lr (q1 * esoft) (q2 * esoft)).
(** EllipseE.fromCovariance, ellipses.py:68-74; [u], (s0, s1) is what
    np.linalg.svd returned.  math.sqrt of a singular value (never negative). *)
Definition el_from_svd (u : mat) (s0 s1 : R) : res ell :=
  let r := sqrt s0 in
  q <- pdiv s1 s0 ;;
  let ab := sqrt q in
  let theta := degrees (atan2 (m00 u) (m01 u)) in
  el_from_rabphi r ab (- theta).

(** GalaxyShape.getRaDecBasis, galaxy.py:73-89. *)
Definition gs_basis (re ab phi : R) : mat :=
  let p := radians (90 - phi) in
  let re_deg := Rmax (1 / 30) re / 3600 in
  mscale re_deg (mkMat (cos p) (sin p * ab) (- sin p) (cos p * ab)).
