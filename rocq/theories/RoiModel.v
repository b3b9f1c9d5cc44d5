(** Regions of interest: tractor/imageutils.py:5-60.

    The WCS is an oracle from sky positions to exact pixel positions (a NaN
    position, which makes [int] raise, is left out).  [np.round] rounds halves
    to even. *)
From Coq Require Import List ZArith QArith Qround Bool Lia.
Import ListNotations.
Open Scope Z_scope.

(** np.round on one number. *)
Definition np_round (q : Q) : Z :=
  let f := Qfloor q in
  match (q - inject_Z f ?= 1 # 2)%Q with
  | Lt => f
  | Gt => f + 1
  | Eq => if Z.even f then f else f + 1
  end.

(** np.clip. *)
Definition clip (a lo hi : Z) : Z := Z.min (Z.max a lo) hi.

Definition region : Type := Z * Z * Z * Z.

Section Model.

Variable to_pixel : Q * Q -> Q * Q.         (* wcs.positionToPixel(RaDecPos(ra, dec)) *)

Definition empty (r : region) : bool :=
  let '(x0, x1, y0, y1) := r in (x0 =? x1) || (y0 =? y1).

(** imageutils.py:22-33. *)
Definition size_roi (W H : Z) (ra dec : Q) (sz : Z) : region :=
  let p := to_pixel (ra, dec) in
  let xc := np_round (fst p) in
  let yc := np_round (snd p) in
  (clip (xc - sz) 0 W, clip (xc + sz + 1) 0 W, clip (yc - sz) 0 H, clip (yc + sz + 1) 0 H).

Definition min4 (a b c d : Z) : Z := Z.min (Z.min (Z.min a b) c) d.
Definition max4 (a b c d : Z) : Z := Z.max (Z.max (Z.max a b) c) d.

(** imageutils.py:35-51. *)
Definition box_roi (W H : Z) (ra0 ra1 dec0 dec1 : Q) : region :=
  let px r d := np_round (fst (to_pixel (r, d))) in
  let py r d := np_round (snd (to_pixel (r, d))) in
  let x0 := min4 (px ra0 dec0) (px ra1 dec0) (px ra0 dec1) (px ra1 dec1) in
  let x1 := max4 (px ra0 dec0) (px ra1 dec0) (px ra0 dec1) (px ra1 dec1) in
  let y0 := min4 (py ra0 dec0) (py ra1 dec0) (py ra0 dec1) (py ra1 dec1) in
  let y1 := max4 (py ra0 dec0) (py ra1 dec0) (py ra0 dec1) (py ra1 dec1) in
  (clip x0 0 W, clip (x1 + 1) 0 W, clip y0 0 H, clip (y1 + 1) 0 H).

(** interpret_roi, imageutils.py:5-60.  None: refused. *)
Definition interpret_roi (H W : Z) (roi : option region)
    (radecsize : option (Q * Q * Z)) (radecbox : option (Q * Q * Q * Q))
  : option (region * bool) :=
  let finish (roi : option region) :=
    let '(x0, x1, y0, y1) := match roi with Some r => r | None => (0, W, 0, H) end in
    Some ((x0, x1, y0, y1),
          negb (x0 =? 0) || negb (y0 =? 0) || negb (x1 =? W) || negb (y1 =? H)) in
  let with_box (roi : option region) :=
    match radecbox with
    | Some (ra0, ra1, dec0, dec1) =>
        let r := box_roi W H ra0 ra1 dec0 dec1 in
        if empty r then None else finish (Some r)
    | None => finish roi
    end in
  match radecsize with
  | Some (ra, dec, sz) =>
      let r := size_roi W H ra dec sz in
      if empty r then None else with_box (Some r)
  | None => with_box roi
  end.
End Model.
