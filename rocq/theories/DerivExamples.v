(** Concrete cases for C34, C48 and C54.  Patches are single integers here, so
    that every derivative can be read off. *)
From Coq Require Import String List ZArith Bool Lia.
From Verif Require Import Base ParamsModel ParamsSpec DerivModel DerivSpec DerivProofs
  DerivProps DerivProps2 DerivProps3 DerivProps4.
Import ListNotations.
Open Scope Z_scope.

Definition nn : names := mkNames [] [].
Definition lst (vals : list Z) (liq : list bool) (ups : list (option Z)) : ptree Z :=
  PList (mkPlist nn vals liq (map (fun _ => None) vals) ups (map (fun _ => None) vals) None []).
Definition sumz (l : list Z) : Z := fold_right Z.add 0 l.

Definition xpos := lst [5; 6] [true; false] [None; None].     (* y frozen *)
Definition xbr := lst [100] [true] [None].
Definition xsh := lst [3; 4] [true; true] [None; None].
Definition xind := lst [6] [true] [Some 6].                   (* at its upper bound *)

(** Rendering: the sum of the shape members (2 and up); [ghost] renders nothing. *)
Definition shape_sum (t : ptree Z) : Z :=
  match t with PMulti _ (_ :: _ :: r) _ => sumz (concat (map (fun s => map snd (vals_of s)) r)) | _ => 0 end.
Definition rz : renderer Z Z Z :=
  mkRenderer Z Z Z (fun px mv t => Some (shape_sum t)) (fun p px mv t => Some (shape_sum t)).
Definition ghost : renderer Z Z Z :=
  mkRenderer Z Z Z (fun px mv t => None) (fun p px mv t => None).
Definition xcounts (b : ptree Z) : Z := sumz (map snd (vals_of b)).
Definition xpixel (pos src : ptree Z) : Z := sumz (map snd (vals_of pos)).
Definition xcdi (pos src : ptree Z) (i : nat) : Z * Z := (Z.of_nat i + 1, 10 * (Z.of_nat i + 1)).
Definition gx (p : Z) := 2 * p.
Definition gy (p : Z) := 3 * p.
Definition xmin (c : Z) : option Z := Some 0.

Notation gal := (galaxy_derivs Z 1 Z.add Z.sub Z.div Z.eqb 0 Z Z.sub Z.add Z.mul Z xcounts xmin xpixel xcdi gx gy).
Notation ser := (sersic_derivs Z 1 Z.add Z.sub Z.mul Z.div Z.opp Z.eqb Z.gtb 0 Z Z.sub Z.add Z.mul Z xcounts xmin xpixel xcdi gx gy).
Notation comp := (composite_derivs Z 1 Z.add Z.sub Z.div Z.eqb 0 Z Z.sub Z.add Z.mul Z xcounts xmin xpixel xcdi gx gy).
Notation dcore := (devcore_derivs Z 1 Z.add Z.sub Z.div Z.eqb 0 Z Z.sub Z.add Z.mul Z xcounts xmin xpixel xcdi gx gy).
Notation score := (sercore_derivs Z 1 Z.add Z.sub Z.mul Z.div Z.opp Z.eqb Z.gtb 0 Z Z.sub Z.add Z.mul Z xcounts xmin xpixel xcdi gx gy).
Notation fixc := (fixed_composite_derivs Z 1 Z.add Z.sub Z.div Z.opp Z.eqb 0 Z Z.sub Z.add Z.mul Z xcounts xmin xpixel xcdi gx gy).
Notation pt := (point_derivs Z 1 2 Z.add Z.sub Z.mul Z.div Z.opp Z.eqb 0 Z Z.sub Z.add Z.mul xcounts xmin xcdi
  (fun _ t => Some (xpixel (member t 0) t)) (fun _ t => Some (xpixel (member t 0) t, None)) (fun _ => true)).

Definition xgal := PMulti nn [xpos; xbr; xsh] [true; true; true].
Example C48_galaxy_ex :
  wf xgal /\ planar xpos /\ number_of_params xgal = 4%nat /\
  gal rz false xgal = Ok ([Some (7 * 2 * 1 * 100 + 7 * 3 * 10 * 100); Some 7; Some 100; Some 100], xgal).
Proof. repeat (split; try reflexivity; try (intros; discriminate)); try (simpl; lia). Qed.

Definition xser := PMulti nn [xpos; xbr; xsh; xind] [true; true; false; true].
(** The index is at its bound: stepped down, and the derivative is still +100. *)
Example C48_sersic_ex : wf xser /\ ser rz xser = Ok ([Some 41600; Some 13; Some 100], xser).
Proof. repeat (split; try reflexivity; try (intros; discriminate)); try (simpl; lia). Qed.
(** Not rendered: four entries for three parameters. *)
Example C48_sersic_refuted_ex : number_of_params xser = 3%nat /\
  ser ghost xser = Ok ([None; None; None; None], xser).
Proof. split; reflexivity. Qed.

Definition xcomp := PMulti nn [xpos; xbr; xsh; xbr; xind] [true; false; true; true; true].
Example C48_composite_ex : wf xcomp /\ number_of_params xcomp = 5%nat /\
  comp rz rz xcomp = Ok ([Some (22400 + 19200); Some 100; Some 100; Some 6; Some 100], xcomp).
Proof. repeat (split; try reflexivity; try (intros; discriminate)); try (simpl; lia). Qed.

Definition xpt := PMulti nn [xpos; xbr] [true; true].
Example C48_point_ex : wf xpt /\ pt false false xpt = Ok ([Some 100; Some 11], xpt).
Proof. repeat (split; try reflexivity; try (intros; discriminate)); try (simpl; lia). Qed.
Example C34_point_ex : pt false true xpt = Ok ([Some 100; Some 11], xpt).
Proof. reflexivity. Qed.

Definition xdc := PMulti nn [xpos; xbr; xsh; xbr] [true; true; true; true].
Example C48_devcore_ex : wf xdc /\
  dcore rz (pt false false) xdc = Ok ([Some (22400 + 100); Some 7; Some 100; Some 100; Some 11], xdc).
Proof. repeat (split; try reflexivity; try (intros; discriminate)); try (simpl; lia). Qed.

(** A Sersic galaxy with a core, the galaxy off the image, the core on it: the
    derivative with respect to the core brightness (parameter 5) is in slot 6. *)
Definition xsc := PMulti nn [xpos; xbr; xsh; xind; xbr] [true; true; true; true; true].
Example C48_sercore_ex : wf xsc /\
  score rz (pt false false) xsc = Ok ([Some (41600 + 100); Some 13; Some 100; Some 100; Some 100; Some 11], xsc).
Proof. repeat (split; try reflexivity; try (intros; discriminate)); try (simpl; lia). Qed.
Example C48_sercore_refuted_ex : number_of_params xsc = 6%nat /\
  score ghost (pt false false) xsc = Ok ([Some 100; None; None; None; None; None; Some 11], xsc).
Proof. split; reflexivity. Qed.

Definition xfrac := lst [2] [true] [None].
Definition xfc (lb : bool) := PMulti nn [xpos; xbr; xfrac; xsh; xind] [true; lb; true; true; true].
Example C48_fixed_ex : wf (xfc true) /\ number_of_params (xfc true) = 6%nat /\
  fixc rz rz xcounts (fun _ => 1) (xfc true) =
    Ok ([Some (-22400 + 38400); Some (-7 + 12); Some (100 * (6 - 7)); Some (-100); Some (-100); Some 200], xfc true).
Proof. repeat (split; try reflexivity; try (intros; discriminate)); try (simpl; lia). Qed.
(** Brightness frozen: seven entries for five parameters, shifted. *)
Example C48_fixed_refuted_ex : wf (xfc false) /\ number_of_params (xfc false) = 5%nat /\
  fixc rz rz xcounts (fun _ => 1) (xfc false) =
    Ok ([Some 16000; Some (-100); Some (-7); Some (-100); Some (-100); Some 12; Some 200], xfc false).
Proof. repeat (split; try reflexivity; try (intros; discriminate)); try (simpl; lia). Qed.

(** Two images (the first with a thawed two-parameter sky that supplies no
    derivatives and a calibration that supplies its own), two sources of which
    one is frozen; the source is not in image 0. *)
Definition ximg := PMulti nn [PNone; PFixed; xbr; xsh] [true; true; true; true].
Definition xpb := mkProblem Z [ximg; ximg] [true; false] true [xgal; xpt] [false; true] true.
Definition xmodel (pb : problem Z) (j : nat) : Z :=
  sumz (concat (map get_params (pb_imgs Z pb))) * (Z.of_nat j + 2).
Definition xsub (s : ptree Z) : option (list (ideriv Z)) :=
  match s with PList l => if (length (l_vals l) =? 1)%nat then Some [IPatch Z 77] else None | _ => None end.
Definition xsd (j : nat) (s : ptree Z) : res (list (option Z) * ptree Z) :=
  if (j =? 0)%nat then Ok (repeat None (number_of_params s), s) else pt false false s.
Example C54_ex : wf (tree_of Z nn xpb) /\
  get_derivs Z 1 Z.add Z xsub Z xmodel (fun a b st => (a - b) / st) xsd nn xpb =
    Ok ([[(Some 77, 0%nat)]; [(Some 2, 0%nat)]; [(Some 2, 0%nat)]; [(Some 100, 1%nat)]; [(Some 11, 1%nat)]], xpb).
Proof. repeat (split; try reflexivity; try (intros; discriminate)); try (simpl; lia). Qed.

Print Assumptions C48_galaxy.
Print Assumptions C48_composite.
Print Assumptions C48_point.
Print Assumptions C48_sersic.
Print Assumptions C48_sersic_refuted.
Print Assumptions C48_devcore.
Print Assumptions C48_sercore.
Print Assumptions C48_sercore_refuted.
Print Assumptions C48_fixed_composite.
Print Assumptions C48_fixed_composite_refuted.
Print Assumptions C34_point_symmetric.
Print Assumptions C54_get_derivs.
