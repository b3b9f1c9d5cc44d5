(** What a list of derivatives should be, stated with the parameter vector of
    the whole source. *)
From Coq Require Import String List ZArith Bool Lia.
From Verif Require Import Base ParamsModel ParamsSpec DerivModel.
Import ListNotations.

Section Spec.
Context {V : Type} (one two : V) (vadd vsub vmul vdiv : V -> V -> V) (vneg : V -> V).
Context (veqb : V -> V -> bool) (zero : V).
Context {P : Type} (psub padd : P -> P -> P) (pscale : P -> V -> P) {PX : Type}.
Context (counts : ptree V -> V) (minval_of : V -> option V).
Context (pixel : ptree V -> ptree V -> PX) (cdi : ptree V -> ptree V -> nat -> V * V).
Context (grad_x grad_y : P -> P).

(** [bump t k st t']: [t'] is [t] with entry [k] of its parameter vector
    increased by entry [k] of its step sizes, [st]. *)
Definition bump (t : ptree V) (k : nat) (st : V) (t' : ptree V) : Prop :=
  exists v, nth_error (get_params t) k = Some v /\
    nth_error (get_step_sizes one t) k = Some st /\
    set_param t (Z.of_nat k) (vadd v st) = Ok (t', v).

(** Number of parameters of the first [m] members of a source. *)
Definition before (t : ptree V) (m : nat) : nat :=
  match t with
  | PMulti nm subs liq => number_of_params (PMulti nm (firstn m subs) (firstn m liq))
  | _ => 0
  end.

(** Raw position of the k-th thawed entry of a list. *)
Definition thawed_at (t : ptree V) (k : nat) : nat :=
  match t with
  | PList l => nth k (keep (l_liquid l) (seq 0 (length (l_liquid l)))) 0
  | _ => 0
  end.

Definition member (t : ptree V) (m : nat) : ptree V :=
  match t with PMulti _ subs _ => nth m subs PNone | _ => PNone end.

(** A two-dimensional position (PixPos, RaDecPos). *)
Definition planar (pos : ptree V) : Prop :=
  match pos with PList l => length (l_liquid l) <= 2 | _ => False end.

(** Scale of one brightness derivative: None when the counts do not change. *)
Definition bright_entry (c0 c1 st : V) (p : P) : option P :=
  if veqb c1 c0 then None else Some (pscale p (vdiv (vsub c1 c0) st)).

(** Entry [k] of the derivatives of a galaxy [t], where [t'] is [t] with
    parameter [k] stepped by [st]. *)
Definition galaxy_entry (R : renderer V P PX) (t t' : ptree V) (k : nat) (st : V) : option P :=
  let c0 := counts (member t 1) in
  let px := pixel (member t 0) t in
  match unit0 _ _ _ R px (minval_of c0) t with
  | None => None
  | Some p =>
      if k <? before t 1 then
        if veqb c0 zero then None
        else let c := cdi (member t 0) t (thawed_at (member t 0) k) in
             Some (pscale (padd (pscale (grad_x p) (fst c)) (pscale (grad_y p) (snd c))) c0)
      else if k <? before t 2 then bright_entry c0 (counts (member t' 1)) st p
      else if veqb c0 zero then None
      else match unit1 _ _ _ R p px (minval_of c0) t' with
           | None => None
           | Some q => Some (pscale (psub q p) (vdiv c0 st))
           end
  end.

(** Entry [k] for a point source.  [shape] tells how the position part was
    obtained: from the gradients [dx], [dy], or by stepping. *)
Definition point_entry (ps_patch : option V -> ptree V -> option P) (p : P)
    (dxy : option (P * P)) (t t' : ptree V) (k : nat) (st : V) : option P :=
  let c0 := counts (member t 1) in
  if k <? before t 1 then
    match dxy with
    | Some (dx, dy) =>
        let c := cdi (member t 0) t (thawed_at (member t 0) k) in
        Some (pscale (padd (pscale dx (fst c)) (pscale dy (snd c))) c0)
    | None =>
        if veqb c0 zero then None
        else match ps_patch (minval_of c0) t' with
             | None => Some (pscale p (vdiv (vneg c0) st))
             | Some q => Some (pscale (psub q p) (vdiv c0 st))
             end
    end
  else bright_entry c0 (counts (member t' 1)) st p.

(** The temporary galaxy made of the members [ks] of [t]. *)
Definition piece (t : ptree V) (ks : list nat) : ptree V :=
  match t with
  | PMulti _ subs liq =>
      PMulti gal_names (map (fun k => nth k subs PNone) ks) (map (fun k => nth k liq false) ks)
  | _ => t
  end.

(** Entry [k] of a composite of two galaxies: the shared position gets the
    sum, the other members what their own galaxy says. *)
Definition composite_entry (Re Rd : renderer V P PX) (t t' : ptree V) (k : nat) (st : V)
  : option P :=
  let e := piece t [0; 1; 2] in let e' := piece t' [0; 1; 2] in
  let d := piece t [0; 3; 4] in let d' := piece t' [0; 3; 4] in
  if k <? before t 1 then
    add_patches P padd (galaxy_entry Re e e' k st) (galaxy_entry Rd d d' k st)
  else if k <? before t 3 then galaxy_entry Re e e' k st
  else galaxy_entry Rd d d' (k - (before t 3 - before t 1)) st.

(** The temporaries of a FixedCompositeGalaxy: brightness always free. *)
Definition fixed_piece (t : ptree V) (m : nat) : ptree V :=
  match piece t [0; 1; m] with
  | PMulti nm subs [a; _; c] => PMulti nm subs [a; true; c]
  | e => e
  end.

(** Entry [k] of a FixedCompositeGalaxy (pos, brightness, fracDev, shapeExp,
    shapeDev) with mixing fraction [f] and its derivative [df]: shared
    position and brightness get the weighted sum, the fraction the difference
    of the two unit profiles times the flux. *)
Definition fixed_entry (Re Rd : renderer V P PX) (clip dfrac : ptree V -> V)
    (t t' : ptree V) (k : nat) (st : V) : option P :=
  let f := clip (member t 2) in let df := dfrac (member t 2) in
  let c0 := counts (member t 1) in
  let e := fixed_piece t 3 in let e' := fixed_piece t' 3 in
  let d := fixed_piece t 4 in let d' := fixed_piece t' 4 in
  let ee j := option_map (fun p => pscale p (vsub one f)) (galaxy_entry Re e e' j st) in
  let dd j := option_map (fun p => pscale p f) (galaxy_entry Rd d d' j st) in
  if k <? before t 2 then add_patches P padd (ee k) (dd k)
  else if k <? before t 3 then
    if veqb c0 zero then None
    else option_map (fun p => pscale p c0)
      (add_patches P padd
         (option_map (fun p => pscale p df) (unit0 _ _ _ Rd (pixel (member t 0) d) (Some zero) d))
         (option_map (fun p => pscale p (vneg df)) (unit0 _ _ _ Re (pixel (member t 0) e) (Some zero) e)))
  else if k <? before t 4 then ee (k - (before t 3 - before t 2))
  else dd (k - (before t 4 - before t 2)).
End Spec.
