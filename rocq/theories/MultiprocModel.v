(** Derivatives computed by a pool of workers: tractor/multiproc.py
    TractorMultiprocMixin.getDerivs (lines 29-158) and the free functions
    162-205.  What a worker computes is an oracle; the pool returns results in
    the order of its arguments (documented behaviour of multiprocessing's map
    and map_async, trusted). *)
From Coq Require Import List Bool Arith Lia.
From Verif Require Import Base.
Import ListNotations.

Section Pool.
Variables (P I V : Type).                 (* patches, model images, numbers *)
Inductive ideriv : Type := DPatch (p : P) | DNone | DFalse.
(** An image: thawed within the images group, its number of parameters, step
    sizes, and what its getParamDerivatives returns. *)
Record image : Type := mkImage { im_thawed : bool; im_np : nat; im_steps : list V; im_derivs : list ideriv }.
(** A thawed source: its number of parameters and what its getParamDerivatives
    returns for image i. *)
Record source : Type := mkSource { so_np : nat; so_derivs : nat -> list (option P) }.
(** The tractor: images and catalog frozen or not; modelMasks is None; self.mp
    exists; the names logverb, Patch and np are defined in the module. *)
Record tractor : Type := mkTractor {
  t_images : list image; t_images_frozen : bool;
  t_sources : list source; t_catalog_frozen : bool;
  t_no_masks : bool; t_has_mp : bool; t_has_names : bool }.
(** The module as it is: __init__ (lines 6-10) does not store mp, and logverb,
    Patch and np are not imported. *)
Definition as_shipped (t : tractor) : Prop := t_has_mp t = false /\ t_has_names t = false.

Variable model0 : nat -> I.               (* getmodelimagefunc *)
Variable model1 : nat -> nat -> I.        (* getmodelimagestep: image, parameter *)
Variable diff : I -> I -> V -> P.         (* Patch(0, 0, (mod1 - mod0) / step) *)
Variable finite : P -> bool.              (* np.all(np.isfinite(deriv.patch.ravel())) *)

(** list.pop() *)
Definition pop {A} (l : list A) : res (A * list A) :=
  match rev l with [] => Err IndexError | x :: r => Ok (x, rev r) end.
(** Indices of the False entries, lines 57-60. *)
Fixpoint need (k : nat) (ds : list ideriv) : list nat :=
  match ds with
  | [] => []
  | DFalse :: r => k :: need (S k) r
  | _ :: r => need (S k) r
  end.
(** imjs, ims: lines 44-49. *)
Definition image_list (t : tractor) : list (nat * image) :=
  if t_images_frozen t then []
  else filter (fun p => im_thawed (snd p)) (combine (seq 0 (length (t_images t))) (t_images t)).
Definition source_list (t : tractor) : list source := if t_catalog_frozen t then [] else t_sources t.
(** needimjs, needparams: lines 52-64. *)
Definition need_list (t : tractor) : list (nat * list nat) :=
  filter (fun p => negb (length (snd p) =? 0)) (map (fun p => (fst p, need 0 (im_derivs (snd p)))) (image_list t)).
(** Lines 80-84: p0[i] and ss[i] exist. *)
Definition steps_ok (t : tractor) : bool :=
  forallb (fun p => forallb (fun k => (k <? length (im_steps (snd p)))%nat && (k <? im_np (snd p))%nat) (need 0 (im_derivs (snd p)))) (image_list t).

(** Lines 107-117 for one image. *)
Fixpoint unpack_image (j : nat) (steps : list V) (mod0s : list (nat * I)) (have_j : bool)
    (k : nat) (ds : list ideriv) (mod1s : list I) : res (list (option P * nat) * list I) :=
  match ds with
  | [] => Ok ([], mod1s)
  | DFalse :: r =>
      match find (fun p => fst p =? j) mod0s with
      | None => Err KeyError
      | Some (_, m0) =>
          step <- py_get steps k ;;
          '(m1, mod1s) <- pop mod1s ;;
          if negb have_j then Err UnboundLocalError else
          '(rest, mod1s) <- unpack_image j steps mod0s have_j (S k) r mod1s ;;
          Ok ((Some (diff m1 m0 step), j) :: rest, mod1s)
      end
  | d :: r =>
      '(rest, mod1s) <- unpack_image j steps mod0s have_j (S k) r mod1s ;;
      Ok ((match d with DPatch p => Some p | _ => None end, j) :: rest, mod1s)
  end.
Fixpoint unpack_images (ims : list (nat * image)) (mod0s : list (nat * I)) (have_j : bool) (mod1s : list I)
  : res (list (list (option P * nat)) * list I) :=
  match ims with
  | [] => Ok ([], mod1s)
  | (j, im) :: r =>
      '(ds, mod1s) <- unpack_image j (im_steps im) mod0s have_j 0 (im_derivs im) mod1s ;;
      '(rest, mod1s) <- unpack_images r mod0s have_j mod1s ;;
      Ok (map (fun d => [d]) ds ++ rest, mod1s)
  end.
(** srcderivs[k].append((deriv, img)) for the entries of one image, lines
    135-155. *)
Fixpoint add_derivs (i : nat) (ds : list (option P)) (acc : list (list (option P * nat))) : res (list (list (option P * nat))) :=
  match ds, acc with
  | d :: r, a :: s =>
      rest <- add_derivs i r s ;;
      match d with
      | None => Ok (a :: rest)
      | Some p => if finite p then Ok ((a ++ [(Some p, i)]) :: rest) else Err AssertionError
      end
  | [], [] => Ok []
  | _, _ => Err AssertionError
  end.
(** Lines 130-155: the images of one source; [i] the image, [n] images left. *)
Fixpoint unpack_source (np i n : nat) (acc : list (list (option P * nat))) (sd : list (list (option P)))
  : res (list (list (option P * nat)) * list (list (option P))) :=
  match n with
  | O => Ok (acc, sd)
  | S n =>
      '(ds, sd) <- pop sd ;;
      if negb (length ds =? np) then Err AssertionError else
      acc <- add_derivs i ds acc ;;
      unpack_source np (S i) n acc sd
  end.
Fixpoint unpack_sources (srcs : list source) (n : nat) (sd : list (list (option P)))
  : res (list (list (option P * nat)) * list (list (option P))) :=
  match srcs with
  | [] => Ok ([], sd)
  | s :: r =>
      '(a, sd) <- unpack_source (so_np s) 0 n (repeat [] (so_np s)) sd ;;
      '(rest, sd) <- unpack_sources r n sd ;;
      Ok (a ++ rest, sd)
  end.

(** getDerivs, multiproc.py:29-158. *)
Definition mp_get_derivs (t : tractor) : res (list (list (option P * nat))) :=
  if negb (t_has_mp t) then Err AttributeError else
  if negb (t_has_names t) then Err NameError else
  let ims := image_list t in
  let srcs := source_list t in
  let mod0s := map (fun p => (fst p, model0 (fst p))) (need_list t) in
  if negb (steps_ok t) then Err IndexError else
  let args := flat_map (fun p => map (fun k => (fst p, k)) (snd p)) (need_list t) in
  let mod1s := map (fun a => model1 (fst a) (snd a)) (rev args) in
  let sargs := flat_map (fun s => map (fun i => (s, i)) (seq 0 (length (t_images t)))) srcs in
  if negb (t_no_masks t) then Err AssertionError else
  let sderivs := map (fun a => so_derivs (fst a) (snd a)) (rev sargs) in
  '(ider, mod1s) <- unpack_images ims mod0s (0 <? length srcs)%nat mod1s ;;
  if negb (length mod1s =? 0) then Err AssertionError else
  '(sder, _) <- unpack_sources srcs (length (t_images t)) sderivs ;;
  let all := ider ++ sder in
  if negb (length all =? list_sum (map (fun p => im_np (snd p)) ims) + list_sum (map so_np srcs)) then Err AssertionError
  else Ok all.
End Pool.
