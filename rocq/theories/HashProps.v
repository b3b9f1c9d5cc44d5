(** C63: cache keys tell different models apart. *)
From Coq Require Import String List ZArith QArith Bool Lia.
From Verif Require Import Base PatchModel ParamsModel CacheModel CacheProps ClassCopyModel HashModel.
Import ListNotations.
Open Scope Z_scope.

(** ** What a key records *)
Section Spec.
Context {V A : Type}.

(** Same classes, same values, same members all the way down; frozen flags and
    attributes are not compared. *)
Fixpoint alike (a b : pobj V A) : Prop :=
  match a, b with
  | OList c v _, OList c' v' _ => c = c' /\ v = v'
  | OMulti c s _, OMulti c' s' _ =>
      c = c' /\
      (fix go (s s' : list (option (pobj V A))) : Prop :=
         match s, s' with
         | [], [] => True
         | None :: r, None :: r' => go r r'
         | Some x :: r, Some y :: r' => alike x y /\ go r r'
         | _, _ => False
         end) s s'
  | _, _ => False
  end.
(** A PSF without the Gaussian approximations of hybrids *)
Fixpoint strip (p : psf V A) : psf V A :=
  match p with HybridPsf p _ => strip p | ShiftedPsf x y p => ShiftedPsf x y (strip p) | _ => p end.
Fixpoint alike_psf (a b : psf V A) : Prop :=
  match a, b with
  | Pixelized _ i _, Pixelized _ i' _ => ravel i = ravel i'
  | PsfEx _ f e _, PsfEx _ f' e' _ => f = f' /\ e = e'
  | PsfParams o, PsfParams o' => alike o o'
  | ShiftedPsf x y p, ShiftedPsf x' y' p' => x = x' /\ y = y' /\ alike_psf p p'
  | _, _ => False
  end.
Fixpoint alike_wcs (a b : wcs V A) : Prop :=
  match a, b with
  | NullWCS _ x y, NullWCS _ x' y' => x = x' /\ y = y'
  | ConstantFitsWcs x y i, ConstantFitsWcs x' y' i' => x = x' /\ y = y' /\ i = i'
  | WcsParams o, WcsParams o' => alike o o'
  | ScaledWcs f w, ScaledWcs f' w' => f = f' /\ alike_wcs w w'
  | ShiftedWcs x y w, ShiftedWcs x' y' w' => x = x' /\ y = y' /\ alike_wcs w w'
  | _, _ => False
  end.
Fixpoint alike_pc (a b : photocal V A) : Prop :=
  match a, b with
  | PcParams o, PcParams o' => alike o o'
  | ScaledPhotoCal f p, ScaledPhotoCal f' p' => f = f' /\ alike_pc p p'
  | _, _ => False
  end.
Definition alike_image (a b : image V A) : Prop :=
  i_data a = i_data b /\ i_inverr a = i_inverr b /\ alike_psf (strip (i_psf a)) (strip (i_psf b)) /\
  alike (i_sky a) (i_sky b) /\ alike_wcs (i_wcs a) (i_wcs b) /\ alike_pc (i_pc a) (i_pc b).

(** A class name says whether the class is a group or a list of values, and
    the classes with a key of their own are not used as plain parameter
    classes. *)
Variable group : string -> bool.
Definition cls (o : pobj V A) : string := match o with OList c _ _ => c | OMulti c _ _ => c end.
Fixpoint classes_ok (o : pobj V A) : Prop :=
  match o with
  | OList c _ _ => group c = false
  | OMulti c s _ => group c = true /\
      (fix go (s : list (option (pobj V A))) : Prop :=
         match s with [] => True | None :: r => go r | Some x :: r => classes_ok x /\ go r end) s
  end.
Fixpoint psf_ok (p : psf V A) : Prop :=
  match p with
  | PsfParams o => classes_ok o /\ ~ In (cls o) ["PixelizedPSF"; "PixelizedPsfEx"; "ShiftedPsf"]%string
  | ShiftedPsf _ _ p => psf_ok p
  | HybridPsf p _ => psf_ok p
  | _ => True
  end.
Fixpoint wcs_ok (w : wcs V A) : Prop :=
  match w with
  | WcsParams o => classes_ok o /\ ~ In (cls o) ["NullWCS"; "ScaledWcs"; "ShiftedWcs"]%string
  | ScaledWcs _ w => wcs_ok w
  | ShiftedWcs _ _ w => wcs_ok w
  | _ => True
  end.
Fixpoint pc_ok (p : photocal V A) : Prop :=
  match p with
  | PcParams o => classes_ok o /\ cls o <> "ScaledPhotoCal"%string
  | ScaledPhotoCal _ p => pc_ok p
  end.
Definition image_ok (i : image V A) : Prop :=
  psf_ok (i_psf i) /\ classes_ok (i_sky i) /\ wcs_ok (i_wcs i) /\ pc_ok (i_pc i).

(** ** Proofs *)
Lemma pobj_ind' (Pp : pobj V A -> Prop) :
  (forall c v a, Pp (OList c v a)) ->
  (forall c s a, Forall (fun x => match x with None => True | Some x => Pp x end) s -> Pp (OMulti c s a)) ->
  forall o, Pp o.
Proof.
  intros HL HM. fix IH 1. intros [c v a|c s a]; [apply HL|]. apply HM.
  induction s as [|[x|] s IHs]; constructor; auto.
Qed.

Lemma map_KNum_inj (v v' : list V) : map (@KNum V) v = map (@KNum V) v' -> v = v'.
Proof.
  revert v'. induction v as [|x v IH]; intros [|y v'] E; cbn in E; try discriminate; auto.
  injection E as -> E. f_equal; auto.
Qed.

Lemma hashkey_head (o : pobj V A) : exists r, hashkey o = KStr (cls o) :: r.
Proof. destruct o; eexists; reflexivity. Qed.

Lemma hashkey_iff : forall a b : pobj V A, classes_ok a -> classes_ok b ->
  (hashkey a = hashkey b <-> alike a b).
Proof.
  induction a as [c v at_|c s at_ IH] using pobj_ind'; intros [c' v' at'|c' s' at'] KA KB.
  - cbn. split.
    + intros E. injection E as -> E. split; auto using map_KNum_inj.
    + intros [-> ->]. reflexivity.
  - cbn in *. destruct KB as [KB _]. split; [|contradiction]. intros E. injection E as -> _. congruence.
  - cbn in *. destruct KA as [KA _]. split; [|contradiction]. intros E. injection E as -> _. congruence.
  - cbn in KA, KB. destruct KA as [_ KA], KB as [_ KB]. cbn.
    assert (G : map (fun s => match s with None => KNone | Some s => KTup (hashkey s) end) s
              = map (fun s => match s with None => KNone | Some s => KTup (hashkey s) end) s' <->
            (fix go (s s' : list (option (pobj V A))) : Prop :=
               match s, s' with
               | [], [] => True
               | None :: r, None :: r' => go r r'
               | Some x :: r, Some y :: r' => alike x y /\ go r r'
               | _, _ => False
               end) s s').
    { clear at_ at' c c'. revert s' KA KB. induction IH as [|x s HX HS IHs]; intros [|y s'] KA KB; cbn.
      - tauto.
      - split; [discriminate|tauto].
      - split; [discriminate|destruct x; tauto].
      - destruct x as [x|], y as [y|].
        + destruct KA as [KX KA], KB as [KY KB]. specialize (IHs s' KA KB). specialize (HX y KX KY).
          split.
          * intros E. injection E as E1 E2. tauto.
          * intros [E1 E2]. apply HX in E1. apply IHs in E2. congruence.
        + split; [discriminate|tauto].
        + split; [discriminate|tauto].
        + specialize (IHs s' KA KB). split.
          * intros E. injection E as E2. tauto.
          * intros E2. apply IHs in E2. congruence. }
    split.
    + intros E. injection E as -> E. split; auto. apply G; auto.
    + intros [-> E]. apply G in E. congruence.
Qed.

Ltac clash H := exfalso; apply H; cbn; intuition congruence.

Fixpoint bare (p : psf V A) : Prop := match p with HybridPsf _ _ => False | ShiftedPsf _ _ p => bare p | _ => True end.
Lemma strip_bare p : bare (strip p).
Proof. induction p; simpl; auto. Qed.
Lemma strip_ok p : psf_ok p -> psf_ok (strip p).
Proof. induction p; simpl; auto. Qed.
Lemma strip_key p : psf_key (strip p) = psf_key p.
Proof. induction p; simpl; congruence. Qed.
Lemma psf_iff0 : forall a b : psf V A, bare a -> bare b -> psf_ok a -> psf_ok b -> (psf_key a = psf_key b <-> alike_psf a b).
Proof.
  induction a as [n i s|n f e m|o|x y p IH|p IHp g]; intros [n' i' s'|n' f' e' m'|o'|x' y' p'|p' g'] BA BB KA KB; try contradiction; cbn [psf_key alike_psf];
    try (split; [discriminate|tauto]).
  - split; [intros E; injection E as E; auto using map_KNum_inj|intros ->; reflexivity].
  - destruct KB as [_ KB]. destruct (hashkey_head o') as [r ->]. split; [|tauto].
    intros E. injection E as E _. clash KB.
  - split; [|intros [-> ->]; reflexivity]. intros E. injection E as E1 ->. split; auto.
    destruct f, f'; congruence.
  - destruct KB as [_ KB]. destruct (hashkey_head o') as [r ->]. split; [|tauto].
    intros E. injection E as E _. clash KB.
  - destruct KA as [_ KA]. destruct (hashkey_head o) as [r ->]. split; [|tauto].
    intros E. injection E as E _. clash KA.
  - destruct KA as [_ KA]. destruct (hashkey_head o) as [r ->]. split; [|tauto].
    intros E. injection E as E _. clash KA.
  - destruct KA as [KA _], KB as [KB _]. apply hashkey_iff; auto.
  - destruct KA as [_ KA]. destruct (hashkey_head o) as [r ->]. split; [|tauto].
    intros E. injection E as E _. clash KA.
  - destruct KB as [_ KB]. destruct (hashkey_head o') as [r ->]. split; [|tauto].
    intros E. injection E as E _. clash KB.
  - cbn in KA, KB, BA, BB. specialize (IH p' BA BB KA KB). split.
    + intros E. injection E as -> -> E. tauto.
    + intros (-> & -> & E). apply IH in E. congruence.
Qed.
Lemma psf_iff (a b : psf V A) : psf_ok a -> psf_ok b -> (psf_key a = psf_key b <-> alike_psf (strip a) (strip b)).
Proof. intros KA KB. rewrite <- (strip_key a), <- (strip_key b). apply psf_iff0; auto using strip_bare, strip_ok. Qed.

Lemma wcs_iff : forall a b : wcs V A, wcs_ok a -> wcs_ok b -> (wcs_key a = wcs_key b <-> alike_wcs a b).
Proof.
  induction a as [s dx dy|x y i|o|f w IH|x y w IH]; intros [s' dx' dy'|x' y' i'|o'|f' w'|x' y' w'] KA KB;
    cbn [wcs_key alike_wcs]; try (split; [discriminate|tauto]);
    try (destruct KA as [_ KA]; destruct (hashkey_head o) as [r ->]; split; [|tauto];
         intros E; first [discriminate E | injection E as E _; clash KA]; fail);
    try (destruct KB as [_ KB]; destruct (hashkey_head o') as [r ->]; split; [|tauto];
         intros E; first [discriminate E | injection E as E _; clash KB]; fail).
  - split; [intros E; injection E as -> ->; auto|intros [-> ->]; reflexivity].
  - split; [intros E; injection E as -> -> ->; auto|intros (-> & -> & ->); reflexivity].
  - destruct KA as [KA _], KB as [KB _]. apply hashkey_iff; auto.
  - cbn in KA, KB. specialize (IH w' KA KB). split.
    + intros E. injection E as -> E. tauto.
    + intros (-> & E). apply IH in E. congruence.
  - cbn in KA, KB. specialize (IH w' KA KB). split.
    + intros E. injection E as -> -> E. tauto.
    + intros (-> & -> & E). apply IH in E. congruence.
Qed.

Lemma pc_iff : forall a b : photocal V A, pc_ok a -> pc_ok b -> (pc_key a = pc_key b <-> alike_pc a b).
Proof.
  induction a as [o|f w IH]; intros [o'|f' w'] KA KB; cbn [pc_key alike_pc].
  - destruct KA as [KA _], KB as [KB _]. apply hashkey_iff; auto.
  - destruct KA as [_ KA]. destruct (hashkey_head o) as [r ->]. split; [|tauto].
    intros E. injection E as E _. congruence.
  - destruct KB as [_ KB]. destruct (hashkey_head o') as [r ->]. split; [|tauto].
    intros E. injection E as E _. congruence.
  - cbn in KA, KB. specialize (IH w' KA KB). split.
    + intros E. injection E as -> E. tauto.
    + intros (-> & E). apply IH in E. congruence.
Qed.

Lemma deps_iff (i i' : image V A) (s s' : pobj V A) : image_ok i -> image_ok i' -> classes_ok s -> classes_ok s' ->
  (deps i s = deps i' s' <-> alike_image i i' /\ alike s s').
Proof.
  intros (P1 & S1 & W1 & C1) (P2 & S2 & W2 & C2) K1 K2.
  pose proof (psf_iff _ _ P1 P2) as HP. pose proof (hashkey_iff _ _ S1 S2) as HS.
  pose proof (wcs_iff _ _ W1 W2) as HW. pose proof (pc_iff _ _ C1 C2) as HC.
  pose proof (hashkey_iff _ _ K1 K2) as HO.
  unfold deps, image_key, alike_image. split.
  - intros E. injection E as E1 E2 E3 E4 E5 E6 E7. tauto.
  - intros ((-> & -> & A3 & A4 & A5 & A6) & A7).
    apply HP in A3. apply HS in A4. apply HW in A5. apply HC in A6. apply HO in A7. congruence.
Qed.
End Spec.

(** The key under which a model is filed determines, and is determined by, the
    pixel arrays of the image and all classes, members and values of its PSF,
    sky, coordinates and calibration and of the source. *)
Theorem C63_key {V A : Type} (group : string -> bool) (i i' : image V A) (s s' : pobj V A) :
  image_ok group i -> image_ok group i' -> classes_ok group s -> classes_ok group s' ->
  (deps i s = deps i' s' <-> alike_image i i' /\ alike s s').
Proof. apply deps_iff. Qed.

(** Hence, in a program whose images and sources of equal classes and values
    render equally ([W] are the pairs that occur), and on whose keys hash() has
    no collisions, the model cache is transparent: every history of requests,
    parameter changes and mask changes followed by clearing gets the model it
    would get without a cache. *)
Theorem C63_cache {V A M B D I S : Type} (group : string -> bool) (h : hkey V -> Z)
    (W : image V A -> pobj V A -> Prop) (render : M -> image V A -> pobj V A -> B -> option D)
    base0 mgt zero_sb minval fin
    (p0 : { p : (I -> image V A) * (S -> pobj V A) | forall i s, W (fst p i) (snd p s) }) m n hist :
  (forall i s, W i s -> image_ok group i /\ classes_ok group s) ->
  (forall i s i' s' m b, W i s -> W i' s' -> alike_image i i' -> alike s s' -> render m i s b = render m i' s' b) ->
  (forall i s i' s', W i s -> W i' s' -> h (deps i s) = h (deps i' s') -> deps i s = deps i' s') ->
  (1 <= n) -> masks_then_clear hist ->
  let base := fun (p : { p : (I -> image V A) * (S -> pobj V A) | forall i s, W (fst p i) (snd p s) }) m i s b =>
                render m (fst (proj1_sig p) i) (snd (proj1_sig p) s) b in
  Forall (transparent base mgt minval fin)
    (mrun Z.eq_dec (fun p i s => h (deps (fst (proj1_sig p) i) (snd (proj1_sig p) s))) base base0 mgt zero_sb minval
       fin p0 m (cache_new n) hist).
Proof.
  intros HOK HR HH Hn HM base. apply C28_transparent; auto.
  intros m' p i s p' i' s' b E. unfold base.
  pose proof (proj2_sig p i s) as W1. pose proof (proj2_sig p' i' s') as W2. cbn beta in W1, W2.
  pose proof (HOK _ _ W1) as [A1 A2]. pose proof (HOK _ _ W2) as [A3 A4].
  pose proof (HH _ _ _ _ W1 W2 E) as E'.
  destruct (proj1 (deps_iff group _ _ _ _ A1 A3 A2 A4) E'). apply HR; auto.
Qed.

(** ** Where a collision comes from *)
(** What Python hashes itself: strings, numbers, None, and tuples of hashes. *)
Inductive hashed (V : Type) : Type :=
| HStr (s : string) | HNum (v : V) | HInt (z : Z) | HNone | HTup (l : list Z).
Arguments HStr {V}. Arguments HNum {V}. Arguments HInt {V}. Arguments HNone {V}. Arguments HTup {V}.
Definition builtin {V} (hstr : string -> Z) (hnum : V -> Z) (hint : Z -> Z) (hnone : Z) (htup : list Z -> Z) (x : hashed V) : Z :=
  match x with HStr s => hstr s | HNum v => hnum v | HInt z => hint z | HNone => hnone | HTup l => htup l end.
(** Keys equal for Python: an address is a whole number. *)
Fixpoint same_key {V} (a b : hkey V) : Prop :=
  match a, b with
  | KStr s, KStr s' => s = s'
  | KNum v, KNum v' => v = v'
  | KInt z, KInt z' => z = z'
  | KInt z, KId n | KId n, KInt z => z = Z.of_nat n
  | KId n, KId n' => n = n'
  | KNone, KNone => True
  | KTup l, KTup l' =>
      (fix go (l l' : list (hkey V)) : Prop :=
         match l, l' with [], [] => True | x :: r, y :: r' => same_key x y /\ go r r' | _, _ => False end) l l'
  | _, _ => False
  end.
(** Two keys with one hash are the same key, unless two different strings,
    numbers, None or tuples of hashes have the same built-in hash. *)
Theorem C63_hash {V : Type} (V_dec : forall v v' : V, {v = v'} + {v <> v'}) hstr hnum hint hnone htup (k k' : hkey V) :
  pyhash hstr hnum hint hnone htup k = pyhash hstr hnum hint hnone htup k' ->
  same_key k k' \/
  exists x y : hashed V, x <> y /\ builtin hstr hnum hint hnone htup x = builtin hstr hnum hint hnone htup y.
Proof.
  set (B := builtin hstr hnum hint hnone htup).
  revert k k'. fix IH 1. intros k k' E.
  assert (NE : forall x y : hashed V, x <> y -> B x = B y -> same_key k k' \/ exists x y : hashed V, x <> y /\ B x = B y)
    by (intros x y N Q; right; exists x, y; auto).
  destruct k as [s|v|z| |n|l], k' as [s'|v'|z'| |n'|l']; cbn [pyhash] in E;
    try (match type of E with
         | hstr ?a = hstr ?b => destruct (string_dec a b); [left; exact e|apply (NE (HStr a) (HStr b)); [congruence|exact E]]
         | hnum ?a = hnum ?b => destruct (V_dec a b); [left; exact e|apply (NE (HNum a) (HNum b)); [congruence|exact E]]
         | hint ?a = hint ?b => destruct (Z.eq_dec a b); [left; cbn; lia|apply (NE (HInt a) (HInt b)); [congruence|exact E]]
         | hnone = hnone => left; exact Logic.I
         end);
    try (match type of E with
         | htup ?a = htup ?b => idtac
         | ?a = ?b =>
           let f c := match c with hstr ?s => constr:(@HStr V s) | hnum ?s => constr:(@HNum V s) | hint ?s => constr:(@HInt V s)
                                 | hnone => constr:(@HNone V) | htup ?s => constr:(@HTup V s) end in
           let x := f a in let y := f b in apply (NE x y); [discriminate|exact E]
         end).
  clear NE. set (ph := pyhash hstr hnum hint hnone htup) in *.
  destruct (list_eq_dec Z.eq_dec (map ph l) (map ph l')) as [EM|NM];
    [|right; exists (HTup (map ph l)), (HTup (map ph l')); split; [congruence|exact E]].
  clear E. revert l' EM. induction l as [|x l IHl]; intros [|y l'] EM; try discriminate; [left; exact Logic.I|].
  cbn [map] in EM. injection EM as E1 E2.
  destruct (IH x y E1) as [S1|C]; [|right; exact C]. destruct (IHl l' E2) as [S2|C]; [left; split; [exact S1|exact S2]|right; exact C].
Qed.
Example C63_hash_ex : same_key (KTup [KStr "a"; KId 3; KNone; KNum 5]) (KTup [KStr "a"; KInt 3; KNone; KNum 5]) /\
  ~ same_key (V := Z) (KTup [KId 3]) (KTup [KNone]).
Proof. cbn. intuition. Qed.

(** ** hash() has collisions that occur in practice *)

Definition point_at (x : Z) : pobj Z unit :=
  OMulti "PointSource" [Some (OList "PixPos" [x; 5] tt); Some (OList "Flux" [7] tt)] tt.
Definition tim : image Z unit :=
  mkImage 1 2 (PsfParams (OList "GaussianMixturePSF" [1; 0; 0; 4; 4; 0] tt)) (OList "ConstantSky" [0] tt)
    (NullWCS 1 0 0) (PcParams (OList "NullPhotoCal" [] tt)).

(** Whatever Python uses for strings and tuples: -1 and -2 have the same hash,
    so a source moved from x = -1 to x = -2 keeps its cache key. *)
Theorem C63_hash_collision_refuted : forall hstr hnone htup (i : image Z unit),
  let h := pyhash hstr hash_whole hash_whole hnone htup in
  h (deps i (point_at (-1))) = h (deps i (point_at (-2))) /\
  deps i (point_at (-1)) <> deps i (point_at (-2)) /\ ~ alike (point_at (-1)) (point_at (-2)).
Proof.
  intros hstr hnone htup i h. split; [|split].
  - reflexivity.
  - intros E. unfold deps in E. cbn in E. congruence.
  - cbn. intros (_ & (_ & E) & _). discriminate.
Qed.

(** The cache then returns the model of the old position (a rendering that
    returns the position stands for the model). *)
Theorem C63_stale_model_refuted : forall hstr hnone htup,
  let h := pyhash hstr hash_whole hash_whole hnone htup in
  let render := fun (_ : unit) (_ : image Z unit) (s : pobj Z unit) (_ : Z) =>
      match s with OMulti _ (Some (OList _ (x :: _) _) :: _) _ => Some x | _ => None end in
  let base := fun (p : Z) m (_ _ : unit) b => render m tim (point_at p) b in
  map ores (mrun Z.eq_dec (fun p _ _ => h (deps tim (point_at p))) base (fun p m i s => base p m i s 0) Z.gtb 0
       (fun _ _ => 0) (fun _ => true) (-1) tt (cache_new 1000)
       [MRequest tt tt None; MParams (-2); MRequest tt tt None]) = [Ok (Some (-1)); Ok (Some (-1))] /\
  base (-2) tt tt tt 0 = Some (-2).
Proof.
  intros hstr hnone htup h render base. split; [|reflexivity].
  pose proof (C63_hash_collision_refuted hstr hnone htup tim) as [E _].
  change (pyhash hstr hash_whole hash_whole hnone htup) with h in E.
  set (hk := fun p : Z => h (deps tim (point_at p))). change (hk (-1) = hk (-2)) in E.
  change (fun (p : Z) (_ _ : unit) => h (deps tim (point_at p))) with (fun (p : Z) (_ _ : unit) => hk p).
  clearbody hk. cbn. rewrite E. unfold cache_get, cache_getitem. cbn [cdict od_find].
  destruct (Z.eq_dec (hk (-2)) (hk (-2))) as [_|N]; [|contradiction]. reflexivity.
Qed.

(** ** Attributes that are missing from the keys *)

(** Brightnesses in different bands have equal keys. *)
Theorem C63_band_refuted : exists (m m' : mbb Z),
  mbb_new None ["g"]%string [("g", 5)]%string = Ok m /\ mbb_new None ["r"]%string [("r", 5)]%string = Ok m' /\
  hashkey (OList "NanoMaggies" (l_vals (m_list m)) (m_order m)) =
  hashkey (OList "NanoMaggies" (l_vals (m_list m')) (m_order m')) /\
  get_band m "g" = Ok 5 /\ get_band m' "g" = Err AttributeError /\
  (* and with the two bands in another order, in the same place *)
  exists n n', mbb_new None ["g"; "r"]%string [("g", 5); ("r", 9)]%string = Ok n /\
    mbb_new None ["r"; "g"]%string [("r", 5); ("g", 9)]%string = Ok n' /\
    hashkey (OList "NanoMaggies" (l_vals (m_list n)) (m_order n)) =
    hashkey (OList "NanoMaggies" (l_vals (m_list n')) (m_order n')) /\
    get_band n "g" = Ok 5 /\ get_band n' "g" = Ok 9.
Proof.
  do 2 eexists. do 2 (split; [reflexivity|]). do 3 (split; [reflexivity|]).
  do 2 eexists. do 2 (split; [reflexivity|]). do 2 (split; [reflexivity|]). reflexivity.
Qed.

(** Pixelized PSFs: the shape of the stamp, its sampling and whether it is
    normalised are missing. *)
Definition ones (h w : Z) : arr Q := mkArr h w (fun _ _ => 1%Q).
Theorem C63_pixelized_refuted :
  (psf_key (Pixelized (A:=unit) false (ones 3 5) 1) = psf_key (Pixelized (A:=unit) false (ones 5 3) 1) /\
   stamp_size (Pixelized (A:=unit) false (ones 3 5) 1) = Some (3, 5) /\
   stamp_size (Pixelized (A:=unit) false (ones 5 3) 1) = Some (5, 3)) /\
  (psf_key (Pixelized (A:=unit) false (ones 3 3) 1) = psf_key (Pixelized (A:=unit) false (ones 3 3) (1 # 2)) /\
   stamp_size (Pixelized (A:=unit) false (ones 3 3) 1) = Some (3, 3) /\
   stamp_size (Pixelized (A:=unit) false (ones 3 3) (1 # 2)) = Some (2, 2)) /\
  (psf_key (Pixelized (A:=unit) false (ones 3 3) 1) = psf_key (Pixelized (A:=unit) true (ones 3 3) 1) /\
   exists a b, get_image (Pixelized (A:=unit) false (ones 3 3) 1) = Some a /\
     get_image (Pixelized (A:=unit) true (ones 3 3) 1) = Some b /\ (px a 0 0 == 1)%Q /\ (px b 0 0 == 1 # 9)%Q).
Proof.
  split; [|split].
  - vm_compute. auto.
  - vm_compute. auto.
  - split; [reflexivity|]. do 2 eexists. split; [reflexivity|]. split; [reflexivity|]. split; reflexivity.
Qed.

(** PsfEx models built in memory (copies, shifted models) all have one key, and
    the key of a NullWCS lacks its pixel scale. *)
Theorem C63_psfex_refuted {V A : Type} : forall (nrm nrm' : bool) (m m' : A) ext,
  psf_key (V:=V) (PsfEx nrm None ext m) = psf_key (PsfEx nrm' None ext m').
Proof. reflexivity. Qed.
(** The key of a hybrid PSF lacks its Gaussians, and is that of the pixelized
    PSF alone. *)
Theorem C63_hybrid_refuted {V A : Type} : forall (p : psf V A) (g g' : pobj V A), g <> g' ->
  psf_key (HybridPsf p g) = psf_key (HybridPsf p g') /\ psf_key (HybridPsf p g) = psf_key p /\
  gaussians (HybridPsf p g) <> gaussians (HybridPsf p g').
Proof. intros p g g' N. repeat split; auto. cbn. congruence. Qed.
Theorem C63_nullwcs_refuted : forall s s' dx dy : Q, ~ (s == s')%Q ->
  wcs_key (A:=unit) (NullWCS s dx dy) = wcs_key (A:=unit) (NullWCS s' dx dy) /\
  exists c c', cd_scale (A:=unit) (NullWCS s dx dy) = Some c /\ cd_scale (A:=unit) (NullWCS s' dx dy) = Some c' /\
    ~ (c == c')%Q.
Proof.
  intros s s' dx dy N. split; [reflexivity|]. do 2 eexists. split; [reflexivity|]. split; [reflexivity|].
  intros E. apply N. unfold Qdiv in E. rewrite !Qmult_1_l in E.
  apply (Qmult_inj_r s s' (/ 3600)); auto. intros Z. vm_compute in Z. discriminate.
Qed.

(** ** Examples *)
Definition grp (c : string) : bool := String.eqb c "PointSource".
Example C63_key_ex :
  image_ok grp tim /\ classes_ok grp (point_at 3) /\ classes_ok grp (point_at 4) /\
  deps tim (point_at 3) = deps tim (point_at 3) /\ deps tim (point_at 3) <> deps tim (point_at 4) /\
  ~ alike (point_at 3) (point_at 4).
Proof.
  split; [|split; [|split; [|split; [|split]]]].
  - repeat split; cbn; intuition congruence.
  - cbn. auto.
  - cbn. auto.
  - reflexivity.
  - unfold deps. cbn. congruence.
  - cbn. intros (_ & (_ & E) & _). discriminate.
Qed.

(** A program with one image and sources at x = 0, 1, 2, ...: its keys do not
    collide under a hash that reads the position off the key. *)
Example C63_cache_ex :
  let h := fun k : hkey Z => match k with
     KTup [_; KTup (_ :: KTup (_ :: KNum x :: _) :: _)] => x | _ => -1 end in
  let W := fun i s => i = tim /\ exists x, 0 <= x /\ s = point_at x in
  (forall i s, W i s -> image_ok grp i /\ classes_ok grp s) /\
  (forall i s i' s', W i s -> W i' s' -> h (deps i s) = h (deps i' s') -> deps i s = deps i' s') /\
  W tim (point_at 0).
Proof.
  intros h W. split; [|split].
  - intros i s (-> & x & _ & ->). split; [apply C63_key_ex|cbn; auto].
  - intros i s i' s' (-> & x & _ & ->) (-> & y & _ & ->) E. cbn in E. subst. reflexivity.
  - split; auto. exists 0. split; [lia|auto].
Qed.
Example C63_whole_ex : hash_whole (-1) = hash_whole (-2) /\ hash_whole 3 = 3 /\ hash_whole (2 ^ 61 - 1) = 0 /\
  hash_whole (-7) = -7.
Proof. vm_compute. auto. Qed.

Print Assumptions C63_key.
Print Assumptions C63_cache.
Print Assumptions C63_hash.
Print Assumptions C63_hash_collision_refuted.
Print Assumptions C63_stale_model_refuted.
Print Assumptions C63_band_refuted.
Print Assumptions C63_pixelized_refuted.
Print Assumptions C63_psfex_refuted.
Print Assumptions C63_hybrid_refuted.
Print Assumptions C63_nullwcs_refuted.
