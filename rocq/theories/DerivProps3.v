(** C48 continued: Sersic galaxies, galaxies with a core, and
    FixedCompositeGalaxy. *)
From Coq Require Import String List ZArith Bool Lia.
From Verif Require Import Base ParamsModel ParamsSpec ParamsProofs ParamsProofs2 ParamsProps
  DerivModel DerivSpec DerivProofs DerivProps DerivProps2.
Import ListNotations.

Section Props.
Context {V : Type} (one two : V) (vadd vsub vmul vdiv : V -> V -> V) (vneg : V -> V).
Context (veqb vgtb : V -> V -> bool) (zero : V).
Context {P : Type} (psub padd : P -> P -> P) (pscale : P -> V -> P) {PX : Type}.
Context (counts : ptree V -> V) (minval_of : V -> option V).
Context (pixel : ptree V -> ptree V -> PX) (cdi : ptree V -> ptree V -> nat -> V * V).
Context (grad_x grad_y : P -> P).

Notation ptree := (ptree V).
Notation renderer := (renderer V P PX).
Notation bump := (bump one vadd).
Notation galaxy_derivs := (galaxy_derivs V one vadd vsub vdiv veqb zero P psub padd pscale PX
  counts minval_of pixel cdi grad_x grad_y).
Notation galaxy_entry := (galaxy_entry vsub vdiv veqb zero psub padd pscale counts minval_of
  pixel cdi grad_x grad_y).
Notation sersic_derivs := (sersic_derivs V one vadd vsub vmul vdiv vneg veqb vgtb zero P psub padd pscale PX
  counts minval_of pixel cdi grad_x grad_y).
Notation devcore_derivs := (devcore_derivs V one vadd vsub vdiv veqb zero P psub padd pscale PX
  counts minval_of pixel cdi grad_x grad_y).
Notation sercore_derivs := (sercore_derivs V one vadd vsub vmul vdiv vneg veqb vgtb zero P psub padd pscale PX
  counts minval_of pixel cdi grad_x grad_y).
Notation fixed_composite_derivs := (fixed_composite_derivs V one vadd vsub vdiv vneg veqb zero P psub padd pscale PX
  counts minval_of pixel cdi grad_x grad_y).
Notation fixed_entry := (fixed_entry one vsub vdiv vneg veqb zero psub padd pscale counts minval_of
  pixel cdi grad_x grad_y).
Notation add_patches := (add_patches P padd).

(** The patch a galaxy starts from. *)
Definition base_patch (R : renderer) (t : ptree) : option P :=
  unit0 _ _ _ R (pixel (member t 0) t) (minval_of (counts (member t 1))) t.

(** The step used for a Sersic index: backwards when forwards would pass the
    upper bound. *)
Definition sersic_step (v st up : V) : V := if vgtb (vadd v st) up then vmul st (vneg one) else st.

(** *** C48, SersicGalaxy: right when the galaxy renders... *)
Theorem C48_sersic : forall (R : renderer) nm pos br sh ind liq p,
  let t := PMulti nm [pos; br; sh; ind] liq in
  wf t -> pos <> PNone -> br <> PNone -> sh <> PNone -> ind <> PNone -> planar pos ->
  base_patch R t = Some p ->
  (forall t', blank one t' = blank one t -> unit0 _ _ _ R (pixel pos t) (Some zero) t' <> None) ->
  Forall (fun u => u <> None) (get_upper_bounds ind) ->
  exists ds, sersic_derivs R t = Ok (ds, t) /\
    length ds = number_of_params t /\
    (forall k st t', k < before t 3 -> bump t k st t' -> nth_error ds k = Some (galaxy_entry R t t' k st)) /\
    (forall k v st up t'', before t 3 <= k -> nth_error (get_params t) k = Some v ->
       nth_error (get_step_sizes one t) k = Some st -> nth_error (get_upper_bounds t) k = Some (Some up) ->
       set_param t (Z.of_nat k) (vadd v (sersic_step v st up)) = Ok (t'', v) ->
       exists q, unit0 _ _ _ R (pixel pos t) (Some zero) t'' = Some q /\
         nth_error ds k = Some (Some (pscale (psub q p) (vdiv (counts br) (sersic_step v st up))))).
Proof.
  intros R nm pos br sh ind liq p t W N0 N1 N2 N3 HP HU HR HUP.
  assert (W' := W). destruct W' as [HL HW]. simpl in HL. destruct HW as (W0 & W1 & W2 & W3 & _).
  destruct liq as [|lp [|lb [|ls [|li [|? ?]]]]]; simpl in HL; try lia.
  assert (G := galaxy_gen one vadd vsub vdiv veqb zero psub padd pscale counts minval_of pixel cdi grad_x grad_y
     R true nm pos br sh [ind] lp lb ls [li] W N0 N1 N2 HP). cbv zeta in G. fold t in G.
  unfold base_patch in HU. change (member t 0) with pos in HU. change (member t 1) with br in HU.
  rewrite HU in G. destruct G as (ds & E & L & H).
  destruct (before4 nm pos br sh ind lp lb ls li N0 N1 N2 N3) as (B1 & B2 & B3 & B4). fold t in B1, B2, B3, B4.
  unfold DerivModel.sersic_derivs. rewrite E. cbn [bind fst snd app].
  change (sub V t 0) with (@Ok ptree pos). change (sub V t 1) with (@Ok ptree br). change (sub V t 3) with (@Ok ptree ind).
  cbn [bind]. change (is_frozen V t 3) with (negb li).
  assert (HX : forall k, before t 3 <= k -> k < number_of_params t -> li = true /\ k = before t 3 + (k - before t 3) /\ k - before t 3 < number_of_params ind).
  { intros k HK1 HK2. destruct li; unfold width in *; [|lia]. split; auto. split; lia. }
  destruct li; simpl negb; cbv iota.
  2:{ exists ds. split; auto. split; [unfold width in *; lia|]. split; auto.
      intros k v st up t'' HK HV HS _ _.
      destruct (HX k HK); [|discriminate]. rewrite <- (params_len one) by auto. apply nth_error_Some. congruence. }
  assert (UL : length (get_upper_bounds ind) = number_of_params ind).
  { destruct (C01_vector_views_agree one ind W3) as (_ & E1 & _ & _ & _ & E2 & _). congruence. }
  assert (HUi : forall i, i < number_of_params ind -> exists up, nth_error (get_upper_bounds ind) i = Some (Some up)).
  { intros i HI. destruct (nth_error (get_upper_bounds ind) i) as [[up|]|] eqn:EU; eauto.
    - exfalso. rewrite Forall_forall in HUP. apply nth_error_In in EU. apply HUP in EU. congruence.
    - apply nth_error_None in EU. lia. }
  assert (HSET : forall i v w, i < number_of_params ind -> exists s' old q,
      set_param ind (Z.of_nat i) w = Ok (s', old) /\
      unit0 _ _ _ R (pixel pos t) (Some zero) (PMulti nm [pos; br; sh; s'] [lp; lb; ls; true]) = Some q /\
      (nth_error (get_params ind) i = Some v -> old = v) /\
      stepped V t 3 i w (fun t' => Ok (unit0 V P PX R (pixel pos t) (Some zero) t')) = Ok (Some q, t)).
  { intros i v w HI.
    destruct (stepped_ok nm [pos; br; sh; ind] [lp; lb; ls; true] 3 ind i w
       (fun t' => Ok (unit0 V P PX R (pixel pos t) (Some zero) t')) W eq_refl N3 HI) as (s' & old & F1 & F2 & F3 & F4).
    destruct (C04_set_one_param one ind i w W3 N3 HI) as (s2 & o2 & A1 & _ & _ & _ & A2 & _).
    rewrite F1 in A1. injection A1 as <- <-.
    destruct (unit0 _ _ _ R (pixel pos t) (Some zero) (PMulti nm [pos; br; sh; s'] [lp; lb; ls; true])) as [q|] eqn:EQ.
    - exists s', old, q. split; auto. split; auto. split; [congruence|]. fold t in F4. rewrite F4. simpl upd. cbn [bind].
      rewrite EQ. reflexivity.
    - exfalso. apply (HR (PMulti nm [pos; br; sh; s'] [lp; lb; ls; true])); auto. simpl. rewrite A2. reflexivity. }
  destruct (step_loop_ok (sersic_body V one vadd vmul vdiv vneg vgtb zero P psub pscale PX R (pixel pos t) (counts br) p (get_upper_bounds ind))
    (fun i v st => match nth_error (get_upper_bounds ind) i with
       | Some (Some up) =>
           match set_param ind (Z.of_nat i) (vadd v (sersic_step v st up)) with
           | Ok r => match unit0 _ _ _ R (pixel pos t) (Some zero) (PMulti nm [pos; br; sh; fst r] [lp; lb; ls; true]) with
                     | Some q => Some (pscale (psub q p) (vdiv (counts br) (sersic_step v st up)))
                     | None => None end
           | Err _ => None end
       | _ => None end)
    t (get_params ind) (get_step_sizes one ind) 0) as (d4 & E4 & L4 & H4).
  - rewrite (steps_len one), (params_len one); auto.
  - intros i v st EV ES _. assert (HI : i < number_of_params ind) by (rewrite <- (params_len one) by auto; apply nth_error_Some; congruence).
    destruct (HUi i HI) as (up & EU). unfold sersic_body, py_get. rewrite EU. cbn [bind].
    change (if vgtb (vadd v st) up then vmul st (vneg one) else st) with (sersic_step v st up).
    destruct (HSET i v (vadd v (sersic_step v st up)) HI) as (s' & old & q & F1 & F2 & F3 & F4).
    rewrite F4, F1. cbn [bind fst snd]. rewrite F2. reflexivity.
  - rewrite E4. cbn [bind fst snd]. exists (ds ++ d4). split; auto.
    split; [rewrite app_length, L4, (steps_len one) by auto; unfold width in *; lia|].
    split.
    + intros k st t' HK HB. rewrite nth_error_app1 by lia. auto.
    + intros k v st up t'' HK HV HS HU2 HT.
      assert (HKn : k < number_of_params t) by (rewrite <- (params_len one) by auto; apply nth_error_Some; congruence).
      destruct (HX k HK HKn) as (_ & EK & HI). set (i := k - before t 3) in *.
      assert (AN : forall (A : Type) (f : ptree -> list A), (forall m s, nth_error [pos; br; sh; ind] m = Some s -> length (f s) = number_of_params s) ->
         nth_error (concat (active_map f [pos; br; sh; ind] [lp; lb; ls; true])) k = nth_error (f ind) i).
      { intros A f Hf. rewrite EK. unfold t. rewrite before_S. apply (active_nth f [pos; br; sh; ind] [lp; lb; ls; true] 3 ind i); auto. }
      assert (WS : forall m s, nth_error [pos; br; sh; ind] m = Some s -> wf s) by (intros m s; apply (wf_sub _ _ _ m s W)).
      change (nth_error (concat (active_map get_params [pos; br; sh; ind] [lp; lb; ls; true])) k = Some v) in HV.
      rewrite AN in HV by (intros; apply (params_len one); eauto).
      change (nth_error (concat (active_map (get_step_sizes one) [pos; br; sh; ind] [lp; lb; ls; true])) k = Some st) in HS.
      rewrite AN in HS by (intros; apply steps_len; eauto).
      change (nth_error (concat (active_map get_upper_bounds [pos; br; sh; ind] [lp; lb; ls; true])) k = Some (Some up)) in HU2.
      rewrite AN in HU2.
      2:{ intros m s Em. destruct (C01_vector_views_agree one s (WS m s Em)) as (_ & E1 & _ & _ & _ & E2 & _). congruence. }
      destruct (HSET i v (vadd v (sersic_step v st up)) HI) as (s' & old & q & F1 & F2 & F3 & F4).
      assert (ET : t'' = PMulti nm [pos; br; sh; s'] [lp; lb; ls; true]).
      { revert HT. rewrite EK. unfold t. rewrite before_S, set_param_multi.
        match goal with |- context [Z.of_nat ?n] => change (Z.of_nat n) with (Z.of_nat (0 + n)) end.
        rewrite (walk_member _ [pos; br; sh; ind] [lp; lb; ls; true] 3 ind i 0) by auto.
        rewrite F1. cbn [bind fst snd]. intros H0. injection H0 as <- _. reflexivity. }
      subst t''. exists q. split; auto.
      rewrite nth_error_app2 by lia. rewrite L. fold i. rewrite (H4 i v st HV HS). simpl.
      rewrite HU2, F1. simpl. rewrite F2. reflexivity.
Qed.

(** ...but one entry too many when it does not (galaxy.py:154 already counts
    the Sersic index, sersic.py:410-412 adds it again). *)
Theorem C48_sersic_refuted : forall (R : renderer) nm pos br sh ind liq,
  let t := PMulti nm [pos; br; sh; ind] liq in
  wf t -> pos <> PNone -> br <> PNone -> sh <> PNone -> planar pos ->
  base_patch R t = None ->
  sersic_derivs R t = Ok (nones P (S (number_of_params t)), t).
Proof.
  intros R nm pos br sh ind liq t W N0 N1 N2 HP HU.
  assert (W' := W). destruct W' as [HL _]. simpl in HL.
  destruct liq as [|lp [|lb [|ls [|li [|? ?]]]]]; simpl in HL; try lia.
  assert (G := galaxy_gen one vadd vsub vdiv veqb zero psub padd pscale counts minval_of pixel cdi grad_x grad_y
     R true nm pos br sh [ind] lp lb ls [li] W N0 N1 N2 HP). cbv zeta in G. fold t in G.
  unfold base_patch in HU. change (member t 0) with pos in HU. change (member t 1) with br in HU. rewrite HU in G.
  unfold DerivModel.sersic_derivs. rewrite G. cbn [bind fst snd app].
  change (sub V t 0) with (@Ok ptree pos). cbn [bind]. do 2 f_equal. unfold nones.
  rewrite <- repeat_cons. reflexivity.
Qed.

(** *** C48, galaxies with a point-source core.  [point] is any correct
    derivative function for point sources (C48_point). *)
Definition point_ok (point : ptree -> res (list (option P) * ptree))
    (entry : ptree -> ptree -> nat -> V -> option P) : Prop :=
  forall nm pos br liq, let d := PMulti nm [pos; br] liq in
  wf d -> pos <> PNone -> br <> PNone -> planar pos ->
  exists ds, point d = Ok (ds, d) /\ length ds = number_of_params d /\
    forall k st d', bump d k st d' -> nth_error ds k = Some (entry d d' k st).

Theorem C48_devcore : forall (R : renderer) point entry nm pos bd sd bp liq,
  point_ok point entry ->
  let t := PMulti nm [pos; bd; sd; bp] liq in
  wf t -> pos <> PNone -> bd <> PNone -> sd <> PNone -> bp <> PNone -> planar pos ->
  exists ds, devcore_derivs R point t = Ok (ds, t) /\
    length ds = number_of_params t /\
    forall k st t', bump t k st t' ->
      let e := piece t [0; 1; 2] in let e' := piece t' [0; 1; 2] in
      let d := piece t [0; 3] in let d' := piece t' [0; 3] in
      nth_error ds k = Some
        (if k <? before t 1 then add_patches (galaxy_entry R e e' k st) (entry d d' k st)
         else if k <? before t 3 then galaxy_entry R e e' k st
         else entry d d' (k - (before t 3 - before t 1)) st).
Proof.
  intros R point entry nm pos be se bd liq HPT t W N0 N1 N2 N3 HP.
  assert (W' := W). destruct W' as [HL HW]. simpl in HL.
  destruct liq as [|lp [|lbe [|lse [|lbd [|? ?]]]]]; simpl in HL; try lia.
  simpl in HW. destruct HW as (W0 & W1 & W2 & W3 & _).
  set (e := PMulti gal_names [pos; be; se] [lp; lbe; lse]).
  set (d := PMulti gal_names [pos; bd] [lp; lbd]).
  assert (We : wf e) by (simpl; auto 10). assert (Wd : wf d) by (simpl; auto 10).
  destruct (C48_galaxy one vadd vsub vdiv veqb zero psub padd pscale counts minval_of pixel cdi grad_x grad_y
     R gal_names pos be se [lp; lbe; lse] We N0 N1 N2 HP) as (de & Ee & Le & He).
  destruct (HPT gal_names pos bd [lp; lbd] Wd N0 N3 HP) as (dd & Ed & Ld & Hd).
  fold e in Ee, Le, He. fold d in Ed, Ld, Hd.
  destruct (before4 nm pos be se bd lp lbe lse lbd N0 N1 N2 N3) as (B1 & B2 & B3 & B4). fold t in B1, B2, B3, B4.
  destruct (before3 gal_names pos be se lp lbe lse N0 N1 N2) as (Be1 & Be2 & Be3). fold e in Be1, Be2, Be3.
  destruct (before2 gal_names pos bd lp lbd N0 N3) as (Bd1 & Bd2). fold d in Bd1, Bd2.
  unfold DerivModel.devcore_derivs.
  change (part V t [0; 1; 2]) with (@Ok ptree e). cbn [bind]. rewrite Ee. cbn [bind snd fst].
  change (write_back V [0; 1; 2] e t) with t.
  change (part V t [0; 3]) with (@Ok ptree d). cbn [bind]. rewrite Ed. cbn [bind snd fst].
  change (write_back V [0; 3] d t) with t.
  change (sub V t 0) with (@Ok ptree pos). cbn [bind].
  change (is_frozen V t 0) with (negb lp). rewrite (steps_len one) by auto.
  assert (Hw : (if negb lp then 0 else number_of_params pos) = width lp pos) by (destruct lp; reflexivity).
  destruct (merge_ok padd (negb lp) (number_of_params pos) de dd (width lbe be + width lse se) (width lbd bd)) as (ds & Em & Lm & Hm);
    [rewrite Hw; lia|rewrite Hw; lia|].
  rewrite Em. cbn [bind]. exists ds. split; [reflexivity|]. split; [rewrite Hw in Lm; lia|].
  rewrite Hw in Hm. intros k st t' HB. assert (HK := bump_lt one vadd _ _ _ _ W HB).
  destruct (Hm k) as (M1 & M2 & M3). clear Hm.
  change (piece t [0; 1; 2]) with e. change (piece t [0; 3]) with d. cbv zeta.
  assert (HO : exists m i s, nth_error [pos; be; se; bd] m = Some s /\ nth m [lp; lbe; lse; lbd] false = true /\ s <> PNone /\
    i < number_of_params s /\ k = before t m + i) by (apply owner; auto).
  destruct HO as (m & i & s & O1 & O2 & O3 & O4 & O5).
  destruct (bump_sub one vadd t nm _ _ m s k st t' i eq_refl W O1 O2 O3 O4 O5 HB) as (s' & HS & ->).
  assert (B0 : before t 0 = 0) by reflexivity. assert (Be0 : before e 0 = 0) by reflexivity. assert (Bd0 : before d 0 = 0) by reflexivity.
  destruct m as [|[|[|[|m]]]]; simpl in O1, O2; try discriminate.
  5: { destruct m; discriminate. }
  all: injection O1 as <-; subst.
  - unfold width in *. assert (HBe : bump e (before t 0 + i) st (PMulti gal_names [s'; be; se] [true; lbe; lse])).
    { apply (sub_bump one vadd e gal_names [pos; be; se] [true; lbe; lse] 0 pos _ st i s'); auto; lia. }
    assert (HBd : bump d (before t 0 + i) st (PMulti gal_names [s'; bd] [true; lbd])).
    { apply (sub_bump one vadd d gal_names [pos; bd] [true; lbd] 0 pos _ st i s'); auto; lia. }
    destruct (Nat.ltb_spec (before t 0 + i) (before t 1)); [|lia].
    apply M1; [lia| |]; [apply He|apply Hd]; auto.
  - unfold width in *. destruct (Nat.ltb_spec (before t 1 + i) (before t 1)); [lia|].
    destruct (Nat.ltb_spec (before t 1 + i) (before t 3)); [|destruct lse; lia].
    rewrite M2 by (destruct lse; lia). apply He.
    apply (sub_bump one vadd e gal_names [pos; be; se] [lp; true; lse] 1 be _ st i s'); auto; lia.
  - unfold width in *. destruct (Nat.ltb_spec (before t 2 + i) (before t 1)); [lia|].
    destruct (Nat.ltb_spec (before t 2 + i) (before t 3)); [|lia].
    rewrite M2 by lia. apply He.
    apply (sub_bump one vadd e gal_names [pos; be; se] [lp; lbe; true] 2 se _ st i s'); auto; lia.
  - unfold width in *. destruct (Nat.ltb_spec (before t 3 + i) (before t 1)); [lia|].
    destruct (Nat.ltb_spec (before t 3 + i) (before t 3)); [lia|].
    rewrite M3 by lia. replace (before t 3 - before t 1) with ((if lbe then number_of_params be else 0) + (if lse then number_of_params se else 0)) by lia.
    apply Hd.
    apply (sub_bump one vadd d gal_names [pos; bd] [lp; true] 1 bd _ st i s'); auto; lia.
Qed.

(** SersicCoreGalaxy, given [x] surplus entries from its Sersic part. *)
Lemma sercore_gen : forall (R : renderer) point entry nm pos br sh ind bp liq de x,
  point_ok point entry ->
  let t := PMulti nm [pos; br; sh; ind; bp] liq in
  let e := piece t [0; 1; 2; 3] in
  wf t -> pos <> PNone -> br <> PNone -> sh <> PNone -> ind <> PNone -> bp <> PNone -> planar pos ->
  sersic_derivs R e = Ok (de, e) -> length de = number_of_params e + x ->
  exists ds, sercore_derivs R point t = Ok (ds, t) /\
    length ds = number_of_params t + x /\
    (forall k, before t 1 <= k < before t 4 -> nth_error ds k = nth_error de k) /\
    (forall k st t', bump t k st t' -> k < before t 1 ->
      let d := piece t [0; 4] in let d' := piece t' [0; 4] in
      forall g, nth_error de k = Some g ->
      nth_error ds k = Some (add_patches g (entry d d' k st))) /\
    forall k st t', bump t k st t' -> before t 4 <= k ->
      let d := piece t [0; 4] in let d' := piece t' [0; 4] in
      nth_error ds (k + x) = Some (entry d d' (k - (before t 4 - before t 1)) st).
Proof.
  intros R point entry nm pos be se ind bd liq de x HPT t e W N0 N1 N2 NI N3 HP Ee Le.
  assert (W' := W). destruct W' as [HL HW]. simpl in HL.
  destruct liq as [|lp [|lbe [|lse [|li [|lbd [|? ?]]]]]]; simpl in HL; try lia.
  simpl in HW. destruct HW as (W0 & W1 & W2 & WI & W3 & _).
  change e with (PMulti gal_names [pos; be; se; ind] [lp; lbe; lse; li]) in *. clear e.
  set (e := PMulti gal_names [pos; be; se; ind] [lp; lbe; lse; li]) in *.
  set (d := PMulti gal_names [pos; bd] [lp; lbd]).
  assert (We : wf e) by (simpl; auto 10). assert (Wd : wf d) by (simpl; auto 10).
  destruct (HPT gal_names pos bd [lp; lbd] Wd N0 N3 HP) as (dd & Ed & Ld & Hd). fold d in Ed, Ld, Hd.
  destruct (before5 nm pos be se ind bd lp lbe lse li lbd N0 N1 N2 NI N3) as (B1 & B2 & B3 & B4 & B5). fold t in B1, B2, B3, B4, B5.
  destruct (before4 gal_names pos be se ind lp lbe lse li N0 N1 N2 NI) as (Be1 & Be2 & Be3 & Be4). fold e in Be1, Be2, Be3, Be4.
  destruct (before2 gal_names pos bd lp lbd N0 N3) as (Bd1 & Bd2). fold d in Bd1, Bd2.
  unfold DerivModel.sercore_derivs.
  change (part V t [0; 1; 2; 3]) with (@Ok ptree e). cbn [bind]. rewrite Ee. cbn [bind snd fst].
  change (write_back V [0; 1; 2; 3] e t) with t.
  change (part V t [0; 4]) with (@Ok ptree d). cbn [bind]. rewrite Ed. cbn [bind snd fst].
  change (write_back V [0; 4] d t) with t.
  change (sub V t 0) with (@Ok ptree pos). cbn [bind].
  change (is_frozen V t 0) with (negb lp). rewrite (steps_len one) by auto.
  assert (Hw : (if negb lp then 0 else number_of_params pos) = width lp pos) by (destruct lp; reflexivity).
  destruct (merge_ok padd (negb lp) (number_of_params pos) de dd
     (width lbe be + width lse se + width li ind + x) (width lbd bd)) as (ds & Em & Lm & Hm);
    [rewrite Hw; lia|rewrite Hw; lia|].
  rewrite Em. cbn [bind]. exists ds. split; [reflexivity|]. split; [rewrite Hw in Lm; lia|].
  rewrite Hw in Hm.
  assert (B0 : before t 0 = 0) by reflexivity. assert (Bd0 : before d 0 = 0) by reflexivity.
  split; [|split].
  - intros k HK. destruct (Hm k) as (_ & M2 & _). apply M2. lia.
  - intros k st t' HB HK1. change (piece t [0; 4]) with d. cbv zeta. intros g HG.
    destruct (Hm k) as (M1 & _ & _).
    unfold width in *. destruct lp; [|lia].
    destruct (bump_sub one vadd t nm [pos; be; se; ind; bd] [true; lbe; lse; li; lbd] 0 pos k st t' k eq_refl W eq_refl eq_refl N0)
      as (s' & HS & ->); [lia|lia|exact HB|].
    apply M1; [lia|auto|]. apply Hd.
    apply (sub_bump one vadd d gal_names [pos; bd] [true; lbd] 0 pos _ st k s'); auto; lia.
  - intros k st t' HB HK4. assert (HK := bump_lt one vadd _ _ _ _ W HB).
    destruct (Hm (k + x)) as (_ & _ & M3). clear Hm.
    change (piece t [0; 4]) with d. cbv zeta.
    unfold width in *. destruct lbd; [|lia].
    destruct (bump_sub one vadd t nm [pos; be; se; ind; bd] [lp; lbe; lse; li; true] 4 bd k st t' (k - before t 4) eq_refl W eq_refl eq_refl N3)
      as (s' & HS & ->); [lia|lia|exact HB|].
    rewrite M3 by lia.
    replace (k + x - ((if lbe then number_of_params be else 0) + (if lse then number_of_params se else 0) + (if li then number_of_params ind else 0) + x))
      with (k - (before t 4 - before t 1)) by lia.
    apply Hd. apply (sub_bump one vadd d gal_names [pos; bd] [lp; true] 1 bd _ st (k - before t 4) s'); auto; lia.
Qed.

(** SersicCoreGalaxy when its Sersic part renders: the position gets the sum,
    the other members what their own part says. *)
Theorem C48_sercore : forall (R : renderer) point entry nm pos br sh ind bp liq p,
  point_ok point entry ->
  let t := PMulti nm [pos; br; sh; ind; bp] liq in
  let e := piece t [0; 1; 2; 3] in
  wf t -> pos <> PNone -> br <> PNone -> sh <> PNone -> ind <> PNone -> bp <> PNone -> planar pos ->
  base_patch R e = Some p ->
  (forall t', blank one t' = blank one e -> unit0 _ _ _ R (pixel pos e) (Some zero) t' <> None) ->
  Forall (fun u => u <> None) (get_upper_bounds ind) ->
  exists ds de, sersic_derivs R e = Ok (de, e) /\ sercore_derivs R point t = Ok (ds, t) /\
    length ds = number_of_params t /\
    (forall k st t', bump t k st t' ->
      let d := piece t [0; 4] in let d' := piece t' [0; 4] in
      (k < before t 1 -> exists g, nth_error de k = Some g /\ nth_error ds k = Some (add_patches g (entry d d' k st))) /\
    (before t 1 <= k < before t 4 -> nth_error ds k = nth_error de k) /\
    (before t 4 <= k -> nth_error ds k = Some (entry d d' (k - (before t 4 - before t 1)) st))).
Proof.
  intros R point entry nm pos be se ind bd liq p HPT t e W N0 N1 N2 NI N3 HP HU HR HUP.
  assert (W' := W). destruct W' as [HL HW]. simpl in HL.
  destruct liq as [|lp [|lbe [|lse [|li [|lbd [|? ?]]]]]]; simpl in HL; try lia.
  simpl in HW. destruct HW as (W0 & W1 & W2 & WI & W3 & _).
  assert (We : wf e) by (simpl; auto 10).
  destruct (C48_sersic R gal_names pos be se ind [lp; lbe; lse; li] p We N0 N1 N2 NI HP HU HR HUP) as (de & Ee & Le & _).
  destruct (sercore_gen R point entry nm pos be se ind bd [lp; lbe; lse; li; lbd] de 0 HPT W N0 N1 N2 NI N3 HP Ee) as (ds & E & L & A & B & C).
  { rewrite Nat.add_0_r. exact Le. }
  exists ds, de. split; auto. split; auto. split; [fold t in L; lia|].
  intros k st t' HB. cbv zeta. split; [|split].
  - intros HK. destruct (nth_error de k) as [g|] eqn:EG.
    + exists g. split; [reflexivity|]. apply (B k st t' HB HK g EG).
    + exfalso. apply nth_error_None in EG.
      destruct (before5 nm pos be se ind bd lp lbe lse li lbd N0 N1 N2 NI N3) as (B1 & _). fold t in B1.
      destruct (before4 gal_names pos be se ind lp lbe lse li N0 N1 N2 NI) as (Be1 & Be2 & Be3 & Be4). lia.
  - intros HK. apply A. auto.
  - intros HK. assert (X := C k st t' HB HK). rewrite Nat.add_0_r in X. exact X.
Qed.

(** When its Sersic part does not render: one entry too many, and every
    core-brightness derivative sits one place too far. *)
Theorem C48_sercore_refuted : forall (R : renderer) point entry nm pos br sh ind bp liq,
  point_ok point entry ->
  let t := PMulti nm [pos; br; sh; ind; bp] liq in
  wf t -> pos <> PNone -> br <> PNone -> sh <> PNone -> ind <> PNone -> bp <> PNone -> planar pos ->
  base_patch R (piece t [0; 1; 2; 3]) = None ->
  exists ds, sercore_derivs R point t = Ok (ds, t) /\
    length ds = S (number_of_params t) /\
    forall k st t', bump t k st t' -> before t 4 <= k ->
      let d := piece t [0; 4] in let d' := piece t' [0; 4] in
      nth_error ds (S k) = Some (entry d d' (k - (before t 4 - before t 1)) st).
Proof.
  intros R point entry nm pos be se ind bd liq HPT t W N0 N1 N2 NI N3 HP HU.
  assert (W' := W). destruct W' as [HL HW]. simpl in HL.
  destruct liq as [|lp [|lbe [|lse [|li [|lbd [|? ?]]]]]]; simpl in HL; try lia.
  simpl in HW. destruct HW as (W0 & W1 & W2 & WI & W3 & _).
  assert (We : wf (piece t [0; 1; 2; 3])) by (simpl; auto 10).
  assert (Ee := C48_sersic_refuted R gal_names pos be se ind [lp; lbe; lse; li] We N0 N1 N2 HP HU).
  destruct (sercore_gen R point entry nm pos be se ind bd [lp; lbe; lse; li; lbd] _ 1 HPT W N0 N1 N2 NI N3 HP Ee) as (ds & E & L & _ & _ & C).
  { unfold nones. rewrite repeat_length. rewrite Nat.add_1_r. reflexivity. }
  exists ds. split; auto. split; [fold t in L; lia|].
  intros k st t' HB HK. assert (X := C k st t' HB HK). rewrite Nat.add_1_r in X. exact X.
Qed.

(** *** C48, FixedCompositeGalaxy: right as long as the brightness is thawed
    (or both shapes are frozen)... *)
Theorem C48_fixed_composite : forall (Re Rd : renderer) clip dfrac nm pos br frac se sd liq,
  let t := PMulti nm [pos; br; frac; se; sd] liq in
  wf t -> pos <> PNone -> br <> PNone -> se <> PNone -> sd <> PNone -> planar pos ->
  number_of_params frac = 1 ->
  (nth 1 liq false = true \/ (nth 3 liq false = false /\ nth 4 liq false = false)) ->
  exists ds, fixed_composite_derivs Re Rd clip dfrac t = Ok (ds, t) /\
    length ds = number_of_params t /\
    forall k st t', bump t k st t' -> nth_error ds k = Some (fixed_entry Re Rd clip dfrac t t' k st).
Proof.
  intros Re Rd clip dfrac nm pos br frac se sd liq t W N0 N1 N3 N4 HP NF HC.
  assert (N2 : frac <> PNone) by (intros ->; simpl in NF; lia).
  assert (W' := W). destruct W' as [HL HW]. simpl in HL.
  destruct liq as [|lp [|lb [|lf [|lse [|lsd [|? ?]]]]]]; simpl in HL; try lia. simpl in HC.
  simpl in HW. destruct HW as (W0 & W1 & W2 & W3 & W4 & _).
  set (e := PMulti gal_names [pos; br; se] [lp; true; lse]).
  set (d := PMulti gal_names [pos; br; sd] [lp; true; lsd]).
  assert (We : wf e) by (simpl; auto 10). assert (Wd : wf d) by (simpl; auto 10).
  destruct (C48_galaxy one vadd vsub vdiv veqb zero psub padd pscale counts minval_of pixel cdi grad_x grad_y
     Re gal_names pos br se [lp; true; lse] We N0 N1 N3 HP) as (de & Ee & Le & He).
  destruct (C48_galaxy one vadd vsub vdiv veqb zero psub padd pscale counts minval_of pixel cdi grad_x grad_y
     Rd gal_names pos br sd [lp; true; lsd] Wd N0 N1 N4 HP) as (dd & Ed & Ld & Hd).
  fold e in Ee, Le, He. fold d in Ed, Ld, Hd.
  destruct (before5 nm pos br frac se sd lp lb lf lse lsd N0 N1 N2 N3 N4) as (B1 & B2 & B3 & B4 & B5). fold t in B1, B2, B3, B4, B5.
  destruct (before3 gal_names pos br se lp true lse N0 N1 N3) as (Be1 & Be2 & Be3). fold e in Be1, Be2, Be3.
  destruct (before3 gal_names pos br sd lp true lsd N0 N1 N4) as (Bd1 & Bd2 & Bd3). fold d in Bd1, Bd2, Bd3.
  unfold DerivModel.fixed_composite_derivs.
  change (fixed_part V t [0; 1; 3]) with (@Ok ptree e). cbn [bind]. rewrite Ee. cbn [bind snd fst].
  change (write_back V [0; 1; 3] e t) with t.
  change (fixed_part V t [0; 1; 4]) with (@Ok ptree d). cbn [bind]. rewrite Ed. cbn [bind snd fst].
  change (write_back V [0; 1; 4] d t) with t.
  change (sub V t 0) with (@Ok ptree pos). change (sub V t 1) with (@Ok ptree br). change (sub V t 2) with (@Ok ptree frac). cbn [bind].
  change (is_frozen V t 0) with (negb lp). change (is_frozen V t 1) with (negb lb). change (is_frozen V t 2) with (negb lf).
  change (is_frozen V t 3) with (negb lse). change (is_frozen V t 4) with (negb lsd).
  assert (Hw : forall (l : bool) (x : ptree), (if negb l then 0 else number_of_params x) = width l x) by (intros []; reflexivity).
  rewrite !Hw.
  set (dexp := map (option_map (fun p => pscale p (vsub one (clip frac)))) de).
  set (ddev := map (option_map (fun p => pscale p (clip frac))) dd).
  assert (LE : length dexp = width lp pos + width true br + width lse se) by (unfold dexp; rewrite map_length; lia).
  assert (LD : length ddev = width lp pos + width true br + width lsd sd) by (unfold ddev; rewrite map_length; lia).
  assert (HWB : width lb br <= width true br) by (unfold width; destruct lb; lia).
  destruct (add_loop_ok padd (width lp pos) dexp ddev) as (d1 & -> & L1 & H1); [lia|lia|]. cbn [bind].
  destruct (add_loop_ok padd (width lb br) (skipn (width lp pos) dexp) (skipn (width lp pos) ddev)) as (d2 & -> & L2 & H2);
    [rewrite skipn_length; lia|rewrite skipn_length; lia|]. cbn [bind].
  set (X := option_map (fun p => pscale p (counts br)) _).
  set (d3 := if negb lf then [] else if veqb (counts br) zero then [None] else [X]).
  set (d4 := if negb lse then [] else skipn (width lp pos + width lb br) dexp).
  set (d5 := if negb lsd then [] else skipn (width lp pos + width lb br) ddev).
  assert (L3 : length d3 = width lf frac).
  { unfold d3, width. destruct lf; simpl; auto. rewrite NF. destruct (veqb (counts br) zero); auto. }
  assert (L4 : length d4 = width lse se).
  { unfold d4, width in *. destruct lse; simpl; auto. rewrite skipn_length. destruct HC as [->|[HC _]]; [lia|discriminate]. }
  assert (L5 : length d5 = width lsd sd).
  { unfold d5, width in *. destruct lsd; simpl; auto. rewrite skipn_length. destruct HC as [->|[_ HC]]; [lia|discriminate]. }
  exists (d1 ++ d2 ++ d3 ++ d4 ++ d5). split; [reflexivity|].
  split; [rewrite !app_length; lia|].
  intros k st t' HB. assert (HK := bump_lt one vadd _ _ _ _ W HB).
  assert (HO : exists m i s, nth_error [pos; br; frac; se; sd] m = Some s /\ nth m [lp; lb; lf; lse; lsd] false = true /\ s <> PNone /\
    i < number_of_params s /\ k = before t m + i) by (apply owner; auto).
  destruct HO as (m & i & s & O1 & O2 & O3 & O4 & O5).
  destruct (bump_sub one vadd t nm _ _ m s k st t' i eq_refl W O1 O2 O3 O4 O5 HB) as (s' & HS & ->).
  assert (B0 : before t 0 = 0) by reflexivity. assert (Be0 : before e 0 = 0) by reflexivity. assert (Bd0 : before d 0 = 0) by reflexivity.
  unfold DerivSpec.fixed_entry. change (fixed_piece t 3) with e. change (fixed_piece t 4) with d.
  change (member t 0) with pos. change (member t 1) with br. change (member t 2) with frac.
  assert (HE : forall j x, nth_error de j = Some x -> nth_error dexp j = Some (option_map (fun p => pscale p (vsub one (clip frac))) x)).
  { intros j x Hj. unfold dexp. apply map_nth_error. auto. }
  assert (HDv : forall j x, nth_error dd j = Some x -> nth_error ddev j = Some (option_map (fun p => pscale p (clip frac)) x)).
  { intros j x Hj. unfold ddev. apply map_nth_error. auto. }
  destruct m as [|[|[|[|[|m]]]]]; simpl in O1, O2; try discriminate.
  6: { destruct m; discriminate. }
  all: injection O1 as <-; subst; unfold width in *.
  - assert (HBe : bump e (before t 0 + i) st (PMulti gal_names [s'; br; se] [true; true; lse])).
    { apply (sub_bump one vadd e gal_names [pos; br; se] [true; true; lse] 0 pos _ st i s'); auto; lia. }
    assert (HBd : bump d (before t 0 + i) st (PMulti gal_names [s'; br; sd] [true; true; lsd])).
    { apply (sub_bump one vadd d gal_names [pos; br; sd] [true; true; lsd] 0 pos _ st i s'); auto; lia. }
    destruct (Nat.ltb_spec (before t 0 + i) (before t 2)); [|lia].
    rewrite nth_error_app1 by lia. apply H1; [lia| |].
    + apply HE. apply He. auto.
    + apply HDv. apply Hd. auto.
  - assert (HBe : bump e (before t 1 + i) st (PMulti gal_names [pos; s'; se] [lp; true; lse])).
    { apply (sub_bump one vadd e gal_names [pos; br; se] [lp; true; lse] 1 br _ st i s'); auto; lia. }
    assert (HBd : bump d (before t 1 + i) st (PMulti gal_names [pos; s'; sd] [lp; true; lsd])).
    { apply (sub_bump one vadd d gal_names [pos; br; sd] [lp; true; lsd] 1 br _ st i s'); auto; lia. }
    destruct (Nat.ltb_spec (before t 1 + i) (before t 2)); [|lia].
    rewrite nth_error_app2 by lia. rewrite nth_error_app1 by lia. apply H2; [lia| |].
    + rewrite nth_error_skipn. replace ((if lp then number_of_params pos else 0) + (before t 1 + i - length d1)) with (before t 1 + i) by lia.
      apply HE. apply He. auto.
    + rewrite nth_error_skipn. replace ((if lp then number_of_params pos else 0) + (before t 1 + i - length d1)) with (before t 1 + i) by lia.
      apply HDv. apply Hd. auto.
  - destruct (Nat.ltb_spec (before t 2 + i) (before t 2)); [lia|].
    destruct (Nat.ltb_spec (before t 2 + i) (before t 3)); [|lia].
    rewrite nth_error_app2 by lia. rewrite nth_error_app2 by lia. rewrite nth_error_app1 by lia.
    replace (before t 2 + i - length d1 - length d2) with 0 by lia.
    unfold d3. simpl negb. cbv iota. destruct (veqb (counts br) zero); reflexivity.
  - destruct HC as [->|[HC _]]; [|discriminate].
    destruct (Nat.ltb_spec (before t 3 + i) (before t 2)); [lia|].
    destruct (Nat.ltb_spec (before t 3 + i) (before t 3)); [lia|].
    destruct (Nat.ltb_spec (before t 3 + i) (before t 4)); [|lia].
    rewrite nth_error_app2 by lia. rewrite nth_error_app2 by lia. rewrite nth_error_app2 by lia. rewrite nth_error_app1 by lia.
    unfold d4. simpl negb. cbv iota. rewrite nth_error_skipn.
    replace ((if lp then number_of_params pos else 0) + number_of_params br + (before t 3 + i - length d1 - length d2 - length d3))
      with (before t 3 + i - (before t 3 - before t 2)) by lia.
    apply HE. apply He.
    apply (sub_bump one vadd e gal_names [pos; br; se] [lp; true; true] 2 se _ st i s'); auto; lia.
  - destruct HC as [->|[_ HC]]; [|discriminate].
    destruct (Nat.ltb_spec (before t 4 + i) (before t 2)); [lia|].
    destruct (Nat.ltb_spec (before t 4 + i) (before t 3)); [lia|].
    destruct (Nat.ltb_spec (before t 4 + i) (before t 4)); [lia|].
    rewrite nth_error_app2 by lia. rewrite nth_error_app2 by lia. rewrite nth_error_app2 by lia. rewrite nth_error_app2 by lia.
    unfold d5. simpl negb. cbv iota. rewrite nth_error_skipn.
    replace ((if lp then number_of_params pos else 0) + number_of_params br + (before t 4 + i - length d1 - length d2 - length d3 - length d4))
      with (before t 4 + i - (before t 4 - before t 2)) by lia.
    apply HDv. apply Hd.
    apply (sub_bump one vadd d gal_names [pos; br; sd] [lp; true; true] 2 sd _ st i s'); auto; lia.
Qed.

(** ...and too long by one brightness block per thawed shape when it is not. *)
Theorem C48_fixed_composite_refuted : forall (Re Rd : renderer) clip dfrac nm pos br frac se sd lp lf lse lsd,
  let t := PMulti nm [pos; br; frac; se; sd] [lp; false; lf; lse; lsd] in
  wf t -> pos <> PNone -> br <> PNone -> se <> PNone -> sd <> PNone -> planar pos ->
  number_of_params frac = 1 ->
  exists ds, fixed_composite_derivs Re Rd clip dfrac t = Ok (ds, t) /\
    length ds = number_of_params t + (if lse then number_of_params br else 0) + (if lsd then number_of_params br else 0).
Proof.
  intros Re Rd clip dfrac nm pos br frac se sd lp lf lse lsd t W N0 N1 N3 N4 HP NF.
  assert (N2 : frac <> PNone) by (intros ->; simpl in NF; lia).
  assert (W' := W). destruct W' as [HL HW].
  simpl in HW. destruct HW as (W0 & W1 & W2 & W3 & W4 & _).
  set (e := PMulti gal_names [pos; br; se] [lp; true; lse]).
  set (d := PMulti gal_names [pos; br; sd] [lp; true; lsd]).
  assert (We : wf e) by (simpl; auto 10). assert (Wd : wf d) by (simpl; auto 10).
  destruct (C48_galaxy one vadd vsub vdiv veqb zero psub padd pscale counts minval_of pixel cdi grad_x grad_y
     Re gal_names pos br se [lp; true; lse] We N0 N1 N3 HP) as (de & Ee & Le & He).
  destruct (C48_galaxy one vadd vsub vdiv veqb zero psub padd pscale counts minval_of pixel cdi grad_x grad_y
     Rd gal_names pos br sd [lp; true; lsd] Wd N0 N1 N4 HP) as (dd & Ed & Ld & Hd).
  fold e in Ee, Le. fold d in Ed, Ld.
  destruct (before5 nm pos br frac se sd lp false lf lse lsd N0 N1 N2 N3 N4) as (B1 & B2 & B3 & B4 & B5). fold t in B1, B2, B3, B4, B5.
  destruct (before3 gal_names pos br se lp true lse N0 N1 N3) as (Be1 & Be2 & Be3). fold e in Be1, Be2, Be3.
  destruct (before3 gal_names pos br sd lp true lsd N0 N1 N4) as (Bd1 & Bd2 & Bd3). fold d in Bd1, Bd2, Bd3.
  unfold DerivModel.fixed_composite_derivs.
  change (fixed_part V t [0; 1; 3]) with (@Ok ptree e). cbn [bind]. rewrite Ee. cbn [bind snd fst].
  change (write_back V [0; 1; 3] e t) with t.
  change (fixed_part V t [0; 1; 4]) with (@Ok ptree d). cbn [bind]. rewrite Ed. cbn [bind snd fst].
  change (write_back V [0; 1; 4] d t) with t.
  change (sub V t 0) with (@Ok ptree pos). change (sub V t 1) with (@Ok ptree br). change (sub V t 2) with (@Ok ptree frac). cbn [bind].
  change (is_frozen V t 0) with (negb lp). change (is_frozen V t 1) with true. change (is_frozen V t 2) with (negb lf).
  change (is_frozen V t 3) with (negb lse). change (is_frozen V t 4) with (negb lsd).
  assert (Hw : forall (l : bool) (x : ptree), (if negb l then 0 else number_of_params x) = width l x) by (intros []; reflexivity).
  rewrite !Hw.
  set (dexp := map (option_map (fun p => pscale p (vsub one (clip frac)))) de).
  set (ddev := map (option_map (fun p => pscale p (clip frac))) dd).
  assert (LE : length dexp = width lp pos + width true br + width lse se) by (unfold dexp; rewrite map_length; lia).
  assert (LD : length ddev = width lp pos + width true br + width lsd sd) by (unfold ddev; rewrite map_length; lia).
  destruct (add_loop_ok padd (width lp pos) dexp ddev) as (d1 & -> & L1 & H1); [lia|lia|]. cbn [bind add_loop app].
  eexists. split; [reflexivity|].
  rewrite !app_length, L1, B5. unfold width in *.
  destruct lf, lse, lsd, (veqb (counts br) zero); simpl negb; cbv iota; simpl length; rewrite ?skipn_length, ?NF; lia.
Qed.
End Props.
