(** C34, C48 continued: point sources, Sersic galaxies, the galaxies with a
    core, and FixedCompositeGalaxy. *)
From Coq Require Import String List ZArith Bool Lia.
From Verif Require Import Base ParamsModel ParamsSpec ParamsProofs ParamsProofs2 ParamsProps
  DerivModel DerivSpec DerivProofs DerivProps.
Import ListNotations.

Section Props.
Context {V : Type} (one two : V) (vadd vsub vmul vdiv : V -> V -> V) (vneg : V -> V).
Context (veqb vgtb : V -> V -> bool) (zero : V).
Context {P : Type} (psub padd : P -> P -> P) (pscale : P -> V -> P) {PX : Type}.
Context (counts : ptree V -> V) (minval_of : V -> option V).
Context (pixel : ptree V -> ptree V -> PX) (cdi : ptree V -> ptree V -> nat -> V * V).
Context (grad_x grad_y : P -> P).

Notation ptree := (ptree V).
Notation renderer := (renderer V P PX).
Notation bump := (bump one vadd).
Notation galaxy_derivs := (galaxy_derivs V one vadd vsub vdiv veqb zero P psub padd pscale PX
  counts minval_of pixel cdi grad_x grad_y).
Notation galaxy_entry := (galaxy_entry vsub vdiv veqb zero psub padd pscale counts minval_of
  pixel cdi grad_x grad_y).
Notation bright_entry := (bright_entry vsub vdiv veqb pscale).
Notation bright_body := (bright_body V vadd vsub vdiv veqb P pscale counts).
Notation point_derivs := (point_derivs V one two vadd vsub vmul vdiv vneg veqb zero P psub padd pscale
  counts minval_of cdi).
Notation point_entry := (point_entry vsub vdiv vneg veqb zero psub padd pscale counts minval_of cdi).

(** ** Point sources *)
Lemma allzero_ok c0 nm subs liq br :
  wf (PMulti nm subs liq) -> nth_error subs 1 = Some br -> br <> PNone ->
  forall steps i0, i0 + length steps = number_of_params br ->
  (forall j, nth_error steps j = nth_error (get_step_sizes one br) (i0 + j)) ->
  exists b, allzero_loop V vadd veqb counts c0 i0 steps (get_params br) (PMulti nm subs liq)
      = Ok (b, PMulti nm subs liq) /\
    (b = true -> forall i st s', i0 <= i -> bump br i st s' -> veqb (counts s') c0 = true).
Proof.
  intros W E NN. assert (Wb : wf br) by (eapply wf_sub; eauto).
  induction steps as [|st r IH]; intros i0 HL HS; simpl.
  - exists true. split; auto. intros _ i st s' HI HB. apply (bump_lt one vadd _ _ _ _ Wb) in HB. simpl in HL. lia.
  - simpl in HL. assert (HI : i0 < number_of_params br) by lia.
    destruct (nth_error (get_params br) i0) as [v|] eqn:EV.
    2:{ apply nth_error_None in EV. rewrite (params_len one) in EV by auto. lia. }
    unfold py_get. rewrite EV. cbn [bind].
    destruct (stepped_ok nm subs liq 1 br i0 (vadd v st) (fun t' => b <- sub V t' 1 ;; Ok (counts b)) W E NN HI)
      as (s2 & old & F1 & F2 & F3 & ->).
    assert (HK : 1 < length subs) by (apply nth_error_Some; congruence).
    unfold sub, py_get. rewrite nth_error_upd_same by auto. cbn [bind fst snd].
    destruct (veqb (counts s2) c0) eqn:EC; simpl negb; cbv iota.
    + destruct (IH (S i0)) as (b & -> & H); [lia| |].
      { intros j. rewrite Nat.add_succ_comm, <- (HS (S j)). reflexivity. }
      exists b. split; auto. intros Hb i st' s' HI' HB.
      destruct (Nat.eq_dec i i0) as [->|NE]; [|apply (H Hb i st' s'); auto; lia].
      destruct HB as (v' & G1 & G2 & G3). rewrite EV in G1. injection G1 as <-.
      specialize (HS 0). simpl in HS. rewrite Nat.add_0_r, G2 in HS. injection HS as ->.
      rewrite G3 in F1. injection F1 as -> ->. auto.
    + exists false. split; auto. discriminate.
Qed.

Section Point.
Context (ps_patch : option V -> ptree -> option P) (ps_patches : option V -> ptree -> option (P * option (P * P))).
Context (overlaps : P -> bool).
Notation pos_body := (pos_body V two vadd vsub vmul vdiv vneg P psub pscale ps_patch).

(** What is rendered: the unit-flux patch, with its gradients on the fast path. *)
Definition rendered (fast : bool) (t : ptree) : option (P * option (P * P)) :=
  let m := minval_of (counts (member t 1)) in
  match (if negb (before t 1 =? 0) && fast then ps_patches m t
         else match ps_patch m t with Some p => Some (p, None) | None => None end) with
  | Some (p, d) => if overlaps p then Some (p, d) else None
  | None => None
  end.

(** *** C48, point sources. *)
Theorem C48_point : forall fast nm pos br liq,
  let t := PMulti nm [pos; br] liq in
  wf t -> pos <> PNone -> br <> PNone -> planar pos ->
  exists ds, point_derivs ps_patch ps_patches overlaps fast false t = Ok (ds, t) /\
    length ds = number_of_params t /\
    forall k st t', bump t k st t' -> nth_error ds k = Some
      (match rendered fast t with
       | Some (p, dxy) => point_entry ps_patch p dxy t t' k st
       | None => None
       end).
Proof.
  intros fast nm pos br liq t W N0 N1 HP.
  assert (W' := W). destruct W' as [HL HW]. simpl in HL. destruct HW as (W0 & W1 & _).
  destruct liq as [|lp [|lb [|? ?]]]; simpl in HL; try lia.
  destruct (before2 nm pos br lp lb N0 N1) as (B1 & B2). fold t in B1, B2.
  unfold DerivModel.point_derivs. fold t.
  change (sub V t 0) with (@Ok ptree pos). change (sub V t 1) with (@Ok ptree br). cbn [bind].
  change (is_frozen V t 0) with (negb lp). change (is_frozen V t 1) with (negb lb).
  unfold rendered. change (member t 1) with br.
  assert (HF : (negb lp || (number_of_params pos =? 0)) = (before t 1 =? 0)).
  { rewrite B1. unfold width. destruct lp; reflexivity. }
  rewrite HF. clear HF.
  assert (HPB : forall k st t', bump t k st t' -> before t 1 <= k -> lb = true /\
    exists s', bump br (k - before t 1) st s' /\ t' = PMulti nm [pos; s'] [lp; lb]).
  { intros k st t' HB HK. assert (HK2 := bump_lt one vadd _ _ _ _ W HB). destruct lb; [|unfold width in B1, B2; lia].
    split; auto. apply (bump_sub one vadd t nm [pos; br] [lp; true] 1 br k st t' (k - before t 1)); auto; unfold width in B1, B2; lia. }
  set (Z := if (before t 1 =? 0) && negb (negb lb) then allzero_loop V vadd veqb counts (counts br) 0
     (get_step_sizes one br) (get_params br) t else Ok (false, t)).
  assert (HZ : exists b, Z = Ok (b, t) /\ (b = true -> before t 1 = 0 /\
      forall i st s', bump br i st s' -> veqb (counts s') (counts br) = true)).
  { unfold Z. destruct (Nat.eqb_spec (before t 1) 0) as [E0|E0]; simpl; [|exists false; split; auto; discriminate].
    destruct lb; simpl; [|exists false; split; auto; discriminate].
    destruct (allzero_ok (counts br) nm [pos; br] [lp; true] br W eq_refl N1 (get_step_sizes one br) 0) as (b & Eb & H).
    - rewrite (steps_len one) by auto. auto.
    - auto.
    - exists b. split; [exact Eb|]. intros Hb. split; auto. intros i st s' HB. apply (H Hb i st s'); auto. lia. }
  destruct HZ as (b & -> & HZ). cbn [bind fst snd].
  assert (HN : exists ds, Ok (nones P (number_of_params t), t) = @Ok (list (option P) * ptree) (ds, t) /\ length ds = number_of_params t /\
      forall k st t', bump t k st t' -> nth_error ds k = Some None).
  { exists (nones P (number_of_params t)). unfold nones. rewrite repeat_length. split; auto. split; auto.
    intros k st t' HB. apply nth_error_repeat. eapply bump_lt; eauto. }
  destruct b.
  { destruct HN as (ds & -> & L & H). exists ds. split; auto. split; auto.
    destruct (HZ eq_refl) as [E0 HA].
    intros k st t' HB. rewrite (H k st t' HB). f_equal.
    destruct (HPB k st t' HB) as (-> & s' & HS & ->); [lia|].
    destruct (if negb (before t 1 =? 0) && fast then _ else _) as [[p d]|]; auto.
    destruct (overlaps p); auto. unfold DerivSpec.point_entry.
    destruct (Nat.ltb_spec k (before t 1)); [lia|].
    unfold DerivSpec.bright_entry. change (member (PMulti nm [pos; s'] [lp; true]) 1) with s'. change (member t 1) with br.
    rewrite (HA _ _ _ HS). reflexivity. }
  set (PT := if negb (before t 1 =? 0) && fast then ps_patches (minval_of (counts br)) t
     else match ps_patch (minval_of (counts br)) t with Some p => Some (p, None) | None => None end).
  destruct PT as [[p dxy]|]; [|exact HN].
  destruct (overlaps p); simpl negb; cbv iota; [|exact HN].
  (* position *)
  assert (HD1 : exists d1, (if before t 1 =? 0 then Ok ([], t) else match dxy with
      | Some (dx, dy) => ds <- pixel_derivs_to_position_derivs V P padd pscale cdi pos t (counts br) dx dy ;; Ok (ds, t)
      | None => if veqb (counts br) zero then Ok (nones P (number_of_params pos), t)
          else step_loop V (pos_body false (minval_of (counts br)) (counts br) p) 0 (get_step_sizes one pos) (get_params pos) t
      end) = Ok (d1, t) /\ length d1 = before t 1 /\
      forall k st t', k < before t 1 -> bump t k st t' -> nth_error d1 k = Some (point_entry ps_patch p dxy t t' k st)).
  { unfold DerivSpec.point_entry. change (member t 1) with br. change (member t 0) with pos.
    destruct (Nat.eqb_spec (before t 1) 0) as [E0|E0].
    { exists []. split; auto. split; auto. lia. }
    unfold width in B1. destruct lp; [|lia].
    destruct dxy as [[dx dy]|].
    - unfold pixel_derivs_to_position_derivs. destruct pos; simpl in HP; try contradiction.
      destruct (pos_loop_ok padd pscale cdi (PList l) t (counts br) dx dy (l_liquid l) 0) as (ds & -> & L & H); [lia|].
      cbn [bind]. exists ds. split; auto. split; [rewrite B1; auto|].
      intros k st t' HK _. destruct (Nat.ltb_spec k (before t 1)); [|lia]. rewrite H; [auto|]. change (number_of_params (PList l)) with (count_true (l_liquid l)) in B1. lia.
    - destruct (veqb (counts br) zero) eqn:EC.
      + exists (nones P (number_of_params pos)). unfold nones. rewrite repeat_length. split; auto. split; auto.
        intros k st t' HK _. destruct (Nat.ltb_spec k (before t 1)); [|lia]. apply nth_error_repeat. lia.
      + destruct (member_loop one vadd nm [pos; br] [true; lb] 0 pos
          (pos_body false (minval_of (counts br)) (counts br) p)
          (fun st t' => match ps_patch (minval_of (counts br)) t' with
             | None => Some (pscale p (vdiv (vneg (counts br)) st))
             | Some q => Some (pscale (psub q p) (vdiv (counts br) st)) end) W eq_refl N0) as (ds & E1 & E2 & E3).
        * intros i st v s' HB EV.
          assert (HI : i < number_of_params pos) by (eapply bump_lt; eauto).
          destruct HB as (v' & G1 & G2 & G3). rewrite EV in G1. injection G1 as <-.
          destruct (C04_set_one_param v pos i (vadd v st) W0 N0 HI) as (s2 & old & F1 & F2 & _ & _ & _ & _ & F3).
          rewrite F1 in G3. injection G3 as -> ->.
          unfold DerivModel.pos_body, sub_set, sub, py_get. simpl nth_error. cbn [bind]. rewrite F1. cbn [bind fst snd].
          simpl with_sub. simpl nth_error. cbn [bind]. rewrite F3. cbn [bind fst snd]. simpl with_sub.
          simpl upd. destruct (ps_patch (minval_of (counts br)) (PMulti nm [s'; br] [true; lb])); reflexivity.
        * exists ds. split; [exact E1|]. split; [lia|].
          intros k st t' HK HB. destruct (Nat.ltb_spec k (before t 1)); [|lia].
          destruct (bump_sub one vadd t nm [pos; br] [true; lb] 0 pos k st t' k eq_refl W eq_refl eq_refl N0) as (s' & HS & ->);
            [lia|reflexivity|exact HB|]. rewrite (E3 _ _ _ HS). reflexivity. }
  destruct HD1 as (d1 & -> & L1 & H1). cbn [bind fst snd].
  change (sub V t 1) with (@Ok ptree br). cbn [bind].
  assert (HD2 : exists d2, (if negb lb then Ok ([], t) else step_loop V (bright_body 1 (counts br) p) 0
       (get_step_sizes one br) (get_params br) t) = Ok (d2, t) /\ length d2 = width lb br /\
      forall k st t', before t 1 <= k -> bump t k st t' -> nth_error d2 (k - before t 1) = Some (point_entry ps_patch p dxy t t' k st)).
  { destruct lb; simpl negb; cbv iota.
    - destruct (bright_loop one vadd vsub vdiv veqb pscale counts nm [pos; br] [lp; true] br p (counts br) W eq_refl N1) as (ds & E1 & E2 & E3).
      exists ds. split; [exact E1|]. split; auto. intros k st t' HK HB.
      destruct (HPB k st t' HB HK) as (_ & s' & HS & ->).
      unfold DerivSpec.point_entry. destruct (Nat.ltb_spec k (before t 1)); [lia|].
      rewrite (E3 _ _ _ HS). reflexivity.
    - exists []. split; auto. split; auto. intros k st t' HK HB. destruct (HPB k st t' HB HK); discriminate. }
  destruct HD2 as (d2 & -> & L2 & H2). cbn [bind fst snd].
  exists (d1 ++ d2). split; auto. split; [rewrite app_length, B2; unfold width in *; lia|].
  intros k st t' HB. destruct (Nat.lt_ge_cases k (before t 1)).
  - rewrite nth_error_app1 by lia. auto.
  - rewrite nth_error_app2 by lia. rewrite L1. auto.
Qed.

(** *** C34, point sources, also with symmetric position steps: whatever the
    run returns, the parameters are as before and the length is right. *)
Lemma step_loop_keep {D} (body : nat -> V -> V -> ptree -> res (D * ptree)) t vals : forall steps i0 ds t',
  (forall i v st d t', i < i0 + length steps -> body i v st t = Ok (d, t') -> t' = t) ->
  step_loop V body i0 steps vals t = Ok (ds, t') -> t' = t /\ length ds = length steps.
Proof.
  induction steps as [|st r IH]; simpl; intros i0 ds t' HB E.
  - injection E as <- <-. auto.
  - destruct (py_get vals i0) as [v|]; simpl in E; try discriminate.
    destruct (body i0 v st t) as [[d t1]|] eqn:EB; simpl in E; try discriminate.
    apply HB in EB; [|lia]. subst t1.
    destruct (step_loop V body (S i0) r vals t) as [[ds1 t2]|] eqn:EL; simpl in E; try discriminate.
    injection E as <- <-. apply IH in EL; [destruct EL; subst; simpl; split; auto|].
    intros i v0 st0 d0 t0 HI. apply HB. lia.
Qed.

Theorem C34_point_symmetric : forall fast sym nm pos br liq ds t',
  let t := PMulti nm [pos; br] liq in
  wf t -> pos <> PNone -> br <> PNone -> planar pos ->
  point_derivs ps_patch ps_patches overlaps fast sym t = Ok (ds, t') ->
  t' = t /\ length ds = number_of_params t.
Proof.
  intros fast sym nm pos br liq ds t' t W N0 N1 HP.
  destruct sym.
  2:{ destruct (C48_point fast nm pos br liq W N0 N1 HP) as (ds' & E & L & _). fold t in E, L. rewrite E.
      intros H. injection H as <- <-. auto. }
  assert (W' := W). destruct W' as [HL HW]. simpl in HL. destruct HW as (W0 & W1 & _).
  destruct liq as [|lp [|lb [|? ?]]]; simpl in HL; try lia.
  destruct (before2 nm pos br lp lb N0 N1) as (B1 & B2). fold t in B1, B2.
  unfold DerivModel.point_derivs. fold t.
  change (sub V t 0) with (@Ok ptree pos). change (sub V t 1) with (@Ok ptree br). cbn [bind].
  change (is_frozen V t 0) with (negb lp). change (is_frozen V t 1) with (negb lb).
  assert (HF : (negb lp || (number_of_params pos =? 0)) = (before t 1 =? 0)).
  { rewrite B1. unfold width. destruct lp; reflexivity. }
  rewrite HF. clear HF.
  set (Z := if (before t 1 =? 0) && negb (negb lb) then allzero_loop V vadd veqb counts (counts br) 0
     (get_step_sizes one br) (get_params br) t else Ok (false, t)).
  assert (HZ : exists b, Z = Ok (b, t)).
  { unfold Z. destruct ((before t 1 =? 0) && negb (negb lb)); [|eauto].
    destruct (allzero_ok (counts br) nm [pos; br] [lp; lb] br W eq_refl N1 (get_step_sizes one br) 0) as (b & Eb & _); eauto.
    rewrite (steps_len one) by auto. auto. }
  destruct HZ as (b & ->). cbn [bind fst snd].
  assert (HN : forall ds t', Ok (nones P (number_of_params t), t) = @Ok (list (option P) * ptree) (ds, t') -> t' = t /\ length ds = number_of_params t).
  { intros ds0 t0 H. injection H as <- <-. unfold nones. rewrite repeat_length. auto. }
  destruct b; [apply HN|].
  destruct (if negb (before t 1 =? 0) && fast then _ else _) as [[p dxy]|]; [|apply HN].
  destruct (overlaps p); simpl negb; cbv iota; [|apply HN].
  set (D1 := if before t 1 =? 0 then Ok ([], t) else match dxy with
      | Some (dx, dy) => ds <- pixel_derivs_to_position_derivs V P padd pscale cdi pos t (counts br) dx dy ;; Ok (ds, t)
      | None => if veqb (counts br) zero then Ok (nones P (number_of_params pos), t)
          else step_loop V (pos_body true (minval_of (counts br)) (counts br) p) 0 (get_step_sizes one pos) (get_params pos) t
      end).
  assert (H1 : forall d1 t1, D1 = Ok (d1, t1) -> t1 = t /\ length d1 = before t 1).
  { unfold D1. intros d1 t1. destruct (Nat.eqb_spec (before t 1) 0) as [E0|E0].
    { intros H. injection H as <- <-. auto. }
    unfold width in B1. destruct lp; [|lia].
    destruct dxy as [[dx dy]|].
    - unfold pixel_derivs_to_position_derivs. destruct pos; simpl in HP; try contradiction.
      destruct (pos_loop_ok padd pscale cdi (PList l) t (counts br) dx dy (l_liquid l) 0) as (ds0 & -> & L & H); [lia|].
      cbn [bind]. intros H0. injection H0 as <- <-. split; auto. rewrite L, B1. reflexivity.
    - destruct (veqb (counts br) zero) eqn:EC.
      + intros H. injection H as <- <-. unfold nones. rewrite repeat_length. auto.
      + intros H. apply step_loop_keep in H.
        * rewrite (steps_len one) in H by auto. rewrite B1. auto.
        * simpl. rewrite (steps_len one) by auto. intros i v st d t2 HI.
          unfold DerivModel.pos_body, sub_set, sub, py_get. unfold t. simpl nth_error. cbn [bind].
          destruct (C04_set_one_param v pos i (vadd v st) W0 N0 HI) as (s2 & old & F1 & F2 & _ & _ & F0 & F00 & F3).
          rewrite F1. cbn [bind fst snd]. simpl with_sub. simpl nth_error. cbn [bind].
          assert (NN2 : s2 <> PNone) by (intros ->; simpl in F0; destruct pos; simpl in F0; congruence).
          assert (HI2 : i < number_of_params s2).
          { destruct (Nat.lt_ge_cases i (number_of_params s2)); auto.
            destruct (C04_out_of_range_raises s2 (Z.of_nat i) old) as (e & Ee); [right; lia|]. congruence. }
          destruct (C04_set_one_param v s2 i (vsub v st) F00 NN2 HI2) as (s3 & old3 & G1 & G2 & _ & _ & G0 & G00 & G3).
          rewrite G1. cbn [bind fst snd]. simpl with_sub. simpl nth_error. cbn [bind].
          (* writing the first old value over the second step *)
          assert (HR : exists o, set_param s3 (Z.of_nat i) old = Ok (pos, o)).
          { assert (NN3 : s3 <> PNone) by (intros ->; simpl in G0; destruct s2; simpl in G0; congruence).
            assert (HI3 : i < number_of_params s3).
            { destruct (Nat.lt_ge_cases i (number_of_params s3)); auto.
              destruct (C04_out_of_range_raises s3 (Z.of_nat i) old3) as (e & Ee); [right; lia|]. congruence. }
            destruct (C04_set_one_param v s3 i old G00 NN3 HI3) as (s4 & o4 & K1 & K2 & K3 & K4 & K5 & K6 & K7).
            exists o4. rewrite K1. f_equal. f_equal.
            destruct (C04_set_one_param v pos i (vadd v st) W0 N0 HI) as (s2' & old' & A1 & A2 & A3 & A4 & A5 & A6 & A7).
            rewrite F1 in A1. injection A1 as <- <-.
            destruct (C04_set_one_param v s2 i (vsub v st) F00 NN2 HI2) as (s3' & old3' & C1 & C2 & C3 & C4 & C5 & C6 & C7).
            rewrite G1 in C1. injection C1 as <- <-.
            apply (tree_ext v); auto; try congruence.
            rewrite K3, C3, A3, !upd_upd. apply upd_self. auto. }
          destruct HR as (o & ->). cbn [bind fst snd]. simpl with_sub.
          destruct (ps_patch (minval_of (counts br)) _) as [px|]; cbn [bind].
          -- destruct (ps_patch (minval_of (counts br)) _); cbn [bind]; intros H0; [injection H0 as <- <-; auto|discriminate].
          -- intros H0; injection H0 as <- <-; auto. }
  destruct D1 as [[d1 t1]|]; [|discriminate]. destruct (H1 d1 t1 eq_refl) as [-> L1]. cbn [bind fst snd].
  change (sub V t 1) with (@Ok ptree br). cbn [bind].
  destruct lb; simpl negb; cbv iota.
  - destruct (bright_loop one vadd vsub vdiv veqb pscale counts nm [pos; br] [lp; true] br p (counts br) W eq_refl N1) as (d2 & E1 & E2 & E3).
    fold t in E1. rewrite E1. cbn [bind fst snd]. intros H. injection H as <- <-. split; auto. rewrite app_length, B2. unfold width in *. lia.
  - cbn [bind fst snd]. intros H. injection H as <- <-. split; auto. rewrite app_length, B2. unfold width in *. simpl. lia.
Qed.
End Point.
End Props.
