(** C86: a TanWcs is its ten parameters. *)
From Coq Require Import String List ZArith Reals Bool Lia Lra.
From Verif Require Import Base TanModel.
From Verif Require SkyOpsProps.
Import ListNotations.
Local Open Scope R_scope.
Local Open Scope list_scope.

(** The vector [p] written over the thawed entries of [c]. *)
Definition overwrite : list bool -> list R -> list R -> list R := SkyOpsProps.put.

Section Props.
Context (plane sky : R * R -> R * R -> R * R).
Notation position_to_pixel := (position_to_pixel plane).
Notation pixel_to_position := (pixel_to_position sky).

Definition wf (h : store) (w : twcs) : Prop := (ref w < length h)%nat /\ length (liquid w) = 10%nat.
Lemma get_tan_ok h w : wf h w -> exists t, nth_error h (ref w) = Some t /\ get_tan h w = Ok t.
Proof.
  intros (L & _). destruct (nth_error h (ref w)) as [t|] eqn:E; [|apply nth_error_None in E; lia]. exists t. split; [reflexivity|].
  unfold get_tan, py_get. rewrite E. reflexivity.
Qed.
Lemma get_tan_iff h w t : get_tan h w = Ok t <-> nth_error h (ref w) = Some t.
Proof. unfold get_tan, py_get. destruct (nth_error h (ref w)); split; congruence. Qed.
Lemma nth_error_upd_same' {A} : forall (h : list A) r (t t' : A), nth_error h r = Some t -> nth_error (upd r t' h) r = Some t'.
Proof. induction h as [|a h IH]; intros [|r] t t' E; try discriminate; cbn in *; [reflexivity|]. exact (IH _ _ _ E). Qed.
Lemma nth_error_upd_other' {A} : forall (h : list A) r q (t' : A), r <> q -> nth_error (upd r t' h) q = nth_error h q.
Proof. induction h as [|a h IH]; intros [|r] [|q] t' E; cbn; try reflexivity; try congruence. apply IH. congruence. Qed.
Lemma upd_length' {A} : forall (h : list A) r (t' : A), length (upd r t' h) = length h.
Proof. induction h as [|a h IH]; intros [|r] t'; cbn; auto. Qed.

(** What a change of parameters leaves alone. *)
Definition keeps (h : store) (w : twcs) (h' : store) (w' : twcs) : Prop :=
  wf h' w' /\ ref w' = ref w /\ acd w' = acd w /\ acd_inverse w' = acd_inverse w /\ apixscale w' = apixscale w /\ length h' = length h /\
  forall r, r <> ref w -> nth_error h' r = nth_error h r.
Lemma keeps_trans h w h1 w1 h2 w2 : keeps h w h1 w1 -> keeps h1 w1 h2 w2 -> keeps h w h2 w2.
Proof.
  intros (A1 & A2 & A3 & A4 & A5 & A6 & A7) (B1 & B2 & B3 & B4 & B5 & B6 & B7). repeat split; try congruence; try apply B1.
  intros r NE. rewrite B7 by congruence. apply A7. exact NE.
Qed.
Lemma set_thing_ok h w i v l : wf h w -> (i < 10)%nat -> get_things h w = Ok l -> exists h' w',
  set_thing h w i v = Ok (h', w') /\ get_things h' w' = Ok (upd i v l) /\ liquid w' = liquid w /\ keeps h w h' w'.
Proof.
  intros WF I G. destruct (get_tan_ok h w WF) as (t & EN & ET). unfold get_things in G. rewrite ET in G. cbn [bind app] in G. injection G as <-.
  assert (S1 : forall t', exists h' w', Ok (upd (ref w) t' h, w) = Ok (h', w') /\ get_tan h' w' = Ok t' /\ wx0 w' = wx0 w /\ wy0 w' = wy0 w /\ liquid w' = liquid w /\ keeps h w h' w').
  { intros t'. do 2 eexists. split; [reflexivity|]. split; [apply get_tan_iff; eapply nth_error_upd_same'; exact EN|]. do 3 (split; [reflexivity|]).
    destruct WF as (W1 & W2). repeat split; auto; rewrite ?upd_length'; auto. intros r NE. apply nth_error_upd_other'. congruence. }
  assert (S2 : forall w', ref w' = ref w -> acd w' = acd w -> acd_inverse w' = acd_inverse w -> apixscale w' = apixscale w -> liquid w' = liquid w -> keeps h w h w').
  { intros w' R1 R2 R3 R4 R5. destruct WF as (W1 & W2). repeat split; try congruence. }
  unfold set_thing. rewrite ET. cbn [bind].
  do 10 (destruct i as [|i]; [first [
      edestruct S1 as (h' & w' & E1 & E2 & E3 & E4 & E5 & E6); exists h', w'; split; [exact E1|]; unfold get_things; rewrite E2; cbn [bind app upd]; rewrite E3, E4; split; [reflexivity|auto]
    | do 2 eexists; split; [reflexivity|]; split; [unfold get_things, get_tan; cbn [ref]; unfold get_tan in ET; rewrite ET; reflexivity|]; split; [reflexivity|]; apply S2; reflexivity]|]). lia.
Qed.
Lemma upd_app {A} : forall (pre : list A) v c x, upd (length pre) x (pre ++ v :: c) = pre ++ x :: c.
Proof. induction pre as [|a pre IH]; intros v c x; cbn; [reflexivity|]. f_equal. apply IH. Qed.
Lemma keeps_refl h w : wf h w -> keeps h w h w.
Proof. intros W. repeat split; auto; apply W. Qed.
Lemma set_from_ok : forall liq c p pre h w, wf h w -> get_things h w = Ok (pre ++ c) -> (length pre + length c = 10)%nat -> length liq = length c ->
  length p = count_true liq -> exists h' w', set_from h w liq (length pre) p = Ok (h', w') /\ get_things h' w' = Ok (pre ++ overwrite liq p c) /\
  liquid w' = liquid w /\ keeps h w h' w'.
Proof.
  induction liq as [|b liq IH]; intros c p pre h w WF G LN LL LP.
  - destruct c; [|discriminate]. exists h, w. split; [reflexivity|]. split; [exact G|]. split; [reflexivity|]. apply keeps_refl, WF.
  - destruct c as [|v c]; [discriminate|]. cbn in LL, LN. rewrite count_true_cons in LP. destruct b; cbn [Nat.add Nat.b2n] in LP.
    + destruct p as [|x p]; [discriminate|]. cbn [set_from].
      destruct (set_thing_ok h w (length pre) x (pre ++ v :: c) WF ltac:(lia) G) as (h1 & w1 & E1 & G1 & L1 & K1). rewrite E1. cbn [bind].
      rewrite upd_app in G1. assert (W1 : wf h1 w1) by apply K1.
      destruct (IH c p (pre ++ [x]) h1 w1 W1) as (h2 & w2 & E2 & G2 & L2 & K2); [rewrite <- app_assoc; exact G1|rewrite app_length; cbn; lia|lia|cbn in LP; lia|].
      rewrite app_length in E2. cbn in E2. rewrite Nat.add_1_r in E2. exists h2, w2. split; [exact E2|]. split; [rewrite <- app_assoc in G2; exact G2|].
      split; [congruence|]. eapply keeps_trans; eauto.
    + cbn [set_from]. destruct (IH c p (pre ++ [v]) h w WF) as (h2 & w2 & E2 & G2 & L2 & K2); [rewrite <- app_assoc; exact G|rewrite app_length; cbn; lia|lia|exact LP|].
      rewrite app_length in E2. cbn in E2. rewrite Nat.add_1_r in E2. exists h2, w2. split; [exact E2|]. split; [rewrite <- app_assoc in G2; exact G2|]. auto.
Qed.
Lemma things_ok h w : wf h w -> exists l, get_things h w = Ok l /\ length l = 10%nat.
Proof. intros WF. destruct (get_tan_ok h w WF) as (t & _ & ET). unfold get_things. rewrite ET. eexists. split; reflexivity. Qed.

(** Setting the thawed parameters sets these and nothing else; the vector is
    read back as written. *)
Theorem C86_parameters : forall h w p, wf h w -> length p = count_true (liquid w) -> exists h' w' l,
  set_params h w p = Ok (h', w') /\ get_things h w = Ok l /\ get_things h' w' = Ok (overwrite (liquid w) p l) /\
  get_params h' w' = Ok p /\ liquid w' = liquid w /\ forall r, r <> ref w -> nth_error h' r = nth_error h r.
Proof.
  intros h w p WF LP. destruct (things_ok h w WF) as (l & G & L). assert (LQ := proj2 WF).
  destruct (set_from_ok (liquid w) l p [] h w WF G) as (h' & w' & E & G' & LL & K); [cbn; lia|lia|exact LP|].
  exists h', w', l. split; [exact E|]. split; [exact G|]. split; [exact G'|]. cbn [app] in G'. split; [|split; [exact LL|apply K]].
  unfold get_params. rewrite G', LL. cbn [bind]. f_equal. apply SkyOpsProps.keep_put; [lia|exact LP].
Qed.
(** The names are those of the values in the header of the coordinate system. *)
Theorem C86_names : forall h w t, wf h w -> get_tan h w = Ok t ->
  map (fun e => (fst e, get_thing h w (snd e))) named_params =
  [("crval1", Ok (crval1 t)); ("crval2", Ok (crval2 t)); ("crpix1", Ok (crpix1 t)); ("crpix2", Ok (crpix2 t));
   ("cd1_1", Ok (cd11 t)); ("cd1_2", Ok (cd12 t)); ("cd2_1", Ok (cd21 t)); ("cd2_2", Ok (cd22 t))]%string /\
  get_thing h w 8 = Ok (wx0 w) /\ get_thing h w 9 = Ok (wy0 w) /\
  forall i l, get_things h w = Ok l -> (i < 10)%nat -> get_thing h w i = Ok (nth i l 0).
Proof.
  intros h w t WF ET. unfold get_thing, get_things. rewrite ET. cbn [bind app]. repeat split.
  intros i l G I. injection G as <-. do 10 (destruct i as [|i]; [reflexivity|]). lia.
Qed.
(** setParam changes the i-th thawed parameter and returns the old value, so
    that setting it again restores everything. *)
Fixpoint raw_index (liq : list bool) (i : nat) : option nat :=
  match liq with
  | [] => None
  | true :: liq => match i with 0%nat => Some 0%nat | S i => option_map S (raw_index liq i) end
  | false :: liq => option_map S (raw_index liq i)
  end.
Lemma index_liquid_ok : forall liq i raw, index_liquid liq i raw = match raw_index liq i with Some j => Ok (raw + j)%nat | None => Err IndexError end.
Proof.
  induction liq as [|b liq IH]; intros i raw; [reflexivity|]. destruct b; cbn; [destruct i as [|i]; [f_equal; lia|]|];
  rewrite IH; destruct (raw_index liq i); cbn; try reflexivity; f_equal; lia.
Qed.
Lemma raw_index_lt : forall liq i j, raw_index liq i = Some j -> (j < length liq)%nat.
Proof.
  induction liq as [|b liq IH]; intros i j E; [discriminate|]. destruct b; cbn in E; [destruct i as [|i]; [injection E as <-; cbn; lia|]|];
  destruct (raw_index liq i) eqn:R; try discriminate; injection E as <-; apply IH in R; cbn; lia.
Qed.
Lemma upd_back {A} : forall (l : list A) i x d, upd i (nth i l d) (upd i x l) = l.
Proof. induction l as [|a l IH]; intros [|i] x d; cbn; try reflexivity. f_equal. apply IH. Qed.
Theorem C86_set_param : forall h w i j v, wf h w -> raw_index (liquid w) i = Some j -> exists h' w' l,
  set_param h w i v = Ok (h', w', nth j l 0) /\ get_things h w = Ok l /\ get_things h' w' = Ok (upd j v l) /\
  exists h2 w2 o2, set_param h' w' i (nth j l 0) = Ok (h2, w2, o2) /\ get_things h2 w2 = Ok l /\ keeps h w h2 w2.
Proof.
  intros h w i j v WF RI. assert (J := raw_index_lt _ _ _ RI). rewrite (proj2 WF) in J. destruct (things_ok h w WF) as (l & G & L).
  destruct (get_tan_ok h w WF) as (t & EN & ET). destruct (C86_names h w t WF ET) as (_ & _ & _ & NM).
  destruct (set_thing_ok h w j v l WF J G) as (h' & w' & E & G' & LL & K). exists h', w', l. unfold set_param.
  rewrite index_liquid_ok, RI. cbn [bind Nat.add]. rewrite (NM j l G J). cbn [bind]. rewrite E. cbn [bind]. do 3 (split; [auto|]).
  assert (W' : wf h' w') by apply K. destruct (get_tan_ok h' w' W') as (t' & EN' & ET'). destruct (C86_names h' w' t' W' ET') as (_ & _ & _ & NM').
  destruct (set_thing_ok h' w' j (nth j l 0) (upd j v l) W' J G') as (h2 & w2 & E2 & G2 & LL2 & K2). exists h2, w2, (nth j (upd j v l) 0).
  rewrite index_liquid_ok, LL, RI. cbn [bind Nat.add]. rewrite (NM' j _ G' J). cbn [bind]. rewrite E2. cbn [bind]. split; [reflexivity|].
  split; [rewrite G2, upd_back; reflexivity|]. eapply keeps_trans; eauto.
Qed.

(** *** Positions *)
(** Positions go to pixels and back, and pixels to positions and back, where the
    tangent plane does. *)
Theorem C86_inverse : forall h w t, get_tan h w = Ok t -> mdet (tan_cd t) <> 0 ->
  (forall p, sky (crval1 t, crval2 t) (plane (crval1 t, crval2 t) p) = p -> exists x y, position_to_pixel h w p = Ok (x, y) /\ pixel_to_position h w x y = Ok p) /\
  ((forall q, plane (crval1 t, crval2 t) (sky (crval1 t, crval2 t) q) = q) -> forall x y, exists p, pixel_to_position h w x y = Ok p /\ position_to_pixel h w p = Ok (x, y)).
Proof.
  intros h w t ET D. unfold TanModel.position_to_pixel, TanModel.pixel_to_position. rewrite ET. cbn [bind]. split.
  - intros p HP. eexists. eexists. split; [reflexivity|]. f_equal. unfold pixelxy2radec, radec2pixelxy. cbn [fst snd]. rewrite <- HP at 3. f_equal.
    destruct (plane _ p) as [u v]. unfold mapply, minv, tan_cd in *. cbn [fst snd] in *. unfold mdet in *. cbn [fst snd] in *. f_equal; field; exact D.
  - intros HQ x y. eexists. split; [reflexivity|]. f_equal. unfold pixelxy2radec, radec2pixelxy. cbn [fst snd]. rewrite HQ.
    unfold mapply, minv, tan_cd in *. cbn [fst snd] in *. unfold mdet in *. cbn [fst snd] in *. f_equal; field; exact D.
Qed.
(** A TanWcs as made, copied or shifted tells the CD matrix of its Tan. *)
Definition fresh (h : store) (w : twcs) : Prop := exists t, get_tan h w = Ok t /\ mdet (tan_cd t) <> 0 /\
  acd w = tan_cd t /\ acd_inverse w = minv (tan_cd t) /\ apixscale w = tan_pixel_scale t.
(** It is then the matrix by which pixels are mapped to the tangent plane. *)
Theorem C86_cd : forall h w t, fresh h w -> get_tan h w = Ok t -> forall x y dx dy p q,
  pixel_to_position h w x y = Ok p -> pixel_to_position h w (x + dx) (y + dy) = Ok q -> exists u,
  let v := mapply (cd_at_pixel w x y) (dx, dy) in
  p = sky (crval1 t, crval2 t) u /\ q = sky (crval1 t, crval2 t) (fst u + fst v, snd u + snd v) /\
  mapply (cd_inverse_at_pixel w x y) v = (dx, dy).
Proof.
  intros h w t (t' & ET' & D & A1 & A2 & A3) ET x y dx dy p q P Q. assert (t' = t) by congruence. subst t'.
  unfold TanModel.pixel_to_position in P, Q. rewrite ET in P, Q. cbn [bind] in P, Q. injection P as <-. injection Q as <-.
  unfold pixelxy2radec. eexists. cbn zeta. split; [reflexivity|]. unfold cd_at_pixel, cd_inverse_at_pixel. rewrite A1, A2. split.
  - f_equal. unfold mapply, tan_cd. cbn [fst snd]. f_equal; ring.
  - unfold mapply, minv, tan_cd in *. cbn [fst snd] in *. unfold mdet in *. cbn [fst snd] in *. f_equal; field; exact D.
Qed.
Theorem C86_new : forall h r t, nth_error h r = Some t -> mdet (tan_cd t) <> 0 -> exists w,
  new_tan h r = Ok w /\ wf h w /\ fresh h w /\ liquid w = repeat true 10 /\
  get_things h w = Ok [crval1 t; crval2 t; crpix1 t; crpix2 t; cd11 t; cd12 t; cd21 t; cd22 t; 0; 0].
Proof.
  intros h r t E D. unfold new_tan, py_get. rewrite E. cbn [bind]. destruct (Req_EM_T _ 0); [contradiction|]. eexists. split; [reflexivity|].
  assert (ET : forall l a b x y m, get_tan h (mkTw r x y l a b m) = Ok t) by (intros; apply get_tan_iff; exact E).
  split; [split; [apply nth_error_Some; cbn; congruence|reflexivity]|]. split; [exists t; rewrite ET; cbn; auto|]. split; [reflexivity|].
  unfold get_things. rewrite ET. reflexivity.
Qed.
Lemma run_keeps : forall ops h w h' w', wf h w -> run h w ops = Ok (h', w') -> keeps h w h' w'.
Proof.
  assert (SF : forall liq j p h w h' w', wf h w -> set_from h w liq j p = Ok (h', w') -> keeps h w h' w').
  { induction liq as [|b liq IH]; intros j p h w h' w' WF E; [injection E as <- <-; apply keeps_refl, WF|]. destruct b; cbn in E; [|eauto].
    destruct p as [|v p]; [discriminate|]. destruct (set_thing h w j v) as [[h1 w1]|] eqn:E1; [|discriminate]. cbn in E.
    destruct (things_ok h w WF) as (l & G & _). destruct (Nat.lt_ge_cases j 10) as [J|J].
    - destruct (set_thing_ok h w j v l WF J G) as (h2 & w2 & E2 & _ & _ & K). rewrite E2 in E1. injection E1 as <- <-.
      eapply keeps_trans; [exact K|]. eapply IH; [apply K|exact E].
    - exfalso. destruct (get_tan_ok h w WF) as (t & _ & ET). unfold set_thing in E1. rewrite ET in E1. cbn [bind] in E1. do 10 (destruct j as [|j]; [lia|]). discriminate. }
  induction ops as [|o ops IH]; intros h w h' w' WF E; [injection E as <- <-; apply keeps_refl, WF|]. cbn in E.
  destruct (run_op h w o) as [[h1 w1]|] eqn:E1; [|discriminate]. cbn in E. assert (K : keeps h w h1 w1); [|eapply keeps_trans; [exact K|]; eapply IH; [apply K|exact E]].
  destruct o as [p|i v|l]; cbn in E1.
  - eapply SF; eauto.
  - unfold set_param in E1. rewrite index_liquid_ok in E1. destruct (raw_index (liquid w) i) as [j|] eqn:RI; [|discriminate]. cbn [bind Nat.add] in E1.
    destruct (get_thing h w j) as [old|]; [|discriminate]. cbn [bind] in E1. assert (J := raw_index_lt _ _ _ RI). rewrite (proj2 WF) in J.
    destruct (things_ok h w WF) as (l & G & _). destruct (set_thing_ok h w j v l WF J G) as (h2 & w2 & E2 & _ & _ & K2). rewrite E2 in E1. cbn [bind] in E1.
    injection E1 as <- <-. exact K2.
  - destruct (Nat.eqb_spec (length l) (length (liquid w))) as [LE|]; [|discriminate]. injection E1 as <- <-. destruct WF as (W1 & W2). repeat split; cbn; auto; try congruence.
Qed.
(** A copy has the same parameters but all of them thawed; the two share
    nothing. *)
Theorem C86_copy : forall h w t, wf h w -> get_tan h w = Ok t -> mdet (tan_cd t) <> 0 -> exists h' c,
  copy h w = Ok (h', c) /\ wf h' c /\ wf h' w /\ fresh h' c /\ get_things h' c = get_things h w /\ liquid c = repeat true 10 /\
  (forall p, position_to_pixel h' c p = position_to_pixel h w p) /\
  (forall ops h2 c2, run h' c ops = Ok (h2, c2) -> get_things h2 w = get_things h w) /\
  (forall ops h2 w2, run h' w ops = Ok (h2, w2) -> get_things h2 c = get_things h w).
Proof.
  intros h w t WF ET D. assert (EN := proj1 (get_tan_iff h w t) ET). unfold copy. rewrite ET. cbn [bind].
  replace (length (h ++ [t]) - 1)%nat with (length h) by (rewrite app_length; cbn; lia).
  assert (E2 : nth_error (h ++ [t]) (length h) = Some t) by (rewrite nth_error_app2, Nat.sub_diag by lia; reflexivity).
  assert (E1 : nth_error (h ++ [t]) (ref w) = Some t) by (rewrite nth_error_app1 by apply WF; exact EN).
  destruct (C86_new _ _ _ E2 D) as (c & EC & WC & FC & LC & GC). unfold new_tan, py_get in EC. rewrite E2 in EC. cbn [bind] in EC.
  destruct (Req_EM_T _ 0); [contradiction|]. injection EC as <-. unfold new_tan, py_get. rewrite E2. cbn [bind].
  destruct (Req_EM_T _ 0); [contradiction|]. cbn [bind ref liquid acd acd_inverse apixscale].
  do 2 eexists. split; [reflexivity|]. set (c := mkTw _ _ _ _ _ _ _).
  assert (TC : get_tan (h ++ [t]) c = Ok t) by (apply get_tan_iff; exact E2).
  assert (TW : get_tan (h ++ [t]) w = Ok t) by (apply get_tan_iff; exact E1).
  assert (WC' : wf (h ++ [t]) c) by (split; [cbn; rewrite app_length; cbn; lia|reflexivity]).
  assert (WW : wf (h ++ [t]) w) by (split; [rewrite app_length; cbn; pose proof (proj1 WF); lia|apply WF]).
  split; [exact WC'|]. split; [exact WW|]. split; [exists t; rewrite TC; cbn; auto|].
  split; [unfold get_things; rewrite TC, ET; reflexivity|]. split; [reflexivity|].
  split; [intros p; unfold TanModel.position_to_pixel; rewrite TC, ET; reflexivity|]. split.
  - intros ops h2 c2 RN. destruct (run_keeps _ _ _ _ _ WC' RN) as (_ & _ & _ & _ & _ & _ & O).
    assert (T2 : get_tan h2 w = Ok t). { apply get_tan_iff. rewrite O; [exact E1|]. cbn. pose proof (proj1 WF). lia. }
    unfold get_things. rewrite T2, ET. reflexivity.
  - intros ops h2 w2 RN. destruct (run_keeps _ _ _ _ _ WW RN) as (_ & _ & _ & _ & _ & _ & O).
    assert (T2 : get_tan h2 c = Ok t). { apply get_tan_iff. rewrite O; [exact E2|]. cbn. pose proof (proj1 WF). lia. }
    unfold get_things. rewrite T2, ET. reflexivity.
Qed.
(** The coordinates of a subimage: pixel (x, y) of it is pixel (x + dx, y + dy)
    of the image, in both directions; shifts add up. *)
Theorem C86_shifted : forall h w t dx dy, wf h w -> get_tan h w = Ok t -> mdet (tan_cd t) <> 0 -> exists h' c,
  shifted h w dx dy = Ok (h', c) /\ wf h' c /\ fresh h' c /\ get_tan h' c = Ok t /\ wx0 c = wx0 w + dx /\ wy0 c = wy0 w + dy /\
  (forall p x y, position_to_pixel h w p = Ok (x, y) -> position_to_pixel h' c p = Ok (x - dx, y - dy)) /\
  (forall x y, pixel_to_position h' c x y = pixel_to_position h w (x + dx) (y + dy)).
Proof.
  intros h w t dx dy WF ET D. destruct (C86_copy h w t WF ET D) as (h' & c & EC & WC & WW & FC & GC & LC & _).
  unfold shifted. rewrite EC. cbn [bind]. do 2 eexists. split; [reflexivity|]. set (d := mkTw _ _ _ _ _ _ _).
  assert (TC : get_tan h' c = Ok t).
  { unfold get_things in GC. destruct FC as (t' & T' & _). rewrite T', ET in GC. rewrite T'. f_equal. cbn [bind app] in GC. injection GC. intros. destruct t, t'; cbn in *; congruence. }
  assert (TD : get_tan h' d = Ok t) by exact TC.
  split; [exact WC|]. split; [exact FC|]. split; [exact TD|]. do 2 (split; [reflexivity|]). split.
  - intros p x y P. unfold TanModel.position_to_pixel in *. rewrite ET in P. rewrite TD. cbn [bind] in *.
    generalize dependent (radec2pixelxy plane t p). intros q P. injection P as <- <-. unfold d; cbn [wx0 wy0]. f_equal. f_equal; ring.
  - intros x y. unfold TanModel.pixel_to_position. rewrite TD, ET. unfold d; cbn [bind wx0 wy0].
    replace (x + 1 + (wx0 w + dx)) with (x + dx + 1 + wx0 w) by ring. replace (y + 1 + (wy0 w + dy)) with (y + dy + 1 + wy0 w) by ring. reflexivity.
Qed.
(** As a FITS coordinate system it counts pixels from 1, within its window. *)
Theorem C86_wrapper : forall h w x0 y0, 
  (forall p x y, position_to_pixel h w p = Ok (x, y) -> wrapper_radec2xy plane h w x0 y0 p = Ok (x - x0 + 1, y - y0 + 1) /\
     wrapper_xy2radec sky h w x0 y0 (x - x0 + 1) (y - y0 + 1) = pixel_to_position h w x y) /\
  forall l r, wrapper_vector plane h w x0 y0 l = Ok r -> Forall2 (fun p xy => wrapper_radec2xy plane h w x0 y0 p = Ok xy) l r.
Proof.
  intros h w x0 y0. split.
  - intros p x y P. unfold wrapper_radec2xy, wrapper_xy2radec. rewrite P. cbn [bind fst snd]. split; [reflexivity|]. f_equal; ring.
  - induction l as [|p l IH]; intros r E; cbn in E; [injection E as <-; constructor|].
    destruct (TanModel.position_to_pixel plane h w p) as [[x y]|] eqn:P; [|discriminate]. cbn [bind] in E.
    destruct (wrapper_vector plane h w x0 y0 l) as [r'|] eqn:E'; [|discriminate]. cbn in E. injection E as <-. constructor; [|auto].
    unfold wrapper_radec2xy. rewrite P. cbn. do 2 f_equal; ring.
Qed.

(** *** Refutations *)
(** After a change of the CD matrix, through whichever parameters, positions use
    the new matrix but cdAtPixel and pixel_scale are the old ones. *)
Theorem C86_cd_stale_refuted : forall h w p h' w', wf h w -> set_params h w p = Ok (h', w') ->
  forall x y, cd_at_pixel w' x y = cd_at_pixel w x y /\ cd_inverse_at_pixel w' x y = cd_inverse_at_pixel w x y /\ pixel_scale w' = pixel_scale w.
Proof.
  intros h w p h' w' WF E x y. destruct (run_keeps [OpParams p] h w h' w' WF) as (_ & _ & A & B & C & _); [cbn; rewrite E; reflexivity|].
  unfold cd_at_pixel, cd_inverse_at_pixel, pixel_scale. auto.
Qed.
(** Two objects made from one Tan share it: parameters set in one are those of
    the other. *)
Theorem C86_shared_refuted : forall h w1 w2 i v h' w', wf h w1 -> ref w2 = ref w1 -> (i < 8)%nat ->
  set_thing h w1 i v = Ok (h', w') -> get_thing h' w2 i = Ok v.
Proof.
  intros h w1 w2 i v h' w' WF R I E. destruct (things_ok h w1 WF) as (l & G & L). destruct (set_thing_ok h w1 i v l WF ltac:(lia) G) as (h2 & w3 & E2 & G2 & _ & K).
  rewrite E2 in E. injection E as <- <-. assert (W3 : wf h2 w3) by apply K. destruct (get_tan_ok _ _ W3) as (t & EN & ET).
  destruct K as (_ & RK & _). assert (T2 : get_tan h2 w2 = Ok t) by (apply get_tan_iff; rewrite R, <- RK; exact EN).
  assert (X : get_thing h2 w3 i = Ok (nth i (upd i v l) 0)). { eapply C86_names; eauto; lia. }
  assert (U : nth i (upd i v l) 0 = v). { clear - L I. revert i I. do 10 (destruct l as [|? l]; [discriminate|]). intros i I. do 8 (destruct i as [|i]; [reflexivity|]). lia. }
  rewrite U in X. rewrite <- X. unfold get_thing. rewrite T2, ET. cbn [bind]. do 8 (destruct i as [|i]; [reflexivity|]). lia.
Qed.
(** The offset and the reference pixel have the same effect: when both are
    increased alike, nothing that is drawn changes. *)
Theorem C86_degenerate_refuted : forall h w t dx dy, get_tan h w = Ok t ->
  let t' := mkTan (crval1 t) (crval2 t) (crpix1 t + dx) (crpix2 t + dy) (cd11 t) (cd12 t) (cd21 t) (cd22 t) in
  let w' := mkTw (ref w) (wx0 w + dx) (wy0 w + dy) (liquid w) (acd w) (acd_inverse w) (apixscale w) in
  let h' := upd (ref w) t' h in
  (forall p, position_to_pixel h' w' p = position_to_pixel h w p) /\ forall x y, pixel_to_position h' w' x y = pixel_to_position h w x y.
Proof.
  intros h w t dx dy ET t' w' h'. assert (T' : get_tan h' w' = Ok t') by (apply get_tan_iff; eapply nth_error_upd_same'; apply get_tan_iff; exact ET).
  split.
  - intros p. unfold TanModel.position_to_pixel. rewrite T', ET. cbn [bind]. unfold radec2pixelxy. unfold t', w'; cbn [fst snd crval1 crval2 crpix1 crpix2 wx0 wy0].
    match goal with |- context [tan_cd (mkTan ?a ?b ?c ?d ?e ?f ?g ?i)] => change (tan_cd (mkTan a b c d e f g i)) with (tan_cd t) end. f_equal. f_equal; ring.
  - intros x y. unfold TanModel.pixel_to_position. rewrite T', ET. cbn [bind]. unfold pixelxy2radec. unfold t', w'; cbn [fst snd crval1 crval2 crpix1 crpix2 wx0 wy0].
    match goal with |- context [tan_cd (mkTan ?a ?b ?c ?d ?e ?f ?g ?i)] => change (tan_cd (mkTan a b c d e f g i)) with (tan_cd t) end.
    replace (x + 1 + (wx0 w + dx) - (crpix1 t + dx)) with (x + 1 + wx0 w - crpix1 t) by ring.
    replace (y + 1 + (wy0 w + dy) - (crpix2 t + dy)) with (y + 1 + wy0 w - crpix2 t) by ring. reflexivity.
Qed.
(** The key for caches stays the same when the eight parameters of the Tan
    change. *)
Theorem C86_hash_refuted : forall h w i v h' w', wf h w -> (i < 8)%nat -> set_thing h w i v = Ok (h', w') -> hashkey w' = hashkey w.
Proof.
  intros h w i v h' w' WF I E. destruct (get_tan_ok h w WF) as (t & _ & ET). unfold set_thing in E. rewrite ET in E. cbn [bind] in E.
  do 8 (destruct i as [|i]; [injection E as _ <-; reflexivity|]). lia.
Qed.
(** There are no bounds: not one per parameter, so that those of later
    parameters are taken for them. *)
Theorem C86_bounds_refuted : forall w, lower_bounds w = [].
Proof. intros w. unfold lower_bounds. destruct (liquid w) as [|[] l]; reflexivity. Qed.
(** Step sizes: one for each thawed parameter; a pixel for positions and
    origins, a thousandth of the scale for the matrix. *)
Lemma keep_raw {A} : forall liq (l : list A) i j, raw_index liq i = Some j -> (j < length l)%nat -> nth_error (keep liq l) i = nth_error l j.
Proof.
  induction liq as [|b liq IH]; intros l i j E L; [discriminate|]. destruct l as [|x l]; [cbn in L; lia|].
  destruct b; cbn [raw_index keep] in *.
  - destruct i as [|i]; [injection E as <-; reflexivity|].
    destruct (raw_index liq i) as [k|] eqn:R; [|discriminate]. injection E as <-. cbn. apply IH; [exact R|cbn in L; lia].
  - destruct (raw_index liq i) as [k|] eqn:R; [|discriminate]. injection E as <-. cbn. apply IH; [exact R|cbn in L; lia].
Qed.
Theorem C86_steps : forall h w t, wf h w -> get_tan h w = Ok t -> mdet (tan_cd t) <> 0 -> exists l,
  step_sizes h w = Ok l /\ length l = count_true (liquid w) /\
  forall i j, raw_index (liquid w) i = Some j -> exists s, nth_error l i = Some s /\ 0 < s /\
    ((j < 2)%nat -> s ^ 2 = Rabs (mdet (tan_cd t))) /\ ((2 <= j < 4 \/ 8 <= j)%nat -> s = 1) /\
    ((4 <= j < 8)%nat -> (1000 * s) ^ 2 = Rabs (mdet (tan_cd t))).
Proof.
  intros h w t WF ET D. unfold step_sizes. rewrite ET. cbn [bind]. eexists. split; [reflexivity|].
  split; [apply keep_length; exact (proj2 WF)|]. intros i j RI. pose proof (raw_index_lt _ _ _ RI) as J. rewrite (proj2 WF) in J.
  rewrite (keep_raw _ _ i j RI) by exact J. unfold tan_pixel_scale.
  assert (P : 0 < Rabs (mdet (tan_cd t))) by now apply Rabs_pos_lt. pose proof (sqrt_lt_R0 _ P) as Q.
  pose proof (pow2_sqrt _ (Rlt_le _ _ P)) as E. set (r := sqrt (Rabs (mdet (tan_cd t)))) in *. rewrite <- E. clear - Q J.
  destruct j as [|[|[|[|[|[|[|[|[|[|j]]]]]]]]]]; [..|lia]; (eexists; split; [reflexivity|]);
    repeat split; try lra; intros; try lia; try field; lra.
Qed.
End Props.

Lemma set_all a b c d e f g i x y m n p a' b' c' d' e' f' g' i' x' y' :
  set_params [mkTan a b c d e f g i] (mkTw 0 x y (repeat true 10) m n p) [a'; b'; c'; d'; e'; f'; g'; i'; x'; y'] =
  Ok ([mkTan a' b' c' d' e' f' g' i'], mkTw 0 x' y' (repeat true 10) m n p).
Proof. lazy. reflexivity. Qed.

(** *** An example: a plane without projection. *)
Definition ex_plane (c p : R * R) : R * R := (fst p - fst c, snd p - snd c).
Definition ex_sky (c q : R * R) : R * R := (fst q + fst c, snd q + snd c).
Definition ex_tan : tan := mkTan 10 20 1 1 2 0 0 2.
Example C86_ex : exists w h' w', new_tan [ex_tan] 0 = Ok w /\ wf [ex_tan] w /\
  position_to_pixel ex_plane [ex_tan] w (14, 20) = Ok (2, 0) /\
  set_params [ex_tan] w [10; 20; 1; 1; 4; 0; 0; 4; 0; 0] = Ok (h', w') /\
  position_to_pixel ex_plane h' w' (14, 20) = Ok (1, 0) /\ cd_at_pixel w' 0 0 = ((2, 0), (0, 2)) /\ hashkey w' = hashkey w.
Proof.
  assert (D : mdet (tan_cd ex_tan) <> 0) by (unfold mdet, tan_cd, ex_tan; cbn [fst snd cd11 cd12 cd21 cd22]; intros X; lra).
  destruct (C86_new [ex_tan] 0 ex_tan eq_refl D) as (w & E & W & _).
  assert (E0 : new_tan [ex_tan] 0 = Ok (mkTw 0 0 0 (repeat true 10) (tan_cd ex_tan) (minv (tan_cd ex_tan)) (tan_pixel_scale ex_tan))).
  { unfold new_tan. cbn [py_get nth_error bind]. destruct (Req_EM_T _ 0) as [Z|]; [contradiction|reflexivity]. }
  rewrite E0 in E. injection E as <-.
  exists (mkTw 0 0 0 (repeat true 10) (tan_cd ex_tan) (minv (tan_cd ex_tan)) (tan_pixel_scale ex_tan)).
  exists [mkTan 10 20 1 1 4 0 0 4].
  exists (mkTw 0 0 0 (repeat true 10) (tan_cd ex_tan) (minv (tan_cd ex_tan)) (tan_pixel_scale ex_tan)).
  split; [exact E0|]. split; [exact W|]. clear W E0.
  generalize (tan_pixel_scale ex_tan) as ps. intros ps.
  split.
  { unfold position_to_pixel, get_tan, radec2pixelxy, mapply, minv, mdet, tan_cd, ex_tan, ex_plane.
    cbn [ref py_get nth_error bind fst snd cd11 cd12 cd21 cd22 crval1 crval2 crpix1 crpix2 wx0 wy0]. f_equal. f_equal; field. }
  split.
  { apply set_all. }
  split.
  { unfold position_to_pixel, get_tan, radec2pixelxy, mapply, minv, mdet, tan_cd, ex_tan, ex_plane.
    cbn [ref py_get nth_error bind fst snd cd11 cd12 cd21 cd22 crval1 crval2 crpix1 crpix2 wx0 wy0]. f_equal. f_equal; field. }
  split; reflexivity.
Qed.

Print Assumptions C86_parameters.
Print Assumptions C86_names.
Print Assumptions C86_set_param.
Print Assumptions C86_inverse.
Print Assumptions C86_cd.
Print Assumptions C86_new.
Print Assumptions C86_steps.
Print Assumptions C86_copy.
Print Assumptions C86_shifted.
Print Assumptions C86_wrapper.
Print Assumptions C86_cd_stale_refuted.
Print Assumptions C86_shared_refuted.
Print Assumptions C86_degenerate_refuted.
Print Assumptions C86_hash_refuted.
Print Assumptions C86_bounds_refuted.
