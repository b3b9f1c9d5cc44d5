(** C85: spline skies are drawn with the parameters they report; offsets,
    scales, shifts, copies and tables do what they say. *)
From Coq Require Import List ZArith Reals Bool Lia Lra.
From Verif Require Import Base SkyOpsModel.
Import ListNotations.
Local Open Scope R_scope.

Section Props.
Context (basis : list R -> list R -> nat -> nat -> R -> R -> R).
Context (fit : list R -> list R -> nat -> list (list R) -> list R).
Notation ev := (ev basis).
Notation evaluate_grid := (evaluate_grid basis).
Notation add_to := (add_to basis).
Notation get_grid := (get_grid basis).
Notation new_sky := (new_sky fit).
Notation copy := (copy basis fit).
Notation shifted := (shifted basis fit).
Notation to_row := (to_row basis).
Notation from_row := (from_row fit).

(** *** What is used of scipy *)
Definition usable (xs ys : list R) (ord : nat) : Prop :=
  increasing xs = true /\ increasing ys = true /\ (ord < length xs)%nat /\ (ord < length ys)%nat.
(** a table of values, one row per y *)
Definition table (xs ys : list R) (g : list (list R)) : Prop := length g = length ys /\ Forall (fun r => length r = length xs) g.
Definition at_ (g : list (list R)) (j i : nat) : R := nth i (nth j g []) 0.
Record spline_library : Prop := {
  (** one coefficient per control point *)
  lib_length : forall xs ys ord g, usable xs ys ord -> table xs ys g -> length (fit xs ys ord g) = (length xs * length ys)%nat;
  (** equal coefficients give this value everywhere *)
  lib_unity : forall xs ys ord x y, usable xs ys ord -> ev xs ys ord (repeat 1 (length xs * length ys)) x y = 1;
  (** the spline goes through the values *)
  lib_interp : forall xs ys ord g i j, usable xs ys ord -> table xs ys g -> (i < length xs)%nat -> (j < length ys)%nat ->
    ev xs ys ord (fit xs ys ord g) (nth i xs 0) (nth j ys 0) = at_ g j i;
  (** there is only one such spline *)
  lib_unique : forall xs ys ord c1 c2, usable xs ys ord -> length c1 = (length xs * length ys)%nat -> length c2 = (length xs * length ys)%nat ->
    (forall i j, (i < length xs)%nat -> (j < length ys)%nat -> ev xs ys ord c1 (nth i xs 0) (nth j ys 0) = ev xs ys ord c2 (nth i xs 0) (nth j ys 0)) ->
    c1 = c2 }.

(** *** What a sky draws: the value added to a pixel. *)
Definition draws (h : store) (s : sky) (x y v : R) : Prop := evaluate_grid h s [x] [y] = Ok [[v]].
(** A sky in use: its parameters are the coefficients of its spline. *)
Definition wf (h : store) (s : sky) : Prop :=
  vals s = tck s /\ usable (xgrid s) (ygrid s) (order s) /\
  exists c, nth_error h (tck s) = Some c /\ length c = (length (xgrid s) * length (ygrid s))%nat /\ length (liquid s) = length c.

Lemma cell_ok h r c : nth_error h r = Some c -> cell h r = Ok c.
Proof. unfold cell, py_get. intros ->. reflexivity. Qed.
Lemma draws_iff h s c x y v : nth_error h (tck s) = Some c ->
  (draws h s x y v <-> v = ev (xgrid s) (ygrid s) (order s) c (x + sx0 s) (y + sy0 s)).
Proof.
  intros E. unfold draws, SkyOpsModel.evaluate_grid. rewrite (cell_ok _ _ _ E). cbn. split; [intros K; injection K; auto|intros ->; reflexivity].
Qed.
Lemma nth_error_upd_same {A} : forall (l : list A) i x y, nth_error l i = Some y -> nth_error (upd i x l) i = Some x.
Proof. induction l as [|a l IH]; intros [|i] x y; cbn; try discriminate; auto. intros; eapply IH; eauto. Qed.
Lemma nth_error_upd_other {A} : forall (l : list A) i j x, i <> j -> nth_error (upd i x l) j = nth_error l j.
Proof. induction l as [|a l IH]; intros [|i] [|j] x NE; cbn; auto; try lia. Qed.
Lemma upd_len {A} : forall (l : list A) i x, length (upd i x l) = length l.
Proof. induction l as [|a l IH]; intros [|i] x; cbn; auto. Qed.

(** addTo adds [f] times what the sky draws at each pixel. *)
Lemma map2_nth {A B C} (f : A -> B -> C) : forall l m i a b, nth_error l i = Some a -> nth_error m i = Some b -> nth_error (map2 f l m) i = Some (f a b).
Proof.
  induction l as [|a l IH]; intros [|b m] [|i] a' b'; cbn; try discriminate.
  - intros E1 E2. injection E1 as <-. injection E2 as <-. reflexivity.
  - apply IH.
Qed.
Theorem C85_add_to : forall h s H W m f, wf h s -> length m = H -> Forall (fun r => length r = W) m ->
  exists m', add_to h s H W m f = Ok m' /\
    forall i j r v, nth_error m j = Some r -> nth_error r i = Some v -> exists d r',
      draws h s (INR i) (INR j) d /\ nth_error m' j = Some r' /\ nth_error r' i = Some (v + d * f).
Proof.
  intros h s H W m f (_ & _ & c & EC & _) LM LR. unfold SkyOpsModel.add_to, SkyOpsModel.evaluate_grid. rewrite (cell_ok _ _ _ EC). cbn [bind].
  eexists. split; [reflexivity|]. intros i j r v EJ EI.
  assert (JH : (j < H)%nat) by (rewrite <- LM; apply nth_error_Some; congruence).
  assert (IW : (i < W)%nat). { rewrite Forall_forall in LR. rewrite <- (LR r) by (eapply nth_error_In; eauto). apply nth_error_Some. congruence. }
  assert (AR : forall n k, (k < n)%nat -> nth_error (arange n) k = Some (INR k)).
  { intros n k K. unfold arange. rewrite nth_error_map. rewrite (nth_error_nth' (seq 0 n) 0%nat) by (rewrite seq_length; exact K).
    rewrite seq_nth by exact K. reflexivity. }
  eexists. eexists. split; [apply (draws_iff h s c _ _ _ EC); reflexivity|]. split.
  - apply map2_nth; [exact EJ|]. rewrite nth_error_map, AR by exact JH. reflexivity.
  - apply (map2_nth (fun m v => m + v * f)); [exact EI|]. rewrite nth_error_map, AR by exact IW. reflexivity.
Qed.

(** *** Changes *)
Lemma set_raw_ok h s c j v : nth_error h (vals s) = Some c -> (j < length c)%nat -> set_raw h s j v = Ok (upd (vals s) (upd j v c) h).
Proof. intros E L. unfold set_raw. rewrite (cell_ok _ _ _ E). cbn [bind]. rewrite (proj2 (Nat.ltb_lt _ _) L). reflexivity. Qed.
(** The values of a parameter vector in the thawed places. *)
Fixpoint put (liq : list bool) (p c : list R) : list R :=
  match liq, c with
  | false :: liq, v :: c => v :: put liq p c
  | true :: liq, v :: c => match p with w :: p => w :: put liq p c | [] => v :: c end
  | _, _ => c
  end.
Lemma upd_upd {A} : forall (l : list A) i x y, upd i x (upd i y l) = upd i x l.
Proof. induction l as [|a l IH]; intros [|i] x y; cbn; auto. f_equal. apply IH. Qed.
Lemma upd_self {A} : forall (l : list A) i x, nth_error l i = Some x -> upd i x l = l.
Proof. induction l as [|a l IH]; intros [|i] x; cbn; try discriminate; [intros E; injection E as ->; reflexivity|]. intros E. f_equal. apply IH. exact E. Qed.
Lemma upd_pre {A} : forall (pre c : list A) x v, upd (length pre) x (pre ++ v :: c) = pre ++ x :: c.
Proof. induction pre as [|a l IH]; intros; cbn; [reflexivity|]. f_equal. apply IH. Qed.
Lemma set_from_ok s : forall liq p c pre h, nth_error h (vals s) = Some (pre ++ c) -> length liq = length c -> length p = count_true liq ->
  set_from h s liq (length pre) p = Ok (upd (vals s) (pre ++ put liq p c) h).
Proof.
  induction liq as [|b liq IH]; intros p c pre h E L LP.
  - destruct c; [|discriminate]. cbn. rewrite upd_self by exact E. reflexivity.
  - destruct c as [|v c]; [discriminate|]. cbn in L. destruct b.
    + rewrite count_true_cons in LP. destruct p as [|w p]; [cbn in LP; discriminate|]. cbn [length] in LP. cbn [set_from put].
      rewrite (set_raw_ok h s (pre ++ v :: c)); [|exact E|rewrite app_length; cbn; lia]. cbn [bind]. rewrite upd_pre.
      replace (S (length pre)) with (length (pre ++ [w])) by (rewrite app_length; cbn; lia).
      rewrite (IH p c (pre ++ [w])); [|rewrite <- app_assoc; cbn; eapply nth_error_upd_same; exact E|lia|lia].
      rewrite upd_upd, <- app_assoc. reflexivity.
    + rewrite count_true_cons in LP. cbn [Nat.add] in LP. cbn [set_from put]. replace (S (length pre)) with (length (pre ++ [v])) by (rewrite app_length; cbn; lia).
      rewrite (IH p c (pre ++ [v])); [|rewrite <- app_assoc; exact E|lia|exact LP]. rewrite <- app_assoc. reflexivity.
Qed.
Lemma put_length : forall liq p c, length (put liq p c) = length c.
Proof. induction liq as [|[] liq IH]; intros p [|v c]; cbn; auto. destruct p; cbn; auto. Qed.
Lemma keep_put : forall liq p c, length liq = length c -> length p = count_true liq -> keep liq (put liq p c) = p.
Proof.
  induction liq as [|[] liq IH]; intros p [|v c] L LP; cbn in L; try discriminate; rewrite ?count_true_cons in LP; cbn [Nat.add] in LP.
  - destruct p; [reflexivity|discriminate].
  - destruct p as [|w p]; [discriminate|]. cbn. cbn [length] in LP. f_equal. apply IH; lia.
  - cbn. apply IH; lia.
Qed.
(** Setting the thawed parameters: they are what is reported afterwards, and
    what is drawn. *)
Theorem C85_set : forall h s p, wf h s -> length p = count_true (liquid s) -> exists h',
  set_params h s p = Ok h' /\ wf h' s /\ get_params h' s = Ok p /\
  exists c c', all_params h s = Ok c /\ all_params h' s = Ok c' /\ c' = put (liquid s) p c /\
    forall x y v, draws h' s x y v <-> v = ev (xgrid s) (ygrid s) (order s) c' (x + sx0 s) (y + sy0 s).
Proof.
  intros h s p (VT & US & c & EC & LC & LL) LP. exists (upd (vals s) (put (liquid s) p c) h).
  assert (EV : nth_error h (vals s) = Some c) by (rewrite VT; exact EC).
  assert (EU : nth_error (upd (vals s) (put (liquid s) p c) h) (vals s) = Some (put (liquid s) p c)) by (eapply nth_error_upd_same; exact EV).
  split; [exact (set_from_ok s (liquid s) p c [] h EV LL LP)|].
  split; [split; [exact VT|split; [exact US|]]; exists (put (liquid s) p c); rewrite <- VT, put_length; auto|].
  split; [unfold get_params; rewrite (cell_ok _ _ _ EU); cbn; rewrite keep_put by auto; reflexivity|].
  exists c, (put (liquid s) p c). unfold all_params. rewrite (cell_ok _ _ _ EU), (cell_ok _ _ _ EV).
  split; [reflexivity|]. split; [reflexivity|]. split; [reflexivity|]. intros x y v. apply draws_iff. rewrite <- VT. exact EU.
Qed.
(** One parameter: the sky changes by the change times its basis function. *)
Lemma dot_upd b : forall c k j v, (j < length c)%nat -> dot b k (upd j v c) = dot b k c + (v - nth j c 0) * b (k + j)%nat.
Proof.
  induction c as [|a c IH]; intros k j v L; [cbn in L; lia|]. destruct j as [|j]; cbn.
  - rewrite Nat.add_0_r. lra.
  - cbn in L. rewrite IH by lia. replace (S k + j)%nat with (k + S j)%nat by lia. lra.
Qed.
Theorem C85_derivative : forall h s j v, wf h s -> (j < length (xgrid s) * length (ygrid s))%nat -> exists h' c,
  set_raw h s j v = Ok h' /\ wf h' s /\ all_params h s = Ok c /\
  forall x y u u', draws h s x y u -> draws h' s x y u' ->
    u' - u = (v - nth j c 0) * basis (xgrid s) (ygrid s) (order s) j (x + sx0 s) (y + sy0 s).
Proof.
  intros h s j v (VT & US & c & EC & LC & LL) J. rewrite <- LC in J.
  assert (EV : nth_error h (vals s) = Some c) by (rewrite VT; exact EC).
  assert (EU : nth_error (upd (vals s) (upd j v c) h) (tck s) = Some (upd j v c)) by (rewrite VT; eapply nth_error_upd_same; exact EC).
  exists (upd (vals s) (upd j v c) h), c. split; [apply set_raw_ok; auto|].
  split; [split; [exact VT|split; [exact US|]]; exists (upd j v c); rewrite upd_len; auto|].
  split; [apply cell_ok; exact EV|]. intros x y u u' D D'.
  apply (draws_iff _ _ _ _ _ _ EC) in D. apply (draws_iff _ _ _ _ _ _ EU) in D'. subst. unfold SkyOpsModel.ev. rewrite dot_upd by exact J. cbn [Nat.add]. lra.
Qed.

Lemma dot_offset b d : forall c k, dot b k (map (fun v => v + d) c) = dot b k c + d * dot b k (repeat 1 (length c)).
Proof. induction c as [|a c IH]; intros k; cbn; [lra|]. rewrite IH. lra. Qed.
Lemma dot_scale b f : forall c k, dot b k (map (fun v => v * f) c) = dot b k c * f.
Proof. induction c as [|a c IH]; intros k; cbn; [lra|]. rewrite IH. lra. Qed.
(** offset adds its argument everywhere, scale multiplies everywhere, also after
    the offset of a subimage. *)
Theorem C85_offset : spline_library -> forall h s d, wf h s -> exists h' s', offset h s d = Ok (h', s') /\ wf h' s' /\ liquid s' = liquid s /\
  forall x y v, draws h s x y v -> draws h' s' x y (v + d).
Proof.
  intros LIB h s d (VT & US & c & EC & LC & LL). unfold offset. rewrite (cell_ok _ _ _ EC). cbn [bind]. eexists. eexists. split; [reflexivity|].
  assert (EU := nth_error_upd_same h (tck s) (map (fun v => v + d) c) c EC).
  split; [|split; [reflexivity|]].
  - split; [reflexivity|]. split; [exact US|]. cbn. exists (map (fun v => v + d) c). rewrite map_length. auto.
  - intros x y v D. apply (draws_iff _ _ _ _ _ _ EC) in D. apply (draws_iff _ _ _ _ _ _ EU). cbn [xgrid ygrid order sx0 sy0]. subst.
    unfold SkyOpsModel.ev. rewrite dot_offset, LC. pose proof (lib_unity LIB _ _ _ (x + sx0 s) (y + sy0 s) US) as U. unfold SkyOpsModel.ev in U. rewrite U. lra.
Qed.
Theorem C85_scale : forall h s f, wf h s -> exists h' s', scale h s f = Ok (h', s') /\ wf h' s' /\ liquid s' = liquid s /\
  forall x y v, draws h s x y v -> draws h' s' x y (v * f).
Proof.
  intros h s f (VT & US & c & EC & LC & LL). unfold scale. rewrite (cell_ok _ _ _ EC). cbn [bind]. eexists. eexists. split; [reflexivity|].
  assert (EU := nth_error_upd_same h (tck s) (map (fun v => v * f) c) c EC).
  split; [|split; [reflexivity|]].
  - split; [reflexivity|]. split; [exact US|]. cbn. exists (map (fun v => v * f) c). rewrite map_length. auto.
  - intros x y v D. apply (draws_iff _ _ _ _ _ _ EC) in D. apply (draws_iff _ _ _ _ _ _ EU). cbn [xgrid ygrid order sx0 sy0]. subst.
    unfold SkyOpsModel.ev. rewrite dot_scale. reflexivity.
Qed.
Theorem C85_shift : forall h s a b, wf h s -> wf h (shift s a b) /\ forall x y v, draws h (shift s a b) x y v <-> draws h s (x + a) (y + b) v.
Proof.
  intros h s a b (VT & US & c & EC & LC & LL). split.
  - split; [exact VT|]. split; [exact US|]. exists c. auto.
  - intros x y v. rewrite (draws_iff h (shift s a b) c _ _ _ EC), (draws_iff h s c _ _ _ EC). cbn.
    replace (x + (sx0 s + a)) with (x + a + sx0 s) by lra. replace (y + (sy0 s + b)) with (y + b + sy0 s) by lra. reflexivity.
Qed.
(** After any sequence of changes the parameters reported are those drawn. *)
Theorem C85_run : forall ops h s h' s', wf h s -> run h s ops = Ok (h', s') ->
  (Forall (fun o => match o with OpSet p => length p = count_true (liquid s) | _ => True end) ops) ->
  wf h' s' /\ liquid s' = liquid s /\ exists c, all_params h' s' = Ok c /\
    forall x y v, draws h' s' x y v <-> v = ev (xgrid s) (ygrid s) (order s) c (x + sx0 s') (y + sy0 s').
Proof.
  assert (STEP : forall h s o h' s', wf h s -> run_op h s o = Ok (h', s') -> (match o with OpSet p => length p = count_true (liquid s) | _ => True end) ->
    wf h' s' /\ liquid s' = liquid s /\ xgrid s' = xgrid s /\ ygrid s' = ygrid s /\ order s' = order s).
  { intros h s o h' s' WF E HO. destruct o as [p|d|f|a b|a]; cbn in E.
    - destruct (C85_set h s p WF HO) as (h1 & E1 & W1 & _). rewrite E1 in E. cbn in E. injection E as <- <-. auto.
    - assert (WF' := WF). destruct WF as (VT & US & c & EC & LC & LL). unfold offset in E. rewrite (cell_ok _ _ _ EC) in E. cbn in E. injection E as <- <-. cbn. repeat split; auto; try apply US.
      exists (map (fun v => v + d) c). cbn. rewrite map_length. split; [eapply nth_error_upd_same; exact EC|auto].
    - destruct (C85_scale h s f WF) as (h1 & s1 & E1 & W1 & L1 & _). rewrite E1 in E. injection E as <- <-.
      unfold scale in E1. destruct (cell h (tck s)); [|discriminate]. cbn in E1. injection E1 as _ <-. auto.
    - injection E as <- <-. destruct (C85_shift h s a b WF) as (W1 & _). auto.
    - injection E as <- <-. destruct WF as (VT & US & c & EC & LC & LL). split; [split; [exact VT|split; [exact US|exists c; auto]]|auto]. }
  induction ops as [|o ops IH]; intros h s h' s' WF E F.
  - injection E as <- <-. split; [exact WF|]. split; [reflexivity|]. destruct WF as (VT & US & c & EC & LC & LL). exists c.
    split; [apply cell_ok; rewrite VT; exact EC|]. intros x y v. apply draws_iff. exact EC.
  - cbn in E. destruct (run_op h s o) as [[h1 s1]|] eqn:E1; [|discriminate]. cbn in E. inversion F as [|? ? FO FR]; subst.
    destruct (STEP _ _ _ _ _ WF E1 FO) as (W1 & L1 & X1 & Y1 & O1).
    destruct (IH h1 s1 h' s' W1 E) as (W2 & L2 & c & PC & D); [rewrite L1; exact FR|].
    split; [exact W2|]. split; [congruence|]. exists c. rewrite <- X1, <- Y1, <- O1. auto.
Qed.

(** *** Making, copying and writing skies *)
Theorem C85_new : spline_library -> forall h xs ys g ord, usable xs ys ord -> table xs ys g -> exists h' s,
  new_sky h xs ys g ord = Ok (h', s) /\ wf h' s /\ liquid s = repeat true (length xs * length ys) /\
  forall i j, (i < length xs)%nat -> (j < length ys)%nat -> draws h' s (nth i xs 0) (nth j ys 0) (at_ g j i).
Proof.
  intros LIB h xs ys g ord US TB. assert (US' := US). destruct US' as (IX & IY & LX & LY). unfold SkyOpsModel.new_sky.
  rewrite IX, IY, (proj2 (Nat.ltb_lt _ _) LX), (proj2 (Nat.ltb_lt _ _) LY). cbn [andb negb]. cbv zeta. rewrite (lib_length LIB) by auto.
  eexists. eexists. split; [reflexivity|].
  assert (EC : nth_error (h ++ [fit xs ys ord g]) (length h) = Some (fit xs ys ord g)) by (rewrite nth_error_app2, Nat.sub_diag by lia; reflexivity).
  split; [|split; [reflexivity|]].
  - split; [reflexivity|]. split; [exact US|]. exists (fit xs ys ord g). cbn. rewrite repeat_length, (lib_length LIB) by auto. auto.
  - intros i j LI LJ. eapply draws_iff; [exact EC|]. cbn. rewrite !Rplus_0_r. symmetry. apply (lib_interp LIB); auto.
Qed.
Lemma at_grid h s g i j : wf h s -> get_grid h s = Ok g -> (i < length (xgrid s))%nat -> (j < length (ygrid s))%nat ->
  forall c, nth_error h (tck s) = Some c -> at_ g j i = ev (xgrid s) (ygrid s) (order s) c (nth i (xgrid s) 0) (nth j (ygrid s) 0).
Proof.
  intros _ E LI LJ c EC. unfold SkyOpsModel.get_grid in E. rewrite (cell_ok _ _ _ EC) in E. cbn in E. injection E as <-.
  unfold at_. set (f := fun y => map _ (xgrid s)). rewrite (nth_indep _ [] (f 0)) by (rewrite map_length; exact LJ). rewrite map_nth. unfold f.
  set (e := fun x => ev _ _ _ c x (nth j (ygrid s) 0)). rewrite (nth_indep _ 0 (e 0)) by (rewrite map_length; exact LI). rewrite map_nth. reflexivity.
Qed.
Lemma grid_table h s g : get_grid h s = Ok g -> table (xgrid s) (ygrid s) g.
Proof.
  intros E. unfold SkyOpsModel.get_grid in E. destruct (cell h (tck s)) as [c|]; [|discriminate]. cbn in E. injection E as <-.
  split; [apply map_length|]. apply Forall_forall. intros r HR. apply in_map_iff in HR. destruct HR as (y & <- & _). apply map_length.
Qed.
Lemma grid_ok h s : wf h s -> exists g, get_grid h s = Ok g.
Proof. intros (_ & _ & c & EC & _). unfold SkyOpsModel.get_grid. rewrite (cell_ok _ _ _ EC). cbn. eauto. Qed.
(** Refitting its own values gives the same coefficients. *)
Lemma refit : spline_library -> forall h s g c, wf h s -> get_grid h s = Ok g -> nth_error h (tck s) = Some c ->
  fit (xgrid s) (ygrid s) (order s) g = c.
Proof.
  intros LIB h s g c WF EG EC. assert (WF' := WF). destruct WF' as (VT & US & c' & EC' & LC & LL). rewrite EC in EC'. injection EC' as <-.
  assert (TB := grid_table h s g EG). apply (lib_unique LIB (xgrid s) (ygrid s) (order s)); auto.
  - apply (lib_length LIB); auto.
  - intros i j LI LJ. rewrite (lib_interp LIB) by auto. apply (at_grid h s g i j WF EG LI LJ c EC).
Qed.
(** Changing a sky leaves all other coefficient arrays alone. *)
Lemma set_from_other s r : r <> vals s -> forall liq j p h h', set_from h s liq j p = Ok h' -> nth_error h' r = nth_error h r.
Proof.
  intros NE. induction liq as [|[] liq IH]; intros j p h h' E; cbn in E.
  - injection E as <-. reflexivity.
  - destruct p as [|v p]; [discriminate|]. unfold set_raw in E. destruct (cell h (vals s)) as [c|]; [|discriminate]. cbn [bind] in E.
    destruct (j <? length c)%nat; [|discriminate]. cbn [bind] in E. rewrite (IH _ _ _ _ E). apply nth_error_upd_other. auto.
  - eapply IH; eauto.
Qed.
Lemma run_other r : forall ops h s h' s', vals s = tck s -> r <> tck s -> run h s ops = Ok (h', s') -> nth_error h' r = nth_error h r.
Proof.
  induction ops as [|o ops IH]; intros h s h' s' VT NE E; [injection E as <- _; reflexivity|]. cbn in E.
  destruct (run_op h s o) as [[h1 s1]|] eqn:E1; [|discriminate]. cbn in E.
  assert (K : nth_error h1 r = nth_error h r /\ vals s1 = tck s1 /\ tck s1 = tck s).
  { destruct o as [p|d|f|a b|a]; cbn in E1.
    - destruct (set_params h s p) as [h2|] eqn:E2; [|discriminate]. cbn in E1. injection E1 as <- <-. split; [|auto].
      eapply set_from_other; [|exact E2]. congruence.
    - unfold offset in E1. destruct (cell h (tck s)) as [c|]; [|discriminate]. cbn in E1. injection E1 as <- <-. cbn. split; [|auto]. apply nth_error_upd_other. auto.
    - unfold scale in E1. destruct (cell h (tck s)) as [c|]; [|discriminate]. cbn in E1. injection E1 as <- <-. cbn. split; [|auto]. apply nth_error_upd_other. auto.
    - injection E1 as <- <-. auto.
    - injection E1 as <- <-. auto. }
  destruct K as (K1 & K2 & K3). rewrite (IH _ _ _ _ K2 ltac:(congruence) E). exact K1.
Qed.
(** A copy draws the same, keeps the frozen flags (but not the smoothness, see
    C47_copy_loses_prior), and is independent: no changes of one are seen in the
    other. *)
Theorem C85_copy : spline_library -> forall h s, wf h s -> exists h' c,
  copy h s = Ok (h', c) /\ wf h' c /\ wf h' s /\ liquid c = liquid s /\ smooth c = None /\
  (forall x y v, draws h' c x y v <-> draws h s x y v) /\
  (forall ops h2 c2 x y v, run h' c ops = Ok (h2, c2) -> (draws h2 s x y v <-> draws h s x y v)) /\
  (forall ops h2 s2 x y v, run h' s ops = Ok (h2, s2) -> (draws h2 c x y v <-> draws h s x y v)).
Proof.
  intros LIB h s WF. destruct (grid_ok h s WF) as (g & EG). assert (WF' := WF). destruct WF' as (VT & US & c & EC & LC & LL).
  unfold SkyOpsModel.copy. rewrite EG. cbn [bind].
  destruct (C85_new LIB h (xgrid s) (ygrid s) g (order s) US (grid_table h s g EG)) as (h' & n & EN & WN & _ & _).
  assert (N : h' = h ++ [c] /\ n = mkSky (xgrid s) (ygrid s) (order s) (length h) (length h) (repeat true (length c)) 0 0 None).
  { assert (EN' := EN). unfold SkyOpsModel.new_sky in EN'. destruct (negb _) in EN'; [discriminate|]. destruct (negb _) in EN'; [discriminate|].
    rewrite (refit LIB h s g c WF EG EC) in EN'. injection EN' as <- <-. auto. }
  destruct N as (-> & ->). rewrite EN. cbn [bind]. eexists. eexists. split; [reflexivity|].
  assert (TL : (tck s < length h)%nat) by (apply nth_error_Some; congruence).
  assert (E1 : nth_error (h ++ [c]) (tck s) = Some c) by (rewrite nth_error_app1 by exact TL; exact EC).
  assert (E2 : nth_error (h ++ [c]) (length h) = Some c) by (rewrite nth_error_app2, Nat.sub_diag by lia; reflexivity).
  split; [split; [reflexivity|split; [exact US|exists c; cbn; auto]]|].
  split; [split; [exact VT|split; [exact US|exists c; auto]]|].
  split; [reflexivity|]. split; [reflexivity|].
  set (cp := mkSky _ _ _ _ _ _ _ _ _).
  split; [|split].
  - intros x y v. rewrite (draws_iff _ cp c _ _ _ E2), (draws_iff _ s c _ _ _ EC). reflexivity.
  - intros ops h2 c2 x y v RN. assert (K := run_other (tck s) ops _ cp h2 c2 eq_refl ltac:(cbn; lia) RN). rewrite E1 in K.
    rewrite (draws_iff _ s c _ _ _ K), (draws_iff _ s c _ _ _ EC). reflexivity.
  - intros ops h2 s2 x y v RN. assert (K := run_other (length h) ops _ s h2 s2 VT ltac:(lia) RN). rewrite E2 in K.
    rewrite (draws_iff _ cp c _ _ _ K), (draws_iff _ s c _ _ _ EC). reflexivity.
Qed.
(** The sky of a subimage draws at a pixel what the sky of the image draws at
    that pixel of the image. *)
Theorem C85_subimage : spline_library -> forall h s a b, wf h s -> exists h' c,
  shifted h s a b = Ok (h', c) /\ wf h' c /\ forall x y v, draws h' c x y v <-> draws h s (x + a) (y + b) v.
Proof.
  intros LIB h s a b WF. destruct (C85_copy LIB h s WF) as (h' & c & EC & WC & _ & _ & _ & D & _). unfold SkyOpsModel.shifted.
  rewrite EC. cbn [bind]. eexists. eexists. split; [reflexivity|]. destruct (C85_shift h' c a b WC) as (W2 & D2). split; [exact W2|].
  intros x y v. rewrite D2. apply D.
Qed.

(** Tables. *)
Definition whole (x : R) : Prop := exists z, x = IZR z.
Lemma Int_part_IZR z : Int_part (IZR z) = z.
Proof.
  pose proof (base_Int_part (IZR z)) as (B1 & B2). apply le_IZR in B1. assert (z < Int_part (IZR z) + 1)%Z.
  { apply lt_IZR. rewrite plus_IZR. lra. } lia.
Qed.
Lemma trunc_whole x : whole x -> trunc x = x.
Proof.
  intros (z & ->). unfold trunc. destruct (Rle_dec 0 (IZR z)); [rewrite Int_part_IZR; reflexivity|].
  rewrite <- (opp_IZR z), Int_part_IZR, opp_IZR. lra.
Qed.
(** In general the values are moved to the truncated positions, and everything
    is thawed. *)
Theorem C85_table_general : spline_library -> forall h s, wf h s ->
  usable (map trunc (xgrid s)) (map trunc (ygrid s)) (order s) -> exists t h' s',
  to_row h s = Ok t /\ from_row h t = Ok (h', s') /\ wf h' s' /\ liquid s' = repeat true (length (liquid s)) /\
  forall i j v, (i < length (xgrid s))%nat -> (j < length (ygrid s))%nat ->
    draws h s (nth i (xgrid s) 0 - sx0 s) (nth j (ygrid s) 0 - sy0 s) v ->
    draws h' s' (trunc (nth i (xgrid s) 0) - trunc (sx0 s)) (trunc (nth j (ygrid s) 0) - trunc (sy0 s)) v.
Proof.
  intros LIB h s WF UT. destruct (grid_ok h s WF) as (g & EG). assert (WF' := WF). destruct WF' as (VT & US & c & EC & LC & LL).
  unfold SkyOpsModel.to_row. rewrite EG. cbn [bind]. eexists.
  assert (TB : table (map trunc (xgrid s)) (map trunc (ygrid s)) g). { unfold table. rewrite !map_length. exact (grid_table h s g EG). }
  destruct (C85_new LIB h _ _ g (order s) UT TB) as (h' & n & EN & WN & LN & DN).
  exists h', (shift n (trunc (sx0 s)) (trunc (sy0 s))). split; [reflexivity|]. unfold SkyOpsModel.from_row. cbn [t_x t_y t_v t_order t_x0 t_y0]. rewrite EN. cbn [bind].
  split; [reflexivity|]. destruct (C85_shift h' n (trunc (sx0 s)) (trunc (sy0 s)) WN) as (W2 & D2). split; [exact W2|].
  split; [cbn; rewrite LN, !map_length, LL, LC; reflexivity|].
  intros i j v LI LJ D. apply D2. specialize (DN i j ltac:(rewrite map_length; exact LI) ltac:(rewrite map_length; exact LJ)).
  apply (draws_iff _ _ _ _ _ _ EC) in D. rewrite (at_grid h s g i j WF EG LI LJ c EC) in DN.
  assert (TR : trunc 0 = 0) by (apply trunc_whole; exists 0%Z; reflexivity).
  rewrite (nth_indep _ 0 (trunc 0)) in DN by (rewrite map_length; exact LI). rewrite map_nth in DN.
  rewrite (nth_indep (map trunc (ygrid s)) 0 (trunc 0)) in DN by (rewrite map_length; exact LJ). rewrite map_nth in DN.
  replace (trunc (nth i (xgrid s) 0) - trunc (sx0 s) + trunc (sx0 s)) with (trunc (nth i (xgrid s) 0)) by lra.
  replace (trunc (nth j (ygrid s) 0) - trunc (sy0 s) + trunc (sy0 s)) with (trunc (nth j (ygrid s) 0)) by lra.
  replace (nth i (xgrid s) 0 - sx0 s + sx0 s) with (nth i (xgrid s) 0) in D by lra. replace (nth j (ygrid s) 0 - sy0 s + sy0 s) with (nth j (ygrid s) 0) in D by lra.
  rewrite D. exact DN.
Qed.
Theorem C85_table : spline_library -> forall h s, wf h s ->
  Forall whole (xgrid s) -> Forall whole (ygrid s) -> whole (sx0 s) -> whole (sy0 s) -> exists t h' s',
  to_row h s = Ok t /\ from_row h t = Ok (h', s') /\ wf h' s' /\ forall x y v, draws h' s' x y v <-> draws h s x y v.
Proof.
  intros LIB h s WF IX IY I0 J0. destruct (grid_ok h s WF) as (g & EG). assert (WF' := WF). destruct WF' as (VT & US & c & EC & LC & LL).
  assert (MT : forall l, Forall whole l -> map trunc l = l).
  { intros l F. rewrite <- (map_id l) at 2. apply map_ext_in. intros x HX. rewrite Forall_forall in F. apply trunc_whole. auto. }
  unfold SkyOpsModel.to_row. rewrite EG. cbn [bind]. rewrite !MT, !trunc_whole by auto.
  destruct (C85_new LIB h _ _ g (order s) US (grid_table h s g EG)) as (h' & n & EN & WN & _ & _).
  eexists. exists h', (shift n (sx0 s) (sy0 s)). split; [reflexivity|]. unfold SkyOpsModel.from_row. cbn [t_x t_y t_v t_order t_x0 t_y0]. rewrite EN. cbn [bind].
  split; [reflexivity|]. destruct (C85_shift h' n (sx0 s) (sy0 s) WN) as (W2 & D2). split; [exact W2|].
  unfold SkyOpsModel.new_sky in EN. destruct (negb _) in EN; [discriminate|]. destruct (negb _) in EN; [discriminate|].
  rewrite (refit LIB h s g c WF EG EC) in EN. injection EN as <- <-.
  assert (E2 : nth_error (h ++ [c]) (length h) = Some c) by (rewrite nth_error_app2, Nat.sub_diag by lia; reflexivity).
  intros x y v. rewrite D2. set (n := mkSky _ _ _ _ _ _ _ _ _). rewrite (draws_iff _ n c _ _ _ E2), (draws_iff _ s c _ _ _ EC). cbn. rewrite !Rplus_0_r. reflexivity.
Qed.
End Props.

(** *** A spline library with these properties: steps at the control points (of
    any order). *)
Definition loc (xs : list R) (x : R) : nat := length (filter (fun n => if Rle_dec n x then true else false) (tl xs)).
Definition step_basis (xs ys : list R) (ord k : nat) (x y : R) : R := if (k =? loc xs x * length ys + loc ys y)%nat then 1 else 0.
Definition step_fit (xs ys : list R) (ord : nat) (g : list (list R)) : list R :=
  map (fun r => at_ g (r mod length ys) (r / length ys)) (seq 0 (length xs * length ys)).
Lemma dot_step n : forall c k, (k <= n < k + length c)%nat -> dot (fun k => if (k =? n)%nat then 1 else 0) k c = nth (n - k) c 0.
Proof.
  assert (Z : forall c k n, (n < k)%nat -> dot (fun k => if (k =? n)%nat then 1 else 0) k c = 0).
  { induction c as [|a c IH]; intros k n0 L; cbn; [reflexivity|]. rewrite IH by lia. destruct (Nat.eqb_spec k n0); [lia|]. lra. }
  induction c as [|a c IH]; intros k L; cbn in *; [lia|]. destruct (Nat.eqb_spec k n) as [->|NE].
  - rewrite Z by lia. rewrite Nat.sub_diag. lra.
  - rewrite IH by lia. destruct (n - k)%nat as [|m] eqn:E; [lia|]. replace (n - S k)%nat with m by lia. lra.
Qed.
Lemma loc_lt xs x : xs <> [] -> (loc xs x < length xs)%nat.
Proof.
  intros NE. destruct xs as [|a xs]; [congruence|]. unfold loc. cbn. generalize (fun n => if Rle_dec n x then true else false). intros f. clear. induction xs as [|b xs IH]; cbn; [lia|]. destruct (f b); cbn; lia.
Qed.
Lemma increasing_cons a b l : increasing (a :: b :: l) = true -> a < b /\ increasing (b :: l) = true.
Proof. cbn. destruct (Rlt_dec a b); [|discriminate]. auto. Qed.
Lemma increasing_all : forall l a, increasing (a :: l) = true -> Forall (fun b => a < b) l.
Proof.
  induction l as [|b l IH]; intros a H; constructor.
  - apply increasing_cons in H. tauto.
  - apply increasing_cons in H. destruct H as (H1 & H2). eapply Forall_impl; [|apply IH; exact H2]. cbn. intros. lra.
Qed.
Lemma filter_none {A} (f : A -> bool) l : Forall (fun a => f a = false) l -> filter f l = [].
Proof. induction 1 as [|a l E F IH]; [reflexivity|]. cbn. rewrite E. exact IH. Qed.
Lemma filter_node : forall l i, increasing l = true -> (i < length l)%nat ->
  length (filter (fun n => if Rle_dec n (nth i l 0) then true else false) l) = S i.
Proof.
  induction l as [|a l IH]; intros i H L; [cbn in L; lia|]. destruct i as [|i].
  - cbn [nth filter]. destruct (Rle_dec a a); [|lra]. cbn. f_equal. rewrite filter_none; [reflexivity|].
    eapply Forall_impl; [|apply increasing_all; exact H]. cbn. intros b Hb. destruct (Rle_dec b a); [lra|reflexivity].
  - cbn [nth filter]. cbn in L. assert (HA := increasing_all l a H). rewrite Forall_forall in HA. assert (LT := HA (nth i l 0) ltac:(apply nth_In; lia)).
    destruct (Rle_dec a (nth i l 0)); [|lra]. cbn [length]. f_equal. apply IH; [|lia]. destruct l; [reflexivity|]. apply increasing_cons in H. tauto.
Qed.
Lemma loc_node xs i : increasing xs = true -> (i < length xs)%nat -> loc xs (nth i xs 0) = i.
Proof.
  intros H L. destruct xs as [|a xs]; [cbn in L; lia|]. pose proof (filter_node (a :: xs) i H L) as F. unfold loc. cbn [tl]. cbn [filter] in F.
  assert (LE : a <= nth i (a :: xs) 0).
  { destruct i as [|i]; [cbn; lra|]. cbn. cbn in L. pose proof (increasing_all xs a H) as HA. rewrite Forall_forall in HA. apply Rlt_le, HA, nth_In. lia. }
  destruct (Rle_dec a (nth i (a :: xs) 0)); [|contradiction]. cbn [length] in F. lia.
Qed.
Lemma idx_lt a b n m : (a < n)%nat -> (b < m)%nat -> (a * m + b < n * m)%nat.
Proof. intros. assert (S a * m <= n * m)%nat by (apply Nat.mul_le_mono_r; lia). cbn in *. lia. Qed.
Lemma ev_step xs ys ord c x y : xs <> [] -> ys <> [] -> length c = (length xs * length ys)%nat ->
  ev step_basis xs ys ord c x y = nth (loc xs x * length ys + loc ys y) c 0.
Proof.
  intros NX NY L. unfold ev, step_basis. pose proof (idx_lt _ _ _ _ (loc_lt xs x NX) (loc_lt ys y NY)).
  rewrite dot_step by lia. rewrite Nat.sub_0_r. reflexivity.
Qed.
Theorem C85_library : spline_library step_basis step_fit.
Proof.
  assert (NE : forall xs ys ord, usable xs ys ord -> xs <> [] /\ ys <> []).
  { intros xs ys ord (_ & _ & A & B). split; intros ->; cbn in *; lia. }
  split.
  - intros. unfold step_fit. rewrite map_length, seq_length. reflexivity.
  - intros xs ys ord x y US. destruct (NE _ _ _ US) as (NX & NY). rewrite ev_step by (auto; apply repeat_length).
    pose proof (idx_lt _ _ _ _ (loc_lt xs x NX) (loc_lt ys y NY)) as L. revert L. generalize (loc xs x * length ys + loc ys y)%nat (length xs * length ys)%nat.
    intros a b. revert a. induction b as [|b IH]; intros [|a] L; cbn; try lia; [reflexivity|]. apply IH. lia.
  - intros xs ys ord g i j US TB LI LJ. destruct (NE _ _ _ US) as (NX & NY). destruct US as (IX & IY & _).
    rewrite ev_step by (auto; unfold step_fit; rewrite map_length, seq_length; reflexivity). rewrite !loc_node by auto. unfold step_fit.
    pose proof (idx_lt _ _ _ _ LI LJ) as LT. set (f := fun r => _).
    rewrite (nth_indep _ 0 (f 0%nat)) by (rewrite map_length, seq_length; exact LT). rewrite map_nth, seq_nth by exact LT. unfold f. cbn [Nat.add].
    rewrite (Nat.add_comm (i * length ys)), Nat.mod_add, Nat.div_add by lia. rewrite Nat.mod_small, Nat.div_small by exact LJ. reflexivity.
  - intros xs ys ord c1 c2 US L1 L2 H. destruct (NE _ _ _ US) as (NX & NY). destruct US as (IX & IY & _).
    apply (nth_ext _ _ 0 0); [congruence|]. intros n LN. rewrite L1 in LN.
    assert (LY : (0 < length ys)%nat) by (destruct ys; [congruence|cbn; lia]).
    assert (D : (n / length ys < length xs)%nat) by (apply Nat.div_lt_upper_bound; lia). assert (M := Nat.mod_upper_bound n (length ys) ltac:(lia)).
    specialize (H _ _ D M). rewrite !ev_step, !loc_node in H by auto. rewrite <- (Nat.mul_comm (length ys)), <- Nat.div_mod in H by lia. exact H.
Qed.
(** A sky with four control points in one library: what it draws, after being
    scaled and offset, and after its table is read. *)
Definition ex_xs : list R := [0; 5 / 2].
Definition ex_ys : list R := [0; 3].
Lemma ex_usable : usable ex_xs ex_ys 1.
Proof. repeat split; cbn; try lia; unfold ex_xs, ex_ys; destruct (Rlt_dec _ _); try reflexivity; lra. Qed.
Example C85_ex : exists h s, new_sky step_fit [] ex_xs ex_ys [[1; 2]; [3; 4]] 1 = Ok (h, s) /\ draws step_basis h s (5 / 2) 0 2 /\
  exists h1 s1 h2 s2, scale h s 10 = Ok (h1, s1) /\ offset h1 s1 7 = Ok (h2, s2) /\ draws step_basis h2 s2 (5 / 2) 0 27.
Proof.
  destruct (C85_new step_basis step_fit C85_library [] ex_xs ex_ys [[1; 2]; [3; 4]] 1 ex_usable) as (h & s & E & W & _ & D).
  { split; [reflexivity|]. repeat constructor. }
  exists h, s. split; [exact E|]. assert (D0 := D 1%nat 0%nat ltac:(cbn; lia) ltac:(cbn; lia)). cbn in D0. split; [exact D0|].
  destruct (C85_scale step_basis h s 10 W) as (h1 & s1 & E1 & W1 & _ & D1).
  destruct (C85_offset step_basis step_fit C85_library h1 s1 7 W1) as (h2 & s2 & E2 & W2 & _ & D2).
  exists h1, s1, h2, s2. split; [exact E1|]. split; [exact E2|]. replace 27 with (2 * 10 + 7) by lra. apply D2, D1. exact D0.
Qed.
(** Refutation: positions of control points that are no integers are changed by
    writing and reading a table, and with them the sky that is drawn. *)
Lemma trunc_ex : trunc (5 / 2) = 2.
Proof.
  unfold trunc. destruct (Rle_dec 0 (5 / 2)); [|lra]. pose proof (base_Int_part (5 / 2)) as (B1 & B2).
  assert (A : (Int_part (5 / 2) < 3)%Z) by (apply lt_IZR; lra). assert (B : (1 < Int_part (5 / 2))%Z) by (apply lt_IZR; lra).
  replace (Int_part (5 / 2)) with 2%Z by lia. reflexivity.
Qed.
Theorem C85_table_refuted : exists h s t h' s' v v',
  wf h s /\ to_row step_basis h s = Ok t /\ from_row step_fit h t = Ok (h', s') /\
  draws step_basis h s 2 0 v /\ draws step_basis h' s' 2 0 v' /\ v <> v'.
Proof.
  set (c := [1; 3; 2; 4]). set (s := mkSky ex_xs ex_ys 1 0 0 (repeat true 4) 0 0 None).
  assert (T : trunc 0 = 0 /\ trunc 3 = 3).
  { repeat split; apply trunc_whole; [exists 0%Z|exists 3%Z]; reflexivity. } destruct T as (T0 & T3).
  assert (WF : wf [c] s). { split; [reflexivity|]. split; [exact ex_usable|]. exists c. repeat split. }
  destruct (C85_table_general step_basis step_fit C85_library [c] s WF) as (t & h' & s' & E1 & E2 & W' & _ & D).
  { cbn [xgrid ygrid order s ex_xs ex_ys map]. rewrite trunc_ex, T0, T3. repeat split; cbn; try lia; destruct (Rlt_dec _ _); try reflexivity; lra. }
  exists [c], s, t, h', s', 1, 2.
  assert (DR : forall x y v, draws step_basis [c] s x y v <-> v = nth (loc ex_xs (x + 0) * 2 + loc ex_ys (y + 0)) c 0).
  { intros x y v. rewrite (draws_iff step_basis [c] s c x y v eq_refl). cbn [xgrid ygrid order sx0 sy0 s].
    rewrite ev_step by (try discriminate; reflexivity). reflexivity. }
  split; [exact WF|]. split; [exact E1|]. split; [exact E2|]. split; [|split; [|lra]].
  - apply DR. unfold loc. cbn [ex_xs ex_ys tl filter]. destruct (Rle_dec (5 / 2) _); [lra|]. destruct (Rle_dec 3 _); [lra|]. reflexivity.
  - specialize (D 1%nat 0%nat 2 ltac:(cbn; lia) ltac:(cbn; lia)). cbn [xgrid ygrid sx0 sy0 s ex_xs ex_ys nth] in D. rewrite trunc_ex, T0 in D. rewrite !Rminus_0_r in D.
    apply D. apply DR. unfold loc. cbn [ex_xs ex_ys tl filter]. destruct (Rle_dec (5 / 2) _); [|lra]. destruct (Rle_dec 3 _); [lra|]. reflexivity.
Qed.

Print Assumptions C85_add_to.
Print Assumptions C85_set.
Print Assumptions C85_derivative.
Print Assumptions C85_offset.
Print Assumptions C85_scale.
Print Assumptions C85_shift.
Print Assumptions C85_run.
Print Assumptions C85_new.
Print Assumptions C85_copy.
Print Assumptions C85_subimage.
Print Assumptions C85_table_general.
Print Assumptions C85_table.
Print Assumptions C85_library.
Print Assumptions C85_table_refuted.
