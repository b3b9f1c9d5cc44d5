(** C37, C38: forced photometry. *)
From Coq Require Import List ZArith Bool Lia Ring Reals Lra QArith Qcanon.
From Verif Require Import Base PatchModel PatchSpec PatchProofs PatchProps ForcedModel.
Import ListNotations.
Open Scope Z_scope.

Ltac conjs := match goal with |- _ /\ _ => split; [|conjs] | _ => idtac end.

(** ** Specification *)
Section Spec.
Context {V : Type}.
Variables zero : V.
Variables add mul : V -> V -> V.
Variable gtb : V -> V -> bool.
Notation sum := (lsum zero add).

(** The flux used for a requested flux [f]. *)
Definition no_lower (mf : option V) (f : V) : V :=
  match mf with None => f | Some m => if gtb m f then m else f end.
(** The unit-flux model of a source at a pixel. *)
Definition unit_at (um : option (patch V)) (X Y : Z) : V := match um with None => zero | Some p => img_at zero p X Y end.
(** The model image: frozen sources, sky and the sum of flux times scale times
    unit-flux model. *)
Definition model_at (i : @fimg V) (fluxes : list V) (sky : V) (X Y : Z) : V :=
  add (add (px (fi_m0 i) Y X) sky)
      (sum (fun fu => mul (unit_at (snd fu) X Y) (mul (fst fu) (fi_scale i))) (combine fluxes (fi_um i))).

(** Parameters moved by the fraction [a] of an update, fluxes not below the
    minimum. *)
Definition moved (mf : option V) (sky : bool) (t : @params V) (a : V) (Xsky X : list V) (t' : params) : Prop :=
  fl t' = map (no_lower mf) (map (fun pd => add (fst pd) (mul a (snd pd))) (combine (fl t) X)) /\
  sk t' = if sky then map (fun pd => add (fst pd) (mul a (snd pd))) (combine (sk t) Xsky) else sk t.
Inductive moves (mf : option V) (sky : bool) (P : V -> Prop) : params -> params -> Prop :=
| moves_none t : moves mf sky P t t
| moves_step t a Xsky X t' t'' : P a -> length X = length (fl t) -> moved mf sky t a Xsky X t' ->
    moves mf sky P t' t'' -> moves mf sky P t t''.

(** The log-likelihood of parameters: -1/2 times the sum over all pixels of
    ((data - model) / error)^2. *)
Variable sub : V -> V -> V.
Variable mhalf : V.
Definition chi_at (i : @fimg V) (fluxes : list V) (s : V) (X Y : Z) : V :=
  mul (sub (px (fi_im i) Y X) (model_at i fluxes s X Y)) (px (fi_ie i) Y X).
Fixpoint chi2 (images : list (@fimg V)) (fluxes : list V) (skies : list V) : V :=
  match images with
  | [] => zero
  | i :: r =>
      let s := hd zero skies in
      add (sum (fun Y => sum (fun X => mul (chi_at i fluxes s X Y) (chi_at i fluxes s X Y)) (zrange (aw (fi_im i)))) (zrange (ah (fi_im i))))
          (chi2 r fluxes (tl skies))
  end.
Definition log_like (images : list (@fimg V)) (mf : option V) (sky : bool) (t : @params V) : V :=
  mul mhalf (chi2 images (map (no_lower mf) (fl t)) (if sky then sk t else [])).

(** What every image is assumed to be. *)
Definition um_ok (um : option (patch V)) : Prop := match um with None => True | Some p => wf_patch p end.
Definition fimg_ok (i : @fimg V) : Prop := wf_arr (fi_m0 i) /\ wf_arr (fi_ie i) /\ forall um, In um (fi_um i) -> um_ok um.
End Spec.

(** ** Sums *)
Section Sums.
Context {V : Type}.
Variables zero one : V.
Variables add mul sub : V -> V -> V.
Variable opp : V -> V.
Notation sum := (lsum zero add).
Lemma sum_cons {A} (f : A -> V) a l : sum f (a :: l) = add (f a) (sum f l).
Proof. reflexivity. Qed.
Lemma zrange_in n k : In k (zrange n) -> 0 <= k < n.
Proof. unfold zrange. intros H. apply in_map_iff in H. destruct H as (j & <- & H). apply in_seq in H. lia. Qed.
Lemma sum_ext_in {A} (f g : A -> V) l : (forall a, In a l -> f a = g a) -> sum f l = sum g l.
Proof. induction l; simpl; intros H; auto. rewrite H, IHl; auto. Qed.
Lemma zrange_from j : forall k, map Z.of_nat (seq j k) = map (fun x => Z.of_nat j + Z.of_nat x) (seq 0 k).
Proof.
  induction k as [|k IH]; auto. rewrite !seq_S, !map_app, IH. cbn [map Nat.add]. f_equal. f_equal. lia.
Qed.
Lemma zrange_add n m : 0 <= n -> 0 <= m -> zrange (n + m) = zrange n ++ map (fun k => n + k) (zrange m).
Proof.
  intros Hn Hm. unfold zrange. rewrite Z2Nat.inj_add, seq_app, map_app by auto. f_equal. cbn [Nat.add].
  rewrite zrange_from, Z2Nat.id, map_map by auto. auto.
Qed.
Lemma sum_map {A B} (g : A -> B) (f : B -> V) l : sum f (map g l) = sum (fun a => f (g a)) l.
Proof. induction l; simpl; auto. rewrite IHl; auto. Qed.
Hypothesis RT : ring_theory zero one add mul sub opp (@eq V).
Add Ring VS : RT.
Lemma sum_zero {A} (f : A -> V) l : (forall a, In a l -> f a = zero) -> sum f l = zero.
Proof. induction l; simpl; intros H; auto. rewrite H, IHl by auto. ring. Qed.
Lemma sum_app {A} (f : A -> V) l m : sum f (l ++ m) = add (sum f l) (sum f m).
Proof. induction l; simpl; [ring|]. rewrite IHl. ring. Qed.
Lemma sum_slice (f : Z -> V) n s L : 0 <= s -> 0 <= L -> s + L <= n ->
  (forall k, 0 <= k < n -> ~ s <= k < s + L -> f k = zero) -> sum f (zrange n) = sum (fun k => f (k + s)) (zrange L).
Proof.
  intros H1 H2 H3 H. replace n with (s + (L + (n - s - L))) by lia. rewrite zrange_add by lia. rewrite sum_app, sum_zero.
  2:{ intros k Hk. apply zrange_in in Hk. apply H; lia. }
  rewrite sum_map, zrange_add by lia. rewrite sum_app, (sum_zero _ (map _ _)).
  2:{ intros k Hk. apply in_map_iff in Hk. destruct Hk as (j & <- & Hj). apply zrange_in in Hj. apply H; lia. }
  transitivity (sum (fun k => f (s + k)) (zrange L)); [ring|]. apply sum_ext_in. intros k _. f_equal. lia.
Qed.
End Sums.

(** ** Proofs *)
Section Proofs.
Context {V : Type}.
Variables zero one : V.
Variables add mul sub : V -> V -> V.
Variable opp : V -> V.
Variable mhalf : V.
Variables gtb geb : V -> V -> bool.
Variable iszero : V -> bool.
Variable finite : V -> bool.
Hypothesis RT : ring_theory zero one add mul sub opp (@eq V).
Add Ring VR : RT.
Hypothesis gt_irr : forall a, gtb a a = false.
Hypothesis gt_trans : forall a b c, gtb a b = true -> gtb b c = true -> gtb a c = true.
Hypothesis gt_tri : forall a b, gtb a b = false -> gtb b a = false -> a = b.
Hypothesis iszero_ok : forall a, iszero a = true -> a = zero.

Notation arr := (arr V).
Notation patch := (patch V).
Notation fimg := (@fimg V).
Notation rim := (@rim V).
Notation params := (@params V).
Notation sum := (lsum zero add).
Notation nl := (no_lower gtb).
Notation mv := (moved add mul gtb).
Notation mvs := (moves add mul gtb).
Notation ua := (unit_at zero).
Notation ma := (model_at zero add mul).
Notation step := (step add mul).
Notation asum := (asum zero add).

Lemma gt_asym a b : gtb a b = true -> gtb b a = false.
Proof. intros H. destruct (gtb b a) eqn:E; auto. rewrite <- (gt_irr a). symmetry. apply (gt_trans a b a); auto. Qed.
Lemma pymax_lower m f : pymax gtb m f = nl (Some m) f.
Proof.
  unfold pymax, no_lower. destruct (gtb f m) eqn:E.
  - rewrite (gt_asym _ _ E). auto.
  - destruct (gtb m f) eqn:E2; auto.
Qed.
Lemma pymax_lower' m f : pymax gtb f m = nl (Some m) f.
Proof. reflexivity. Qed.
Lemma no_lower_idem mf f : nl mf (nl mf f) = nl mf f.
Proof.
  unfold no_lower. destruct mf as [m|]; auto. destruct (gtb m f) eqn:E; [rewrite gt_irr|rewrite E]; auto.
Qed.
Lemma no_lower_floor m f : gtb m (nl (Some m) f) = false.
Proof. unfold no_lower. destruct (gtb m f) eqn:E; auto. Qed.


(** *** Rendering *)
Lemma add_umods_spec scale mf : forall fluxes ums m0 m, wf_arr m0 -> (forall um, In um ums -> um_ok um) ->
  add_umods one add mul gtb iszero finite scale mf fluxes ums m0 = Ok m ->
  ah m = ah m0 /\ aw m = aw m0 /\
  forall X Y, 0 <= X < aw m0 -> 0 <= Y < ah m0 ->
    px m Y X = add (px m0 Y X) (sum (fun fu => mul (ua (snd fu) X Y) (mul (nl mf (fst fu)) scale)) (combine fluxes ums)).
Proof.
  induction fluxes as [|f fluxes IH]; intros ums m0 m W U E.
  - simpl in E. injection E as <-. conjs; auto. intros. simpl. ring.
  - destruct ums as [|um ums]; cbn [add_umods] in E.
    + injection E as <-. conjs; auto. intros. simpl. ring.
    + assert (U' : forall um, In um ums -> um_ok um) by (intros; apply U; right; auto).
      cbn [combine]. setoid_rewrite sum_cons. cbn [fst snd].
      assert (SK : (forall X Y, 0 <= X < aw m0 -> 0 <= Y < ah m0 -> mul (ua um X Y) (mul (nl mf f) scale) = zero) ->
        add_umods one add mul gtb iszero finite scale mf fluxes ums m0 = Ok m ->
        ah m = ah m0 /\ aw m = aw m0 /\ forall X Y, 0 <= X < aw m0 -> 0 <= Y < ah m0 ->
          px m Y X = add (px m0 Y X) (add (mul (ua um X Y) (mul (nl mf f) scale))
             (sum (fun fu => mul (ua (snd fu) X Y) (mul (nl mf (fst fu)) scale)) (combine fluxes ums)))).
      { intros Z0 E'. destruct (IH ums m0 m W U' E') as (A & B & C). conjs; auto. intros X Y HX HY. rewrite C, Z0 by auto. ring. }
      destruct um as [p|].
      2:{ apply SK; auto. intros. simpl. ring. }
      destruct (pimg p) as [a|] eqn:EP.
      2:{ apply SK; auto. intros. unfold unit_at, img_at, val_at. rewrite EP. ring. }
      cbv zeta in E.
      assert (EF : match mf with None => f | Some m => pymax gtb f m end = nl mf f) by (destruct mf; auto).
      rewrite EF in E. destruct (iszero (mul (nl mf f) scale)) eqn:EZ.
      { apply SK; auto. intros. rewrite (iszero_ok _ EZ). ring. }
      destruct (negb _ || negb _); [discriminate|].
      destruct (C16_add_to V add mul (pmul mul p (mul (nl mf f) scale)) m0 one) as (m1 & E1 & A1 & B1 & C1); auto.
      { unfold wf_patch, pmul. simpl. rewrite EP. specialize (U (Some p) (or_introl eq_refl)). simpl in U. unfold wf_patch in U.
        rewrite EP in U. exact U. }
      rewrite E1 in E. cbn [bind] in E.
      destruct (IH ums m1 m) as (A & B & C); auto.
      { unfold wf_arr in *. rewrite A1, B1. auto. }
      rewrite A1, B1 in *. conjs; auto. intros X Y HX HY. rewrite C, C1 by auto.
      unfold unit_at at 2; unfold img_at, val_at, pmul. cbn [pimg x0 y0]. rewrite EP. cbn [aw ah amap px].
      destruct (_ && _); ring.
Qed.

Lemma add_umods_floor scale mf : forall fluxes ums m0,
  add_umods one add mul gtb iszero finite scale mf (map (nl mf) fluxes) ums m0 =
  add_umods one add mul gtb iszero finite scale mf fluxes ums m0.
Proof.
  induction fluxes as [|f fluxes IH]; intros ums m0; auto. destruct ums as [|um ums]; auto. cbn [map add_umods].
  destruct um as [p|]; auto. destruct (pimg p); auto.
  assert (EF : match mf with None => nl mf f | Some m => pymax gtb (nl mf f) m end = match mf with None => f | Some m => pymax gtb f m end).
  { destruct mf as [m|]; auto. apply (no_lower_idem (Some m)). }
  rewrite EF. cbv zeta. destruct (iszero _); auto. destruct (negb _ || negb _); auto.
  destruct (add_to _ _ _ _ _); cbn [bind]; auto.
Qed.

Notation getim := (getim one add mul sub gtb iszero finite).
Notation getims := (getims zero one add mul sub gtb iszero finite).

Lemma getims_floor mf fluxes : forall is sky, getims (map (nl mf) fluxes) is sky mf = getims fluxes is sky mf.
Proof.
  induction is as [|i is IH]; intros sky; auto. cbn [ForcedModel.getims].
  assert (E : forall s, getim (map (nl mf) fluxes) i s mf = getim fluxes i s mf).
  { intros s. unfold ForcedModel.getim. rewrite add_umods_floor. auto. }
  rewrite E. destruct (getim fluxes i _ mf); cbn [bind]; auto. rewrite IH. auto.
Qed.

Lemma azip_spec f a b c : azip f (a : arr) b = Ok c -> ah c = ah a /\ aw c = aw a /\ forall y x, px c y x = f (px a y x) (px b y x).
Proof. unfold azip. destruct (same_shape a b); [|discriminate]. intros E. injection E as <-. auto. Qed.

(** The rendered model is the frozen sources plus the sky level plus each
    source with its flux, raised to the minimum flux; chi is (data - model) /
    error.  Without a region. *)
Theorem C37_rendered : forall fluxes i s mf r,
  fimg_ok i -> fi_roi i = None -> getim fluxes i s mf = Ok r ->
  ah (ri_mod r) = ah (fi_m0 i) /\ aw (ri_mod r) = aw (fi_m0 i) /\
  (forall X Y, 0 <= X < aw (fi_m0 i) -> 0 <= Y < ah (fi_m0 i) ->
    px (ri_mod r) Y X = ma i (map (nl mf) fluxes) (match s with Some v => v | None => zero end) X Y /\
    px (ri_chi r) Y X = mul (sub (px (fi_im i) Y X) (px (ri_mod r) Y X)) (px (fi_ie i) Y X)) /\
  forall m f, mf = Some m -> In f (map (nl mf) fluxes) -> gtb m f = false.
Proof.
  intros fluxes i s mf r (W1 & W2 & U) HR E. unfold ForcedModel.getim in E. rewrite HR in E.
  destruct (negb _) in E; [discriminate|]. cbv zeta in E.
  set (m0 := match s with None => fi_m0 i | Some s => amap (fun v => if iszero s then v else add v s) (fi_m0 i) end) in *.
  destruct (negb (afinite finite m0)); [discriminate|].
  apply bind_ok in E. destruct E as (m & E1 & E). apply bind_ok in E. destruct E as (d & E2 & E). apply bind_ok in E. destruct E as (chi & E3 & E).
  destruct (negb _) in E; [discriminate|]. injection E as <-. cbn [ri_mod ri_chi].
  assert (S0 : ah m0 = ah (fi_m0 i) /\ aw m0 = aw (fi_m0 i)) by (unfold m0; destruct s; auto). destruct S0 as [S1 S2].
  destruct (add_umods_spec (fi_scale i) mf fluxes (fi_um i) m0 m) as (A & B & C); auto.
  { unfold wf_arr. rewrite S1, S2. auto. }
  rewrite S1, S2 in *. destruct (azip_spec _ _ _ _ E2) as (_ & _ & D1). destruct (azip_spec _ _ _ _ E3) as (_ & _ & D2).
  split; [auto|]. split; [auto|]. split.
  - intros X Y HX HY. split.
    + rewrite C by auto. unfold model_at. f_equal.
      * unfold m0. destruct s as [v|]; [|ring]. cbn [amap px]. destruct (iszero v) eqn:EZ; auto. rewrite (iszero_ok _ EZ). ring.
      * generalize (fi_um i). clear. induction fluxes as [|f fl IH]; intros ums; auto. destruct ums; auto. cbn [map combine lsum fold_right fst snd].
        f_equal. apply IH.
    + rewrite D2, D1. auto.
  - intros m1 f -> Hf. apply in_map_iff in Hf. destruct Hf as (f0 & <- & _). apply no_lower_floor.
Qed.

(** *** The line search *)
Variable images : list fimg.
Variable sky : bool.
Variable minFlux : option V.
Variable logprior : option (params -> V).
Variable direction : V -> params -> option (list arr) -> res (option (list V)).
Variables damp damp_init ten damp_max mindlnp : V.
Variable user_alphas : option (list V).
Variable default_alphas : list V.
Notation lnp_at := (lnp_at zero one add mul sub mhalf gtb iszero finite images sky minFlux logprior).
Notation search := (search zero one add mul sub mhalf gtb iszero finite images sky minFlux logprior).
Notation pass := (pass zero one add mul sub mhalf gtb geb iszero finite images sky minFlux logprior direction damp ten damp_max mindlnp user_alphas default_alphas).
Notation loop := (loop zero one add mul sub mhalf gtb geb iszero finite images sky minFlux logprior direction damp ten damp_max mindlnp user_alphas default_alphas).
Notation forced := (forced zero one add mul sub mhalf gtb geb iszero finite images sky minFlux logprior direction damp damp_init ten damp_max mindlnp user_alphas default_alphas).
Notation found := (@found V).
Notation wstate := (@wstate V).

Lemma search_spec p0 p0sky X Xsky : forall alphas b b', search p0 p0sky X Xsky alphas b = Ok b' ->
  fl (f_t b') = fl (f_t b) /\
  (sky = false -> sk (f_t b') = sk (f_t b)) /\
  (alphas = [] -> b' = b) /\
  (f_last b' = f_last b \/ exists a, f_last b' = Some a /\ In a alphas) /\
  (alphas <> [] -> exists a, f_last b' = Some a /\ In a alphas /\ (sky = true -> sk (f_t b') = step p0sky a Xsky)) /\
  ((f_lnp b' = f_lnp b /\ f_best b' = f_best b) \/
   exists a ims t, f_best b' = Some (a, ims) /\ In a alphas /\ gtb (f_lnp b') (f_lnp b) = true /\
     lnp_at t (step p0 a X) = Ok (f_lnp b', ims) /\ fl t = fl (f_t b) /\ (sky = true -> sk t = step p0sky a Xsky) /\ (sky = false -> sk t = sk (f_t b))).
Proof.
  induction alphas as [|al alphas IH]; intros b b' E; cbn [ForcedModel.search] in E.
  - injection E as <-. conjs; auto. congruence.
  - apply bind_ok in E. destruct E as ([[lnp ims] t] & E1 & E). unfold probe in E1. apply bind_ok in E1. destruct E1 as ([l1 i1] & E1 & E2).
    injection E2 as -> -> <-.
    set (t := if sky then mkParams (fl (f_t b)) (step p0sky al Xsky) else f_t b) in *.
    assert (T1 : fl t = fl (f_t b)) by (unfold t; destruct sky; auto).
    assert (T2 : sky = true -> sk t = step p0sky al Xsky) by (unfold t; intros ->; auto).
    assert (T3 : sky = false -> sk t = sk (f_t b)) by (unfold t; intros ->; auto).
    assert (STOP : forall bb, bb = mkFound (f_lnp b) (f_best b) (Some al) t -> Ok bb = Ok b' ->
      fl (f_t b') = fl (f_t b) /\ (sky = false -> sk (f_t b') = sk (f_t b)) /\ (al :: alphas = [] -> b' = b) /\
      (f_last b' = f_last b \/ exists a, f_last b' = Some a /\ In a (al :: alphas)) /\
      (al :: alphas <> [] -> exists a, f_last b' = Some a /\ In a (al :: alphas) /\ (sky = true -> sk (f_t b') = step p0sky a Xsky)) /\
      ((f_lnp b' = f_lnp b /\ f_best b' = f_best b) \/
       exists a ims t, f_best b' = Some (a, ims) /\ In a (al :: alphas) /\ gtb (f_lnp b') (f_lnp b) = true /\
         lnp_at t (step p0 a X) = Ok (f_lnp b', ims) /\ fl t = fl (f_t b) /\ (sky = true -> sk t = step p0sky a Xsky) /\ (sky = false -> sk t = sk (f_t b)))).
    { intros bb -> E'. injection E' as <-. cbn [f_t f_last f_lnp f_best]. conjs; auto; try congruence.
      - right. exists al. split; auto. left; auto.
      - intros _. exists al. conjs; auto. left; auto. }
    destruct (gtb (sub (f_lnp b) one) lnp); [eapply STOP; eauto|].
    destruct (negb (finite lnp)); [eapply STOP; eauto|]. clear STOP.
    match type of E with search _ _ _ _ _ ?x = _ => set (b1 := x) in * end.
    assert (B1 : f_t b1 = t /\ f_last b1 = Some al) by (unfold b1; destruct (gtb lnp (f_lnp b)); auto). destruct B1 as [B1 B2].
    destruct (IH b1 b' E) as (H1 & H2 & H3 & H4 & H5 & H6). rewrite B1, B2 in *. conjs.
    + congruence.
    + intros S0. rewrite H2; auto.
    + discriminate.
    + right. destruct H4 as [H4|(a & H4 & H7)]; [exists al; split; auto; left; auto|exists a; split; auto; right; auto].
    + intros _. destruct alphas as [|a2 alphas].
      * rewrite (H3 eq_refl), B1, B2. exists al. conjs; auto. left; auto.
      * destruct H5 as (a & Ha & Hi & Hs); [discriminate|]. exists a. conjs; auto. right; auto.
    + assert (BB : (f_lnp b1 = f_lnp b /\ f_best b1 = f_best b) \/
        (f_best b1 = Some (al, ims) /\ gtb (f_lnp b1) (f_lnp b) = true /\ f_lnp b1 = lnp)).
      { unfold b1. destruct (gtb lnp (f_lnp b)) eqn:EG; [right|left]; auto. }
      destruct H6 as [[H6 H7]|(a & im' & t' & H6 & H7 & H8 & H9 & H10 & H11 & H12)].
      * destruct BB as [[Q1 Q2]|(Q1 & Q2 & Q3)].
        -- left. split; congruence.
        -- right. exists al, ims, t. rewrite H6, H7, Q1. conjs; auto; [left; auto|]. rewrite Q3. auto.
      * right. exists a, im', t'. conjs; auto; try congruence.
        -- right; auto.
        -- destruct BB as [[Q1 Q2]|(Q1 & Q2 & Q3)]; [rewrite <- Q1; auto|]. eapply gt_trans; eauto.
        -- intros S0. rewrite H12; auto.
Qed.

(** One pass, from parameters [w_t w]. *)
Lemma pass_spec w go w' : pass w = Ok (go, w') ->
  (* nothing accepted *)
  (w_t w' = w_t w /\ w_lnp0 w' = w_lnp0 w /\ w_chis0 w' = w_chis0 w /\ w_ims1 w' = w_ims1 w) \/
  (* the fraction a accepted, the fraction last tried last *)
  exists XX a last ims t, direction (w_damping w) (w_t w) (w_chis0 w) = Ok (Some XX) /\
    let nsky := if sky then length (sk (w_t w)) else 0%nat in
    let X := skipn nsky XX in let Xsky := firstn nsky XX in
    length X = length (fl (w_t w)) /\
    fl (w_t w') = map (nl minFlux) (step (fl (w_t w)) a X) /\
    sk (w_t w') = (if sky then step (sk (w_t w)) last Xsky else sk (w_t w)) /\
    lnp_at t (step (fl (w_t w)) a X) = Ok (w_lnp0 w', ims) /\ fl t = fl (w_t w) /\
    sk t = (if sky then step (sk (w_t w)) a Xsky else sk (w_t w)) /\
    gtb (w_lnp0 w') (w_lnp0 w) = true /\ w_ims1 w' = ims /\
    w_chis0 w' = (match ims with None => None | Some l => Some (map ri_chi l) end) /\
    let tried := if match minFlux with None => true | Some m => above add geb (fl (w_t w)) X m end then [one]
                 else match user_alphas with Some l => l | None => default_alphas end in
    In a tried /\ In last tried.
Proof.
  unfold ForcedModel.pass. cbv zeta. intros E. apply bind_ok in E. destruct E as (o & ED & E).
  destruct o as [[|x0 XX0]|].
  1,3: injection E as <- <-; left; auto.
  remember (x0 :: XX0) as XX eqn:EX. clear EX.
  set (nsky := if sky then length (sk (w_t w)) else 0%nat) in *. set (X := skipn nsky XX) in *. set (Xsky := firstn nsky XX) in *.
  destruct (length X =? length (fl (w_t w)))%nat eqn:EL; [|discriminate]. apply Nat.eqb_eq in EL. cbn [negb] in E.
  set (fits := match minFlux with None => true | Some m => above add geb (fl (w_t w)) X m end) in *.
  set (al := if fits then [one] else match user_alphas with Some l => l | None => default_alphas end) in *.
  apply bind_ok in E. destruct E as (b & ES & E).
  match type of E with (if ?c then Ok (false, ?w1) else Ok (?g, ?w1)) = _ => assert (EW : w' = w1) by (destruct c; congruence) end.
  destruct (search_spec _ _ _ _ _ _ _ ES) as (H1 & H2 & H3 & H4 & H5 & H6). cbn [f_t f_last f_lnp f_best] in *.
  destruct H6 as [[H6 H7]|(a & ims & t & H6 & H7 & H8 & H9 & H10 & H11 & H12)].
  - left. rewrite H7 in EW. subst w'. cbn [w_t w_lnp0 w_chis0 w_ims1]. conjs; auto.
    destruct (f_t b) as [f1 s1], (w_t w) as [f0 s0]. cbn [fl sk] in *. destruct sky; [congruence|]. rewrite H1, H2; auto.
  - right. destruct H5 as (la & L1 & L2 & L3); [intros E0; rewrite E0 in H7; destruct H7|].
    exists XX, a, la, ims, t. rewrite H6, L1 in EW. subst w'. cbn [w_t w_lnp0 w_chis0 w_ims1 fl sk]. conjs; auto.
    + destruct minFlux as [m|].
      * apply map_ext. intros f. apply pymax_lower.
      * symmetry. rewrite map_ext with (g := fun x => x) by reflexivity. reflexivity.
    + destruct sky; auto.
    + destruct sky; auto.
Qed.

Lemma pass_go w go w' : pass w = Ok (go, w') ->
  (w_damp0 w' = w_damp0 w \/ w_damp0 w' = mul (w_damp0 w) ten) /\
  (go = true -> gtb mindlnp (sub (w_lnp0 w') (w_lnp0 w)) = false \/
     (w_damp0 w' = mul (w_damp0 w) ten /\ gtb damp_max (w_damp0 w') = true)).
Proof.
  intros E. pose proof (pass_spec _ _ _ E) as PS. revert E. unfold ForcedModel.pass. cbv zeta. intros E. apply bind_ok in E. destruct E as (o & ED & E).
  destruct o as [[|x0 XX0]|].
  1,3: injection E as <- <-; cbn [w_damp0]; split; [left; auto|discriminate].
  remember (x0 :: XX0) as XX eqn:EX. clear EX.
  set (nsky := if sky then length (sk (w_t w)) else 0%nat) in *. set (X := skipn nsky XX) in *. set (Xsky := firstn nsky XX) in *.
  destruct (length X =? length (fl (w_t w)))%nat eqn:EL; [|discriminate]. cbn [negb] in E.
  set (fits := match minFlux with None => true | Some m => above add geb (fl (w_t w)) X m end) in *.
  set (al := if fits then [one] else match user_alphas with Some l => l | None => default_alphas end) in *.
  apply bind_ok in E. destruct E as (b & ES & E).
  set (redamp := negb fits && iszero damp) in *. set (d0 := if redamp then mul (w_damp0 w) ten else w_damp0 w) in *.
  match type of E with (if ?c then Ok (false, ?w1) else Ok (?g, ?w1)) = _ => assert (EW : w' = w1) by (destruct c; congruence); set (cc := c) in * end.
  assert (ED0 : w_damp0 w' = d0) by (subst w'; destruct (f_best b) as [[? ?]|]; auto).
  assert (DL : match f_best b with Some _ => sub (f_lnp b) (w_lnp0 w) | None => zero end = sub (w_lnp0 w') (w_lnp0 w)).
  { subst w'. destruct (f_best b) as [[? ?]|]; cbn [w_lnp0]; auto. ring. }
  rewrite <- DL, ED0. split; [unfold d0; destruct redamp; auto|].
  intros ->. destruct cc eqn:EC; [discriminate|]. unfold cc in EC. apply andb_false_iff in EC. destruct EC as [EC|EC]; [left; auto|].
  right. apply negb_false_iff, andb_prop in EC. destruct EC as [EC1 EC2]. split; auto. unfold d0. rewrite EC1. auto.
Qed.

(** When one fraction is tried at most, or there is no sky. *)
Definition single : Prop := sky = false \/ minFlux = None \/ exists a, user_alphas = Some [a].
Definition tried (a : V) : Prop := a = one \/ In a (match user_alphas with Some l => l | None => default_alphas end).

Lemma pass_moved w go w' : single -> pass w = Ok (go, w') -> w_t w' = w_t w \/
  exists a Xsky X, tried a /\ length X = length (fl (w_t w)) /\ mv minFlux sky (w_t w) a Xsky X (w_t w').
Proof.
  intros SG E. destruct (pass_spec _ _ _ E) as [(A & _)|(XX & a & la & ims & t & _ & P)]; [left; auto|right].
  cbv zeta in P. destruct P as (L & F & S & _ & _ & _ & _ & _ & _ & T1 & T2).
  exists a, (firstn (if sky then length (sk (w_t w)) else 0%nat) XX), (skipn (if sky then length (sk (w_t w)) else 0%nat) XX).
  conjs; auto.
  - unfold tried. destruct (match minFlux with None => true | Some _ => _ end); [left; destruct T1 as [|[]]; auto|right; auto].
  - unfold moved. split; auto. destruct sky eqn:ES; auto.
    assert (EQ : la = a).
    { destruct SG as [SG|[SG|(a0 & SG)]]; [congruence| |].
      - rewrite SG in *. destruct T1 as [|[]], T2 as [|[]]. congruence.
      - rewrite SG in *. destruct (match minFlux with None => true | Some _ => _ end); destruct T1 as [|[]], T2 as [|[]]; congruence. }
    rewrite S, EQ. auto.
Qed.

Lemma loop_moves : single -> forall fuel w w', loop fuel w = Ok (Some w') -> mvs minFlux sky tried (w_t w) (w_t w').
Proof.
  intros SG. induction fuel as [|fuel IH]; intros w w' E; cbn [ForcedModel.loop] in E; [discriminate|].
  apply bind_ok in E. destruct E as ([go w1] & E1 & E).
  assert (M1 : mvs minFlux sky tried (w_t w1) (w_t w')).
  { destruct go; [apply IH; auto|]. injection E as <-. constructor. }
  destruct (pass_moved _ _ _ SG E1) as [Q|(a & Xs & X & T & L & M)]; [rewrite <- Q; auto|].
  eapply moves_step; eauto.
Qed.

(** Sky levels and fluxes always move by the same fraction of the same update,
    if no sky is fitted, there is no minimum flux, or one fraction is tried. *)
Theorem C37_same_step : forall fuel t w, single -> forced fuel t = Ok (Some w) -> mvs minFlux sky tried t (w_t w).
Proof.
  intros fuel t w SG E. unfold ForcedModel.forced in E. apply bind_ok in E. destruct E as ([l0 i0] & E1 & E).
  destruct (negb _); [discriminate|]. apply (loop_moves SG) in E. auto.
Qed.

(** In general: fluxes at the best fraction, sky levels at the last fraction
    tried. *)
Theorem C37_sky_last : forall w go w', pass w = Ok (go, w') -> w_t w' = w_t w \/
  exists a last Xsky X, tried a /\ tried last /\ length X = length (fl (w_t w)) /\
    fl (w_t w') = map (nl minFlux) (step (fl (w_t w)) a X) /\
    sk (w_t w') = if sky then step (sk (w_t w)) last Xsky else sk (w_t w).
Proof.
  intros w go w' E. destruct (pass_spec _ _ _ E) as [(A & _)|(XX & a & la & ims & t & _ & P)]; [left; auto|right].
  cbv zeta in P. destruct P as (L & F & S & _ & _ & _ & _ & _ & _ & T1 & T2).
  exists a, la, (firstn (if sky then length (sk (w_t w)) else 0%nat) XX), (skipn (if sky then length (sk (w_t w)) else 0%nat) XX).
  unfold tried. conjs; auto; destruct (match minFlux with None => true | Some _ => _ end); auto;
    [left; destruct T1 as [|[]]; auto|left; destruct T2 as [|[]]; auto].
Qed.

(** The whole step is tried, and nothing else, exactly when it leaves every flux
    at or above the minimum; otherwise the list of fractions is gone through. *)
Theorem C37_fractions : forall w go w', pass w = Ok (go, w') -> w_t w' = w_t w \/
  exists a last Xsky X, length X = length (fl (w_t w)) /\
    fl (w_t w') = map (nl minFlux) (step (fl (w_t w)) a X) /\
    sk (w_t w') = (if sky then step (sk (w_t w)) last Xsky else sk (w_t w)) /\
    let stays := forall m, minFlux = Some m -> Forall2 (fun f x => geb (add f x) m = true) (fl (w_t w)) X in
    (stays -> a = one /\ last = one) /\
    (~ stays -> let l := match user_alphas with Some l => l | None => default_alphas end in In a l /\ In last l).
Proof.
  intros w go w' E. destruct (pass_spec _ _ _ E) as [(A & _)|(XX & a & la & ims & t & _ & P)]; [left; auto|right].
  cbv zeta in P. destruct P as (L & F & S & _ & _ & _ & _ & _ & _ & T1 & T2).
  exists a, la, (firstn (if sky then length (sk (w_t w)) else 0%nat) XX), (skipn (if sky then length (sk (w_t w)) else 0%nat) XX).
  set (X := skipn _ XX) in *. cbv zeta.
  assert (AB : forall m l l', length l' = length l -> above add geb l l' m = true <-> Forall2 (fun f x => geb (add f x) m = true) l l').
  { intros m. unfold above. induction l as [|f l IH]; intros [|x l'] E0; try discriminate; cbn [combine forallb fst snd].
    - split; auto.
    - rewrite andb_true_iff, IH by (cbn in E0; lia). split; [intros [? ?]; constructor; auto|inversion 1; auto]. }
  conjs; auto; destruct minFlux as [m|].
  - intros HS. rewrite (proj2 (AB m _ _ L) (HS m eq_refl)) in *. destruct T1 as [|[]], T2 as [|[]]. auto.
  - intros _. destruct T1 as [|[]], T2 as [|[]]. auto.
  - intros HS. destruct (above add geb (fl (w_t w)) X m) eqn:EA; auto. exfalso. apply HS. intros m' [= <-]. apply AB; auto.
  - intros HS. exfalso. apply HS. discriminate.
Qed.

(** The fluxes put in the catalog are not below the minimum. *)
Theorem C37_floor : forall fuel t w m, minFlux = Some m -> forced fuel t = Ok (Some w) ->
  fl (w_t w) = fl t \/ forall f, In f (fl (w_t w)) -> gtb m f = false.
Proof.
  intros fuel t w m HM E. unfold ForcedModel.forced in E. apply bind_ok in E. destruct E as ([l0 i0] & E1 & E).
  destruct (negb _); [discriminate|]. clear E1.
  match type of E with loop _ ?x = _ => set (w0 := x) in * end.
  assert (P0 : fl (w_t w0) = fl t \/ forall f, In f (fl (w_t w0)) -> gtb m f = false) by (left; auto).
  clearbody w0. revert w0 E P0. induction fuel as [|fuel IH]; intros w0 E P0; cbn [ForcedModel.loop] in E; [discriminate|].
  apply bind_ok in E. destruct E as ([go w1] & E1 & E).
  assert (P1 : fl (w_t w1) = fl t \/ forall f, In f (fl (w_t w1)) -> gtb m f = false).
  { destruct (C37_sky_last _ _ _ E1) as [->|(a & la & Xs & X & _ & _ & _ & F & _)]; auto.
    right. rewrite F, HM. intros f Hf. apply in_map_iff in Hf. destruct Hf as (f0 & <- & _). apply no_lower_floor. }
  destruct go; [eapply IH; eauto|]. injection E as <-. auto.
Qed.

(** *** The log-likelihood *)
Notation LL := (log_like zero add mul gtb sub mhalf images minFlux sky).
Definition images_ok : Prop := forall i, In i images -> fimg_ok i /\ fi_roi i = None.


Lemma getims_chi2 pa : forall is skies ims, (forall i, In i is -> fimg_ok i /\ fi_roi i = None) ->
  getims pa is skies minFlux = Ok ims ->
  chisq zero add mul ims = chi2 zero add mul sub is (map (nl minFlux) pa) (match skies with Some l => l | None => [] end).
Proof.
  induction is as [|i is IH]; intros skies ims HI E; cbn [ForcedModel.getims] in E.
  - injection E as <-. auto.
  - apply bind_ok in E. destruct E as (r & E1 & E). apply bind_ok in E. destruct E as (rs & E2 & E). injection E as <-.
    destruct (HI i (or_introl eq_refl)) as [I1 I2].
    unfold chisq. rewrite sum_cons. cbn [chi2]. f_equal.
    + destruct (C37_rendered _ _ _ _ _ I1 I2 E1) as (S1 & S2 & P & _).
      assert (SH : ah (ri_chi r) = ah (fi_im i) /\ aw (ri_chi r) = aw (fi_im i) /\ ah (fi_im i) = ah (ri_mod r) /\ aw (fi_im i) = aw (ri_mod r)).
      { revert E1. unfold ForcedModel.getim. rewrite I2. destruct (negb _); [discriminate|]. cbv zeta. destruct (negb _); [discriminate|].
        intros E. apply bind_ok in E. destruct E as (m & _ & E). apply bind_ok in E. destruct E as (d & Ea & E). apply bind_ok in E. destruct E as (c & Eb & E).
        destruct (negb _); [discriminate|]. injection E as <-. cbn [ri_chi ri_mod].
        destruct (azip_spec _ _ _ _ Ea) as (Q1 & Q2 & _), (azip_spec _ _ _ _ Eb) as (Q3 & Q4 & _).
        unfold azip, same_shape in Ea. destruct (_ && _) eqn:EA in Ea; [|discriminate]. apply andb_prop in EA. destruct EA as [EA1 EA2].
        apply Z.eqb_eq in EA1, EA2. conjs; congruence. }
      destruct SH as (H1 & H2 & H3 & H4). unfold ForcedModel.asum, amap. cbn [ah aw px]. rewrite H1, H2.
      assert (ES : match skies with Some l => Some (nth 0 l zero) | None => None end = match skies with Some l => Some (hd zero l) | None => None end).
      { destruct skies as [[|? ?]|]; auto. }
      rewrite ES in P.
      apply sum_ext_in. intros Y HY. apply zrange_in in HY. apply sum_ext_in. intros X HX. apply zrange_in in HX.
      destruct (P X Y) as [P1 P2]; [congruence|congruence|]. rewrite P2, P1. unfold chi_at.
      destruct skies as [l|]; auto.
    + change (sum (fun r0 => asum (amap (fun v => mul v v) (ri_chi r0))) rs) with (chisq zero add mul rs).
      rewrite (IH _ _ (fun j Hj => HI j (or_intror Hj)) E2). destruct skies; auto.
Qed.

Lemma lnp_at_like t pa l ims : logprior = None -> images_ok -> lnp_at t pa = Ok (l, ims) -> l = LL (mkParams pa (sk t)) /\ ims <> None.
Proof.
  intros HP HI E. unfold ForcedModel.lnp_at in E. rewrite HP in E. cbv zeta iota in E. apply bind_ok in E. destruct E as (im & E1 & E).
  injection E as <- <-. split; [|discriminate]. unfold log_like. cbn [fl sk]. rewrite (getims_chi2 _ _ _ _ HI E1). destruct sky; ring.
Qed.
Lemma lnp_at_again t t' pa r : logprior = None -> sk t = sk t' -> lnp_at t pa = Ok r -> lnp_at t' (map (nl minFlux) pa) = Ok r.
Proof. intros HP HS. unfold ForcedModel.lnp_at. rewrite HP, HS, getims_floor. auto. Qed.

Definition inv (w : wstate) : Prop := exists ims, lnp_at (w_t w) (fl (w_t w)) = Ok (w_lnp0 w, ims) /\
  w_chis0 w = (match ims with None => None | Some l => Some (map ri_chi l) end) /\ (w_ims1 w = None \/ w_ims1 w = ims).
Lemma pass_inv w go w' : logprior = None -> single -> pass w = Ok (go, w') -> inv w -> inv w' /\ gtb (w_lnp0 w) (w_lnp0 w') = false /\
  ((w_t w' = w_t w /\ w_lnp0 w' = w_lnp0 w /\ w_ims1 w' = w_ims1 w) \/ (w_ims1 w' <> None /\ gtb (w_lnp0 w') (w_lnp0 w) = true)).
Proof.
  intros HP SG E (ims & I1 & I2 & I3).
  destruct (pass_spec _ _ _ E) as [(A & B & C & D)|(XX & a & la & im' & t & _ & P)].
  - conjs; [|rewrite B; apply gt_irr|left; auto]. exists ims. rewrite A, B, C, D. auto.
  - cbv zeta in P. destruct P as (L & F & S & L1 & T1 & T2 & G & K1 & K2 & R1 & R2).
    assert (EQ : sky = false \/ la = a).
    { destruct SG as [SG|[SG|(a0 & SG)]]; [auto| |]; right.
      - rewrite SG in R1, R2. destruct R1 as [|[]], R2 as [|[]]. congruence.
      - rewrite SG in R1, R2. destruct (match minFlux with None => true | Some _ => _ end); destruct R1 as [|[]], R2 as [|[]]; congruence. }
    conjs.
    + exists im'. conjs; auto. rewrite F. eapply lnp_at_again; [auto| |exact L1]. rewrite T2, S. destruct EQ as [-> | ->]; auto.
    + apply gt_asym; auto.
    + right. split; auto. rewrite K1. unfold ForcedModel.lnp_at in L1. rewrite HP in L1. cbv zeta iota in L1.
      apply bind_ok in L1. destruct L1 as (? & _ & L1). injection L1 as _ <-. discriminate.
Qed.

(** Under the same conditions, without priors: the likelihood does not get
    worse, improves if ims1 is reported, and ims1 shows the final parameters. *)
Theorem C37_never_worse : forall fuel t w, logprior = None -> single -> images_ok ->
  forced fuel t = Ok (Some w) ->
  w_lnp0 w = LL (w_t w) /\ gtb (LL t) (LL (w_t w)) = false /\
  (w_ims1 w = None -> w_t w = t) /\
  (forall ims, w_ims1 w = Some ims -> gtb (LL (w_t w)) (LL t) = true /\
     getims (fl (w_t w)) images (if sky then Some (sk (w_t w)) else None) minFlux = Ok ims).
Proof.
  intros fuel t w HP SG HI E. unfold ForcedModel.forced in E. apply bind_ok in E. destruct E as ([l0 i0] & E1 & E).
  destruct (negb _); [discriminate|].
  match type of E with loop _ ?x = _ => set (w0 := x) in * end.
  assert (I0 : inv w0) by (exists i0; unfold w0; cbn [w_t w_lnp0 w_chis0 w_ims1]; auto).
  assert (Q0 : gtb (w_lnp0 w0) (w_lnp0 w0) = false /\ (w_ims1 w0 = None -> w_t w0 = t) /\ (w_ims1 w0 <> None -> gtb (w_lnp0 w0) l0 = true) /\ gtb l0 (w_lnp0 w0) = false).
  { unfold w0. cbn [w_lnp0 w_ims1 w_t]. conjs; auto; congruence. }
  destruct Q0 as (_ & Q1 & Q2 & Q3). destruct (lnp_at_like _ _ _ _ HP HI E1) as [L0 _].
  assert (EP : forall p : params, mkParams (fl p) (sk p) = p) by (intros []; auto). rewrite EP in L0. clear E1.
  clearbody w0. revert w0 E I0 Q1 Q2 Q3. induction fuel as [|fuel IH]; intros w0 E I0 Q1 Q2 Q3; cbn [ForcedModel.loop] in E; [discriminate|].
  apply bind_ok in E. destruct E as ([go w1] & E1 & E).
  destruct (pass_inv _ _ _ HP SG E1 I0) as (I1 & G & C).
  assert (R : (w_ims1 w1 = None -> w_t w1 = t) /\ (w_ims1 w1 <> None -> gtb (w_lnp0 w1) l0 = true) /\ gtb l0 (w_lnp0 w1) = false).
  { destruct C as [(C1 & C2 & C3)|[C1 C2]]; [rewrite C1, C2, C3; auto|].
    assert (GG : gtb (w_lnp0 w1) l0 = true).
    { destruct (gtb (w_lnp0 w0) l0) eqn:EG; [apply (gt_trans _ _ _ C2 EG)|]. rewrite (gt_tri _ _ Q3 EG). auto. }
    conjs; auto; [tauto|apply gt_asym; auto]. }
  destruct R as (R1 & R2 & R3). destruct go; [eapply IH; eauto|]. injection E as <-.
  destruct I1 as (ims & J1 & J2 & J3). destruct (lnp_at_like _ _ _ _ HP HI J1) as [L1 N1]. rewrite EP in L1.
  rewrite <- L0, <- L1. conjs; auto. intros x Hx. split; [apply R2; congruence|].
  unfold ForcedModel.lnp_at in J1. rewrite HP in J1. cbv zeta iota in J1. apply bind_ok in J1. destruct J1 as (im & J1 & J4). injection J4 as _ J4.
  destruct J3 as [J3|J3]; congruence.
Qed.

(** Without a minimum flux the whole update is taken, or nothing; the loop ends
    after one pass. *)
Theorem C37_no_minimum : forall fuel t w, minFlux = None -> forced fuel t = Ok (Some w) ->
  w_t w = t \/ exists XX X Xsky, XX = Xsky ++ X /\ length X = length (fl t) /\ (exists c, direction damp t c = Ok (Some XX)) /\
    fl (w_t w) = map (fun pd => add (fst pd) (snd pd)) (combine (fl t) X) /\
    sk (w_t w) = if sky then map (fun pd => add (fst pd) (snd pd)) (combine (sk t) Xsky) else sk t.
Proof.
  intros fuel t w HM E. unfold ForcedModel.forced in E. apply bind_ok in E. destruct E as ([l0 i0] & E1 & E).
  destruct (negb _); [discriminate|]. destruct fuel as [|fuel]; [discriminate|]. cbn [ForcedModel.loop] in E.
  apply bind_ok in E. destruct E as ([go w1] & E2 & E).
  assert (GO : go = false).
  { revert E2. unfold ForcedModel.pass. cbv zeta. rewrite HM. intros Q. apply bind_ok in Q. destruct Q as (o & _ & Q).
    destruct o as [[|x0 XX0]|]; try congruence. destruct (negb _); [discriminate|]. apply bind_ok in Q. destruct Q as (b & _ & Q).
    cbn [negb andb] in Q. destruct (gtb _ _ && _); congruence. }
  subst go. injection E as <-.
  destruct (pass_spec _ _ _ E2) as [(A & _)|(XX & a & la & ims & t' & D & P)]; [left; auto|right].
  cbv zeta in P. cbn [w_t w_damping] in *. destruct P as (L & F & S & _ & _ & _ & _ & _ & _ & T1 & T2).
  rewrite HM in *. destruct T1 as [<-|[]], T2 as [<-|[]].
  assert (ST : forall p d, step p one d = map (fun pd => add (fst pd) (snd pd)) (combine p d)).
  { intros p d. unfold ForcedModel.step. apply map_ext. intros. ring. }
  rewrite !ST in *. exists XX, (skipn (if sky then length (sk t) else 0%nat) XX), (firstn (if sky then length (sk t) else 0%nat) XX).
  conjs; auto; [symmetry; apply firstn_skipn|eauto|].
  rewrite F. rewrite map_ext with (g := fun x => x) by reflexivity. apply map_id.
Qed.
Theorem C37_one_pass : forall fuel t, minFlux = None -> forced (S fuel) t <> Ok None.
Proof.
  intros fuel t HM E. unfold ForcedModel.forced in E. apply bind_ok in E. destruct E as ([l0 i0] & E1 & E).
  destruct (negb _); [discriminate|]. cbn [ForcedModel.loop] in E. apply bind_ok in E. destruct E as ([go w1] & E2 & E).
  revert E2. unfold ForcedModel.pass. cbv zeta. rewrite HM. intros Q. apply bind_ok in Q. destruct Q as (o & _ & Q).
  destruct go; [|discriminate].
  destruct o as [[|x0 XX0]|]; try congruence. destruct (negb _); [discriminate|]. apply bind_ok in Q. destruct Q as (b & _ & Q).
  cbn [negb andb] in Q. destruct (gtb _ _ && _); congruence.
Qed.

(** *** Inverse variances *)


(** The slice of one axis: [x] start of the patch, [w] its width, [n] the width
    of the image. *)
Lemma slice_covers x w n : 0 <= n -> 0 <= w ->
  let s := mkSl (if x <? 0 then 0 else x) ((if x <? 0 then 0 else x) + (if x <? 0 then w + x else w)) in
  0 <= sl_start n s /\ 0 <= sl_len n s /\ sl_start n s + sl_len n s <= n /\
  forall k, 0 <= k < n -> x <= k < x + w -> sl_start n s <= k < sl_start n s + sl_len n s.
Proof.
  intros Hn Hw s. unfold sl_start, sl_len, norm_idx, s. cbn [sstart sstop].
  destruct (Z.ltb_spec x 0); cbn [sstart sstop];
    repeat match goal with |- context [?a <? ?b] => destruct (Z.ltb_spec a b) end; conjs; try (intros); lia.
Qed.

(** The sum over a whole image. *)
Definition whole_sum (a : arr) (f : Z -> Z -> V) : V := sum (fun Y => sum (fun X => f X Y) (zrange (aw a))) (zrange (ah a)).

Lemma iv_image_spec scale ie : wf_arr ie -> forall ums mm, (forall um, In um ums -> um_ok um) ->
  ah mm = ah ie -> aw mm = aw ie -> (forall Y X, 0 <= Y < ah ie -> 0 <= X < aw ie -> px mm Y X = zero) ->
  exists r, iv_image zero one add mul scale ie ums mm = Ok r /\ length r = length ums /\
    forall k um, nth_error ums k = Some um ->
      nth k r zero = whole_sum ie (fun X Y => let d := mul (mul (ua um X Y) scale) (px ie Y X) in mul d d).
Proof.
  intros WI. induction ums as [|um ums IH]; intros mm U H1 H2 H0; cbn [iv_image].
  - exists []. conjs; auto. intros [|k] ? E; discriminate.
  - assert (U' : forall um, In um ums -> um_ok um) by (intros; apply U; right; auto).
    destruct um as [p|].
    + assert (WP : wf_patch p) by apply (U (Some p) (or_introl eq_refl)).
      assert (WM : wf_arr mm) by (unfold wf_arr in *; rewrite H1, H2; auto).
      destruct (C16_add_to V add mul p mm one WP WM) as (m1 & E1 & A1 & B1 & C1). rewrite E1. cbn [bind].
      destruct (pshape p) as [uh uw] eqn:ES.
      assert (SH : 0 <= uh /\ 0 <= uw /\ (pimg p = None -> True) /\ forall X Y, val_at p X Y <> None -> x0 p <= X < x0 p + uw /\ y0 p <= Y < y0 p + uh).
      { unfold pshape in ES. unfold wf_patch in WP. unfold val_at. destruct (pimg p) as [a|]; injection ES as <- <-.
        - destruct WP. conjs; auto. intros X Y HV. destruct (_ && _) eqn:EB in HV; [|congruence].
          repeat (apply andb_prop in EB; destruct EB as [EB ?]). lia.
        - conjs; auto; try lia. congruence. }
      destruct SH as (S1 & S2 & _ & S3).
      assert (EX : (if x0 p <? 0 then (0, uw + x0 p) else (x0 p, uw)) = ((if x0 p <? 0 then 0 else x0 p), (if x0 p <? 0 then uw + x0 p else uw))) by (destruct (x0 p <? 0); auto).
      assert (EY : (if y0 p <? 0 then (0, uh + y0 p) else (y0 p, uh)) = ((if y0 p <? 0 then 0 else y0 p), (if y0 p <? 0 then uh + y0 p else uh))) by (destruct (y0 p <? 0); auto).
      rewrite EX, EY. cbv zeta.
      pose proof (slice_covers (x0 p) uw (aw ie) (proj2 WI) S2) as CX. pose proof (slice_covers (y0 p) uh (ah ie) (proj1 WI) S1) as CY. cbv zeta in CX, CY.
      set (xs := mkSl _ (_ + (if x0 p <? 0 then _ else _))) in *. set (ys := mkSl _ (_ + (if y0 p <? 0 then _ else _))) in *.
      destruct CX as (X1 & X2 & X3 & X4), CY as (Y1 & Y2 & Y3 & Y4).
      rewrite H1 in A1. rewrite H2 in B1. rewrite H1, H2 in C1.
      assert (M1 : forall Y X, 0 <= Y < ah ie -> 0 <= X < aw ie -> px m1 Y X = ua (Some p) X Y).
      { intros Y X HY HX. rewrite C1 by auto. unfold unit_at, img_at. rewrite H0 by auto. destruct (val_at p X Y); ring. }
      assert (M2 : forall Y X, 0 <= Y < ah ie -> 0 <= X < aw ie -> ~ (sl_start (ah ie) ys <= Y < sl_start (ah ie) ys + sl_len (ah ie) ys /\ sl_start (aw ie) xs <= X < sl_start (aw ie) xs + sl_len (aw ie) xs) -> ua (Some p) X Y = zero).
      { intros Y X HY HX HN. unfold unit_at, img_at. destruct (val_at p X Y) eqn:EV; auto. exfalso. apply HN.
        destruct (S3 X Y) as [K1 K2]; [congruence|]. split; auto. }
      match goal with |- context [azip mul ?a ?b] => assert (AZ : azip mul a b = Ok (mkArr (sl_len (ah ie) ys) (sl_len (aw ie) xs)
        (fun y x => mul (mul (px m1 (y + sl_start (ah ie) ys) (x + sl_start (aw ie) xs)) scale) (px ie (y + sl_start (ah ie) ys) (x + sl_start (aw ie) xs))))) end.
      { unfold azip, same_shape, amap, asub. cbn [ah aw px]. rewrite A1, B1, !Z.eqb_refl. reflexivity. }
      rewrite AZ. cbn [bind]. clear AZ.
      match goal with |- context [aupd ?f ?a ?b ?c ?d] => destruct (aupd f a b c d) as [mm2|] eqn:AU end.
      2:{ exfalso. revert AU. unfold aupd, amap, asub. cbn [ah aw px]. rewrite !Z.eqb_refl. discriminate. }
      cbn [bind].
      assert (AU' : ah mm2 = ah ie /\ aw mm2 = aw ie /\ forall Y X, 0 <= Y < ah ie -> 0 <= X < aw ie -> px mm2 Y X = zero).
      { revert AU. unfold aupd, amap, asub. cbn [ah aw px]. rewrite A1, B1, !Z.eqb_refl. cbn [andb]. intros [= <-]. cbn [ah aw px]. conjs; auto.
        intros Y X HY HX. cbv zeta. destruct (_ && _) eqn:EB; auto.
        rewrite M1 by auto. apply M2; auto. intros [K1 K2]. revert EB.
        repeat match goal with |- context [?a <=? ?b] => destruct (Z.leb_spec a b); try lia | |- context [?a <? ?b] => destruct (Z.ltb_spec a b); try lia end. }
      destruct AU' as (AU1 & AU2 & AU3).
      destruct (IH mm2) as (r & Er & Lr & Nr); auto.
      rewrite Er. cbn [bind]. eexists. split; [reflexivity|]. split; [cbn [length]; congruence|].
      intros [|k] um Hk; cbn [nth_error nth] in *; [|apply Nr; auto]. injection Hk as <-.
      unfold whole_sum, ForcedModel.asum, amap. cbn [ah aw px].
      rewrite (sum_slice zero one add mul sub opp RT _ (ah ie) (sl_start (ah ie) ys) (sl_len (ah ie) ys)); auto.
      * apply sum_ext_in. intros Y HY. apply zrange_in in HY.
        rewrite (sum_slice zero one add mul sub opp RT _ (aw ie) (sl_start (aw ie) xs) (sl_len (aw ie) xs)); auto.
        -- apply sum_ext_in. intros X HX. apply zrange_in in HX. rewrite M1 by lia. auto.
        -- intros X HX HN. cbv zeta. rewrite (M2 (Y + sl_start (ah ie) ys) X) by (auto; lia). ring.
      * intros Y HY HN. apply (sum_zero zero one add mul sub opp RT). intros X HX. apply zrange_in in HX. cbv zeta. rewrite (M2 Y X) by (auto; lia). ring.
    + destruct (IH mm) as (r & Er & Lr & Nr); auto. rewrite Er. cbn [bind]. eexists. split; [reflexivity|]. split; [cbn [length]; congruence|].
      intros [|k] um Hk; cbn [nth_error nth] in *; [|apply Nr; auto]. injection Hk as <-.
      unfold whole_sum. symmetry. apply (sum_zero zero one add mul sub opp RT). intros Y _. apply (sum_zero zero one add mul sub opp RT). intros X _. cbn [unit_at]. ring.
Qed.

Lemma addl_nth : forall iv d k, length iv = length d -> length (addl add iv d) = length iv /\
  ((k < length iv)%nat -> nth k (addl add iv d) zero = add (nth k iv zero) (nth k d zero)).
Proof.
  induction iv as [|a iv IH]; intros [|b d] k H; try discriminate; cbn [addl length].
  - split; auto. lia.
  - destruct (IH d (Nat.pred k)) as [L N]; [auto|]. split; [auto|]. destruct k; cbn [nth Nat.pred] in *; auto. intros. apply N. lia.
Qed.

Lemma iv_images_spec n : forall is iv, (forall i, In i is -> fimg_ok i /\ length (fi_um i) = n) -> length iv = n ->
  exists r, iv_images zero one add mul is iv = Ok r /\ length r = n /\
    forall k, (k < n)%nat -> nth k r zero = add (nth k iv zero) (sum (fun i => whole_sum (fi_ie i) (fun X Y =>
      let d := mul (mul (ua (nth k (fi_um i) None) X Y) (fi_scale i)) (px (fi_ie i) Y X) in mul d d)) is).
Proof.
  induction is as [|i is IH]; intros iv HI HL; cbn [iv_images].
  - exists iv. conjs; auto. intros. cbn. ring.
  - destruct (HI i (or_introl eq_refl)) as [(W1 & W2 & U) L].
    destruct (iv_image_spec (fi_scale i) (fi_ie i) W2 (fi_um i) (mkArr (ah (fi_ie i)) (aw (fi_ie i)) (fun _ _ => zero))) as (d & Ed & Ld & Nd); auto.
    rewrite Ed. cbn [bind].
    destruct (addl_nth iv d 0) as [LA _]; [congruence|].
    destruct (IH (addl add iv d)) as (r & Er & Lr & Nr); [intros; apply HI; right; auto|congruence|].
    exists r. conjs; auto. intros k Hk. rewrite Nr by auto. rewrite sum_cons. destruct (addl_nth iv d k) as [_ NA]; [congruence|].
    rewrite NA by lia. rewrite (Nd k (nth k (fi_um i) None)); [symmetry; apply (Radd_assoc RT)|]. apply nth_error_nth'. lia.
Qed.

(** The reported inverse variance of each flux: the sum over all images and all
    pixels of (unit-flux model x scale x inverse error)^2, whatever part of
    the unit-flux models lies in the images. *)
Theorem C38_iv : forall is n fit_sky skyvariance, fit_sky && skyvariance = false ->
  (forall i, In i is -> fimg_ok i /\ length (fi_um i) = n) ->
  exists r, get_iv zero one add mul fit_sky skyvariance is n = Ok r /\ length r = n /\
    forall k, (k < n)%nat -> nth k r zero = sum (fun i => whole_sum (fi_ie i) (fun X Y =>
      let d := mul (mul (ua (nth k (fi_um i) None) X Y) (fi_scale i)) (px (fi_ie i) Y X) in mul d d)) is.
Proof.
  intros is n fs sv HF HI. unfold get_iv. rewrite HF. destruct (iv_images_spec n is (repeat zero n) HI (repeat_length _ _)) as (r & Er & Lr & Nr).
  exists r. conjs; auto. intros k Hk. rewrite Nr by auto. rewrite nth_repeat. apply (Radd_0_l RT).
Qed.
(** Asked for together with the variances of fitted sky levels it always raises. *)
Theorem C38_skyvariance_refuted : forall is n, is <> [] -> get_iv zero one add mul true true is n = Err ValueError.
Proof. intros [|i is] n H; [congruence|auto]. Qed.
End Proofs.

(** ** Termination, over the real numbers *)
Section Termination.
Local Open Scope R_scope.
Definition gtR (a b : R) : bool := if Rlt_dec b a then true else false.
Definition geR (a b : R) : bool := if Rle_dec b a then true else false.
Definition zeroR (a : R) : bool := if Req_EM_T a 0 then true else false.
Lemma gtR_ok a b : gtR a b = true <-> b < a.
Proof. unfold gtR. destruct (Rlt_dec b a); split; auto; intros; congruence || contradiction. Qed.
Lemma gtR_no a b : gtR a b = false <-> a <= b.
Proof. unfold gtR. destruct (Rlt_dec b a); split; auto; intros; try discriminate; lra. Qed.

Variables (finite : R -> bool) (images : list (@fimg R)) (sky : bool) (minFlux : option R)
  (direction : R -> @params R -> option (list (arr R)) -> res (option (list R))).
Variables damp damp_init damp_max mindlnp : R.
Variable user_alphas : option (list R).
Variable default_alphas : list R.
Notation lnp_at := (lnp_at 0 1 Rplus Rmult Rminus (- (1/2)) gtR zeroR finite images sky minFlux None).
Notation pass := (pass 0 1 Rplus Rmult Rminus (- (1/2)) gtR geR zeroR finite images sky minFlux None direction damp 10 damp_max mindlnp user_alphas default_alphas).
Notation loop := (loop 0 1 Rplus Rmult Rminus (- (1/2)) gtR geR zeroR finite images sky minFlux None direction damp 10 damp_max mindlnp user_alphas default_alphas).
Notation forced := (forced 0 1 Rplus Rmult Rminus (- (1/2)) gtR geR zeroR finite images sky minFlux None direction damp damp_init 10 damp_max mindlnp user_alphas default_alphas).

Lemma sumsq_pos {A} (f : A -> R) l : (forall a, 0 <= f a) -> 0 <= lsum 0 Rplus f l.
Proof. intros H. unfold lsum. induction l as [|a l IH]; cbn [fold_right]; [lra|]. specialize (H a). lra. Qed.
Lemma lnp_at_neg t pa l ims : lnp_at t pa = Ok (l, ims) -> l <= 0.
Proof.
  unfold ForcedModel.lnp_at. destruct (getims _ _ _ _ _ _ _ _ _ _ _ _) as [r|e]; cbn [bind]; [|discriminate]. intros [= <- <-].
  assert (0 <= chisq 0 Rplus Rmult r); [|lra].
  unfold chisq. apply sumsq_pos. intros a. unfold ForcedModel.asum. apply sumsq_pos. intros y. apply sumsq_pos. intros x. cbn [amap px]. apply Rle_0_sqr.
Qed.

Lemma loop_ends : 0 < mindlnp -> forall n n1 n2 w, (n1 + n2 = n)%nat -> w_lnp0 w <= 0 -> 0 < w_damp0 w ->
  - w_lnp0 w < INR n1 * mindlnp -> damp_max <= w_damp0 w * 10 ^ n2 -> loop (S n) w <> Ok None.
Proof.
  intros HM. assert (irr : forall a, gtR a a = false) by (intros; apply gtR_no; lra).
  assert (tr : forall a b c, gtR a b = true -> gtR b c = true -> gtR a c = true) by (intros a b c H1 H2; apply gtR_ok in H1, H2; apply gtR_ok; lra).
  assert (tri : forall a b, gtR a b = false -> gtR b a = false -> a = b) by (intros a b H1 H2; apply gtR_no in H1, H2; lra).
  induction n as [|n IH]; intros n1 n2 w HN HL HD H1 H2; cbn [ForcedModel.loop];
    destruct (pass w) as [[go w']|e] eqn:EP; cbn [bind]; try discriminate; destruct go; try discriminate.
  - exfalso. replace n1 with 0%nat in H1 by lia. cbn [INR] in H1. lra.
  - pose proof (pass_go 0 1 Rplus Rmult Rminus Ropp (- (1/2)) gtR geR zeroR finite RTheory irr tr tri images sky minFlux None direction damp 10 damp_max mindlnp user_alphas default_alphas w true w' EP) as [D G].
    specialize (G eq_refl).
    pose proof (pass_spec 0 1 Rplus Rmult Rminus (- (1/2)) gtR geR zeroR finite irr tr tri images sky minFlux None direction damp 10 damp_max mindlnp user_alphas default_alphas w true w' EP) as SP.
    assert (L' : w_lnp0 w' <= 0 /\ w_lnp0 w <= w_lnp0 w').
    { destruct SP as [(_ & -> & _)|(XX & a & la & ims & t & _ & SP)]; [lra|]. cbv zeta in SP.
      destruct SP as (_ & _ & _ & SP & _ & _ & SP2 & _). apply lnp_at_neg in SP. apply gtR_ok in SP2. lra. }
    destruct L' as [L1 L2].
    assert (D' : w_damp0 w <= w_damp0 w') by (destruct D; lra).
    destruct G as [G|[G1 G2]].
    + apply gtR_no in G. destruct n1 as [|n1]; [cbn [INR] in H1; lra|]. rewrite S_INR in H1.
      apply (IH n1 n2); try lia; try lra.
      apply Rle_trans with (1 := H2). apply Rmult_le_compat_r; [apply pow_le; lra|lra].
    + apply gtR_ok in G2. destruct n2 as [|n2]; [cbn [pow] in H2; lra|].
      apply (IH n1 n2); try lia; try lra. rewrite G1. cbn [pow] in H2. lra.
Qed.

(** The loop ends for every input: whatever the update directions are, provided
    the smallest improvement asked for is positive. *)
Theorem C37_terminates : forall t, 0 < mindlnp -> 0 < damp_init -> exists fuel, forced fuel t <> Ok None.
Proof.
  intros t HM HD. unfold ForcedModel.forced. destruct (lnp_at t (fl t)) as [[l ims]|e] eqn:EL.
  2:{ exists 0%nat. discriminate. }
  cbn [bind]. destruct (negb (finite l)); [exists 0%nat; discriminate|].
  assert (HL := lnp_at_neg _ _ _ _ EL).
  assert (N1 : exists n1, - l / mindlnp < INR n1).
  { exists (Z.to_nat (up (- l / mindlnp))). destruct (archimed (- l / mindlnp)) as [A _].
    assert (0 <= - l / mindlnp) by (apply Rmult_le_pos; [lra|apply Rlt_le, Rinv_0_lt_compat; lra]).
    rewrite INR_IZR_INZ, Z2Nat.id; [lra|]. apply le_IZR. lra. }
  destruct N1 as [n1 N1].
  destruct (Pow_x_infinity 10 ltac:(rewrite Rabs_pos_eq; lra) (damp_max / damp_init)) as [n2 N2]. specialize (N2 n2 (Nat.le_refl _)).
  rewrite Rabs_pos_eq in N2 by (apply pow_le; lra).
  exists (S (n1 + n2)). apply (loop_ends HM _ n1 n2); cbn [w_lnp0 w_damp0]; auto.
  - apply (Rmult_lt_compat_r mindlnp) in N1; auto. unfold Rdiv in N1. rewrite Rmult_assoc, Rinv_l, Rmult_1_r in N1; lra.
  - apply Rge_le in N2. apply (Rmult_le_compat_l damp_init) in N2; [|lra]. unfold Rdiv in N2.
    replace (damp_init * (damp_max * / damp_init)) with damp_max in N2; [auto|]. field. lra.
Qed.
End Termination.

(** ** Concrete cases and refutations *)
(** With a region the image's own data are never looked at: [im = ie[roi]]. *)
Theorem C37_roi_data_refuted : forall {V} zero one add mul sub gtb iszero finite mf fluxes (is is' : list (@fimg V)) sky,
  Forall2 (fun i i' => fi_roi i <> None /\ fi_ie i = fi_ie i' /\ fi_m0 i = fi_m0 i' /\ fi_scale i = fi_scale i' /\ fi_roi i = fi_roi i' /\ fi_um i = fi_um i') is is' ->
  getims zero one add mul sub gtb iszero finite fluxes is sky mf = getims zero one add mul sub gtb iszero finite fluxes is' sky mf.
Proof.
  intros V zero one add mul sub gtb iszero finite mf fluxes is is' sky H. revert sky.
  induction H as [|i i' is is' (H1 & H2 & H3 & H4 & H5 & H6) _ IH]; intros sky; auto. cbn [getims]. rewrite IH.
  unfold getim. rewrite H2, H3, H4, H5, H6. destruct (fi_roi i') as [[ys xs]|]; [auto|congruence].
Qed.
(** If no direction is found and there are regions, the tractor is left with the
    sub-images in place of its images. *)
Theorem C37_swapped_refuted : forall {V} zero one add mul sub mhalf gtb geb iszero finite images sky mf pri direction
    damp damp_init ten damp_max mindlnp ua da fuel (t : @params V) lnp ims,
  lnp_at zero one add mul sub mhalf gtb iszero finite images sky mf pri t (fl t) = Ok (lnp, Some ims) -> finite lnp = true ->
  direction damp t (Some (map ri_chi ims)) = Ok None -> (exists i, In i images /\ fi_roi i <> None) ->
  exists w, forced zero one add mul sub mhalf gtb geb iszero finite images sky mf pri direction damp damp_init ten damp_max mindlnp ua da (S fuel) t = Ok (Some w) /\
    w_swapped w = true /\ w_t w = t.
Proof.
  intros V zero one add mul sub mhalf gtb geb iszero finite images sky mf pri direction damp damp_init ten damp_max mindlnp ua da fuel t lnp ims E F D (i & Hi & Hr).
  unfold forced. rewrite E. cbn [bind]. rewrite F. cbn [negb loop]. unfold pass at 1. cbn [w_damping w_t w_chis0]. rewrite D. cbn [bind].
  eexists. split; [reflexivity|]. cbn [w_swapped w_t]. split; auto. apply existsb_exists. exists i. split; auto. destruct (fi_roi i); congruence.
Qed.

Section Cases.
Let q (z : Z) : Qc := Q2Qc (inject_Z z).
Let mh : Qc := Q2Qc (-1 # 2).
Let gtq (a b : Qc) : bool := negb (Qle_bool (this a) (this b)).
Let geq (a b : Qc) : bool := Qle_bool (this b) (this a).
Let zq (a : Qc) : bool := Qeq_bool (this a) 0.
Let fin (_ : Qc) := true.
Let arr_of (h w : Z) (l : list Z) : arr Qc := mkArr h w (fun y x => q (nth (Z.to_nat (y * w + x)) l 0)).
Let img (h w : Z) (d ie : list Z) (sc : Z) (ums : list (option (patch Qc))) : @fimg Qc :=
  mkFimg (arr_of h w d) (arr_of h w ie) (arr_of h w (repeat 0 (Z.to_nat (h * w)))) (q sc) None ums.
Let pt (x y h w : Z) (l : list Z) : option (patch Qc) := Some (mkPatch x y (Some (arr_of h w l))).
Let run images sky mf pri dir damp ua t := forced (q 0) (q 1) Qcplus Qcmult Qcminus mh gtq geq zq fin images sky mf pri dir damp (Q2Qc (1 # 1000)) (q 10) (q 1000) (q 1) ua [q 1] 20 t.
Let LLq images mf sky t := log_like (q 0) Qcplus Qcmult gtq Qcminus mh images mf sky t.
Let c (o : option (list (arr Qc))) (y x : Z) : Qc := match o with Some (a :: _) => px a y x | _ => q 0 end.
Let show (r : res (option (@wstate Qc))) := match r with
  | Ok (Some w) => Ok (Some (map this (fl (w_t w)), map this (sk (w_t w)), this (w_lnp0 w), match w_ims1 w with None => false | _ => true end))
  | Ok None => Ok None | Err e => Err e end.

Ltac okimg := intros i Hi; cbn [In] in Hi; repeat destruct Hi as [<-|Hi]; try destruct Hi; split; auto; unfold fimg_ok, wf_arr; cbn; conjs; try lia;
  intros um Hu; repeat destruct Hu as [<-|Hu]; try destruct Hu; cbn; unfold wf_patch, wf_arr; cbn; auto; lia.

(** Least squares for one source that covers both pixels, [2; 6]: flux 4, the
    log-likelihood goes from -20 to -4. *)
Let i0 := img 1 2 [2; 6] [1; 1] 1 [pt 0 0 1 2 [1; 1]].
Let dir0 (_ : Qc) (_ : @params Qc) (o : option (list (arr Qc))) : res (option (list Qc)) := Ok (Some [((c o 0 0 + c o 0 1) * Q2Qc (1 # 2))%Qc]).
Example i0_ok : images_ok [i0]. Proof. okimg. Qed.
Example run_free : show (run [i0] false None None dir0 (q 0) None (mkParams [q 0] [])) = Ok (Some ([4]%Q, [], (-4)%Q, true)) /\
  this (LLq [i0] None false (mkParams [q 0] [])) = (-20)%Q /\ this (LLq [i0] None false (mkParams [q 4] [])) = (-4)%Q.
Proof. conjs; vm_compute; reflexivity. Qed.
(** With the minimum 5 the flux ends there. *)
Example run_floor : show (run [i0] false (Some (q 5)) None dir0 (q 0) None (mkParams [q 9] [])) = Ok (Some ([5]%Q, [], (-5)%Q, true)).
Proof. vm_compute. reflexivity. Qed.

(** Fluxes already below the minimum stay there if no step is accepted. *)
Let i1 := img 1 1 [0] [1] 1 [pt 0 0 1 1 [1]].
Let dir1 (_ : Qc) (_ : @params Qc) (o : option (list (arr Qc))) : res (option (list Qc)) := Ok (Some [c o 0 0]).
Theorem C37_floor_start_refuted : show (run [i1] false (Some (q 0)) None dir1 (q 0) None (mkParams [q (-5)] [])) = Ok (Some ([-5]%Q, [], 0%Q, false)).
Proof. vm_compute. reflexivity. Qed.

(** The fluxes of the best fraction, the sky levels of the last one: the result
    is worse than the start (-50 against -20), while -2 is reported. *)
Let i2 := img 1 2 [2; 6] [1; 1] 1 [pt 0 0 1 2 [1; 0]].
Let dir2 (_ : Qc) (_ : @params Qc) (o : option (list (arr Qc))) : res (option (list Qc)) := Ok (Some [c o 0 1; (c o 0 0 - c o 0 1)%Qc]).
Example i2_ok : images_ok [i2]. Proof. okimg. Qed.
Theorem C37_sky_refuted : show (run [i2] true (Some (q (-2))) None dir2 (q 0) (Some [q 1; q 2]) (mkParams [q 0] [q 0])) = Ok (Some ([-2]%Q, [12]%Q, (-2)%Q, true)) /\
  this (LLq [i2] (Some (q (-2))) true (mkParams [q 0] [q 0])) = (-20)%Q /\
  this (LLq [i2] (Some (q (-2))) true (mkParams [q (-2)] [q 12])) = (-50)%Q /\
  this (LLq [i2] (Some (q (-2))) true (mkParams [q (-2)] [q 6])) = (-2)%Q.
Proof. conjs; vm_compute; reflexivity. Qed.

(** Priors: the line search evaluates them at the old fluxes, so a step that
    raises the posterior from -2 to -1 is refused. *)
Let i3 := img 1 1 [2] [1] 1 [pt 0 0 1 1 [1]].
Let prior (t : @params Qc) : Qc := match fl t with [f] => (mh * (f * f))%Qc | _ => q 0 end.
Let dir3 (_ : Qc) (t : @params Qc) (o : option (list (arr Qc))) : res (option (list Qc)) :=
  match fl t with [f] => Ok (Some [((c o 0 0 - f) * Q2Qc (1 # 2))%Qc]) | _ => Err ValueError end.
Theorem C37_prior_refuted : show (run [i3] false None (Some prior) dir3 (q 0) None (mkParams [q 2] [])) = Ok (Some ([2]%Q, [], (-2)%Q, false)) /\
  match dir3 (q 0) (mkParams [q 2] []) (Some [arr_of 1 1 [0]]) with Ok (Some X) => map this X | _ => [] end = [-1]%Q /\
  this (LLq [i3] None false (mkParams [q 2] []) + prior (mkParams [q 2] []))%Qc = (-2)%Q /\
  this (LLq [i3] None false (mkParams [q 1] []) + prior (mkParams [q 1] []))%Qc = (-1)%Q.
Proof. conjs; vm_compute; reflexivity. Qed.

(** Inverse variances: two images; a unit-flux model that sticks out at the top
    left, one that covers nothing, one that is missing. *)
Let iv := get_iv (q 0) (q 1) Qcplus Qcmult.
Let i4 := img 2 2 [0; 0; 0; 0] [1; 2; 3; 4] 10 [pt (-1) (-1) 2 2 [9; 9; 9; 2]; None; pt (-5) 0 1 2 [7; 7]].
Let i5 := img 1 1 [0] [1] 1 [pt 0 0 2 2 [3; 9; 9; 9]; pt 0 0 1 1 [5]; None].
Example iv_ok : (forall i, In i [i4; i5] -> fimg_ok i /\ length (fi_um i) = 3%nat).
Proof.
  intros i Hi. cbn [In] in Hi. repeat destruct Hi as [<-|Hi]; try destruct Hi; split; auto; unfold fimg_ok, wf_arr; cbn; conjs; try lia;
  intros um Hu; repeat destruct Hu as [<-|Hu]; try destruct Hu; cbn; unfold wf_patch, wf_arr; cbn; auto; lia.
Qed.
Example iv_run : match iv false false [i4; i5] 3 with Ok l => map this l | _ => [] end = [409; 25; 0]%Q.
Proof. vm_compute. reflexivity. Qed.
End Cases.

Print Assumptions C37_rendered.
Print Assumptions C37_same_step.
Print Assumptions C37_sky_last.
Print Assumptions C37_fractions.
Print Assumptions C37_floor.
Print Assumptions C37_never_worse.
Print Assumptions C37_no_minimum.
Print Assumptions C37_one_pass.
Print Assumptions C38_iv.
Print Assumptions C38_skyvariance_refuted.
Print Assumptions C37_terminates.
Print Assumptions C37_roi_data_refuted.
Print Assumptions C37_swapped_refuted.
Print Assumptions C37_floor_start_refuted.
Print Assumptions C37_sky_refuted.
Print Assumptions C37_prior_refuted.
