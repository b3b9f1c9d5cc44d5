(** C119 for forced photometry: masked pixels have no influence on it. *)
From Coq Require Import List ZArith Bool Lia QArith Qcanon.
From Verif Require Import Base Ext PatchModel ForcedModel.
Import ListNotations.
Open Scope Z_scope.

Section Masked.
Context {V : Type}.
Variables zero one : V.
Variables add mul sub : V -> V -> V.
Variable mhalf : V.
Variables gtb geb : V -> V -> bool.
Variable iszero : V -> bool.
Variable finite : V -> bool.
(** All that is needed of the numbers *)
Hypothesis mul_zero : forall a, mul a zero = zero.
Notation arr := (arr V).
Notation fimg := (@fimg V).
Notation rim := (@rim V).
Notation params := (@params V).

(** ** What is claimed *)
(** The same in all respects but for the data where the inverse error is zero. *)
Definition same_unmasked (i i' : fimg) : Prop :=
  fi_ie i = fi_ie i' /\ fi_m0 i = fi_m0 i' /\ fi_scale i = fi_scale i' /\ fi_roi i = fi_roi i' /\ fi_um i = fi_um i' /\
  ah (fi_im i) = ah (fi_im i') /\ aw (fi_im i) = aw (fi_im i') /\
  forall y x, 0 <= y < ah (fi_im i) -> 0 <= x < aw (fi_im i) -> px (fi_ie i) y x <> zero -> px (fi_im i) y x = px (fi_im i') y x.
Definition aeq (a b : arr) : Prop := ah a = ah b /\ aw a = aw b /\ forall y x, 0 <= y < ah a -> 0 <= x < aw a -> px a y x = px b y x.
Definition opt_rel {A} (R : A -> A -> Prop) (a b : option A) : Prop := match a, b with Some x, Some y => R x y | None, None => True | _, _ => False end.
Definition same_res {A} (R : A -> A -> Prop) (a b : res A) : Prop :=
  match a, b with Ok x, Ok y => R x y | Err e, Err e' => e = e' | _, _ => False end.
(** The same but for the copy of the data in it. *)
Definition same_rim (r r' : rim) : Prop := ri_mod r = ri_mod r' /\ ri_ie r = ri_ie r' /\ aeq (ri_chi r) (ri_chi r').
Definition same_state (w w' : @wstate V) : Prop :=
  w_t w = w_t w' /\ w_lnp0 w = w_lnp0 w' /\ opt_rel (Forall2 aeq) (w_chis0 w) (w_chis0 w') /\
  w_damping w = w_damping w' /\ w_damp0 w = w_damp0 w' /\ opt_rel (Forall2 same_rim) (w_ims1 w) (w_ims1 w') /\ w_swapped w = w_swapped w'.

(** ** Proof *)
Lemma same_bind {A B} (R : A -> A -> Prop) (T : B -> B -> Prop) m m' k k' :
  same_res R m m' -> (forall a b, R a b -> same_res T (k a) (k' b)) -> same_res T (bind m k) (bind m' k').
Proof. destruct m, m'; simpl; try tauto. intros H K. apply K; auto. Qed.
Lemma same_refl {A} (m : res A) : same_res eq m m.
Proof. destruct m; simpl; auto. Qed.
Hypothesis zero_dec : forall a : V, a = zero \/ a <> zero.
Lemma lsum_in {A} (f g : A -> V) l : (forall a, In a l -> f a = g a) -> lsum zero add f l = lsum zero add g l.
Proof.
  unfold lsum. induction l; intros H; auto. cbn [fold_right]. rewrite (H a) by (left; auto).
  rewrite IHl by (intros; apply H; right; auto). reflexivity.
Qed.
Lemma in_zrange n k : In k (zrange n) -> 0 <= k < n.
Proof. unfold zrange. intros H. apply in_map_iff in H as (j & <- & H). apply in_seq in H. lia. Qed.
Lemma asum_same a b : aeq a b -> asum zero add a = asum zero add b.
Proof.
  intros (H & W & P). unfold asum. rewrite <- H, <- W. apply lsum_in. intros y Hy. apply lsum_in. intros x Hx.
  apply P; apply in_zrange; auto.
Qed.
Lemma afinite_same a b : aeq a b -> afinite finite a = afinite finite b.
Proof.
  intros (H & W & P). unfold afinite. rewrite <- H, <- W.
  assert (G : forall {A} (f g : A -> bool) l, (forall a, In a l -> f a = g a) -> forallb f l = forallb g l).
  { induction l; intros E; auto. cbn. rewrite (E a0) by (left; auto). rewrite IHl by (intros; apply E; right; auto). reflexivity. }
  apply G. intros y Hy. apply G. intros x Hx. f_equal. apply P; apply in_zrange; auto.
Qed.
Lemma aeq_refl a : aeq a a.
Proof. unfold aeq; auto. Qed.

Notation getim := (getim one add mul sub gtb iszero finite).
Lemma getim_same fl i i' s mf : same_unmasked i i' -> same_res same_rim (getim fl i s mf) (getim fl i' s mf).
Proof.
  intros (E1 & E2 & E3 & E4 & E5 & H & W & P). unfold ForcedModel.getim. rewrite <- E1, <- E2, <- E3, <- E4, <- E5.
  destruct (negb (afinite finite (fi_m0 i))); [reflexivity|].
  destruct (negb (afinite finite _)); [reflexivity|].
  eapply same_bind; [apply same_refl|]. intros m m' <-.
  destruct (fi_roi i) as [(ys, xs)|].
  - eapply same_bind; [apply same_refl|]. intros d d' <-. eapply same_bind; [apply same_refl|]. intros c c' <-.
    destruct (negb _); [reflexivity|]. repeat split; auto.
  - unfold azip at 1 3. unfold same_shape. rewrite <- H, <- W.
    destruct ((ah (fi_im i) =? ah m) && (aw (fi_im i) =? aw m)); [|reflexivity]. cbn [bind].
    unfold azip. unfold same_shape; cbn [ah aw px]. 
    match goal with |- context [bind (if ?c then _ else _) _] => destruct c; [|reflexivity] end. cbn [bind].
    match goal with |- same_res _ (if negb (afinite finite ?a) then _ else _) (if negb (afinite finite ?b) then _ else _) =>
      assert (G : aeq a b) end.
    { unfold aeq; cbn [ah aw px]. repeat split; auto. intros y x Hy Hx.
      destruct (zero_dec (px (fi_ie i) y x)) as [->|N]; [rewrite !mul_zero; reflexivity|rewrite (P y x); auto]. }
    rewrite <- (afinite_same _ _ G). destruct (negb _); [reflexivity|]. repeat split; auto; apply G.
Qed.
Notation getims := (getims zero one add mul sub gtb iszero finite).
Lemma getims_same fl is is' sky mf : Forall2 same_unmasked is is' -> same_res (Forall2 same_rim) (getims fl is sky mf) (getims fl is' sky mf).
Proof.
  intros F. revert sky. induction F as [|i i' is is' A F IH]; intros sky; cbn [ForcedModel.getims]; [constructor|].
  eapply same_bind; [apply getim_same; auto|]. intros r r' R. eapply same_bind; [apply IH|]. intros l l' L. constructor; auto.
Qed.
Lemma chisq_same l l' : Forall2 same_rim l l' -> chisq zero add mul l = chisq zero add mul l'.
Proof.
  induction 1 as [|r r' l l' (_ & _ & H & W & P) F IH]; auto. cbn. f_equal; [|exact IH].
  apply asum_same. unfold amap, aeq; cbn. repeat split; auto. intros. rewrite P by auto. reflexivity.
Qed.

Variables images images' : list fimg.
Hypothesis ALIKE : Forall2 same_unmasked images images'.
Variable sky : bool.
Variable minFlux : option V.
Variable logprior : option (params -> V).
Variable direction : V -> params -> option (list arr) -> res (option (list V)).
(** The direction is found from the values of the chi images. *)
Hypothesis on_values : forall d t c c', opt_rel (Forall2 aeq) c c' -> direction d t c = direction d t c'.
Variables damp damp_init ten damp_max mindlnp : V.
Variable user_alphas : option (list V).
Variable default_alphas : list V.
Notation lnp_at ims := (lnp_at zero one add mul sub mhalf gtb iszero finite ims sky minFlux logprior).
Notation probe ims := (probe zero one add mul sub mhalf gtb iszero finite ims sky minFlux logprior).
Notation search ims := (search zero one add mul sub mhalf gtb iszero finite ims sky minFlux logprior).
Notation pass ims := (pass zero one add mul sub mhalf gtb geb iszero finite ims sky minFlux logprior direction damp ten damp_max mindlnp user_alphas default_alphas).
Notation loop ims := (loop zero one add mul sub mhalf gtb geb iszero finite ims sky minFlux logprior direction damp ten damp_max mindlnp user_alphas default_alphas).
Notation forced ims := (forced zero one add mul sub mhalf gtb geb iszero finite ims sky minFlux logprior direction damp damp_init ten damp_max mindlnp user_alphas default_alphas).

Lemma lnp_same t pa : same_res (fun a b => fst a = fst b /\ opt_rel (Forall2 same_rim) (snd a) (snd b)) (lnp_at images t pa) (lnp_at images' t pa).
Proof.
  unfold ForcedModel.lnp_at. destruct (match logprior with None => false | Some _ => _ end); [simpl; auto|].
  eapply same_bind; [apply getims_same; apply ALIKE|]. intros l l' L. simpl. rewrite (chisq_same l l' L). auto.
Qed.
Lemma probe_same t p0 p0sky X Xsky alpha :
  same_res (fun a b => fst (fst a) = fst (fst b) /\ opt_rel (Forall2 same_rim) (snd (fst a)) (snd (fst b)) /\ snd a = snd b)
    (probe images t p0 p0sky X Xsky alpha) (probe images' t p0 p0sky X Xsky alpha).
Proof.
  unfold ForcedModel.probe. eapply same_bind; [apply lnp_same|]. intros (l, i) (l', i') (E & R); cbn in *. auto.
Qed.
Definition same_found (b b' : @found V) : Prop :=
  f_lnp b = f_lnp b' /\ opt_rel (fun x y => fst x = fst y /\ opt_rel (Forall2 same_rim) (snd x) (snd y)) (f_best b) (f_best b') /\
  f_last b = f_last b' /\ f_t b = f_t b'.
Lemma search_same p0 p0sky X Xsky : forall alphas b b', same_found b b' ->
  same_res same_found (search images p0 p0sky X Xsky alphas b) (search images' p0 p0sky X Xsky alphas b').
Proof.
  induction alphas as [|al r IH]; intros b b' B; cbn [ForcedModel.search]; [exact B|].
  destruct B as (E1 & E2 & E3 & E4). rewrite <- E4, <- E1. eapply same_bind; [apply probe_same|].
  intros ((l, i), t) ((l', i'), t') (L & I & T); cbn [fst snd] in *. subst l' t'.
  destruct (gtb (sub (f_lnp b) one) l); [repeat split; auto|]. destruct (negb (finite l)); [repeat split; auto|].
  apply IH. destruct (gtb l (f_lnp b)); repeat split; cbn; auto.
Qed.
Lemma chis_same ims ims' : opt_rel (Forall2 same_rim) ims ims' ->
  opt_rel (Forall2 aeq) (match ims with None => None | Some l => Some (map (@ri_chi V) l) end) (match ims' with None => None | Some l => Some (map (@ri_chi V) l) end).
Proof.
  destruct ims as [l|], ims' as [l'|]; cbn; try tauto. induction 1 as [|r r' l l' (_ & _ & C) F IH]; cbn; constructor; auto.
Qed.
Lemma swapped_same : existsb (fun i => match fi_roi i with Some _ => true | None => false end) images = existsb (fun i => match fi_roi i with Some _ => true | None => false end) images'.
Proof. clear on_values. induction ALIKE as [|i i' is is' (_ & _ & _ & E & _) F IH]; auto. cbn. rewrite E. f_equal. apply IH; auto. Qed.
Lemma pass_same w w' : same_state w w' -> same_res (fun a b => fst a = fst b /\ same_state (snd a) (snd b)) (pass images w) (pass images' w').
Proof.
  intros (E1 & E2 & E3 & E4 & E5 & E6 & E7). unfold ForcedModel.pass. rewrite <- E1, <- E2, <- E4, <- E5, <- (on_values _ _ _ _ E3).
  eapply same_bind; [apply same_refl|]. intros o o' <-.
  destruct o as [[|x XX]|]; [split; cbn; auto; repeat split; cbn; auto; apply swapped_same| |split; cbn; auto; repeat split; cbn; auto; apply swapped_same].
  destruct (negb (length _ =? length (fl (w_t w)))%nat); [reflexivity|].
  eapply same_bind; [apply search_same; unfold same_found; cbn; auto|]. intros b b' (B1 & B2 & B3 & B4).
  rewrite <- B1, <- B3, <- B4.
  destruct (f_best b) as [(a, ims)|], (f_best b') as [(a', ims')|]; cbn in B2; try tauto.
  - destruct B2 as (<- & B2).
    match goal with |- same_res _ (if ?c then _ else _) (if ?c' then _ else _) => change c' with c; destruct c end;
      (split; [reflexivity|]); cbn [fst snd]; unfold same_state; cbn; repeat split; auto; apply chis_same; auto.
  - match goal with |- same_res _ (if ?c then _ else _) (if ?c' then _ else _) => change c' with c; destruct c end;
      (split; [reflexivity|]); cbn [fst snd]; unfold same_state; cbn; repeat split; auto.
Qed.
Lemma loop_same fuel : forall w w', same_state w w' -> same_res (opt_rel same_state) (loop images fuel w) (loop images' fuel w').
Proof.
  induction fuel as [|fuel IH]; intros w w' S; cbn [ForcedModel.loop]; [exact I|].
  eapply same_bind; [apply pass_same; exact S|]. intros (go, v) (go', v') (E & S'); cbn [fst snd] in *. subst go'.
  destruct go; [apply IH; auto|exact S'].
Qed.

(** Forced photometry ends alike, with the same fluxes and sky levels, or fails
    alike. *)
Theorem C119_forced : forall fuel t, same_res (opt_rel same_state) (forced images fuel t) (forced images' fuel t).
Proof.
  intros fuel t. unfold ForcedModel.forced. eapply same_bind; [apply lnp_same|]. intros (l, i) (l', i') (E & R); cbn [fst snd] in *. subst l'.
  destruct (negb (finite l)); [reflexivity|]. apply loop_same. unfold same_state; cbn. repeat split; auto. apply chis_same; auto.
Qed.
(** Their inverse variances are the same too. *)
Theorem C119_iv : forall fit_sky skyvariance n, get_iv zero one add mul fit_sky skyvariance images n = get_iv zero one add mul fit_sky skyvariance images' n.
Proof.
  intros. unfold get_iv.
  assert (G : forall iv, iv_images zero one add mul images iv = iv_images zero one add mul images' iv).
  { clear on_values. induction ALIKE as [|i i' is is' (E1 & _ & E3 & _ & E5 & _) F IH]; intros iv; cbn [iv_images]; auto.
    rewrite <- E1, <- E3, <- E5. destruct (iv_image _ _ _ _ _ _ _ _); cbn; auto. }
  rewrite G. destruct ALIKE; reflexivity.
Qed.
End Masked.

(** ** NaN or an infinity in a pixel, masked or not: forced photometry fails. *)
Lemma azip_px {V} (f : V -> V -> V) a b c : azip f a b = Ok c -> ah c = ah a /\ aw c = aw a /\ forall y x, px c y x = f (px a y x) (px b y x).
Proof. unfold azip. destruct (same_shape a b); [|discriminate]. intros E. injection E as <-. cbn. auto. Qed.
Lemma nonfinite {V} (fin : V -> bool) (a : arr V) y x : 0 <= y < ah a -> 0 <= x < aw a -> fin (px a y x) = false -> afinite fin a = false.
Proof.
  intros Hy Hx H. apply not_true_iff_false. intros T. unfold afinite in T. rewrite forallb_forall in T.
  assert (I : forall n k, 0 <= k < n -> In k (zrange n)).
  { intros n k K. unfold zrange. apply in_map_iff. exists (Z.to_nat k). split; [lia|]. apply in_seq. lia. }
  specialize (T y (I _ _ Hy)). rewrite forallb_forall in T. rewrite (T x (I _ _ Hx)) in H. discriminate.
Qed.
Lemma ext_mul_bad a w : isfinite a = false -> isfinite (emul a w) = false.
Proof. destruct a, w; cbn; try discriminate; auto; unfold escale; destruct (_ ?= _)%Q; auto. Qed.
Lemma ext_sub_bad a b : isfinite a = false -> isfinite (esub a b) = false.
Proof. destruct a, b; cbn; auto. Qed.
Theorem C119_forced_nan_refuted : forall one gtb geb iszero mhalf images sky mf prior dir d di ten dm ml ua da n i y x,
  nth_error images n = Some i -> fi_roi i = None ->
  0 <= y < ah (fi_im i) -> 0 <= x < aw (fi_im i) -> isfinite (px (fi_im i) y x) = false ->
  forall fuel t, exists e,
    forced (Fin 0) one eadd emul esub mhalf gtb geb iszero isfinite images sky mf prior dir d di ten dm ml ua da fuel t = Err e.
Proof.
  intros one gtb geb iszero mhalf images sky mf prior dir d di ten dm ml ua da n i y x Hn Hr Hy Hx B fuel t.
  assert (G : forall fs s, exists e, getim one eadd emul esub gtb iszero isfinite fs i s mf = Err e).
  { intros fs s. unfold getim. rewrite Hr. destruct (negb (afinite isfinite (fi_m0 i))); [eauto|]. destruct (negb _); [eauto|].
    destruct (add_umods _ _ _ _ _ _ _ _ _) as [m|e]; cbn [bind]; [|eauto].
    destruct (azip esub (fi_im i) m) as [c|e] eqn:E; cbn [bind]; [|eauto]. apply azip_px in E as (H1 & W1 & P1).
    destruct (azip emul c (fi_ie i)) as [c'|e] eqn:E'; cbn [bind]; [|eauto]. apply azip_px in E' as (H2 & W2 & P2).
    rewrite (nonfinite isfinite c' y x); [cbn; eauto|lia|lia|]. rewrite P2, P1. apply ext_mul_bad, ext_sub_bad, B. }
  assert (L : forall fs s, exists e, getims (Fin 0) one eadd emul esub gtb iszero isfinite fs images s mf = Err e).
  { clear - G Hn. intros fs. revert n Hn. induction images as [|j js IH]; intros [|n] Hn s; cbn in Hn; try discriminate; cbn [getims].
    - injection Hn as ->. destruct (G fs (match s with None => None | Some l => Some (nth 0 l (Fin 0)) end)) as (e & ->). cbn. eauto.
    - destruct (getim _ _ _ _ _ _ _ _ j _ _) as [r|e]; cbn [bind]; [|eauto].
      destruct (IH n Hn (match s with None => None | Some l => Some (tl l) end)) as (e & ->). cbn. eauto. }
  unfold forced, lnp_at.
  destruct (match prior with None => false | Some _ => _ end) eqn:Ep.
  - cbn [bind]. destruct prior; [|discriminate]. rewrite Ep. eauto.
  - destruct (L (fl t) (if sky then Some (sk t) else None)) as (e & ->). cbn. eauto.
Qed.

(** ** A case: one flux, two pixels, the second masked; the data there 100 or -7. *)
Section Case.
Let q (z : Z) : Qc := Q2Qc (inject_Z z).
Let gtq (a b : Qc) : bool := negb (Qle_bool (this a) (this b)).
Let geq (a b : Qc) : bool := Qle_bool (this b) (this a).
Let zq (a : Qc) : bool := Qeq_bool (this a) 0.
Let row (a b : Z) : arr Qc := mkArr 1 2 (fun _ x => if x =? 0 then q a else q b).
Let im (d : Z) : @fimg Qc := mkFimg (row 3 d) (row 1 0) (row 0 0) (q 1) None [Some (mkPatch 0 0 (Some (row 1 1)))].
Let dir (_ : Qc) (_ : @params Qc) (o : option (list (arr Qc))) : res (option (list Qc)) :=
  match o with Some (a :: _) => match ah a, aw a with 1, 2 => Ok (Some [px a 0 0]) | _, _ => Ok None end | _ => Ok None end.
Let run d := forced (q 0) (q 1) Qcplus Qcmult Qcminus (Q2Qc (-1 # 2)) gtq geq zq (fun _ => true) [im d] false None None dir
  (q 0) (Q2Qc (1 # 1000)) (q 10) (q 1000) (q 1) None [q 1] 20 (mkParams [q 0] []).
Example case_meets : (forall a : Qc, (a * q 0)%Qc = q 0) /\ (forall a : Qc, a = q 0 \/ a <> q 0) /\
  Forall2 (same_unmasked (q 0)) [im 100] [im (-7)] /\
  forall d t c c', opt_rel (Forall2 aeq) c c' -> dir d t c = dir d t c'.
Proof.
  split; [intros; apply Qcmult_0_r|]. split; [intros a; destruct (Qc_eq_dec a (q 0)); auto|]. split.
  - constructor; [|constructor]. unfold same_unmasked; cbn. repeat split; auto. intros y x _ Hx H. destruct (x =? 0); auto. elim H. reflexivity.
  - intros d t c c' H. unfold dir. destruct c as [l|], c' as [l'|]; cbn in H; try tauto.
    destruct H as [|a b l l' (A & W & P) F]; auto. rewrite <- A, <- W.
    destruct (ah a) as [|[]|] eqn:Ea; auto; destruct (aw a) as [|[|[]|]|] eqn:Ew; auto; rewrite (P 0 0); auto; lia.
Qed.
Let shown r := match r with Ok (Some w) => map this (fl (@w_t Qc w)) | _ => [] end.
Example case_runs : shown (run 100) = [3]%Q /\ shown (run (-7)) = [3]%Q.
Proof. split; vm_compute; reflexivity. Qed.
End Case.

Print Assumptions C119_forced.
Print Assumptions C119_iv.
Print Assumptions C119_forced_nan_refuted.
