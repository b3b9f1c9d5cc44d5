(** C74, C75: a source is the sum of its brightnesses times its unit-flux
    patches, and the profile of a galaxy with a fixed fraction of each
    component. *)
From Coq Require Import List ZArith Bool Reals Lra Lia Psatz.
From Verif Require Import Base PatchModel PatchSpec PatchProps GalPatchModel MixModel CompositeModel.
Import ListNotations.
Open Scope R_scope.

(** ** What is claimed: images, not patches *)

(** The value of an optional patch at a pixel of the image. *)
Definition value (p : option (patch R)) (X Y : Z) : R :=
  match p with None => 0 | Some p => img_at 0 p X Y end.
(** Counts that are not finite count for nothing. *)
Definition cnt (k : option R) : R := match k with None => 0 | Some k => k end.
(** The image that fluxes and unit-flux patches stand for. *)
Definition flux_image (ks : list (option R)) (us : list (option (patch R))) (X Y : Z) : R :=
  fold_right Rplus 0 (map (fun ku => cnt (fst ku) * value (snd ku) X Y) (combine ks us)).
(** Rendering gives patches with pixels. *)
Definition renders (c : part) : Prop :=
  forall m p, p_unit c m = Some p -> exists a, pimg p = Some a /\ wf_arr a.
(** The rendering has no use for a cutoff (pixelised PSFs). *)
Definition no_cutoff (c : part) : Prop := forall m m', p_unit c m = p_unit c m'.
(** The rendering stays within the cutoff it is given of the image [e]; a
    cutoff of zero or less asks for everything. *)
Definition within (c : part) (e : Z -> Z -> R) : Prop :=
  forall m X Y, Rabs (value (p_unit c m) X Y - e X Y) <= Rmax m 0.

(** ** Lemmas *)
Lemma reqb_true : forall x y, reqb x y = true -> x = y.
Proof. intros x y. unfold reqb. destruct (Req_EM_T x y); [auto|discriminate]. Qed.
Lemma reqb_false : forall x y, reqb x y = false -> x <> y.
Proof. intros x y. unfold reqb. destruct (Req_EM_T x y); [discriminate|auto]. Qed.
Lemma rltb_true : forall x y, rltb x y = true -> x < y.
Proof. intros x y. unfold rltb. destruct (Rlt_dec x y); [auto|discriminate]. Qed.
Lemma rltb_false : forall x y, rltb x y = false -> y <= x.
Proof. intros x y. unfold rltb. destruct (Rlt_dec x y); [discriminate|lra]. Qed.

Lemma img_pmul : forall p f X Y, img_at 0 (pmul p f) X Y = f * img_at 0 p X Y.
Proof.
  intros [X0 Y0 [a|]] f X Y; unfold img_at, val_at, pmul; simpl; [|lra].
  destruct (_ && _); simpl; lra.
Qed.

Lemma value_single : forall mm minsb c X Y,
  value (single_model mm minsb c) X Y =
  match p_counts c with
  | None => 0
  | Some k => k * value (p_unit c ((match minsb with None => mm | Some m => m end) / k)) X Y
  end.
Proof.
  intros. unfold single_model. destruct (p_counts c) as [k|]; [|reflexivity].
  destruct (reqb k 0) eqn:E.
  - apply reqb_true in E. subst. simpl. lra.
  - destruct (p_unit c _); simpl; [apply img_pmul|lra].
Qed.

Lemma single_data : forall mm minsb c p, renders c -> single_model mm minsb c = Some p ->
  exists a, pimg p = Some a /\ wf_arr a.
Proof.
  intros mm minsb c p R E. unfold single_model in E.
  destruct (p_counts c) as [k|]; [|discriminate]. destruct (reqb k 0); [discriminate|].
  destruct (p_unit c _) eqn:U; [|discriminate]. injection E as <-.
  destruct (R _ _ U) as (a & Ea & W). unfold pmul. simpl. rewrite Ea.
  eexists. split; [reflexivity|]. exact W.
Qed.

Lemma comp_value : forall mm minsb a b, renders a -> renders b ->
  exists r, comp_model mm minsb a b = Ok r /\
    forall X Y, value r X Y = value (single_model mm (comp_kw minsb) a) X Y
                            + value (single_model mm (comp_kw minsb) b) X Y.
Proof.
  intros mm minsb a b Ra Rb. unfold comp_model.
  destruct (single_model mm (comp_kw minsb) a) as [p|] eqn:Ea;
  destruct (single_model mm (comp_kw minsb) b) as [q|] eqn:Eb; simpl.
  - destruct (single_data _ _ _ _ Ra Ea) as (aa & Pa & Wa).
    destruct (single_data _ _ _ _ Rb Eb) as (ab & Pb & Wb).
    destruct (C19_arithmetic_pointwise R 0 Rplus p q aa ab Pa Pb Wa Wb ltac:(intros; lra))
      as (r & c & E & _ & _ & _ & _ & _ & V).
    rewrite E. simpl. eexists. split; [reflexivity|]. intros. apply V.
  - eexists. split; [reflexivity|]. intros. simpl. lra.
  - eexists. split; [reflexivity|]. intros. simpl. lra.
  - eexists. split; [reflexivity|]. intros. simpl. lra.
Qed.

(** ** C74 *)

(** Forced photometry and rendering agree: where the rendering has no use for
    a cutoff, the model patch is the image of the list of brightnesses and the
    list of unit-flux patches, whatever cutoffs the two were asked for, for
    sources with one profile and with two.  Components with counts that are
    zero or not finite contribute nothing. *)
Theorem C74_contract : forall mm minsb minval a b,
  no_cutoff a -> no_cutoff b -> renders a -> renders b ->
  (forall X Y, value (single_model mm minsb a) X Y = flux_image (single_counts a) (single_units minval a) X Y) /\
  length (comp_units minval a b) = length (comp_counts a b) /\
  exists r, comp_model mm minsb a b = Ok r /\
    forall X Y, value r X Y = flux_image (comp_counts a b) (comp_units minval a b) X Y.
Proof.
  intros mm minsb minval a b Na Nb Ra Rb.
  assert (G : forall c ms m X Y, no_cutoff c -> value (single_model mm ms c) X Y
              = cnt (p_counts c) * value (p_unit c m) X Y).
  { intros c ms m X Y Nc. rewrite value_single. destruct (p_counts c) as [k|]; simpl; [|lra].
    f_equal. f_equal. apply Nc. }
  split; [|split; [reflexivity|]].
  - intros X Y. rewrite (G a minsb minval X Y Na). unfold flux_image. simpl. lra.
  - destruct (comp_value mm minsb a b Ra Rb) as (r & E & V). exists r. split; [exact E|].
    intros X Y. rewrite V. unfold flux_image, comp_units, single_units.
    set (m := if rltb 0 minval then minval * 0.5 else minval). simpl.
    rewrite (G a _ m X Y Na), (G b _ m X Y Nb). lra.
Qed.

Lemma single_within : forall mm minsb c e X Y, within c e ->
  0 <= match minsb with None => mm | Some m => m end ->
  Rabs (value (single_model mm minsb c) X Y - cnt (p_counts c) * e X Y)
  <= match minsb with None => mm | Some m => m end.
Proof.
  intros mm minsb c e X Y W M. rewrite value_single.
  set (m := match minsb with None => mm | Some m => m end) in *.
  destruct (p_counts c) as [k|]; simpl.
  2:{ replace (0 - 0 * e X Y) with 0 by lra. rewrite Rabs_R0. exact M. }
  replace (k * value (p_unit c (m / k)) X Y - k * e X Y) with (k * (value (p_unit c (m / k)) X Y - e X Y)) by ring.
  rewrite Rabs_mult. specialize (W (m / k) X Y).
  set (d := Rabs (value _ _ _ - _)) in *. assert (D0 : 0 <= d) by apply Rabs_pos. clearbody d.
  destruct (Rtotal_order k 0) as [H|[->|H]].
  - rewrite (Rabs_left k H).
    assert (m / k <= 0).
    { assert (E : m / k = - (m * / - k)) by (field; lra). rewrite E.
      assert (0 < / - k) by (apply Rinv_0_lt_compat; lra). nra. }
    rewrite Rmax_right in W by lra. assert (d = 0) by lra. subst d. lra.
  - rewrite Rabs_R0. lra.
  - rewrite (Rabs_right k) by lra.
    assert (0 <= m / k) by (apply Rmult_le_pos; [exact M|]; apply Rlt_le, Rinv_0_lt_compat; lra).
    rewrite Rmax_left in W by lra.
    assert (E : k * (m / k) = m) by (field; lra).
    apply (Rmult_le_compat_l k) in W; lra.
Qed.

(** The cutoff asked for bounds the error: a source with one profile stays
    within it of the exact image; a source with two gives each half of a
    positive cutoff.  Without one (None, or the default 0) each component uses
    the image's cutoff in full, so the sum stays within twice that. *)
Theorem C74_cutoff : forall mm minsb a b ea eb, renders a -> renders b -> within a ea -> within b eb ->
  0 <= mm -> 0 <= minsb ->
  let exact X Y := cnt (p_counts a) * ea X Y + cnt (p_counts b) * eb X Y in
  (forall X Y, Rabs (value (single_model mm (Some minsb) a) X Y - cnt (p_counts a) * ea X Y) <= minsb) /\
  (forall X Y, Rabs (value (single_model mm None a) X Y - cnt (p_counts a) * ea X Y) <= mm) /\
  (exists r, comp_model mm (Some minsb) a b = Ok r /\
     forall X Y, Rabs (value r X Y - exact X Y) <= if reqb minsb 0 then 2 * mm else minsb) /\
  (exists r, comp_model mm None a b = Ok r /\
     forall X Y, Rabs (value r X Y - exact X Y) <= 2 * mm).
Proof.
  intros mm minsb a b ea eb Ra Rb Wa Wb Hm Hs exact.
  assert (G : forall ms B, (match comp_kw ms with None => mm | Some m => m end) = B -> 0 <= B ->
     exists r, comp_model mm ms a b = Ok r /\ forall X Y, Rabs (value r X Y - exact X Y) <= 2 * B).
  { intros ms B EB HB. destruct (comp_value mm ms a b Ra Rb) as (r & E & V).
    exists r. split; [exact E|]. intros X Y. rewrite V. unfold exact.
    assert (A1 := single_within mm (comp_kw ms) a ea X Y Wa ltac:(rewrite EB; exact HB)).
    assert (A2 := single_within mm (comp_kw ms) b eb X Y Wb ltac:(rewrite EB; exact HB)).
    rewrite EB in A1, A2.
    match goal with |- Rabs ?t <= _ => replace t with
      ((value (single_model mm (comp_kw ms) a) X Y - cnt (p_counts a) * ea X Y)
       + (value (single_model mm (comp_kw ms) b) X Y - cnt (p_counts b) * eb X Y)) by ring end.
    eapply Rle_trans; [apply Rabs_triang|]. lra. }
  split; [|split; [|split]].
  - intros. apply (single_within mm (Some minsb) a ea X Y Wa Hs).
  - intros. apply (single_within mm None a ea X Y Wa Hm).
  - simpl in G. destruct (reqb minsb 0) eqn:E0.
    + apply (G (Some minsb) mm); simpl; rewrite ?E0; auto.
    + destruct (G (Some minsb) (minsb / 2)) as (r & E & V); simpl; rewrite ?E0; auto; [lra|].
      exists r. split; [exact E|]. intros X Y. specialize (V X Y). lra.
  - apply (G None mm); auto.
Qed.

(** A unit pixel at the origin, rendered only if it is above the cutoff. *)
Definition ex_part (k v : R) : part :=
  mkPart (Some k) (fun m => if rltb m v then Some (mkPatch 0 0 (Some (mkArr 1 1 (fun _ _ => v)))) else None).
Definition ex_img (v : R) (X Y : Z) : R := if ((X =? 0) && (Y =? 0))%Z then v else 0.
Lemma ex_renders : forall k v, renders (ex_part k v).
Proof.
  intros k v m p E. simpl in E. destruct (rltb m v); [|discriminate]. injection E as <-.
  eexists. split; [reflexivity|]. split; simpl; lia.
Qed.
Lemma ex_value : forall v X Y, value (Some (mkPatch 0 0 (Some (mkArr 1 1 (fun _ _ => v))))) X Y = ex_img v X Y.
Proof.
  intros. unfold value, img_at, val_at, ex_img. simpl.
  destruct (X =? 0)%Z eqn:E1, (Y =? 0)%Z eqn:E2; simpl;
  repeat match goal with
         | H : (_ =? _)%Z = true |- _ => apply Z.eqb_eq in H; subst
         | H : (_ =? _)%Z = false |- _ => apply Z.eqb_neq in H
         end; try reflexivity;
  match goal with |- context [if ?c then _ else _] => destruct c eqn:E end; auto; exfalso;
  repeat rewrite andb_true_iff in E; repeat rewrite Z.leb_le in E; repeat rewrite Z.ltb_lt in E; lia.
Qed.
Lemma ex_within : forall k v, 0 < v -> within (ex_part k v) (ex_img v).
Proof.
  intros k v V m X Y. unfold ex_part. cbn [p_unit].
  destruct (rltb m v) eqn:E.
  - rewrite ex_value. replace (_ - _) with 0 by ring. rewrite Rabs_R0. apply Rmax_r.
  - apply rltb_false in E. simpl. unfold ex_img.
    destruct (_ && _).
    + rewrite Rabs_left by lra. eapply Rle_trans; [|apply Rmax_l]. lra.
    + rewrite Rminus_0_r, Rabs_R0. apply Rmax_r.
Qed.

(** Cases for C74_contract (two one-pixel components next to each other, with
    counts 3 and -2) and C74_cutoff. *)
Definition ex_pix (k : R) (X : Z) : part :=
  mkPart (Some k) (fun _ => Some (mkPatch X 0 (Some (mkArr 1 1 (fun _ _ => 5))))).
Example C74_contract_ex :
  no_cutoff (ex_pix 3 0) /\ renders (ex_pix 3 0) /\
  exists r, comp_model 0 None (ex_pix 3 0) (ex_pix (-2) 1) = Ok r /\ value r 0 0 = 15 /\ value r 1 0 = -10.
Proof.
  assert (N : forall k X, no_cutoff (ex_pix k X)) by (intros k X m m'; reflexivity).
  assert (G : forall k X, renders (ex_pix k X)).
  { intros k X m p E. injection E as <-. eexists. split; [reflexivity|]. split; simpl; lia. }
  split; [apply N|]. split; [apply G|].
  destruct (C74_contract 0 None 0 (ex_pix 3 0) (ex_pix (-2) 1) (N _ _) (N _ _) (G _ _) (G _ _)) as (_ & _ & r & E & V).
  exists r. split; [exact E|]. rewrite !V. unfold flux_image, comp_units.
  unfold rltb. destruct (Rlt_dec 0 0); [lra|]. unfold value, img_at, val_at; simpl. split; lra.
Qed.
Example C74_cutoff_ex : renders (ex_part 4 1) /\ within (ex_part 4 1) (ex_img 1) /\
  value (single_model 0 (Some 2) (ex_part 4 1)) 0 0 = 4 /\ value (single_model 0 (Some 8) (ex_part 4 1)) 0 0 = 0.
Proof.
  split; [apply ex_renders|]. split; [apply ex_within; lra|].
  split; rewrite value_single; cbn [p_counts p_unit ex_part]; unfold rltb; destruct (Rlt_dec _ _); try lra.
  - rewrite ex_value. unfold ex_img. simpl. lra.
  - simpl. lra.
Qed.

(** Asked for everything (minsb = 0), a source with one profile renders
    everything, but a source with two drops what is below the image's cutoff
    (here 1), and together they can drop more than that cutoff. *)
Theorem C74_zero_refuted : exists mm a b ea eb,
  renders a /\ renders b /\ within a ea /\ within b eb /\ mm = 1 /\
  (forall X Y, value (single_model mm (Some 0) a) X Y = cnt (p_counts a) * ea X Y) /\
  (forall X Y, value (single_model mm (Some 0) b) X Y = cnt (p_counts b) * eb X Y) /\
  comp_model mm (Some 0) a b = Ok None /\
  cnt (p_counts a) * ea 0%Z 0%Z + cnt (p_counts b) * eb 0%Z 0%Z = 2.
Proof.
  assert (V : forall X Y, value (single_model 1 (Some 0) (ex_part 1 1)) X Y
     = cnt (p_counts (ex_part 1 1)) * ex_img 1 X Y).
  { intros. rewrite value_single. simpl p_counts. cbn [cnt p_unit ex_part].
    replace (0 / 1) with 0 by field. unfold rltb. destruct (Rlt_dec 0 1); [|lra].
    rewrite ex_value. reflexivity. }
  exists 1, (ex_part 1 1), (ex_part 1 1), (ex_img 1), (ex_img 1).
  split; [apply ex_renders|]. split; [apply ex_renders|].
  split; [apply ex_within; lra|]. split; [apply ex_within; lra|].
  split; [reflexivity|]. split; [exact V|]. split; [exact V|]. split.
  - unfold comp_model, comp_kw, single_model, ex_part. cbn [p_counts p_unit].
    unfold reqb. destruct (Req_EM_T 0 0); [|lra]. destruct (Req_EM_T 1 0); [lra|].
    replace (1 / 1) with 1 by field. unfold rltb. destruct (Rlt_dec 1 1); [lra|]. reflexivity.
  - simpl. unfold ex_img. simpl. lra.
Qed.

(** ** C75: the fraction *)
Theorem C75_frac : forall f,
  0 <= frac_clipped f <= 1 /\
  (0 <= f <= 1 -> frac_clipped f = f) /\
  (0 < f < 1 -> derivable_pt_lim frac_clipped f (frac_deriv f)).
Proof.
  intros f. unfold frac_clipped. split; [|split].
  - split; [apply Rmin_glb; [apply Rmax_r|lra]|apply Rmin_r].
  - intros. rewrite Rmax_left, Rmin_left; lra.
  - intros (F0 & F1) eps He. unfold frac_deriv.
    assert (P : 0 < Rmin f (1 - f)) by (apply Rmin_glb_lt; lra).
    exists (mkposreal _ P). simpl. intros h Hh Hd.
    assert (Rmin f (1 - f) <= f) by apply Rmin_l. assert (Rmin f (1 - f) <= 1 - f) by apply Rmin_r.
    apply Rabs_def2 in Hd.
    rewrite (Rmax_left (f + h)), (Rmin_left (f + h)), (Rmax_left f), (Rmin_left f) by lra.
    replace ((f + h - f) / h - 1) with 0 by (field; auto). rewrite Rabs_R0. exact He.
Qed.

(** Outside [0,1] the clipped fraction does not move, but the reported
    derivative stays 1. *)
Theorem C75_frac_derivative_refuted : forall f, 1 < f \/ f < 0 ->
  derivable_pt_lim frac_clipped f 0 /\ frac_deriv f = 1.
Proof.
  intros f H. split; [|reflexivity]. intros eps He.
  assert (P : 0 < Rmax (f - 1) (- f)).
  { destruct H; [eapply Rlt_le_trans; [|apply Rmax_l]|eapply Rlt_le_trans; [|apply Rmax_r]]; lra. }
  exists (mkposreal _ P). simpl. intros h Hh Hd.
  assert (frac_clipped (f + h) = frac_clipped f) as ->.
  { unfold frac_clipped. apply Rabs_def2 in Hd. destruct H.
    - rewrite (Rmax_left (f - 1)) in Hd by lra. rewrite !Rmax_left, !Rmin_right by lra. reflexivity.
    - rewrite (Rmax_right (f - 1)) in Hd by lra. rewrite !Rmax_right, !Rmin_left by lra. reflexivity. }
  replace ((frac_clipped f - frac_clipped f) / h - 0) with 0 by (field; auto).
  rewrite Rabs_R0. exact He.
Qed.

(** The softened fraction lies strictly between 0 and 1, grows, is symmetric
    about one half, is near 0.1 and 0.9 at 0 and 1, and its derivative is the
    one reported. *)
Theorem C75_soft : forall f,
  0 < soft_clipped f < 1 /\
  (forall g, f < g -> soft_clipped f < soft_clipped g) /\
  soft_clipped (1 - f) = 1 - soft_clipped f /\
  1 / 10 <= soft_clipped 0 <= 3 / 20 /\
  derivable_pt_lim soft_clipped f (soft_deriv f).
Proof.
  assert (E0 : forall x, 0 < exp x) by apply exp_pos.
  intros f. split; [|split; [|split; [|split]]].
  - unfold soft_clipped. assert (H := E0 (4 * (0.5 - f))). split.
    + apply Rdiv_lt_0_compat; lra.
    + apply (Rmult_lt_reg_r (1 + exp (4 * (0.5 - f)))); [lra|]. field_simplify; lra.
  - intros g G. unfold soft_clipped. assert (exp (4 * (0.5 - g)) < exp (4 * (0.5 - f))) by (apply exp_increasing; lra).
    assert (H1 := E0 (4 * (0.5 - g))). unfold Rdiv. apply Rmult_lt_compat_l; [lra|].
    apply Rinv_lt_contravar; [|lra]. apply Rmult_lt_0_compat; lra.
  - unfold soft_clipped. replace (4 * (0.5 - (1 - f))) with (- (4 * (0.5 - f))) by lra.
    rewrite exp_Ropp. assert (H := E0 (4 * (0.5 - f))). set (q := exp _) in *. clearbody q. field. split; lra.
  - unfold soft_clipped. replace (4 * (0.5 - 0)) with (1 + 1) by lra. rewrite exp_plus.
    assert (U := exp_le_3).
    assert (L : 2.44 < exp 1).
    { replace 1 with (/4 + /4 + (/4 + /4)) at 1 by field. rewrite !exp_plus.
      assert (Q : 1 + /4 < exp (/4)) by (apply exp_ineq1; lra).
      set (q := exp (/4)) in *. clearbody q. assert (1.5625 < q * q) by nra. nra. }
    set (q := exp 1) in *. clearbody q.
    assert (5.95 < q * q <= 9) by (split; nra).
    set (s := q * q) in *. clearbody s.
    split; apply (Rmult_le_reg_r (1 + s)); try lra; field_simplify; lra.
  - assert (H : 1 + exp (4 * (0.5 - f)) <> 0) by (assert (H := E0 (4 * (0.5 - f))); lra).
    assert (D1 : derivable_pt_lim (fun x => 4 * (0.5 - x)) f (-4)).
    { intros eps He. exists (mkposreal 1 Rlt_0_1). intros h Hh _.
      replace (4 * (0.5 - (f + h)) - 4 * (0.5 - f)) with (-4 * h) by ring.
      replace (-4 * h / h - -4) with 0 by (field; auto).
      rewrite Rabs_R0. exact He. }
    assert (D2 := derivable_pt_lim_comp (fun x => 4 * (0.5 - x)) exp f _ _ D1 (derivable_pt_lim_exp _)).
    assert (D3 := derivable_pt_lim_plus (fct_cte 1) _ f _ _ (derivable_pt_lim_const 1 f) D2).
    assert (D4 := derivable_pt_lim_div (fct_cte 1) _ f _ _ (derivable_pt_lim_const 1 f) D3 H).
    unfold soft_deriv. replace (-4 * f + 2) with (4 * (0.5 - f)) by lra.
    match type of D4 with derivable_pt_lim _ _ ?l =>
      assert (EL : 4 * exp (4 * (0.5 - f)) / (exp (4 * (0.5 - f)) + 1) ^ 2 = l) end.
    2:{ cbv beta in EL |- *. rewrite EL. intros eps He. destruct (D4 eps He) as (d & Hd). exists d. exact Hd. }
    + unfold plus_fct, Ranalysis1.comp, fct_cte, Rsqr. set (q := exp _) in *. clearbody q. field. lra.
Qed.

(** ** C75: the profile *)

(** Any quantity a mixture stands for that is a sum over its components: its
    density at a point, its Fourier transform at a frequency, its total. *)
Definition weigh (g : (nat -> R) -> (nat -> nat -> R) -> R) (m : mog) : R :=
  fold_right Rplus 0 (map (fun c => c_amp c * g (c_mean c) (c_var c)) (mg_comps m)).
Definition total (m : mog) : R := fold_right Rplus 0 (map c_amp (mg_comps m)).

Lemma weigh_scale : forall g m f, weigh g (amp_scale m f) = f * weigh g m.
Proof.
  intros g [D cs] f. unfold weigh, amp_scale. simpl. induction cs as [|c cs IH]; simpl; [lra|].
  rewrite IH. lra.
Qed.
Lemma total_scale : forall m f, total (amp_scale m f) = f * total m.
Proof.
  intros [D cs] f. unfold total, amp_scale. simpl. induction cs as [|c cs IH]; simpl; [lra|].
  rewrite IH. lra.
Qed.
Lemma weigh_normal : forall g m, weigh g (normalize m) = weigh g m / total m.
Proof.
  intros g [D cs]. unfold weigh, normalize, total, amps, lsum. simpl.
  set (t := fold_right Rplus 0 (map c_amp cs)). clearbody t.
  induction cs as [|c cs IH]; simpl; [unfold Rdiv; ring|]. rewrite IH. unfold Rdiv. ring.
Qed.
Lemma total_weigh : forall m, total m = weigh (fun _ _ => 1) m.
Proof. intros m. unfold total, weigh. f_equal. apply map_ext. intros. ring. Qed.
Lemma fold_app : forall a b, fold_right Rplus 0 (a ++ b) = fold_right Rplus 0 a + fold_right Rplus 0 b.
Proof. intros a b. induction a as [|x a IH]; simpl; [lra|]. rewrite IH. lra. Qed.

Lemma add_weigh : forall a b, mg_D a = mg_D b -> total a + total b = 1 ->
  exists m, mog_add a b = Ok m /\ mg_D m = mg_D a /\ forall g, weigh g m = weigh g a + weigh g b.
Proof.
  intros a b D T. unfold mog_add, extend. rewrite D, Nat.eqb_refl. simpl.
  eexists. split; [reflexivity|]. split; [reflexivity|]. intros g. rewrite weigh_normal.
  replace (total _) with 1.
  - unfold weigh. simpl. rewrite map_app, fold_app. field.
  - unfold total in *. simpl. rewrite map_app, fold_app. lra.
Qed.

Lemma fixed_mix_weigh : forall f d e, 0 <= f <= 1 -> mg_D d = mg_D e -> total d = 1 -> total e = 1 ->
  exists m, fixed_mix f d e = Ok m /\ mg_D m = mg_D d /\
    forall g, weigh g m = f * weigh g d + (1 - f) * weigh g e.
Proof.
  intros f d e F D Td Te. unfold fixed_mix.
  destruct (rltb 0 f) eqn:E0, (rltb f 1) eqn:E1; simpl.
  - destruct (add_weigh (amp_scale d f) (amp_scale e (1 - f)) D) as (m & E & Em & W).
    { rewrite !total_scale, Td, Te. lra. }
    exists m. split; [exact E|]. split; [exact Em|]. intros g. rewrite W, !weigh_scale. ring.
  - apply rltb_false in E1. eexists. split; [reflexivity|]. split; [reflexivity|]. intros g.
    rewrite weigh_scale. replace f with 1 by lra. ring.
  - apply rltb_false in E0. eexists. split; [reflexivity|]. split; [symmetry; exact D|]. intros g.
    rewrite weigh_scale. replace f with 0 by lra. ring.
  - apply rltb_false in E0, E1. lra.
Qed.

Lemma total_affine : forall m s t, total (apply_affine m s t) = total m.
Proof. intros. unfold total, apply_affine. simpl. rewrite map_map. reflexivity. Qed.
Lemma total_shear : forall m t, total (apply_shear m t) = total m.
Proof. intros. unfold total, apply_shear. simpl. rewrite map_map. reflexivity. Qed.

(** The galaxy's profile in an image is f times the de Vaucouleurs galaxy's
    plus 1-f times the exponential galaxy's, each with its own shape, for both
    ways of rendering, in everything that is a sum over components; its total
    is 1.  The galaxy classes normalise their profiles (galaxy.py:730, 749). *)
Theorem C75_profile : forall f dev exp cdinv bdev bexp shift,
  0 <= f <= 1 -> mg_D dev = 2%nat -> mg_D exp = 2%nat -> total dev = 1 -> total exp = 1 ->
  (exists m, fixed_affine f dev exp cdinv bdev bexp shift = Ok m /\ mg_D m = 2%nat /\ total m = 1 /\
     forall g, weigh g m = f * weigh g (hogg_affine dev cdinv bdev shift)
                         + (1 - f) * weigh g (hogg_affine exp cdinv bexp shift)) /\
  (exists m, fixed_sheared f dev exp cdinv bdev bexp = Ok m /\ mg_D m = 2%nat /\ total m = 1 /\
     forall g, weigh g m = f * weigh g (hogg_sheared dev cdinv bdev)
                         + (1 - f) * weigh g (hogg_sheared exp cdinv bexp)).
Proof.
  intros f dev exp cdinv bdev bexp shift F Dd De Td Te.
  assert (G : forall d e, mg_D d = 2%nat -> mg_D e = 2%nat -> total d = 1 -> total e = 1 ->
    exists m, fixed_mix f d e = Ok m /\ mg_D m = 2%nat /\ total m = 1 /\
      forall g, weigh g m = f * weigh g d + (1 - f) * weigh g e).
  { intros d e D1 D2 T1 T2. destruct (fixed_mix_weigh f d e F ltac:(congruence) T1 T2) as (m & E & Em & W).
    exists m. split; [exact E|]. split; [congruence|]. split; [|exact W].
    rewrite total_weigh, W, <- !total_weigh, T1, T2. ring. }
  split; apply G; try assumption; unfold hogg_affine, hogg_sheared; rewrite ?total_affine, ?total_shear; assumption.
Qed.

Lemma total_normalize : forall m, total m <> 0 -> total (normalize m) = 1.
Proof. intros m H. rewrite total_weigh, weigh_normal, <- total_weigh. field. exact H. Qed.

Definition ex_mog (amps : list R) (v : R) : mog :=
  normalize (mkMog 2 (map (fun a => MixModel.mkComp a (fun _ => 0) (diag_var v)) amps)).
Example C75_profile_ex : total (ex_mog [1; 3] 2) = 1 /\ mg_D (ex_mog [1; 3] 2) = 2%nat /\
  exists m, fixed_sheared (1/4) (ex_mog [1; 3] 2) (ex_mog [5] 7) (diag_var 1) (diag_var 1) (diag_var 1) = Ok m /\
    map c_amp (mg_comps m) = [1/16; 3/16; 3/4].
Proof.
  split; [apply total_normalize; unfold total; simpl; lra|]. split; [reflexivity|].
  unfold fixed_sheared, fixed_mix. unfold rltb at 1 2.
  destruct (Rlt_dec 0 (1/4)); [|lra]. destruct (Rlt_dec (1/4) 1); [|lra].
  eexists. split; [reflexivity|]. simpl. unfold amps, lsum. simpl.
  f_equal; [field|f_equal; [field|f_equal; field]].
Qed.

(** ** C75: the box *)
Lemma rfloor_le : forall x, IZR (rfloor x) <= x.
Proof. intros x. unfold rfloor. destruct (base_Int_part x). lra. Qed.
Lemma rceil_ge : forall x, x <= IZR (rceil x).
Proof. intros x. unfold rceil. rewrite opp_IZR. destruct (base_Int_part (- x)). lra. Qed.

(** The pixels that galaxy.py:278-283 renders along one axis, before the
    overlap with the image: floor(p - s) to ceil(p + s + 1). *)
Definition in_reach (p s : R) (X : Z) : Prop := (rfloor (p - s) <= X <= rceil (p + s + 1))%Z.
Lemma in_reach_abs : forall p s X, Rabs (IZR X - p) <= s -> in_reach p s X.
Proof.
  intros p s X H. assert (- s <= IZR X - p <= s) by (revert H; unfold Rabs; destruct (Rcase_abs _); lra).
  split; apply le_IZR.
  - eapply Rle_trans; [apply rfloor_le|]. lra.
  - eapply Rle_trans; [|apply rceil_ge]. lra.
Qed.

(** Every pixel of the image within the radius of a galaxy (nre effective
    radii) of its centre is rendered, wherever the centre is; the box reaches
    at least as far as the PSF, and one pixel. *)
Theorem C75_box : forall nre re pixscale psfrad w h px py X Y, (1 <= w)%Z -> (1 <= h)%Z ->
  let s := hogg_size None nre re pixscale psfrad w h px py in
  psfrad <= s /\ 1 <= s /\
  ((0 <= X < w)%Z -> Rabs (IZR X - px) <= nre * re / pixscale -> in_reach px s X) /\
  ((0 <= Y < h)%Z -> Rabs (IZR Y - py) <= nre * re / pixscale -> in_reach py s Y).
Proof.
  intros nre re pixscale psfrad w h px py X Y Hw Hh s.
  set (im := Rmax (Rmax px (IZR w - 1 - px)) (Rmax py (IZR h - 1 - py)) + 1) in *.
  set (rad := nre * re / pixscale) in *.
  assert (Im1 : px + 1 <= im) by (unfold im; apply Rplus_le_compat_r; eapply Rle_trans; [apply Rmax_l|apply Rmax_l]).
  assert (Im2 : IZR w - 1 - px + 1 <= im) by (unfold im; apply Rplus_le_compat_r; eapply Rle_trans; [apply Rmax_r|apply Rmax_l]).
  assert (Im3 : py + 1 <= im) by (unfold im; apply Rplus_le_compat_r; eapply Rle_trans; [apply Rmax_l|apply Rmax_r]).
  assert (Im4 : IZR h - 1 - py + 1 <= im) by (unfold im; apply Rplus_le_compat_r; eapply Rle_trans; [apply Rmax_r|apply Rmax_r]).
  assert (Hw' : 1 <= IZR w) by (apply (IZR_le 1); exact Hw).
  assert (Hh' : 1 <= IZR h) by (apply (IZR_le 1); exact Hh).
  assert (S : Rmin (Rmax 1 rad) im <= s /\ psfrad <= s).
  { unfold s, hogg_size. fold im rad. split; (eapply Rle_trans; [|apply rceil_ge]); [apply Rmax_l|apply Rmax_r]. }
  clearbody s im rad. destruct S as (S1 & S2).
  assert (M1 : 1 <= Rmax 1 rad) by apply Rmax_l. assert (M2 : rad <= Rmax 1 rad) by apply Rmax_r.
  split; [exact S2|]. split; [|split].
  - eapply Rle_trans; [|exact S1]. apply Rmin_glb; lra.
  - intros HX HR. apply in_reach_abs. eapply Rle_trans; [|exact S1]. apply Rmin_glb; [lra|].
    assert (0 <= IZR X) by (apply (IZR_le 0); lia). assert (IZR X <= IZR w - 1) by (rewrite <- minus_IZR; apply IZR_le; lia).
    unfold Rabs. destruct (Rcase_abs _); lra.
  - intros HX HR. apply in_reach_abs. eapply Rle_trans; [|exact S1]. apply Rmin_glb; [lra|].
    assert (0 <= IZR Y) by (apply (IZR_le 0); lia). assert (IZR Y <= IZR h - 1) by (rewrite <- minus_IZR; apply IZR_le; lia).
    unfold Rabs. destruct (Rcase_abs _); lra.
Qed.

Example C75_box_ex : 4 <= hogg_size None 4 2 1 4 100 50 30 (-7) <= 8.
Proof.
  destruct (C75_box 4 2 1 4 100 50 30 (-7) 0 0 ltac:(lia) ltac:(lia)) as (P & _ & _).
  split; [exact P|]. unfold hogg_size. apply (IZR_le _ 8).
  assert (B : Rmax (Rmin (Rmax 1 (4 * 2 / 1)) (Rmax (Rmax 30 (100 - 1 - 30)) (Rmax (-7) (50 - 1 - -7)) + 1)) 4 <= 8).
  { apply Rmax_lub; [|lra]. eapply Rle_trans; [apply Rmin_l|]. apply Rmax_lub; lra. }
  set (x := Rmax _ 4) in *. clearbody x. unfold rceil. destruct (base_Int_part (- x)) as (_ & G).
  assert (-9 < IZR (Int_part (- x))) by lra. apply (lt_IZR (-9)) in H. lia.
Qed.

(** The box of the fixed composite reaches as far as the radius of every
    component that has a weight, plus the radius of the PSF. *)
Theorem C75_fixed_box : forall f re_exp re_dev pixscale psfrad p X, 0 < pixscale -> 0 <= psfrad ->
  let s := fixed_size None f re_exp re_dev pixscale psfrad in
  (f < 1 -> Rabs (IZR X - p) <= 4 * re_exp / pixscale + psfrad -> in_reach p s X) /\
  (0 < f -> Rabs (IZR X - p) <= 8 * re_dev / pixscale + psfrad -> in_reach p s X) /\
  (Rabs (IZR X - p) <= 1 / pixscale + psfrad -> in_reach p s X).
Proof.
  intros f re_exp re_dev pixscale psfrad p X Hp Hr s.
  assert (I : 0 < / pixscale) by (apply Rinv_0_lt_compat; exact Hp).
  assert (S : exists r, s = r / pixscale + psfrad /\ 1 <= r /\ (f < 1 -> 4 * re_exp <= r) /\ (0 < f -> 8 * re_dev <= r)).
  { eexists. split; [reflexivity|]. unfold rltb.
    destruct (Rlt_dec f 1), (Rlt_dec 0 f); repeat split; intros; try lra;
      repeat (first [apply Rmax_l | apply Rmax_r
        | eapply Rle_trans; [|apply Rmax_l]; first [apply Rmax_l | apply Rmax_r ]
        | eapply Rle_trans; [|apply Rmax_r]; first [apply Rmax_l | apply Rmax_r ] ]). }
  destruct S as (r & -> & R1 & Re & Rd).
  assert (G : forall t, t <= r -> Rabs (IZR X - p) <= t / pixscale + psfrad -> in_reach p (r / pixscale + psfrad) X).
  { intros t Ht HX. apply in_reach_abs. eapply Rle_trans; [exact HX|].
    apply Rplus_le_compat_r. unfold Rdiv. apply Rmult_le_compat_r; lra. }
  split; [intros F HX; exact (G _ (Re F) HX)|]. split; [intros F HX; exact (G _ (Rd F) HX)|].
  intros HX. exact (G _ R1 HX).
Qed.

Example C75_fixed_box_ex : fixed_size None (1/2) 3 2 (1/4) 5 = 16 * 4 + 5.
Proof.
  unfold fixed_size, rltb. destruct (Rlt_dec (1/2) 1); [|lra]. destruct (Rlt_dec 0 (1/2)); [|lra].
  rewrite (Rmax_right 1) by lra. rewrite !(Rmax_right (4 * 3) (8 * 2)) by lra. field.
Qed.

Print Assumptions C74_contract.
Print Assumptions C74_cutoff.
Print Assumptions C74_zero_refuted.
Print Assumptions C75_frac.
Print Assumptions C75_frac_derivative_refuted.
Print Assumptions C75_soft.
Print Assumptions C75_profile.
Print Assumptions C75_box.
Print Assumptions C75_fixed_box.
