(** C115: forced photometry fits the model that the Tractor draws. *)
From Coq Require Import List ZArith Bool Reals Lra Lia.
From Verif Require Import Base PatchModel PatchSpec GalPatchModel CompositeModel CompositeProps
  EngineModel EngineProps FitstatsModel ForcedModel ForcedProps SetupModel.
Import ListNotations.
Open Scope R_scope.

(** ** What is claimed *)

(** No parameter is free. *)
Definition all_frozen (l : plist) : Prop := forall x, In x l -> fst x = false.
(** Only the flux in band [b] is free. *)
Definition only_band (b : nat) (l : plist) : Prop :=
  exists l1 v l2, l = l1 ++ (true, v) :: l2 /\ length l1 = b /\ all_frozen l1 /\ all_frozen l2.
Definition prof_ready (b : nat) (c : prof) : Prop := only_band b (c_flux c) /\ all_frozen (c_shape c).
(** Of the thawed sources, only the fluxes in band [b] are free. *)
Definition fluxes_only (b : nat) (cat : list fsrc) : Prop :=
  forall s, In s cat -> fs_liquid s = true ->
    all_frozen (fs_pos s) /\ prof_ready b (fs_a s) /\ forall c, fs_b s = Some c -> prof_ready b c.
(** The profiles are drawn with pixels, and the same for every cutoff. *)
Definition prof_draws (c : prof) : Prop :=
  forall x sh img mask, (forall m m', c_draw c x sh img mask m = c_draw c x sh img mask m') /\
    forall m p, c_draw c x sh img mask m = Some p -> exists a, pimg p = Some a /\ wf_arr a.
Definition draws (cat : list fsrc) : Prop :=
  forall s, In s cat -> prof_draws (fs_a s) /\ forall c, fs_b s = Some c -> prof_draws c.
(** Model masks are known for the image and, if they are expected, there is
    one for every source. *)
Definition masks_known (t : tractor nat) (img n : nat) : Prop :=
  forall s, (s < n)%nat -> exists m, get_model_mask_for t img s = Ok m /\ (t_expect t = true -> m <> None).
(** The sky levels after setting that of one image. *)
Definition level_set (sky : nat -> R) (fit_sky : bool) (img : nat) (v : R) : nat -> R :=
  fun j => if fit_sky && (j =? img)%nat then v else sky j.

Definition rgtb (a b : R) : bool := rltb b a.
Notation rgetim := (getim 1 Rplus Rmult Rminus rgtb (fun v => reqb v 0) (fun _ => true)).

(** ** Lemmas *)
Lemma fill_frozen : forall l p, all_frozen l -> fill l p = (l, p) /\ free l = [].
Proof.
  induction l as [|[f v] l IH]; intros p H; [split; reflexivity|].
  assert (E : f = false) by (apply (H (f, v)); left; auto). subst f.
  destruct (IH p) as [E1 E2]; [intros x Hx; apply H; right; auto|].
  simpl. rewrite E1. split; [reflexivity|]. unfold free in *. simpl. exact E2.
Qed.
Lemma fill_band : forall b l v p, only_band b l ->
  exists l', fill l (v :: p) = (l', p) /\ snd (nth b l' (false, 0)) = v /\ length (free l) = 1%nat.
Proof.
  intros b l v p (l1 & w & l2 & -> & <- & F1 & F2).
  induction l1 as [|[f u] l1 IH].
  - simpl. destruct (fill_frozen l2 p F2) as [E1 E2]. rewrite E1. exists ((true, v) :: l2).
    split; [reflexivity|]. split; [reflexivity|]. unfold free in *. simpl. rewrite E2. reflexivity.
  - assert (E : f = false) by (apply (F1 (f, u)); left; auto). subst f.
    destruct IH as (l' & E1 & E2 & E3); [intros x Hx; apply F1; right; auto|].
    cbn [app fill]. rewrite E1. exists ((false, u) :: l'). split; [reflexivity|]. split; [exact E2|exact E3].
Qed.
Lemma fill_prof_ready : forall b c v p, prof_ready b c ->
  exists l', fill_prof c (v :: p) = (mkProf l' (c_shape c) (c_draw c), p) /\
    snd (nth b l' (false, 0)) = v /\ length (prof_params c) = 1%nat.
Proof.
  intros b c v p [B F]. destruct (fill_band b _ v p B) as (l' & E1 & E2 & E3).
  destruct (fill_frozen _ p F) as [F1 F2]. exists l'. unfold fill_prof. rewrite E1, F1.
  split; [reflexivity|]. split; [exact E2|]. unfold prof_params. rewrite F2, app_nil_r. exact E3.
Qed.

Lemma shift_zero : forall u : option (patch R), shift_um 0 0 u = u.
Proof. intros [[x y [a|]]|]; simpl; rewrite ?Z.sub_0_r; reflexivity. Qed.
Lemma shift_zeros : forall us : list (option (patch R)), map (shift_um 0 0) us = us.
Proof. intros us. rewrite (map_ext _ _ shift_zero). apply map_id. Qed.

(** The sum over pairs of fluxes and unit-flux models. *)
Definition fsum (k : R) (X Y : Z) (p : list R) (us : list (option (patch R))) : R :=
  lsum 0 Rplus (fun fu => value (snd fu) X Y * (fst fu * k)) (combine p us).
Lemma fsum_app : forall k X Y p us p' us', length p = length us ->
  fsum k X Y (p ++ p') (us ++ us') = fsum k X Y p us + fsum k X Y p' us'.
Proof.
  intros k X Y p. induction p as [|v p IH]; intros [|u us] p' us' L; try discriminate.
  - unfold fsum at 2. simpl. lra.
  - unfold fsum in *. cbn [app combine lsum fold_right]. change (fold_right _ 0 (combine (p ++ p') (us ++ us'))) with
      (lsum 0 Rplus (fun fu => value (snd fu) X Y * (fst fu * k)) (combine (p ++ p') (us ++ us'))).
    rewrite IH by (simpl in L; lia). unfold lsum. cbn [fst snd]. lra.
Qed.

Section Drawing.
Variable scale : nat -> R.
Variable band : nat -> nat.

Lemma draws_part : forall img mask pos c, prof_draws c ->
  no_cutoff (part_of scale band img mask pos c) /\ renders (part_of scale band img mask pos c).
Proof.
  intros img mask pos c H. destruct (H (map snd pos) (map snd (c_shape c)) img mask) as [A B].
  split; [intros m m'; apply A|intros m p E; eapply B; exact E].
Qed.

Definition brights (img : nat) (s : fsrc) : list (option R) :=
  Some (counts scale band img (fs_a s)) :: match fs_b s with None => [] | Some b => [Some (counts scale band img b)] end.

(** What a source draws is its counts times its unit-flux models. *)
Lemma draw_value : forall minsb mm mv img mask s X Y,
  prof_draws (fs_a s) -> (forall c, fs_b s = Some c -> prof_draws c) ->
  value (draw scale band minsb mm img mask s) X Y = flux_image (brights img s) (units scale band mv img mask s) X Y.
Proof.
  intros minsb mm mv img mask s X Y Ha Hb.
  destruct (draws_part img mask (fs_pos s) (fs_a s) Ha) as [Na Ra]. unfold draw, units, brights.
  destruct (fs_b s) as [b|].
  - destruct (draws_part img mask (fs_pos s) b (Hb b eq_refl)) as [Nb Rb].
    destruct (C74_contract mm minsb mv _ _ Na Nb Ra Rb) as (_ & _ & r & E & V). rewrite E. apply V.
  - destruct (C74_contract mm minsb mv _ _ Na Na Ra Ra) as (V & _). apply V.
Qed.

(** The patches drawn are well formed. *)
Lemma draw_wf : forall minsb mm img mask s, prof_draws (fs_a s) -> (forall c, fs_b s = Some c -> prof_draws c) ->
  match draw scale band minsb mm img mask s with None => True | Some p => wf_patch p end.
Proof.
  intros minsb mm img mask s Ha Hb.
  destruct (draws_part img mask (fs_pos s) (fs_a s) Ha) as [Na Ra]. unfold draw.
  destruct (fs_b s) as [b|].
  - destruct (draws_part img mask (fs_pos s) b (Hb b eq_refl)) as [Nb Rb]. unfold comp_model.
    destruct (single_model mm (comp_kw minsb) _) as [p|] eqn:Ea in |- *;
    destruct (single_model mm (comp_kw minsb) (part_of scale band img mask (fs_pos s) b)) as [q|] eqn:Eb; simpl; auto.
    + destruct (single_data _ _ _ _ Ra Ea) as (aa & Pa & Wa).
      destruct (single_data _ _ _ _ Rb Eb) as (ab & Pb & Wb).
      destruct (PatchProps.C19_arithmetic_pointwise R 0 Rplus p q aa ab Pa Pb Wa Wb ltac:(intros; lra))
        as (r & c & E & Er & W1 & W2 & W3 & W4 & _).
      rewrite E. simpl. unfold wf_patch. rewrite Er. unfold wf_arr in *. lia.
    + destruct (single_data _ _ _ _ Ra Ea) as (aa & Pa & Wa). unfold wf_patch. rewrite Pa. exact Wa.
    + destruct (single_data _ _ _ _ Rb Eb) as (aa & Pa & Wa). unfold wf_patch. rewrite Pa. exact Wa.
  - destruct (single_model mm minsb _) as [p|] eqn:Ea; auto.
    destruct (single_data _ _ _ _ Ra Ea) as (aa & Pa & Wa). unfold wf_patch. rewrite Pa. exact Wa.
Qed.
Notation rsum := (fold_right Rplus 0).
Lemma rsum_app : forall l m, rsum (l ++ m) = rsum l + rsum m.
Proof. induction l as [|a l IH]; intros m; simpl; [lra|]. rewrite IH. lra. Qed.

Lemma fill_draw : forall c p, c_draw (fst (fill_prof c p)) = c_draw c.
Proof. intros c p. unfold fill_prof. destruct (fill (c_flux c) p). destruct (fill (c_shape c) l). reflexivity. Qed.
Lemma fill_src_draws : forall s p, prof_draws (fs_a s) /\ (forall c, fs_b s = Some c -> prof_draws c) ->
  let s' := fst (fill_src s p) in
  prof_draws (fs_a s') /\ (forall c, fs_b s' = Some c -> prof_draws c).
Proof.
  intros s p [A B]. unfold fill_src. destruct (fill (fs_pos s) p) as [x p1].
  pose proof (fill_draw (fs_a s) p1) as D. destruct (fill_prof (fs_a s) p1) as [a p2]. cbn [fst] in D.
  assert (A' : prof_draws a) by (unfold prof_draws in *; rewrite D; exact A).
  destruct (fs_b s) as [b|].
  - pose proof (fill_draw b p2) as D2. destruct (fill_prof b p2) as [b' p3]. cbn [fst] in D2. cbn. split; auto.
    intros c E. injection E as <-. specialize (B b eq_refl). unfold prof_draws in *. rewrite D2. exact B.
  - cbn. split; [auto|discriminate].
Qed.
Lemma set_cat_length : forall cat p, length (set_cat cat p) = length cat.
Proof.
  induction cat as [|s cat IH]; intros p; simpl; auto.
  destruct (fs_liquid s); [|simpl; rewrite IH; auto]. destruct (fill_src s p). simpl. rewrite IH. auto.
Qed.
Lemma set_cat_draws : forall cat p, draws cat -> draws (set_cat cat p).
Proof.
  induction cat as [|s cat IH]; intros p D x Hx; simpl in Hx; [contradiction|].
  assert (D' : draws cat) by (intros y Hy; apply D; right; auto).
  destruct (fs_liquid s).
  - pose proof (fill_src_draws s p (D s (or_introl eq_refl))) as F. destruct (fill_src s p) as [s' p']. cbn in F.
    destruct Hx as [<-|Hx]; auto. apply (IH p' D' x Hx).
  - destruct Hx as [<-|Hx]; [apply D; left; auto|apply (IH p D' x Hx)].
Qed.

(** Setting the fluxes and drawing the whole catalog, against drawing the
    frozen sources and adding the fluxes times the unit-flux models. *)
Lemma set_sum : forall b img X Y minsb mm minsb' mm' mv mask cat k p,
  band img = b -> fluxes_only b cat -> draws cat -> length p = length (cat_params cat) ->
  let L := combine (seq k (length cat)) cat in
  rsum (map (fun x => value (draw scale band minsb mm img (mask (fst x)) (snd x)) X Y) (combine (seq k (length cat)) (set_cat cat p)))
  = rsum (map (fun x => value (draw scale band minsb' mm' img (mask (fst x)) (snd x)) X Y) (filter (fun x => Bool.eqb false (fs_liquid (snd x))) L))
    + fsum (scale img) X Y p (flat_map (fun x => units scale band (mv (snd x)) img (mask (fst x)) (snd x)) (filter (fun x => Bool.eqb true (fs_liquid (snd x))) L))
  /\ length (flat_map (fun x => units scale band (mv (snd x)) img (mask (fst x)) (snd x)) (filter (fun x => Bool.eqb true (fs_liquid (snd x))) L)) = length (cat_params cat).
Proof.
  intros b img X Y minsb mm minsb' mm' mv mask cat. induction cat as [|s cat IH]; intros k p HB F D LP.
  { simpl. destruct p; [|discriminate]. unfold fsum. simpl. split; [lra|auto]. }
  assert (F' : fluxes_only b cat) by (intros y Hy; apply F; right; auto).
  assert (D' : draws cat) by (intros y Hy; apply D; right; auto).
  destruct (D s (or_introl eq_refl)) as [Da Db].
  cbn zeta. cbn [length seq combine set_cat filter snd]. unfold cat_params in LP |- *. cbn [filter] in LP |- *.
  destruct (fs_liquid s) eqn:EL;
    [change (Bool.eqb true true) with true; change (Bool.eqb false true) with false
    |change (Bool.eqb true false) with false; change (Bool.eqb false false) with true]; cbv iota in LP |- *; cbn [flat_map] in LP |- *.
  2:{ destruct (IH (S k) p HB F' D' LP) as [I1 I2]. cbn [combine map fst snd fold_right]. split; [|exact I2].
      fold (fold_right Rplus 0). rewrite I1.
      rewrite (draw_value minsb mm 0 img _ s X Y Da Db), (draw_value minsb' mm' 0 img _ s X Y Da Db).
      lra. }
  destruct (F s (or_introl eq_refl) EL) as (P0 & Pa & Pb).
  rewrite app_length in LP. unfold src_params in LP |- *. destruct (fill_frozen (fs_pos s) p P0) as [E1 E2].
  unfold fill_src. rewrite E1. rewrite E2 in LP |- *. cbn [app] in LP |- *.
  destruct (fill_prof_ready b (fs_a s) 0 [] Pa) as (_ & _ & _ & La).
  destruct (fs_b s) as [c|] eqn:EB.
  - destruct (fill_prof_ready b c 0 [] (Pb c eq_refl)) as (_ & _ & _ & Lc).
    rewrite app_length in LP. rewrite La, Lc in LP.
    destruct p as [|v [|w p]]; try (simpl in LP; lia).
    destruct (fill_prof_ready b (fs_a s) v (w :: p) Pa) as (l' & E3 & E4 & _). rewrite E3.
    destruct (fill_prof_ready b c w p (Pb c eq_refl)) as (l2 & E5 & E6 & _). rewrite E5.
    destruct (IH (S k) p HB F' D') as [I1 I2]; [cbn [length] in LP; unfold cat_params; unfold src_params; lia|].
    cbn [combine map fst snd fold_right]. fold (fold_right Rplus 0). rewrite I1. split.
    2:{ rewrite !app_length. unfold cat_params in I2. rewrite I2, La, Lc. unfold units. rewrite EB. reflexivity. }
    rewrite (draw_value minsb mm (mv s)).
    2:{ exact Da. } 2:{ cbn. intros c' E. injection E as <-. exact (Db c eq_refl). }
    change (v :: w :: p) with ([v; w] ++ p). rewrite fsum_app by (unfold units; rewrite EB; reflexivity).
    unfold brights, units, fsum, flux_image. rewrite EB. cbn [fs_a fs_b fs_pos c_flux].
    unfold counts, part_of. cbn [c_flux c_shape c_draw]. rewrite HB, E4, E6.
    unfold comp_units, single_units. cbn. lra.
  - rewrite app_nil_r in LP |- *. rewrite La in LP.
    destruct p as [|v p]; try (simpl in LP; lia).
    destruct (fill_prof_ready b (fs_a s) v p Pa) as (l' & E3 & E4 & _). rewrite E3.
    destruct (IH (S k) p HB F' D') as [I1 I2]; [cbn [length] in LP; unfold cat_params; unfold src_params; lia|].
    cbn [combine map fst snd fold_right]. fold (fold_right Rplus 0). rewrite I1. split.
    2:{ rewrite !app_length. unfold cat_params in I2. rewrite I2, La. unfold units. rewrite EB. reflexivity. }
    rewrite (draw_value minsb mm (mv s)).
    2:{ exact Da. } 2:{ cbn. discriminate. }
    change (v :: p) with ([v] ++ p). rewrite fsum_app by (unfold units; rewrite EB; reflexivity).
    unfold brights, units, fsum, flux_image. rewrite EB. cbn [fs_a fs_b fs_pos c_flux].
    unfold counts, part_of. cbn [c_flux c_shape c_draw]. rewrite HB, E4.
    unfold single_units. cbn. lra.
Qed.

Variable shape : nat -> Z * Z.
Variable mm : nat -> R.
Definition mask_of (t : tractor nat) (img s : nat) : option nat :=
  match get_model_mask_for t img s with Ok m => m | Err _ => None end.

Lemma combine_nth_error : forall (cat : list fsrc) k i s, In (i, s) (combine (seq k (length cat)) cat) ->
  nth_error cat (i - k) = Some s /\ (k <= i < k + length cat)%nat.
Proof.
  induction cat as [|c cat IH]; intros k i s H; simpl in H; [contradiction|]. destruct H as [H|H].
  - injection H as <- <-. rewrite Nat.sub_diag. simpl. split; [auto|lia].
  - destruct (IH (S k) i s H) as [E1 E2]. split; [|simpl; lia].
    replace (i - k)%nat with (S (i - S k)) by lia. exact E1.
Qed.

(** The image of some of the sources. *)
Lemma image_of : forall sky t cat minsb img srcs ws,
  (0 <= fst (shape img))%Z -> (0 <= snd (shape img))%Z -> masks_known t img (length cat) -> draws cat ->
  (forall s, In s srcs -> (s < length cat)%nat) ->
  exists m, model_image scale band shape sky mm t cat minsb img srcs ws = Ok m /\ (ah m, aw m) = shape img /\
    forall X Y, (0 <= X < aw m)%Z -> (0 <= Y < ah m)%Z ->
      px m Y X = (if ws then sky img else 0) +
        rsum (map (fun s => match nth_error cat s with None => 0 | Some x => value (draw scale band minsb (mm img) img (mask_of t img s) x) X Y end) srcs).
Proof.
  intros sky t cat minsb img srcs ws Hh Hw MK D IN. unfold model_image.
  match goal with |- context [get_model_image ?r _ _ _ _ _ ?sk _ _ _ _] => set (ren := r); set (skf := sk) end.
  assert (GP : forall s, (s < length cat)%nat -> get_model_patch ren t img s = Ok (ren s img (mask_of t img s))).
  { intros s Hs. destruct (MK s Hs) as (m & E1 & E2). unfold get_model_patch, mask_of. rewrite E1. cbn [bind].
    destruct (t_expect t) eqn:ET; [|reflexivity]. destruct m; [reflexivity|]. destruct (E2 eq_refl eq_refl). }
  destruct (C24_model_image R nat ren 0 1 Rplus Rmult shape skf t img (map Some srcs) ws Hh Hw) as (m & E & SH & P).
  { intros s Hs. apply in_map_iff in Hs. destruct Hs as (s' & E & Hs). injection E as ->.
    exists (ren s img (mask_of t img s)). split; [apply GP; auto|]. unfold ren.
    destruct (nth_error cat s) as [x|] eqn:EN; auto. destruct (D x (nth_error_In _ _ EN)) as [A B]. apply draw_wf; auto. }
  exists m. split; [exact E|]. split; [exact SH|]. intros X Y HX HY. rewrite P by auto.
  assert (E0 : (if ws then 0 + skf img Y X else 0) = if ws then sky img else 0) by (destruct ws; unfold skf; lra).
  rewrite E0. generalize (if ws then sky img else 0). clear P E E0.
  induction srcs as [|s srcs IH]; intros a; simpl; [lra|].
  rewrite IH by (intros s' H'; apply IN; right; auto). unfold source_at. rewrite GP by (apply IN; left; auto).
  unfold ren. destruct (nth_error cat s) as [x|]; [|lra].
  destruct (draw scale band minsb (mm img) img (mask_of t img s) x) as [q|]; simpl; [|lra].
  unfold img_at. destruct (val_at q X Y); lra.
Qed.

Lemma img_umods_ok : forall t cat minsb img srcs,
  masks_known t img (length cat) -> (forall s, In s srcs -> (s < length cat)%nat) ->
  img_umods scale band t cat minsb img 0 0 srcs =
  Ok (flat_map (fun s => match nth_error cat s with
      | None => []
      | Some x => units scale band (let c := counts scale band img (fs_a x) + match fs_b x with None => 0 | Some b => counts scale band img b end in
           if rltb 0 c then minsb / c else 0.001) img (mask_of t img s) x end) srcs).
Proof.
  intros t cat minsb img srcs MK. induction srcs as [|s srcs IH]; intros IN; [reflexivity|].
  cbn [img_umods flat_map]. unfold src_umods. assert (Hs : (s < length cat)%nat) by (apply IN; left; auto).
  destruct (nth_error cat s) as [x|] eqn:EN; [|apply nth_error_None in EN; lia].
  destruct (MK s Hs) as (m & E1 & _). unfold mask_of. rewrite E1. cbn [bind].
  rewrite IH by (intros s' H'; apply IN; right; auto). cbn [bind]. rewrite shift_zeros. reflexivity.
Qed.

Lemma places_lt : forall b cat s, In s (places b cat) -> (s < length cat)%nat.
Proof.
  intros b cat s H. unfold places in H. apply in_map_iff in H. destruct H as ((i & x) & <- & H).
  apply filter_In in H. destruct H as [H _]. apply combine_nth_error in H. simpl. lia.
Qed.
Lemma places_map : forall {A} (g : nat -> fsrc -> A) (d : A) b cat,
  map (fun s => match nth_error cat s with None => d | Some x => g s x end) (places b cat) =
  map (fun x => g (fst x) (snd x)) (filter (fun x => Bool.eqb b (fs_liquid (snd x))) (combine (seq 0 (length cat)) cat)).
Proof.
  intros A g d b cat. unfold places. rewrite map_map. apply map_ext_in. intros (i & x) H. apply filter_In in H.
  destruct H as [H _]. apply combine_nth_error in H. rewrite Nat.sub_0_r in H. cbn [fst snd].
  destruct H as [-> _]. reflexivity.
Qed.
Lemma seq_map : forall {A} (g : nat -> fsrc -> A) (d : A) cat,
  map (fun s => match nth_error cat s with None => d | Some x => g s x end) (seq 0 (length cat)) =
  map (fun x => g (fst x) (snd x)) (combine (seq 0 (length cat)) cat).
Proof.
  intros A g d cat.
  assert (E : seq 0 (length cat) = map fst (combine (seq 0 (length cat)) cat)).
  { generalize 0%nat. induction cat as [|c cat IH]; intros k; auto. cbn [length seq combine map fst]. f_equal. apply IH. }
  rewrite E at 1. rewrite map_map. apply map_ext_in. intros (i & x) H.
  apply combine_nth_error in H. rewrite Nat.sub_0_r in H. cbn [fst snd]. destruct H as [-> _]. reflexivity.
Qed.
End Drawing.

Lemma combine_nth : forall {A B} (l : list A) (m : list B) k, length l = length m ->
  nth_error (combine l m) k = match nth_error l k, nth_error m k with Some a, Some b => Some (a, b) | _, _ => None end.
Proof.
  intros A B. induction l as [|a l IH]; intros [|b m] [|k] L; try discriminate; auto.
  cbn [combine nth_error]. apply IH. simpl in L. lia.
Qed.

Section Setup.
Variable scale : nat -> R.
Variable band : nat -> nat.
Variable shape : nat -> Z * Z.
Variable sky : nat -> R.
Variable mm : nat -> R.
Variable image_params : nat.
Variable sky_params : nat -> nat.

Lemma umodels_nth : forall t cat minsb imgs us, umodels scale band t cat minsb imgs = Ok us ->
  length us = length imgs /\ forall k i u, nth_error imgs k = Some i -> nth_error us k = Some u -> in_roi i = None ->
    img_umods scale band t cat minsb (in_img i) 0 0 (places true cat) = Ok u.
Proof.
  intros t cat minsb. induction imgs as [|i imgs IH]; intros us E; cbn [umodels] in E.
  - injection E as <-. split; auto. intros [|k]; discriminate.
  - destruct (match in_roi i with None => (0, 0)%Z | Some (_, (ys, xs)) => (sstart xs, sstart ys) end) as [x y] eqn:EX.
    apply bind_ok in E. destruct E as (u & E1 & E). apply bind_ok in E. destruct E as (us' & E2 & E). injection E as <-.
    destruct (IH us' E2) as [L N]. split; [simpl; lia|]. intros [|k] i' u' H1 H2 HR.
    + injection H1 as <-. injection H2 as <-. rewrite HR in EX. injection EX as <- <-. exact E1.
    + apply (N k i' u'); auto.
Qed.
Lemma mod0s_nth : forall t cat minsb fs imgs ms, mod0s scale band shape sky mm t cat minsb fs imgs = Ok ms ->
  length ms = length imgs /\ forall k i m, nth_error imgs k = Some i -> nth_error ms k = Some m -> in_roi i = None ->
    model_image scale band shape sky mm t cat (Some minsb) (in_img i) (places false cat) (negb fs) = Ok m.
Proof.
  intros t cat minsb fs. induction imgs as [|i imgs IH]; intros ms E; cbn [mod0s] in E.
  - injection E as <-. split; auto. intros [|k]; discriminate.
  - apply bind_ok in E. destruct E as (u & E1 & E). apply bind_ok in E. destruct E as (us' & E2 & E). injection E as <-.
    destruct (IH us' E2) as [L N]. split; [simpl; lia|]. intros [|k] i' u' H1 H2 HR.
    + injection H1 as <-. injection H2 as <-. rewrite HR in E1. exact E1.
    + apply (N k i' u'); auto.
Qed.

Notation setup := (setup scale band shape sky mm image_params sky_params).
Lemma setup_inv : forall t cat minsb fs imgs is, setup t cat minsb fs imgs = Ok is ->
  length is = length imgs /\
  forall k i fi, nth_error imgs k = Some i -> nth_error is k = Some fi -> in_roi i = None ->
    img_umods scale band t cat minsb (in_img i) 0 0 (places true cat) = Ok (fi_um fi) /\
    model_image scale band shape sky mm t cat (Some minsb) (in_img i) (places false cat) (negb fs) = Ok (fi_m0 fi) /\
    fi_im fi = in_im i /\ fi_ie fi = in_ie i /\ fi_scale fi = scale (in_img i) /\ fi_roi fi = None /\
    length (fi_um fi) = length (cat_params cat).
Proof.
  intros t cat minsb fs imgs is E. unfold SetupModel.setup in E.
  destruct (fs && negb (forallb _ imgs)); [discriminate|]. cbv zeta in E.
  apply bind_ok in E. destruct E as (us & E1 & E). destruct (forallb _ us) eqn:EU; [|discriminate].
  apply bind_ok in E. destruct E as (ms & E2 & E). destruct (fs && _); [discriminate|]. injection E as <-.
  destruct (umodels_nth _ _ _ _ _ E1) as [L1 N1]. destruct (mod0s_nth _ _ _ _ _ _ E2) as [L2 N2].
  assert (L3 : length (combine us ms) = length imgs) by (rewrite combine_length; lia).
  split; [rewrite map_length, combine_length; lia|]. intros k i fi H1 H2 HR. rewrite nth_error_map in H2.
  rewrite combine_nth in H2 by lia. rewrite H1 in H2. rewrite combine_nth in H2 by lia.
  destruct (nth_error us k) as [u|] eqn:EK; [|discriminate]. destruct (nth_error ms k) as [m|] eqn:EM; [|discriminate].
  injection H2 as <-. cbn [fi_um fi_m0 fi_im fi_ie fi_scale fi_roi]. rewrite HR.
  split; [apply (N1 k); auto|]. split; [apply (N2 k); auto|]. repeat (split; [reflexivity|]).
  rewrite forallb_forall in EU. apply Nat.eqb_eq. apply EU. eapply nth_error_In. exact EK.
Qed.

(** ** C115 *)

(** For every flux vector the fit tries, and every sky level if the sky is
    fitted, the model image of forced photometry is the image that the Tractor
    draws after setParams, at every pixel of every image, and chi is that of
    the Tractor.  No regions and no minimum flux; of the thawed sources only
    the fluxes in the band of the images are free; profiles do not depend on
    the cutoff; no source lacks an expected model mask. *)
Theorem C115_model : forall t cat minsb fit_sky imgs is b,
  (forall i, In i imgs -> in_roi i = None /\ band (in_img i) = b /\ (0 <= fst (shape (in_img i)))%Z /\ (0 <= snd (shape (in_img i)))%Z /\
     wf_arr (in_ie i) /\ masks_known t (in_img i) (length cat)) ->
  fluxes_only b cat -> draws cat ->
  setup t cat minsb fit_sky imgs = Ok is ->
  length is = length imgs /\
  forall k i fi p level r minsb',
    nth_error imgs k = Some i -> nth_error is k = Some fi -> length p = length (cat_params cat) ->
    rgetim p fi (if fit_sky then Some level else None) None = Ok r ->
    exists m, model_image scale band shape (level_set sky fit_sky (in_img i) level) mm t (set_cat cat p) minsb' (in_img i) (seq 0 (length cat)) true = Ok m /\
      ah (ri_mod r) = ah m /\ aw (ri_mod r) = aw m /\
      forall X Y, (0 <= X < aw m)%Z -> (0 <= Y < ah m)%Z ->
        px (ri_mod r) Y X = px m Y X /\
        px (ri_chi r) Y X = (px (in_im i) Y X - px m Y X) * px (in_ie i) Y X.
Proof.
  intros t cat minsb fs imgs is b HI F D E. destruct (setup_inv _ _ _ _ _ _ E) as [L N]. split; [exact L|].
  intros k i fi p level r minsb' H1 H2 LP HG.
  destruct (HI i (nth_error_In _ _ H1)) as (HR & HB & Hh & Hw & WI & MK).
  destruct (N k i fi H1 H2 HR) as (EU & EM & E3 & E4 & E5 & E6 & E7).
  rewrite img_umods_ok in EU by (auto; intros s Hs; eapply places_lt; exact Hs).
  destruct (image_of scale band shape mm sky t cat (Some minsb) (in_img i) (places false cat) (negb fs) Hh Hw MK D) as (m0 & G1 & G2 & G3).
  { intros s Hs. eapply places_lt. exact Hs. }
  rewrite EM in G1. injection G1 as G1.
  destruct (image_of scale band shape mm (level_set sky fs (in_img i) level) t (set_cat cat p) minsb' (in_img i) (seq 0 (length cat)) true Hh Hw)
    as (m & M1 & M2 & M3).
  { rewrite set_cat_length. exact MK. }
  { apply set_cat_draws. exact D. }
  { intros s Hs. rewrite set_cat_length. apply in_seq in Hs. lia. }
  exists m. split; [exact M1|].
  assert (SH : ah (fi_m0 fi) = ah m /\ aw (fi_m0 fi) = aw m) by (rewrite G1; rewrite <- M2 in G2; injection G2; auto). destruct SH as [S1 S2].
  set (mv := fun x => let c := counts scale band (in_img i) (fs_a x) + match fs_b x with None => 0 | Some b => counts scale band (in_img i) b end in
                      if rltb 0 c then minsb / c else 0.001) in *.
  set (mk := mask_of t (in_img i)) in *.
  assert (EF : fi_um fi = flat_map (fun x => units scale band (mv (snd x)) (in_img i) (mk (fst x)) (snd x))
                 (filter (fun x => Bool.eqb true (fs_liquid (snd x))) (combine (seq 0 (length cat)) cat))).
  { injection EU as <-. rewrite !flat_map_concat_map. f_equal.
    apply (places_map (fun s x => units scale band (mv x) (in_img i) (mk s) x) []). }
  assert (OK : fimg_ok fi).
  { split; [|split].
    - unfold wf_arr. rewrite S1, S2. rewrite <- M2 in Hh, Hw. simpl in Hh, Hw. auto.
    - rewrite E4. exact WI.
    - intros um Hu. rewrite EF in Hu. apply in_flat_map in Hu. destruct Hu as ((j & x) & Hx & Hu).
      apply filter_In in Hx. destruct Hx as [Hx _]. apply in_combine_r in Hx. destruct (D x Hx) as [Da Db].
      destruct um as [q|]; [|exact I]. unfold um_ok, wf_patch. cbn [fst snd] in Hu. unfold units in Hu.
      destruct (draws_part scale band (in_img i) (mk j) (fs_pos x) (fs_a x) Da) as [_ Ra].
      destruct (fs_b x) as [c|] eqn:EB.
      + destruct (draws_part scale band (in_img i) (mk j) (fs_pos x) c (Db c eq_refl)) as [_ Rc].
        unfold comp_units, single_units in Hu. destruct Hu as [Hu|[Hu|[]]].
        * destruct (Ra _ _ Hu) as (a & -> & W). exact W.
        * destruct (Rc _ _ Hu) as (a & -> & W). exact W.
      + unfold single_units in Hu. destruct Hu as [Hu|[]]. destruct (Ra _ _ Hu) as (a & -> & W). exact W. }
  assert (GI : forall a, rgtb a a = false) by (intros a; unfold rgtb, rltb; destruct (Rlt_dec a a); [lra|auto]).
  assert (GT : forall a c, rgtb a c = false -> rgtb c a = false -> a = c).
  { intros a c. unfold rgtb, rltb. destruct (Rlt_dec c a); [discriminate|]. destruct (Rlt_dec a c); [discriminate|]. intros _ _. lra. }
  destruct (C37_rendered 0 1 Rplus Rmult Rminus Ropp rgtb (fun v => reqb v 0) (fun _ => true) RTheory GI GT
              (fun a => reqb_true a 0) p fi _ None r OK E6 HG) as (R1 & R2 & R3 & _).
  split; [lia|]. split; [lia|]. intros X Y HX HY. rewrite S1, S2 in *. destruct (R3 X Y HX HY) as [P1 P2].
  assert (PE : px (ri_mod r) Y X = px m Y X).
  { rewrite P1. rewrite M3 by auto. unfold model_at. rewrite G1, G3 by (rewrite <- G1; lia). rewrite E5, EF.
    rewrite (places_map (fun s x => value (draw scale band (Some minsb) (mm (in_img i)) (in_img i) (mk s) x) X Y) 0).
    assert (SM := seq_map (fun s x => value (draw scale band minsb' (mm (in_img i)) (in_img i) (mk s) x) X Y) 0 (set_cat cat p)).
    rewrite set_cat_length in SM. rewrite SM. clear SM.
    destruct (set_sum scale band b (in_img i) X Y minsb' (mm (in_img i)) (Some minsb) (mm (in_img i)) mv mk cat 0 p HB F D LP) as [SS _].
    cbv zeta in SS. rewrite SS. unfold fsum.
    assert (MI : map (no_lower rgtb None) p = p) by (rewrite <- (map_id p) at 2; apply map_ext; reflexivity). rewrite MI.
    unfold level_set. rewrite Nat.eqb_refl. destruct fs; simpl; unfold unit_at, value; lra. }
  split; [exact PE|]. rewrite P2, PE, E3, E4. reflexivity.
Qed.

(** The setup runs under these conditions, and gives one unit-flux model per
    free parameter in every image. *)
Theorem C115_runs : forall t cat minsb fit_sky imgs b,
  (forall i, In i imgs -> in_roi i = None /\ band (in_img i) = b /\ (0 <= fst (shape (in_img i)))%Z /\ (0 <= snd (shape (in_img i)))%Z /\
     masks_known t (in_img i) (length cat)) ->
  fluxes_only b cat -> draws cat ->
  (fit_sky = true -> length imgs = image_params /\ forall i, In i imgs -> sky_params (in_img i) = 1%nat) ->
  exists is, setup t cat minsb fit_sky imgs = Ok is.
Proof.
  intros t cat minsb fs imgs b HI F D HS. unfold SetupModel.setup.
  assert (E0 : fs && negb (forallb (fun i => sky_params (in_img i) =? 1)%nat imgs) = false).
  { destruct fs; auto. destruct (HS eq_refl) as [_ H]. cbn [andb]. apply negb_false_iff. apply forallb_forall. intros i Hi.
    apply Nat.eqb_eq. auto. }
  rewrite E0. cbv zeta.
  assert (EU : exists us, umodels scale band t cat minsb imgs = Ok us /\ forallb (fun u => length u =? length (cat_params cat))%nat us = true).
  { clear HS E0. induction imgs as [|i imgs IH]; [exists []; auto|]. destruct (HI i (or_introl eq_refl)) as (HR & HB & Hh & Hw & MK).
    destruct IH as (us & E1 & E2); [intros j Hj; apply HI; right; auto|].
    cbn [umodels]. rewrite HR. rewrite img_umods_ok by (auto; intros s Hs; eapply places_lt; exact Hs). cbn [bind]. rewrite E1. cbn [bind].
    eexists. split; [reflexivity|]. cbn [forallb]. rewrite E2, andb_true_r. apply Nat.eqb_eq.
    rewrite flat_map_concat_map.
    rewrite (places_map (fun s x => units scale band (let c := counts scale band (in_img i) (fs_a x) + match fs_b x with None => 0 | Some b => counts scale band (in_img i) b end in
                      if rltb 0 c then minsb / c else 0.001) (in_img i) (mask_of t (in_img i) s) x) []).
    rewrite <- flat_map_concat_map.
    exact (proj2 (set_sum scale band b (in_img i) 0 0 None 0 None 0 (fun x => let c := counts scale band (in_img i) (fs_a x) + match fs_b x with None => 0 | Some b => counts scale band (in_img i) b end in
                      if rltb 0 c then minsb / c else 0.001) (mask_of t (in_img i)) cat 0 (cat_params cat) HB F D eq_refl)). }
  destruct EU as (us & -> & EL). cbn [bind]. rewrite EL. cbn [negb].
  assert (EM : exists ms, mod0s scale band shape sky mm t cat minsb fs imgs = Ok ms).
  { clear - HI D. induction imgs as [|i imgs IH]; [exists []; auto|]. destruct (HI i (or_introl eq_refl)) as (HR & HB & Hh & Hw & MK).
    destruct IH as (ms & E1); [intros j Hj; apply HI; right; auto|]. cbn [mod0s]. rewrite HR.
    destruct (image_of scale band shape mm sky t cat (Some minsb) (in_img i) (places false cat) (negb fs) Hh Hw MK D) as (m0 & G1 & _).
    { intros s Hs. eapply places_lt. exact Hs. }
    rewrite G1, E1. cbn [bind]. eexists. reflexivity. }
  destruct EM as (ms & ->). cbn [bind].
  assert (E1 : fs && negb (length imgs =? image_params)%nat = false).
  { destruct fs; auto. destruct (HS eq_refl) as [-> _]. rewrite Nat.eqb_refl. reflexivity. }
  rewrite E1. eexists. reflexivity.
Qed.

(** It stops whenever the numbers differ in some image. *)
Theorem C115_counted : forall t cat minsb fit_sky imgs is, setup t cat minsb fit_sky imgs = Ok is ->
  forall k i fi, nth_error imgs k = Some i -> nth_error is k = Some fi -> in_roi i = None ->
  length (fi_um fi) = length (cat_params cat).
Proof. intros t cat minsb fs imgs is E k i fi H1 H2 H3. destruct (setup_inv _ _ _ _ _ _ E) as [_ N]. apply (N k i fi); auto. Qed.
End Setup.

(** ** Cases *)
Definition ex_unit (v : R) : option (patch R) := Some (mkPatch 0 0 (Some (mkArr 1 1 (fun _ _ => v)))).
Definition ex_fin (roi : option (nat * (sl * sl))) : fin := mkFin 0 (mkArr 1 1 (fun _ _ => 10)) (mkArr 1 1 (fun _ _ => 1)) roi.
Definition ex_tr : tractor nat := mkTractor [0%nat] None false.
Notation ex_setup t cat sky imgs := (setup (fun _ => 1) (fun _ => 0%nat) (fun _ => (1, 1)%Z) (fun _ => 4) (fun _ => 0) 1 (fun _ => 1%nat) t cat 0 sky imgs).
Notation ex_drawn t cat n := (model_image (fun _ => 1) (fun _ => 0%nat) (fun _ => (1, 1)%Z) (fun _ => 4) (fun _ => 0) t cat (Some 0) 0 (seq 0 n) true).

Lemma reqb_no : forall a, a <> 0 -> reqb a 0 = false.
Proof. intros a H. unfold reqb. destruct (Req_EM_T a 0); [contradiction|reflexivity]. Qed.

(** A frozen star of flux 3 and a thawed composite with fluxes 2 and 5. *)
Definition ex_star (l : bool) (f : R) : fsrc := mkSrc l [(false, 1)] (mkProf [(l, f)] [] (fun _ _ _ _ _ => ex_unit 1)) None.
Definition ex_comp (f g : R) : fsrc :=
  mkSrc true [(false, 1)] (mkProf [(true, f)] [(false, 2)] (fun _ _ _ _ _ => ex_unit 1))
    (Some (mkProf [(true, g)] [(false, 2)] (fun _ _ _ _ _ => ex_unit 7))).
Example C115_ex :
  fluxes_only 0 [ex_star false 3; ex_comp 2 5] /\ draws [ex_star false 3; ex_comp 2 5] /\ masks_known ex_tr 0 2 /\
  exists fi, ex_setup ex_tr [ex_star false 3; ex_comp 2 5] false [ex_fin None] = Ok [fi] /\
    exists r, rgetim [20; 50] fi None None = Ok r /\ px (ri_mod r) 0 0 = 4 + 3 + 20 + 50 * 7 /\
    exists m, ex_drawn ex_tr [ex_star false 3; ex_comp 20 50] 2 = Ok m /\ px m 0 0 = 4 + 3 + 20 + 50 * 7.
Proof.
  assert (N : forall l, all_frozen (map (fun v => (false, v)) l)) by (intros l x Hx; apply in_map_iff in Hx; destruct Hx as (v & <- & _); auto).
  assert (B : forall v, only_band 0 [(true, v)]).
  { intros v. exists [], v, []. repeat split; intros x Hx; contradiction. }
  split; [|split; [|split]].
  - intros s [<-|[<-|[]]] L; [discriminate|]. split; [apply (N [1])|]. split; [split; [apply B|apply (N [2])]|].
    intros c E. injection E as <-. split; [apply B|apply (N [2])].
  - assert (P : forall v f g, prof_draws (mkProf f g (fun _ _ _ _ _ => ex_unit v))).
    { intros v f g x sh img mask. split; [reflexivity|]. intros m p E. injection E as <-. eexists. split; [reflexivity|]. split; simpl; lia. }
    intros s [<-|[<-|[]]]; (split; [apply P|]); intros c E; [discriminate|]. injection E as <-. apply P.
  - intros s Hs. exists None. split; [reflexivity|discriminate].
  - eexists. split.
    { cbn. unfold draw, single_model; cbn. unfold counts; cbn. rewrite (reqb_no (3 * 1)) by lra. cbn. reflexivity. }
    eexists. split.
    { unfold getim; cbn. rewrite (reqb_no (20 * 1)) by lra. cbn. rewrite (reqb_no (50 * 1)) by lra. cbn. reflexivity. }
    split; [cbn; lra|]. eexists. split.
    { unfold model_image, draw, single_model; cbn. unfold comp_model, single_model, single_model; cbn. unfold counts; cbn.
      rewrite (reqb_no (3 * 1)), (reqb_no (20 * 1)), (reqb_no (50 * 1)) by lra. cbn. reflexivity. }
    cbn. lra.
Qed.

(** Only the flux in another band is free: the fit takes it for the flux in
    the band of the image.  The unit-flux models are as many as the free
    parameters, so nothing stops it. *)
Definition ex_bands (g r : R) : fsrc := mkSrc true [(false, 1)] (mkProf [(false, g); (true, r)] [] (fun _ _ _ _ _ => ex_unit 1)) None.
Theorem C115_band_refuted : exists fi, ex_setup ex_tr [ex_bands 5 2] false [ex_fin None] = Ok [fi] /\
  cat_params [ex_bands 5 2] = [2] /\ set_cat [ex_bands 5 2] [2] = [ex_bands 5 2] /\
  exists r, rgetim [2] fi None None = Ok r /\ px (ri_mod r) 0 0 = 4 + 2 /\
  exists m, ex_drawn ex_tr [ex_bands 5 2] 1 = Ok m /\ px m 0 0 = 4 + 5.
Proof.
  eexists. split; [reflexivity|]. split; [reflexivity|]. split; [reflexivity|]. eexists. split.
  { unfold getim; cbn. rewrite (reqb_no (2 * 1)) by lra. cbn. reflexivity. }
  split; [cbn; lra|]. eexists. split.
  { unfold model_image, draw, single_model; cbn. unfold counts; cbn. rewrite (reqb_no (5 * 1)) by lra. cbn. reflexivity. }
  cbn. lra.
Qed.

(** A coordinate is free and the flux is frozen: the fit takes the coordinate
    for a flux. *)
Definition ex_moving (x f : R) : fsrc := mkSrc true [(true, x)] (mkProf [(false, f)] [] (fun _ _ _ _ _ => ex_unit 1)) None.
Theorem C115_position_refuted : exists fi, ex_setup ex_tr [ex_moving 8 3] false [ex_fin None] = Ok [fi] /\
  cat_params [ex_moving 8 3] = [8] /\
  exists r, rgetim [8] fi None None = Ok r /\ px (ri_mod r) 0 0 = 4 + 8 /\
  exists m, ex_drawn ex_tr [ex_moving 8 3] 1 = Ok m /\ px m 0 0 = 4 + 3.
Proof.
  eexists. split; [reflexivity|]. split; [reflexivity|]. eexists. split.
  { unfold getim; cbn. rewrite (reqb_no (8 * 1)) by lra. cbn. reflexivity. }
  split; [cbn; lra|]. eexists. split.
  { unfold model_image, draw, single_model; cbn. unfold counts; cbn. rewrite (reqb_no (3 * 1)) by lra. cbn. reflexivity. }
  cbn. lra.
Qed.

(** A source that starts with flux zero is fitted with profiles cut off at
    0.001, although minsb = 0 asks for everything: this one, with 0.0005 in its
    only pixel, never shows up, at whatever flux. *)
Definition ex_faint (f : R) : fsrc :=
  mkSrc true [(false, 1)] (mkProf [(true, f)] [] (fun _ _ _ _ m => if rltb m 0.0005 then ex_unit 0.0005 else None)) None.
Theorem C115_cutoff_refuted : exists fi, ex_setup ex_tr [ex_faint 0] false [ex_fin None] = Ok [fi] /\
  set_cat [ex_faint 0] [10000] = [ex_faint 10000] /\
  exists r, rgetim [10000] fi None None = Ok r /\ px (ri_mod r) 0 0 = 4 /\
  exists m, ex_drawn ex_tr [ex_faint 10000] 1 = Ok m /\ px m 0 0 = 4 + 5.
Proof.
  eexists. split.
  { cbn. unfold units, single_units; cbn. unfold counts; cbn.
    replace (rltb 0 (0 * 1 + 0)) with false by (unfold rltb; destruct (Rlt_dec 0 (0 * 1 + 0)); [lra|auto]).
    replace (rltb 0.001 0.0005) with false by (unfold rltb; destruct (Rlt_dec 0.001 0.0005); [lra|auto]). cbn. reflexivity. }
  split; [reflexivity|]. eexists. split; [cbn; reflexivity|].
  split; [cbn; lra|]. eexists. split.
  { unfold model_image, draw, single_model; cbn. unfold counts; cbn. rewrite (reqb_no (10000 * 1)) by lra.
    replace (rltb (0 / (10000 * 1)) 0.0005) with true by (unfold rltb; destruct (Rlt_dec (0 / (10000 * 1)) 0.0005); [auto|lra]). cbn. reflexivity. }
  cbn. lra.
Qed.

(** A source without the model mask that is expected: the Tractor leaves it
    out, forced photometry fits it. *)
Definition ex_expect : tractor nat := mkTractor [0%nat] (Some [[]]) true.
Theorem C115_mask_refuted : exists fi, ex_setup ex_expect [ex_star true 3] false [ex_fin None] = Ok [fi] /\
  exists r, rgetim [3] fi None None = Ok r /\ px (ri_mod r) 0 0 = 4 + 3 /\
  exists m, ex_drawn ex_expect [ex_star true 3] 1 = Ok m /\ px m 0 0 = 4.
Proof.
  eexists. split; [reflexivity|]. eexists. split.
  { unfold getim; cbn. rewrite (reqb_no (3 * 1)) by lra. cbn. reflexivity. }
  split; [cbn; lra|]. eexists. split; [reflexivity|]. cbn. lra.
Qed.

(** With regions and model masks, a frozen source is looked up in the subimage,
    which the Tractor does not know: ValueError. *)
Theorem C115_region_refuted :
  ex_setup (mkTractor [0%nat] (Some [[(0%nat, 0%nat)]]) false) [ex_star false 3] false
    [ex_fin (Some (1%nat, (mkSl 0 1, mkSl 0 1)))] = Err ValueError /\
  exists fi, ex_setup (mkTractor [0%nat] (Some [[(0%nat, 0%nat)]]) false) [ex_star false 3] false [ex_fin None] = Ok [fi].
Proof.
  split; [reflexivity|]. eexists. cbn. unfold draw, single_model; cbn. unfold counts; cbn.
  rewrite (reqb_no (3 * 1)) by lra. cbn. reflexivity.
Qed.

Print Assumptions C115_model.
Print Assumptions C115_runs.
Print Assumptions C115_counted.
Print Assumptions C115_band_refuted.
Print Assumptions C115_position_refuted.
Print Assumptions C115_cutoff_refuted.
Print Assumptions C115_mask_refuted.
Print Assumptions C115_region_refuted.
