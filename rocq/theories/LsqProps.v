(** Properties C33 and C35: the sparse least-squares system, its scaling and
    shared parameters. *)
From Coq Require Import String List ZArith QArith Qabs Bool Lia Lqa Permutation.
From Verif Require Import Base ParamsModel ParamsSpec PatchModel PatchSpec PatchProofs PriorModel PriorProps.
From Verif Require Import LsqModel LsqSpec LsqProofs.
Import ListNotations.
Open Scope Q_scope.

(** ** Proofs *)
#[local] Arguments Qabs : simpl never.
#[local] Arguments Qplus : simpl never.
#[local] Arguments Qmult : simpl never.
#[local] Arguments Qminus : simpl never.
#[local] Arguments Qdiv : simpl never.

Lemma prior_elems n0 x : blk_elems (prior_blocks n0 x) =
  map (fun e => let '(r, c, v) := e in ((Z.of_nat r + n0)%Z, c, v)) (entries x).
Proof.
  unfold blk_elems, prior_blocks, entries. rewrite flat_map_concat_map, map_map, concat_map, map_map. f_equal.
  apply map_ext. intros [[r c] v]. simpl. rewrite map_map.
  revert v. induction r as [|k r IH]; intros [|y v]; simpl; auto. rewrite IH. reflexivity.
Qed.

Lemma prior_row n0 es d r :
  row_sum (map (fun e => let '(r, c, v) := e in ((Z.of_nat r + n0)%Z, c, v)) es) d (n0 + Z.of_nat r) == row_dot es d r.
Proof.
  unfold row_sum, row_dot. rewrite map_map. apply qsum_ext. intros [[k c] v] _.
  destruct (Z.eqb_spec (Z.of_nat k + n0) (n0 + Z.of_nat r)), (Nat.eqb_spec k r); try lia; reflexivity.
Qed.
Lemma prior_row_before n0 es d r : (r < n0)%Z ->
  row_sum (map (fun e => let '(r, c, v) := e in ((Z.of_nat r + n0)%Z, c, v)) es) d r == 0.
Proof.
  intros H. unfold row_sum. rewrite map_map. apply qsum_zero. intros [[k c] v] _.
  destruct (Z.eqb_spec (Z.of_nat k + n0) r); [lia|reflexivity].
Qed.
Lemma row_sum_beyond es d r n : Forall (fun e : Z * nat * Q => (fst (fst e) < n)%Z) es -> (n <= r)%Z -> row_sum es d r == 0.
Proof.
  intros F H. apply qsum_zero. intros [[k c] v] I. rewrite Forall_forall in F. specialize (F _ I). simpl in F.
  destruct (Z.eqb_spec k r); [lia|reflexivity].
Qed.

(** The prior system handed to the optimizer by a group of parameters. *)
Lemma prior_shape nm subs liq (t := PMulti nm subs liq) : wf t -> priors_ok t ->
  exists ox, prior_derivs t = Ok ox /\
  match ox with
  | None => free_terms t = 0%nat
  | Some x => ps_b x <> [] /\ ps_rows x <> [] /\ listmax1 (ps_rows x) = free_terms t /\
      length (concat (ps_b x)) = free_terms t /\
      length (ps_cols x) = length (ps_rows x) /\ length (ps_vals x) = length (ps_rows x) /\
      Forall (fun e => (fst (fst e) < free_terms t)%nat /\ (snd (fst e) < number_of_params t)%nat) (entries x)
  end.
Proof.
  intros W O. assert (NN : t <> PNone) by discriminate.
  pose proof (terms_count t W O) as TC. pose proof (terms_range t W O) as R.
  destruct (prior_derivs_spec t W O NN) as [E|(E & ET)].
  - exists (Some (sys 0 (terms t) (get_params t))). split; auto.
    assert (NE : terms t <> []).
    { intros EN. rewrite EN in E. unfold t in E. simpl in E.
      destruct (prior_walk prior_derivs subs liq 0 0) as [x|]; simpl in E; [|discriminate].
      destruct (ps_rows x) eqn:ER; [discriminate|]. injection E as E. subst x. discriminate. }
    rewrite listmax1_sys0, TC. rewrite entries_sys. cbn [ps_b ps_rows ps_cols ps_vals sys].
    rewrite concat_single, !map_length, seq_length.
    split; [destruct (terms t); simpl; congruence|]. split; [destruct (terms t); simpl; congruence|].
    split; auto. split; auto. split; auto. split; auto.
    apply Forall_map. apply Forall_forall. intros [k y] I. cbn [fst snd].
    pose proof (in_combine_l _ _ _ _ I) as I1. apply in_seq in I1. apply in_combine_r in I.
    rewrite Forall_forall in R. specialize (R _ I) as (R1 & _). lia.
  - exists None. split; auto. rewrite <- TC, ET. reflexivity.
Qed.

Lemma assemble_plain sqrtf nm subs liq ds (t := PMulti nm subs liq) : wf t -> priors_ok t ->
  number_of_params t = length ds -> derivs_ok ds ->
  exists imgs, images_of imgs ds /\ Forall wf_image imgs /\ place (concat ds) [] 0%Z = (layout imgs 0, total imgs) /\
  ((total imgs <= 2147483648)%Z ->
  exists ox bs pbs, prior_derivs t = Ok ox /\
    all_blocks (layout imgs 0) 0 ds = Ok bs /\
    pbs = match ox with None => [] | Some x => prior_blocks (total imgs) x end /\
    (pbs = [] -> free_terms t = 0%nat) /\
    assemble sqrtf false None ds ox =
      Ok (match bs ++ pbs with
          | [] => None
          | _ => Some (mkLsys (blk_elems (bs ++ pbs)) (total imgs + Z.of_nat (free_terms t)) (length ds)
                    (all_chi imgs ++ match ox with None => [] | Some x => concat (ps_b x) end) (repeat 0 (length ds)))
          end) /\
    Forall (fun e => (0 <= fst (fst e) < total imgs)%Z /\ (snd (fst e) < length ds)%nat) (blk_elems bs) /\
    Forall (fun e => (total imgs <= fst (fst e) < total imgs + Z.of_nat (free_terms t))%Z /\ (snd (fst e) < length ds)%nat) (blk_elems pbs) /\
    length (match ox with None => [] | Some x => concat (ps_b x) end) = free_terms t /\
    (forall dd r, row_sum (blk_elems bs) dd r == row_value imgs (combine (seq 0 (length ds)) ds) dd r) /\
    (forall dd r, row_sum (blk_elems pbs) dd (total imgs + Z.of_nat r) ==
       match ox with None => 0 | Some x => row_dot (entries x) dd r end) /\
    (forall dd r, (r < total imgs)%Z -> row_sum (blk_elems pbs) dd r == 0)).
Proof.
  intros W O HN (D1 & D2).
  destruct (place_spec (concat ds) []) as (imgs & EP & ND & HI).
  { constructor. }
  { intros i j [[]|(p & Hp)] [[]|(q & Hq)]. apply (D2 p i q j); auto. }
  change (place (concat ds) [] 0%Z = (layout imgs 0, total imgs)) in EP.
  assert (IMG : images_of imgs ds).
  { split; auto. intros i. rewrite HI. split; [intros [[]|H]; auto|auto]. }
  assert (F : Forall wf_image imgs).
  { apply Forall_forall. intros i Hi. apply IMG in Hi as (p & Hp). apply (D1 p i Hp). }
  assert (PL : placed imgs (concat ds)).
  { intros p i Hp. destruct (D1 p i Hp). split; auto. split; auto. apply IMG. eauto. }
  exists imgs. split; auto. split; auto. split; auto. intros TB.
  destruct (prior_shape nm subs liq W O) as (ox & EX & HX). fold t in HX, EX.
  destruct (all_blocks_spec imgs ND F TB ds 0 PL) as (bs & EB & GB & RB & SB).
  exists ox, bs. eexists. split; auto. split; auto. split; [reflexivity|].
  split; [destruct ox as [x|]; auto; intros H; exfalso|].
  { destruct HX as (_ & H1 & _ & _ & H2 & H3 & _). unfold prior_blocks in H. apply map_eq_nil in H.
    destruct (ps_rows x), (ps_cols x), (ps_vals x); simpl in *; congruence. }
  split.
  - unfold assemble. rewrite EP. rewrite EB. cbn [bind].
    set (pbs := match ox with None => [] | Some x => prior_blocks (total imgs) x end).
    assert (EM : match ox with
       | Some x => match ps_b x with
                   | [] => Err ValueError
                   | _ :: _ => if (Z.of_nat (length (concat (ps_b x))) =? Z.of_nat (listmax1 (ps_rows x)))%Z
                               then Ok ((total imgs + Z.of_nat (listmax1 (ps_rows x)))%Z, repeat 0 (Z.to_nat (total imgs)) ++ concat (ps_b x))
                               else Err ValueError
                   end
       | None => Ok (total imgs, repeat 0 (Z.to_nat (total imgs)))
       end = Ok ((total imgs + Z.of_nat (free_terms t))%Z, repeat 0 (Z.to_nat (total imgs)) ++ match ox with None => [] | Some x => concat (ps_b x) end)).
    { destruct ox as [x|].
      - destruct HX as (H1 & _ & H2 & H3 & _). rewrite H2, H3, Z.eqb_refl. destruct (ps_b x); [congruence|reflexivity].
      - rewrite HX, Z.add_0_r, app_nil_r. reflexivity. }
    cbv zeta. rewrite EM. cbn [bind].
    destruct (bs ++ pbs) as [|b0 al] eqn:EA; [reflexivity|]. cbn [bind].
    pose proof (fill_chi_spec imgs 0 [] (match ox with None => [] | Some x => concat (ps_b x) end) F ltac:(lia) eq_refl) as FC.
    cbn [app] in FC. rewrite FC. cbn [bind]. reflexivity.
  - split; [eapply Forall_impl; [|apply RB]; simpl; intros e (A & B); split; auto; lia|].
    destruct ox as [x|].
    + destruct HX as (H1 & _ & H2 & H3 & _ & _ & H4). rewrite prior_elems. split.
      { apply Forall_map. eapply Forall_impl; [|apply H4]. intros [[r c] v]. simpl. intros (A & B).
        unfold t in *. rewrite <- HN. split; auto. lia. }
      split; auto. split; auto. split; [intros; apply prior_row|]. intros. apply prior_row_before; auto.
    + split; [constructor|]. split; auto. split; auto. split; intros; reflexivity.
Qed.

Lemma placed_of imgs ds : derivs_ok ds -> images_of imgs ds -> placed imgs (concat ds).
Proof.
  intros (D1 & _) (_ & HI) p i Hp. destruct (D1 p i Hp). split; auto. split; auto. apply HI. eauto.
Qed.

(** ** C33 *)

(** Without column scaling and sharing.  The images are stacked in some order;
    row offset_k + Y * W + X belongs to pixel (X, Y) of image k and to nothing
    else: it holds, in the column of each parameter, the parameter's derivative
    there times the inverse error (stated as: row times any step d is the
    linearized change of the model in units of the error), and the right-hand
    side there is chi.  The rows after all pixels are the prior rows.  No
    element lies outside the matrix.  [None], reported for an empty matrix,
    means that no parameter influences any pixel and no prior applies. *)
Theorem C33_layout : forall sqrtf nm subs liq ds, let t := PMulti nm subs liq in
  wf t -> priors_ok t -> number_of_params t = length ds -> derivs_ok ds ->
  exists imgs, images_of imgs ds /\ ((total imgs <= 2147483648)%Z ->
    exists ox o, prior_derivs t = Ok ox /\ assemble sqrtf false None ds ox = Ok o /\
    match o with
    | None => free_terms t = 0%nat /\
        forall i d X Y, In i imgs -> (0 <= X < im_w i)%Z -> (0 <= Y < im_h i)%Z -> model_change ds i d X Y == 0
    | Some s =>
        ls_ncols s = length ds /\ ls_nrows s = (total imgs + Z.of_nat (free_terms t))%Z /\
        Z.of_nat (length (ls_b s)) = ls_nrows s /\
        Forall (fun e => (0 <= fst (fst e) < ls_nrows s)%Z /\ (snd (fst e) < ls_ncols s)%nat) (ls_elems s) /\
        (forall k i X Y d, nth_error imgs k = Some i -> (0 <= X < im_w i)%Z -> (0 <= Y < im_h i)%Z ->
           let r := (offset imgs k + Y * im_w i + X)%Z in
           row_sum (ls_elems s) d r == model_change ds i d X Y /\
           nth (Z.to_nat r) (ls_b s) 0 = px (im_chi i) Y X) /\
        (forall r d, (r < free_terms t)%nat -> exists x, ox = Some x /\
           row_sum (ls_elems s) d (total imgs + Z.of_nat r) == row_dot (entries x) d r /\
           nth (Z.to_nat (total imgs) + r) (ls_b s) 0 = nth r (concat (ps_b x)) 0)
    end).
Proof.
  intros sqrtf nm subs liq ds t W O HN HD.
  destruct (assemble_plain sqrtf nm subs liq ds W O HN HD) as (imgs & IMG & F & EP & H).
  exists imgs. split; auto. intros TB. destruct (H TB) as (ox & bs & pbs & EX & EB & EPB & HZ & EA & RB & RP & LB & SB & SP & SPB).
  exists ox. eexists. split; auto. split; [apply EA|].
  pose proof (placed_of imgs ds HD IMG) as PL. destruct IMG as (ND & HI). pose proof (total_nonneg imgs F) as TN.
  assert (PIX : forall k i X Y d, nth_error imgs k = Some i -> (0 <= X < im_w i)%Z -> (0 <= Y < im_h i)%Z ->
     row_sum (blk_elems (bs ++ pbs)) d (offset imgs k + Y * im_w i + X)%Z == model_change ds i d X Y).
  { intros k i X Y d Ek HX HY. rewrite blk_elems_app, row_sum_app, SB.
    rewrite (row_value_pixel imgs ds k i X Y d) by auto.
    rewrite SPB; [ring|]. pose proof (offset_le imgs (S k) F) as OL. rewrite (offset_succ imgs k i Ek) in OL. unfold npix in OL. nia. }
  destruct (bs ++ pbs) as [|b0 al] eqn:EBP.
  - apply app_eq_nil in EBP as (E1 & E2). split; [apply HZ; auto|].
    intros i d X Y Hi HX HY. apply In_nth_error in Hi as (k & Ek).
    rewrite <- (PIX k i X Y d Ek HX HY). reflexivity.
  - rewrite <- EBP in *. clear b0 al EBP.
    cbn [ls_ncols ls_nrows ls_b ls_elems].
    split; auto. split; auto.
    split; [rewrite app_length, all_chi_len, LB by auto; lia|].
    split. { rewrite blk_elems_app. apply Forall_app. split; [eapply Forall_impl; [|apply RB]|eapply Forall_impl; [|apply RP]]; simpl; intros e (A & B); split; auto; lia. }
    split.
    + intros k i X Y d Ek HX HY. split; [apply PIX; auto|]. apply nth_all_chi; auto.
    + intros r d Hr. destruct ox as [x|]; [|cbn [length] in LB; unfold t in Hr; lia]. exists x. split; auto. split.
      * rewrite blk_elems_app, row_sum_app, SP. rewrite (row_sum_beyond (blk_elems bs) d _ (total imgs)); [ring| |lia].
        eapply Forall_impl; [|apply RB]. simpl; intros; lia.
      * rewrite app_nth2 by (rewrite all_chi_len by auto; lia). f_equal. rewrite all_chi_len by auto. lia.
Qed.

Lemma map_add_seq : forall n a b, map (fun x => (a + x)%nat) (seq b n) = seq (a + b) n.
Proof. induction n as [|n IH]; intros a b; simpl; auto. f_equal. rewrite IH. f_equal. lia. Qed.
Lemma seq_grid_nat W H o : flat_map (fun y => map (fun x => (o + y * W + x)%nat) (seq 0 W)) (seq 0 H) = seq o (H * W).
Proof.
  induction H as [|H IH]; [reflexivity|]. rewrite seq_S, flat_map_app, IH. simpl.
  replace (W + H * W)%nat with (H * W + W)%nat by lia. rewrite seq_app. f_equal. rewrite app_nil_r, map_add_seq. f_equal. lia.
Qed.
Lemma seq_grid h w o : (0 <= h)%Z -> (0 <= w)%Z -> (0 <= o)%Z ->
  map (fun yx => Z.to_nat (o + fst yx * w + snd yx)) (grid h w) = seq (Z.to_nat o) (Z.to_nat (w * h)).
Proof.
  intros Hh Hw Ho. unfold grid. rewrite flat_map_concat_map, concat_map, map_map, <- flat_map_concat_map.
  replace (Z.to_nat (w * h)) with (Z.to_nat h * Z.to_nat w)%nat by nia. rewrite <- seq_grid_nat.
  rewrite !flat_map_concat_map. f_equal. apply map_ext. intros y. rewrite map_map. apply map_ext. intros x. simpl. nia.
Qed.

Lemma pixel_rows_sum : forall (f : nat -> Q) (g : image -> Z * Z -> Q) imgs o, Forall wf_image imgs -> (0 <= o)%Z ->
  (forall k i y x, nth_error imgs k = Some i -> (0 <= x < im_w i)%Z -> (0 <= y < im_h i)%Z ->
     f (Z.to_nat (o + offset imgs k + y * im_w i + x)) == g i (y, x)) ->
  qsum (map f (seq (Z.to_nat o) (Z.to_nat (total imgs)))) == qsum (map (fun i => qsum (map (g i) (grid (im_h i) (im_w i)))) imgs).
Proof.
  intros f g. induction imgs as [|i imgs IH]; intros o F Ho H; [reflexivity|].
  inversion F as [|? ? W F']; subst. pose proof (total_nonneg imgs F') as TN.
  pose proof W as (A & B & _).
  assert (NP : (0 <= npix i)%Z) by (unfold npix; nia).
  simpl. replace (Z.to_nat (npix i + total imgs)) with (Z.to_nat (npix i) + Z.to_nat (total imgs))%nat by lia.
  rewrite seq_app, map_app, qsum_app. apply Qplus_comp.
  - unfold npix. rewrite <- seq_grid by lia. rewrite map_map. apply qsum_ext. intros [y x] I. apply in_grid in I.
    cbn [fst snd]. rewrite <- (H 0%nat i y x eq_refl) by lia. unfold offset. simpl. rewrite Z.add_0_r. reflexivity.
  - replace (Z.to_nat o + Z.to_nat (npix i))%nat with (Z.to_nat (o + npix i)) by lia.
    apply IH; auto; [lia|]. intros k j y x Ek Hx Hy. rewrite <- (H (S k) j y x Ek Hx Hy).
    replace (o + offset (i :: imgs) (S k))%Z with (o + npix i + offset imgs k)%Z; [reflexivity|].
    unfold offset. simpl. lia.
Qed.

(** What is minimized: up to a constant, the sum over all pixels of all images
    of the squared difference between chi and the linearized model change, minus
    twice the log prior of the stepped parameters. *)
Theorem C33_objective : forall sqrtf nm subs liq ds, let t := PMulti nm subs liq in
  wf t -> priors_ok t -> number_of_params t = length ds -> derivs_ok ds ->
  exists imgs, images_of imgs ds /\ ((total imgs <= 2147483648)%Z ->
    forall ox s, prior_derivs t = Ok ox -> assemble sqrtf false None ds ox = Ok (Some s) ->
    forall d t', length d = length ds -> set_params t (step_by (get_params t) d) = Ok t' ->
    exists L L', log_prior t = Ok L /\ log_prior t' = Ok L' /\
      let z := repeat 0 (length ds) in
      objective s d - objective s z == (linear_chisq imgs ds d - linear_chisq imgs ds z) - 2 * (L' - L)).
Proof.
  intros sqrtf nm subs liq ds t W O HN HD.
  destruct (C33_layout sqrtf nm subs liq ds W O HN HD) as (imgs & IMG & H).
  exists imgs. split; auto. intros TB ox s EX EA d t' LD ES.
  destruct (H TB) as (ox' & o & EX' & EA' & HO). fold t in EX', EA', HO.
  rewrite EX in EX'. injection EX' as <-. rewrite EA in EA'. injection EA' as <-.
  destruct HO as (H1 & H2 & H3 & H4 & H5 & H6).
  destruct (C15_prior_rows t W O ltac:(discriminate)) as (ox' & EX' & HX & HL).
  rewrite EX in EX'. injection EX' as <-.
  destruct (HL d t' ltac:(congruence) ES) as (L & L' & EL & EL' & LL).
  exists L, L'. split; auto. split; auto. cbv zeta.
  assert (F : Forall wf_image imgs).
  { destruct HD as (D1 & _). apply Forall_forall. intros i Hi. apply IMG in Hi as (p & Hp). apply (D1 p i Hp). }
  pose proof (total_nonneg imgs F) as TN.
  assert (OBJ : forall dd, objective s dd == linear_chisq imgs ds dd + match ox with None => 0 | Some x => misfit x dd end).
  { intros dd. unfold objective. rewrite H2.
    replace (Z.to_nat (total imgs + Z.of_nat (free_terms t))) with (Z.to_nat (total imgs) + free_terms t)%nat by lia.
    rewrite seq_app, map_app, qsum_app. apply Qplus_comp.
    - apply (pixel_rows_sum (fun k => qsq (row_sum (ls_elems s) dd (Z.of_nat k) - nth k (ls_b s) 0))
               (fun i yx => qsq (model_change ds i dd (snd yx) (fst yx) - px (im_chi i) (fst yx) (snd yx))) imgs 0 F ltac:(lia)).
      intros k i y x Ek Hx Hy. cbn [fst snd]. destruct (H5 k i x y dd Ek Hx Hy) as (A & B).
      pose proof (offset_le imgs k F). rewrite Z.add_0_l. rewrite Z2Nat.id by nia. rewrite B. cbv zeta in A. rewrite A. reflexivity.
    - destruct ox as [x|].
      + destruct HX as (_ & _ & HB & _). unfold misfit. rewrite HB.
        rewrite <- (Nat.add_0_r (0 + Z.to_nat (total imgs))), <- map_add_seq, map_map. apply qsum_ext.
        intros r Hr. apply in_seq in Hr. destruct (H6 r dd ltac:(lia)) as (x' & Ex & A & B). injection Ex as <-.
        replace (0 + Z.to_nat (total imgs) + r)%nat with (Z.to_nat (total imgs) + r)%nat by lia. rewrite B.
        replace (Z.of_nat (Z.to_nat (total imgs) + r)) with (total imgs + Z.of_nat r)%Z by lia. rewrite A. reflexivity.
      + rewrite HX. reflexivity. }
  rewrite !OBJ, LL. unfold t in HN. destruct ox as [x|]; [|ring].
  unfold t. rewrite HN. ring.
Qed.

(** ** Column scaling *)
Definition okb (n : nat) (b : blk) : Prop :=
  length (b_rows b) = length (b_vals b) /\ (b_col b < n)%nat /\ 0 < dot (b_vals b) (b_vals b).

Lemma qsum_nonneg l : Forall (fun q => 0 <= q) l -> 0 <= qsum l.
Proof. induction 1 as [|q l H F IH]; simpl; lra. Qed.
Lemma sq_nonneg q : 0 <= q * q.
Proof. destruct (Qlt_le_dec q 0) as [H|H]; nra. Qed.
Lemma sq_pos q : ~ q == 0 -> 0 < q * q.
Proof. intros H. destruct (Q_dec q 0) as [[L|L]|E]; [nra|nra|contradiction]. Qed.
Lemma dot_self v : dot v v == qsum (map qsq v).
Proof. unfold dot. induction v as [|a v IH]; simpl; [reflexivity|]. rewrite IH. reflexivity. Qed.
Lemma dot_nonneg v : 0 <= dot v v.
Proof. rewrite dot_self. apply qsum_nonneg. apply Forall_map. apply Forall_forall. intros. apply sq_nonneg. Qed.
Lemma dot_pos v x : In x v -> ~ x == 0 -> 0 < dot v v.
Proof.
  intros I N. rewrite dot_self. induction v as [|a v IH]; [destruct I|]. simpl.
  assert (0 <= qsum (map qsq v)) by (apply qsum_nonneg; apply Forall_map; apply Forall_forall; intros; apply sq_nonneg).
  destruct I as [->|I].
  - pose proof (sq_pos x N). unfold qsq at 1. lra.
  - specialize (IH I). pose proof (sq_nonneg a). unfold qsq at 1. lra.
Qed.

Lemma deriv_block_ok offs col d i b n : deriv_block offs col d i = Ok (Some b) -> (col < n)%nat -> okb n b.
Proof.
  unfold deriv_block. intros H Hc. apply bind_ok in H as (row0 & _ & H). apply bind_ok in H as ((p, bb) & _ & H).
  destruct (get_pixel_indices p (im_w i)) as [|k l]; [discriminate|].
  destruct (forallb _ (k :: l)); [|discriminate].
  destruct (pimg p) as [a|]; [|discriminate]. destruct (get_slice_in p (im_h i) (im_w i)) as [[ys xs]|]; [|discriminate].
  destruct (same_shape a (asub (im_ie i) ys xs)); [|discriminate].
  match type of H with match filter ?g ?v with _ => _ end = _ => destruct (filter g v) as [|e r] eqn:EF end; [discriminate|].
  assert (EBK : b = mkBlk (map (fun e => wrap32 (row0 + fst e)) (e :: r)) col (map snd (e :: r))) by congruence. subst b.
  unfold okb. cbn [b_rows b_vals b_col]. rewrite !map_length. split; auto. split; auto.
  assert (I : In e (e :: r)) by (simpl; auto). rewrite <- EF in I. apply filter_In in I as (_ & I).
  apply negb_true_iff in I. apply (dot_pos _ (snd e)); [simpl; auto|]. apply Qeq_bool_neq. auto.
Qed.
Lemma param_blocks_ok offs col n : (col < n)%nat -> forall l bs, param_blocks offs col l = Ok bs -> Forall (okb n) bs.
Proof.
  intros Hc. induction l as [|[d i] l IH]; simpl; intros bs H; [injection H as <-; constructor|].
  apply bind_ok in H as (ob & E & H). apply bind_ok in H as (r & E2 & H). injection H as <-.
  destruct ob; auto. constructor; auto. eapply deriv_block_ok; eauto.
Qed.
Lemma all_blocks_ok offs n : forall ds col bs, (col + length ds <= n)%nat -> all_blocks offs col ds = Ok bs -> Forall (okb n) bs.
Proof.
  induction ds as [|l ds IH]; simpl; intros col bs Hn H; [injection H as <-; constructor|].
  apply bind_ok in H as (b & E & H). apply bind_ok in H as (r & E2 & H). injection H as <-.
  apply Forall_app. split; [eapply param_blocks_ok; [|eauto]; lia|]. eapply IH; [|eauto]. lia.
Qed.

Lemma prior_blocks_ok nm subs liq (t := PMulti nm subs liq) n0 x : wf t -> priors_ok t ->
  prior_derivs t = Ok (Some x) -> Forall (okb (number_of_params t)) (prior_blocks n0 x).
Proof.
  intros W O E. destruct (prior_derivs_spec t W O ltac:(discriminate)) as [E'|(E' & _)]; [|congruence].
  assert (x = sys 0 (terms t) (get_params t)) by congruence. subst x. clear E E'.
  pose proof (terms_range t W O) as R. generalize (get_params t) as p. revert R. generalize (terms t) as ts. generalize (number_of_params t) as n.
  intros n ts R p. unfold prior_blocks, sys. cbn [ps_rows ps_cols ps_vals].
  generalize 0%nat at 1 as r0. induction R as [|y ts (R1 & R2) R IH]; intros r0; simpl; constructor; auto.
  unfold okb. cbn [b_rows b_vals b_col map length]. split; auto. split; auto.
  unfold dot. simpl. destruct y as [[c m] sg]. simpl in *.
  assert (N : ~ 1 / sg == 0).
  { intros H. assert (1 == 0 * sg) by (rewrite <- H; field; auto). lra. }
  pose proof (sq_pos _ N). lra.
Qed.

Lemma nth_upd_q l i x c : (i < length l)%nat -> nth c (upd i x l) 0 = if (c =? i)%nat then x else nth c l 0.
Proof.
  revert i c. induction l as [|a l IH]; intros [|i] [|c] H; simpl in *; try lia; auto. apply IH. lia.
Qed.

Definition blk_norm (bs : list blk) (c : nat) : Q :=
  qsum (map (fun b => if (b_col b =? c)%nat then dot (b_vals b) (b_vals b) else 0) bs).

Lemma col_scales_spec : forall bs acc, Forall (okb (length acc)) bs ->
  exists sc, col_scales bs acc = Ok sc /\ length sc = length acc /\ forall c, nth c sc 0 == nth c acc 0 + blk_norm bs c.
Proof.
  induction bs as [|b bs IH]; intros acc F; simpl.
  - exists acc. split; auto. split; auto. intros c. unfold blk_norm. simpl. ring.
  - inversion F as [|? ? (L & C & P) F']; subst. unfold py_get.
    destruct (nth_error acc (b_col b)) as [x|] eqn:E; [|apply nth_error_None in E; lia]. cbn [bind].
    destruct (IH (upd (b_col b) (x + dot (b_vals b) (b_vals b)) acc)) as (sc & -> & LS & HS).
    { rewrite upd_length. auto. }
    exists sc. split; auto. split; [rewrite LS, upd_length; auto|]. intros c. rewrite HS.
    rewrite nth_upd_q by auto. unfold blk_norm. simpl. rewrite (Nat.eqb_sym c).
    destruct (Nat.eqb_spec (b_col b) c) as [<-|N]; [rewrite (nth_error_nth acc _ 0 E)|]; ring.
Qed.

Lemma blk_norm_elems bs c : Forall (fun b => length (b_rows b) = length (b_vals b)) bs ->
  blk_norm bs c == col_norm2 (blk_elems bs) c.
Proof.
  induction 1 as [|b bs L F IH]; [reflexivity|]. unfold blk_norm in *.
  pose proof (blk_elems_app [b] bs : blk_elems (b :: bs) = _) as EBA. rewrite EBA. clear EBA. unfold col_norm2 in *.
  rewrite map_app, qsum_app. rewrite <- IH. cbn [map qsum fold_right]. apply Qplus_comp; [|reflexivity].
  unfold blk_elems. simpl. rewrite app_nil_r, map_map. cbn [fst snd].
  destruct (b_col b =? c)%nat; [|symmetry; apply qsum_zero; auto with qarith].
  rewrite dot_self. rewrite <- (map_map (fun x : Z * Q => snd x) qsq).
  assert (E : map (fun x : Z * Q => snd x) (combine (b_rows b) (b_vals b)) = b_vals b).
  { clear - L. revert L. generalize (b_rows b) as r. generalize (b_vals b) as v. induction v; intros [|y r]; simpl; intros; try discriminate; auto.
    f_equal. apply IHv. lia. }
  rewrite E. reflexivity.
Qed.

Lemma scale_blocks_spec scales n : length scales = n -> forall bs, Forall (okb n) bs ->
  (forall b, In b bs -> 0 < nth (b_col b) scales 0) ->
  exists bs', scale_blocks scales bs = Ok bs' /\
  forall x y, (forall b, In b bs -> nth (b_col b) y 0 == nth (b_col b) x 0 / nth (b_col b) scales 0) ->
    (forall r, Qabs (row_sum (blk_elems bs) y r - row_sum (blk_elems bs') x r) <= tiny * abs_row (blk_elems bs) x r) /\
    ((forall r c v, In (r, c, v) (blk_elems bs) -> tiny < Qabs (v / nth c scales 0)) ->
     forall r, row_sum (blk_elems bs') x r == row_sum (blk_elems bs) y r).
Proof.
  intros LS. induction bs as [|b bs IH]; intros F P.
  - exists []. split; auto. intros x y _. split; [|intros; reflexivity]. intros r. unfold row_sum, abs_row; vm_compute. discriminate.
  - inversion F as [|? ? (L & C & PD) F']; subst.
    destruct IH as (bs' & E & H); auto. { intros c Hc. apply P. simpl; auto. }
    pose proof (P b ltac:(simpl; auto)) as PS.
    cbn [scale_blocks]. unfold py_get. destruct (nth_error scales (b_col b)) as [s|] eqn:ES; [|apply nth_error_None in ES; lia].
    rewrite (nth_error_nth scales _ 0 ES) in PS. cbn [bind]. rewrite E. cbn [bind].
    destruct (Qeq_bool s 0) eqn:EQ; [apply Qeq_bool_eq in EQ; exfalso; lra|].
    set (G := fun e : Z * Q => negb (Qle_bool (Qabs (snd e)) tiny)).
    set (V := combine (b_rows b) (map (fun v => v / s) (b_vals b))).
    eexists. split; [reflexivity|]. intros x y HY.
    destruct (H x y) as (H1 & H2). { intros c Hc. apply HY. simpl; auto. }
    pose proof (HY b ltac:(simpl; auto)) as HB. rewrite (nth_error_nth scales _ 0 ES) in HB.
    assert (EL : blk_elems (match filter G V with [] => bs' | _ :: _ => mkBlk (map fst (filter G V)) (b_col b) (map snd (filter G V)) :: bs' end) =
       map (fun e => (fst e, b_col b, snd e)) (filter G V) ++ blk_elems bs').
    { destruct (filter G V) as [|e l] eqn:EF; [reflexivity|].
      rewrite (blk_elems_app [mkBlk (map fst (e :: l)) (b_col b) (map snd (e :: l))] bs'
        : blk_elems (mkBlk (map fst (e :: l)) (b_col b) (map snd (e :: l)) :: bs') = _). f_equal. unfold blk_elems. cbn [flat_map b_rows b_vals b_col]. rewrite app_nil_r, combine_map2, map_map. reflexivity. }
    assert (EBB : blk_elems (b :: bs) = map (fun e => (fst e, b_col b, snd e)) (combine (b_rows b) (b_vals b)) ++ blk_elems bs).
    { reflexivity. }
    fold G V. rewrite EL, EBB. clear EL EBB.
    assert (B1 : forall r, Qabs (row_sum (map (fun e => (fst e, b_col b, snd e)) (combine (b_rows b) (b_vals b))) y r
                   - row_sum (map (fun e => (fst e, b_col b, snd e)) (filter G V)) x r) <=
                   tiny * abs_row (map (fun e => (fst e, b_col b, snd e)) (combine (b_rows b) (b_vals b))) x r).
    { intros r. subst V. unfold row_sum, abs_row. rewrite !map_map. clear - HB PS. revert HB.
      generalize (nth (b_col b) y 0) as yc. generalize (nth (b_col b) x 0) as xc. intros xc yc HB.
      generalize (b_vals b) as v. induction (b_rows b) as [|k rs IH]; intros [|a v]; simpl; try (vm_compute; discriminate).
      specialize (IH v).
      set (A := qsum (map (fun x0 : Z * Q => if (fst x0 =? r)%Z then snd x0 * yc else 0) (combine rs v))) in *.
      set (D := qsum (map (fun x0 : Z * Q => if (fst x0 =? r)%Z then Qabs xc else 0) (combine rs v))) in *.
      set (B := qsum (map (fun x0 : Z * Q => if (fst x0 =? r)%Z then snd x0 * xc else 0) (filter G (combine rs (map (fun v0 => v0 / s) v))))) in *.
      assert (T : 0 < tiny) by (unfold tiny; reflexivity).
      pose proof (Qabs_nonneg xc) as NX.
      assert (EY : a * yc == a / s * xc) by (rewrite HB; field; lra).
      destruct (negb (Qle_bool (Qabs (a / s)) tiny)) eqn:EG.
      - replace (G (k, a / s)) with true by (symmetry; exact EG). simpl. fold B.
        destruct (k =? r)%Z.
        + setoid_replace (a * yc + A - (a / s * xc + B)) with (A - B) by (rewrite EY; ring).
          eapply Qle_trans; [apply IH|]. nra.
        + setoid_replace (0 + A - (0 + B)) with (A - B) by ring. setoid_replace (0 + D) with D by ring. auto.
      - replace (G (k, a / s)) with false by (symmetry; exact EG). fold B.
        apply negb_false_iff, Qle_bool_iff in EG.
        destruct (k =? r)%Z.
        + setoid_replace (a * yc + A - B) with (a / s * xc + (A - B)) by (rewrite EY; ring).
          eapply Qle_trans; [apply Qabs_triangle|]. rewrite Qabs_Qmult.
          pose proof (Qmult_le_compat_r _ _ _ EG NX). 
          setoid_replace (tiny * (Qabs xc + D)) with (tiny * Qabs xc + tiny * D) by ring.
          apply Qplus_le_compat; auto.
        + setoid_replace (0 + A - B) with (A - B) by ring. setoid_replace (0 + D) with D by ring. auto. }
    split.
    + intros r. rewrite !row_sum_app.
      assert (AR : forall a c, abs_row (a ++ c) x r == abs_row a x r + abs_row c x r).
      { intros a c. unfold abs_row. rewrite map_app. apply qsum_app. }
      rewrite AR. specialize (B1 r). specialize (H1 r).
      match goal with |- Qabs (?a + ?a' - (?c + ?c')) <= _ => setoid_replace (a + a' - (c + c')) with ((a - c) + (a' - c')) by ring end.
      eapply Qle_trans; [apply Qabs_triangle|].
      match goal with |- _ <= ?t * (?u + ?w) => setoid_replace (t * (u + w)) with (t * u + t * w) by ring end.
      apply Qplus_le_compat; auto.
    + intros HT r. rewrite !row_sum_app. apply Qplus_comp; [|apply H2; intros; apply (HT r0 c v); apply in_or_app; auto].
      assert (FG : filter G V = V).
      { assert (FT : forall e, In e V -> G e = true).
        { intros [k q] I. subst V. 
          assert (IC : exists v, In (k, v) (combine (b_rows b) (b_vals b)) /\ q = v / s).
          { clear - I. revert I. generalize (b_vals b) as v. induction (b_rows b) as [|k' rs IH]; intros [|a v]; simpl; intros I; try tauto.
            destruct I as [I|I]; [injection I as <- <-; eauto|]. destruct (IH v I) as (w & ? & ?); eauto. }
          destruct IC as (v & IC & ->). specialize (HT k (b_col b) v). rewrite (nth_error_nth scales _ 0 ES) in HT.
          unfold G. cbn [snd]. apply negb_true_iff. destruct (Qle_bool (Qabs (v / s)) tiny) eqn:EV; auto.
          apply Qle_bool_iff in EV. exfalso. apply (Qlt_not_le tiny (Qabs (v / s))); auto. apply HT.
          apply in_or_app. left. apply in_map_iff. exists (k, v). auto. }
        clear - FT. induction V as [|e l IH]; simpl; auto. rewrite FT by (simpl; auto). f_equal. apply IH. intros; apply FT; simpl; auto. }
      rewrite FG. subst V. unfold row_sum. rewrite !map_map. clear - HB PS. generalize (b_vals b) as v.
      induction (b_rows b) as [|k rs IH]; intros [|a v]; simpl; try reflexivity.
      rewrite IH. destruct (k =? r)%Z; [|reflexivity]. rewrite HB. 
      apply Qplus_comp; [|reflexivity]. field. lra.
Qed.

(** ** C33, scaling of the columns *)

(** Scaling the columns by their norms and dividing the solution by them again
    does not change the problem: a solution x of the scaled system stands for
    the step y returned to the user, and each row differs by at most 1e-8 times
    the sum of |x| over the row's elements; without elements below 1e-8 of
    their column norm the two problems have the same objective. *)
Theorem C33_scaling : forall sqrtf nm subs liq ds ox s s', let t := PMulti nm subs liq in
  (forall q, 0 < q -> 0 < sqrtf q) ->
  wf t -> priors_ok t -> number_of_params t = length ds -> prior_derivs t = Ok ox ->
  assemble sqrtf false None ds ox = Ok (Some s) -> assemble sqrtf true None ds ox = Ok (Some s') ->
  ls_nrows s' = ls_nrows s /\ ls_ncols s' = ls_ncols s /\ ls_b s' = ls_b s /\
  length (ls_scales s') = length ds /\
  (forall c, (c < length ds)%nat -> nth c (ls_scales s') 0 == col_norm2 (ls_elems s) c) /\
  forall x, length x = length ds -> exists y, unscale x (map sqrtf (ls_scales s')) = Ok y /\
    (forall r, Qabs (row_sum (ls_elems s) y r - row_sum (ls_elems s') x r) <= tiny * abs_row (ls_elems s) x r) /\
    ((forall r c v, In (r, c, v) (ls_elems s) -> tiny < Qabs (v / sqrtf (nth c (ls_scales s') 0))) ->
       objective s' x == objective s y).
Proof.
  intros sqrtf nm subs liq ds ox s s' t SQ W O HN EX E1 E2.
  unfold assemble in E1, E2. destruct (place (concat ds) [] 0%Z) as [offs n0].
  destruct (all_blocks offs 0 ds) as [bs|] eqn:EB; [|discriminate]. cbn [bind] in E1, E2. cbv zeta in E1, E2.
  set (pbs := match ox with None => [] | Some x => prior_blocks n0 x end) in *.
  set (PM := match ox with
       | Some x => match ps_b x with
                   | [] => Err ValueError
                   | _ :: _ => if (Z.of_nat (length (concat (ps_b x))) =? Z.of_nat (listmax1 (ps_rows x)))%Z
                               then Ok ((n0 + Z.of_nat (listmax1 (ps_rows x)))%Z, repeat 0 (Z.to_nat n0) ++ concat (ps_b x))
                               else Err ValueError
                   end
       | None => Ok (n0, repeat 0 (Z.to_nat n0)) end) in *.
  assert (OK : Forall (okb (length ds)) (bs ++ pbs)).
  { apply Forall_app. split; [eapply all_blocks_ok; [|eauto]; lia|].
    subst pbs. destruct ox as [x|]; [|constructor]. rewrite <- HN. apply prior_blocks_ok; auto. }
  destruct (col_scales_spec (bs ++ pbs) (repeat 0 (length ds))) as (sc & ESC & LSC & HSC).
  { rewrite repeat_length. auto. }
  rewrite ESC in E2. cbn [bind] in E2. rewrite repeat_length in LSC.
  destruct PM as [[nrows b0]|]; [|discriminate]. cbn [bind] in E1, E2.
  remember (bs ++ pbs) as al eqn:EAL. destruct al as [|b1 al']; [discriminate|]. rewrite EAL in *. clear EAL b1 al'.
  destruct (fill_chi offs b0) as [b|]; [|discriminate]. cbn [bind] in E1, E2.
  assert (ES : s = mkLsys (blk_elems (bs ++ pbs)) nrows (length ds) b (repeat 0 (length ds))) by (destruct (bs ++ pbs); congruence).
  assert (R0 : forall c, nth c (repeat 0 (length ds)) 0 = 0).
  { generalize (length ds) as n. clear. induction n; intros [|c]; simpl; auto. }
  assert (NORM : forall c, nth c sc 0 == col_norm2 (ls_elems s) c).
  { intros c. rewrite HSC, R0. subst s. cbn [ls_elems]. rewrite blk_norm_elems; [ring|].
    eapply Forall_impl; [|apply OK]. intros q (A & _); auto. }
  assert (NS : forall c, (c < length ds)%nat -> nth c (map sqrtf sc) 0 = sqrtf (nth c sc 0)).
  { intros c Hc. rewrite (nth_indep (map sqrtf sc) 0 (sqrtf 0)) by (rewrite map_length; lia). apply map_nth. }
  assert (PS : forall q, In q (bs ++ pbs) -> 0 < nth (b_col q) (map sqrtf sc) 0).
  { intros q Hq. rewrite Forall_forall in OK. pose proof (OK q Hq) as (A & B & C). rewrite NS by auto.
    apply SQ. rewrite HSC, R0. unfold blk_norm. clear - Hq C. induction (bs ++ pbs) as [|a l IH]; [destruct Hq|]. simpl.
    assert (NN : 0 <= qsum (map (fun b => if (b_col b =? b_col q)%nat then dot (b_vals b) (b_vals b) else 0) l)).
    { apply qsum_nonneg. apply Forall_map. apply Forall_forall. intros z _. destruct (_ =? _)%nat; [apply dot_nonneg|lra]. }
    destruct Hq as [->|Hq]; [rewrite Nat.eqb_refl; lra|]. specialize (IH Hq).
    destruct (_ =? _)%nat; [pose proof (dot_nonneg (b_vals a))|]; lra. }
  destruct (scale_blocks_spec (map sqrtf sc) (length ds) ltac:(rewrite map_length; lia) (bs ++ pbs) OK PS) as (bs' & ESB & HB).
  assert (E2' : (match bs' with [] => Err ValueError | _ => Ok (Some (mkLsys (blk_elems bs') nrows (length ds) b sc)) end) = Ok (Some s')).
  { rewrite <- E2, ESB. cbn [bind]. destruct bs'; reflexivity. }
  assert (ES' : s' = mkLsys (blk_elems bs') nrows (length ds) b sc) by (destruct bs'; congruence).
  subst s s'. cbn [ls_nrows ls_ncols ls_b ls_scales ls_elems] in *.
  split; auto. split; auto. split; auto. split; auto. split; auto.
  intros x LX. unfold unscale. rewrite map_length, LX, LSC, Nat.eqb_refl.
  eexists. split; [reflexivity|].
  set (y := map _ _).
  destruct (HB x y) as (H1 & H2).
  { intros q Hq. specialize (PS q Hq). rewrite Forall_forall in OK. destruct (OK q Hq) as (_ & C & _). revert PS.
    assert (NY : nth (b_col q) y 0 = let e := (nth (b_col q) x 0, nth (b_col q) (map sqrtf sc) 0) in if Qle_bool (snd e) 0 then fst e else fst e / snd e).
    { unfold y. cbv zeta. rewrite <- combine_nth by (rewrite map_length; lia).
      rewrite <- (map_nth (fun e => if Qle_bool (snd e) 0 then fst e else fst e / snd e)). apply nth_indep.
      rewrite map_length, combine_length, map_length. lia. }
    rewrite NY. cbv zeta. cbn [fst snd]. intros PS. destruct (Qle_bool (nth (b_col q) (map sqrtf sc) 0) 0) eqn:EL; [|reflexivity].
    apply Qle_bool_iff in EL. lra. }
  split; auto. intros HT.
  assert (HR : forall r, row_sum (blk_elems bs') x r == row_sum (blk_elems (bs ++ pbs)) y r).
  { apply H2. intros r c v I. rewrite NS; [eapply HT; eauto|]. 
    unfold blk_elems in I. apply in_flat_map in I as (q & Hq & I). apply in_map_iff in I as ((k, w) & E & _). injection E as _ <- _.
    rewrite Forall_forall in OK. apply (OK q Hq). }
  unfold objective. cbn [ls_elems ls_nrows ls_b]. apply qsum_ext. intros k _. rewrite HR. reflexivity.
Qed.

(** Two images (2x1 and 1x1 pixels), two parameters: the first moves both
    images, the second hangs partly outside the first image; one prior. *)
Definition ex_const (h w : Z) (q : Q) : arr Q := mkArr h w (fun _ _ => q).
Definition ex_im0 : image := mkImage 0 1 2 (ex_const 1 2 2) (mkArr 1 2 (fun _ x => inject_Z (10 + x))).
Definition ex_im1 : image := mkImage 1 1 1 (ex_const 1 1 1) (ex_const 1 1 7).
Definition ex_ds : derivs :=
  [[(mkPatch 0 0 (Some (ex_const 1 1 3)), ex_im1); (mkPatch 0 0 (Some (ex_const 1 2 5)), ex_im0)];
   [(mkPatch 1 (-1) (Some (ex_const 3 4 1)), ex_im0)]].
Definition ex_group : tree := PMulti (mkNames [] []) [PList (mkPlist (mkNames [] []) [1; 2] [true; true] [None; None] [None; None] [None; None] None
  [mkPrior "b"%string 1%nat 0 4])] [true].
Definition ex_sqrt (q : Q) : Q := if Qle_bool q 0 then 0 else if Qle_bool q (17 # 4) then 2 else 15.

Example C33_ex : wf ex_group /\ priors_ok ex_group /\ number_of_params ex_group = length ex_ds /\ derivs_ok ex_ds /\
  images_of [ex_im1; ex_im0] ex_ds /\
  match prior_derivs ex_group with
  | Ok ox => match assemble ex_sqrt false None ex_ds ox, assemble ex_sqrt true None ex_ds ox with
             | Ok (Some s), Ok (Some s') =>
                 map (fun e => (fst (fst e), snd (fst e), Qred (snd e))) (ls_elems s) =
                   [(0%Z, 0%nat, 3); (1%Z, 0%nat, 10); (2%Z, 0%nat, 10); (2%Z, 1%nat, 2); (3%Z, 1%nat, 1 # 4)] /\
                 map Qred (ls_b s) = [7; 10; 11; -1 # 2] /\ length (ls_elems s') = 5%nat
             | _, _ => False end
  | _ => False end.
Proof.
  split; [simpl; unfold wf_plist; simpl; repeat split; auto; discriminate|].
  split; [simpl; repeat split; repeat constructor; simpl; try lia; intros H; discriminate H|].
  split; [reflexivity|].
  assert (I : forall p i, In (p, i) (concat ex_ds) -> (i = ex_im0 \/ i = ex_im1) /\ wf_patch p).
  { simpl. intros p i [H|[H|[H|[]]]]; injection H as <- <-; split; auto; vm_compute; split; discriminate. }
  split; [split|].
  - intros p i H. destruct (I p i H) as ([->| ->] & Wp); split; auto; vm_compute; repeat split; discriminate.
  - intros p i q j H1 H2 E. destruct (I p i H1) as ([->| ->] & _), (I q j H2) as ([->| ->] & _); auto; discriminate E.
  - split; [split; [repeat constructor; simpl; intuition discriminate|]|vm_compute; auto].
    intros i. split.
    + intros [<-|[<-|[]]]; eexists; simpl; eauto.
    + intros (p & H). destruct (I p i H) as ([->| ->] & _); simpl; auto.
Qed.

Print Assumptions C33_layout.
Print Assumptions C33_objective.
Print Assumptions C33_scaling.
