(** C57: fit statistics of forced photometry.  C58: unit-flux models. *)
From Coq Require Import List ZArith Bool Lia Ring Field QArith Qcanon.
From Verif Require Import Base PatchModel PatchSpec PatchProofs PatchProps ForcedModel ForcedProps FitstatsModel.
Import ListNotations.
Open Scope Z_scope.

(** ** Specification *)
Section Spec.
Context {V : Type}.
Variables zero one : V.
Variables add mul sub div : V -> V -> V.
Variable abs : V -> V.
Variables iszero pos : V -> bool.
Notation sum := (lsum zero add).
Notation fsimg := (@fsimg V).
Notation stats := (@stats V).

(** The profile of a source in an image: its model divided by its total counts. *)
Definition profile (uis : list nat) (cc : list V) (i : fsimg) (X Y : Z) : V :=
  div (sum (fun uc => mul (unit_at zero (nth (fst uc) (fs_um i) None) X Y) (snd uc)) (combine uis cc)) (sum (fun c => c) cc).
(** Sums over pixels of an image. *)
Definition over (i : fsimg) (sel : Z -> Z -> bool) (f : Z -> Z -> V) : V :=
  sum (fun Y => sum (fun X => if sel X Y then f X Y else zero) (zrange (aw (fs_chi i)))) (zrange (ah (fs_chi i))).
Definition count (i : fsimg) (sel : Z -> Z -> bool) : Z :=
  lsum 0 Z.add (fun Y => lsum 0 Z.add (fun X => if sel X Y then 1 else 0) (zrange (aw (fs_chi i)))) (zrange (ah (fs_chi i))).
(** Pixels where the profile is nonzero and the data are good. *)
Definition good (uis : list nat) (cc : list V) (i : fsimg) (X Y : Z) : bool :=
  negb (iszero (profile uis cc i X Y)) && pos (px (fs_ie i) Y X).

(** What one image adds to the statistics of a source: everything weighted by the
    absolute value of the profile. *)
Definition contribution (uis : list nat) (cc : list V) (i : fsimg) (s : stats) : stats :=
  let c := sum (fun c => c) cc in
  let p := profile uis cc i in
  let g := good uis cc i in
  let m := fun X Y => sub (px (fs_mod i) Y X) (fs_sky i) in
  if iszero c || (count i g =? 0) then s else
  mkStats
    (add (prochi2 s) (over i g (fun X Y => mul (abs (p X Y)) (mul (px (fs_chi i) Y X) (px (fs_chi i) Y X)))))
    (add (pronpix s) (over i g (fun X Y => abs (p X Y))))
    (add (promasked s) (over i (fun X Y => iszero (px (fs_ie i) Y X)) (fun X Y => abs (p X Y))))
    (add (ffnum s) (div (over i g (fun X Y => mul (abs (sub (div (m X Y) c) (p X Y))) (abs (p X Y))))
                        (over i g (fun X Y => mul (p X Y) (p X Y)))))
    (add (ffden s) (over i g (fun X Y => div (abs (p X Y)) (abs c))))
    (add (proflux s) (over i g (fun X Y => mul (abs (div (sub (m X Y) (mul (p X Y) c)) (fs_scale i))) (abs (p X Y)))))
    (npix s + count i g)
    (add (innum s) (over i (fun _ _ => true) (fun X Y => abs (p X Y))))
    (add (inden s) one)
    (map (fun se => add (fst se) (over i g (fun X Y => mul (abs (p X Y)) (px (snd se) Y X)))) (combine (extra s) (fs_extra i))).
(** All images; [counts k]: the counts of the source in image k. *)
Fixpoint source_stats (uis : list nat) (counts : nat -> list V) (k : nat) (is : list fsimg) (s : stats) : stats :=
  match is with
  | [] => s
  | i :: is => source_stats uis counts (S k) is (contribution uis (counts k) i s)
  end.

(** What images are assumed to be: arrays of one shape and patches that do not
    begin left of or below the image. *)
Definition same_size (a b : arr V) : Prop := ah a = ah b /\ aw a = aw b.
Definition fs_ok (i : fsimg) : Prop :=
  wf_arr (fs_chi i) /\ same_size (fs_ie i) (fs_chi i) /\ same_size (fs_mod i) (fs_chi i) /\
  (forall e, In e (fs_extra i) -> same_size e (fs_chi i)) /\
  forall p, In (Some p) (fs_um i) -> wf_patch p /\ 0 <= x0 p /\ 0 <= y0 p.
End Spec.

Section Proofs.
Context {V Src : Type}.
Variables zero one : V.
Variables add mul sub div : V -> V -> V.
Variables opp abs inv : V -> V.
Variables iszero pos : V -> bool.
Variable max1 : V -> V.
Hypothesis FT : field_theory zero one add mul sub opp div inv (@eq V).
Add Field VF : FT.
Hypothesis iszero_ok : forall a, iszero a = true <-> a = zero.
Hypothesis abs0 : abs zero = zero.
Let RT := F_R FT.

Notation arr := (arr V).
Notation patch := (patch V).
Notation fsimg := (@fsimg V).
Notation stats := (@stats V).
Notation sum := (lsum zero add).
Notation ua := (unit_at zero).
Notation pf := (profile zero add mul div).
Notation ct := (contribution zero one add mul sub div abs iszero pos).
Notation acc := (accumulate one add mul iszero).

Lemma slice_box lo hi n : 0 <= n -> 0 <= lo <= hi ->
  let s := mkSl lo hi in
  0 <= sl_start n s /\ 0 <= sl_len n s /\ sl_start n s + sl_len n s <= n /\
  forall k, 0 <= k < n -> lo <= k < hi -> sl_start n s <= k < sl_start n s + sl_len n s.
Proof.
  intros Hn H s. unfold sl_start, sl_len, norm_idx, s. cbn [sstart sstop].
  repeat match goal with |- context [?a <? ?b] => destruct (Z.ltb_spec a b) end; conjs; try (intros); lia.
Qed.
Lemma zero_div a : div zero a = zero.
Proof. rewrite (Fdiv_def FT). ring. Qed.

(** The support of the components seen. *)
Definition inbox (b : option (Z * Z * Z * Z)) (X Y : Z) : Prop :=
  match b with None => False | Some (xlo, xhi, ylo, yhi) => xlo <= X < xhi /\ ylo <= Y < yhi end.
Definition box_ok (b : option (Z * Z * Z * Z)) : Prop :=
  match b with None => True | Some (xlo, xhi, ylo, yhi) => 0 <= xlo <= xhi /\ 0 <= ylo <= yhi end.

Lemma accumulate_spec (ums : list (option patch)) : (forall p, In (Some p) ums -> wf_patch p /\ 0 <= x0 p /\ 0 <= y0 p) ->
  forall l sm box, (forall u c, In (u, c) l -> (u < length ums)%nat) -> wf_arr sm -> box_ok box ->
  exists sm' box', acc ums l sm box = Ok (sm', box') /\ ah sm' = ah sm /\ aw sm' = aw sm /\ box_ok box' /\
    (forall X Y, inbox box X Y -> inbox box' X Y) /\
    (forall X Y, ~ inbox box' X Y -> sum (fun uc => mul (ua (nth (fst uc) ums None) X Y) (snd uc)) l = zero) /\
    (forall X Y, 0 <= X < aw sm -> 0 <= Y < ah sm ->
       px sm' Y X = add (px sm Y X) (sum (fun uc => mul (ua (nth (fst uc) ums None) X Y) (snd uc)) l)).
Proof.
  intros U. induction l as [|[u c] l IH]; intros sm box HL W HB; cbn [accumulate].
  - exists sm, box. conjs; auto. intros. unfold lsum. cbn [fold_right]. ring.
  - setoid_rewrite (sum_cons zero add). cbn [fst snd].
    assert (HL' : forall u c, In (u, c) l -> (u < length ums)%nat) by (intros; eapply HL; right; eauto).
    assert (SK : (forall X Y, mul (ua (nth u ums None) X Y) c = zero) ->
      exists sm' box', acc ums l sm box = Ok (sm', box') /\ ah sm' = ah sm /\ aw sm' = aw sm /\ box_ok box' /\
        (forall X Y, inbox box X Y -> inbox box' X Y) /\
        (forall X Y, ~ inbox box' X Y -> add (mul (ua (nth u ums None) X Y) c) (sum (fun uc => mul (ua (nth (fst uc) ums None) X Y) (snd uc)) l) = zero) /\
        (forall X Y, 0 <= X < aw sm -> 0 <= Y < ah sm ->
           px sm' Y X = add (px sm Y X) (add (mul (ua (nth u ums None) X Y) c) (sum (fun uc => mul (ua (nth (fst uc) ums None) X Y) (snd uc)) l)))).
    { intros Z0. destruct (IH sm box HL' W HB) as (sm' & box' & E & H1 & H2 & H3 & H4 & H5 & H6).
      exists sm', box'. conjs; auto.
      - intros X Y HN. rewrite Z0, (H5 X Y HN). ring.
      - intros X Y HX HY. rewrite Z0, (H6 X Y HX HY). ring. }
    destruct (iszero c) eqn:EC.
    { apply SK. intros. apply iszero_ok in EC. rewrite EC. ring. }
    destruct (nth_error ums u) as [[p|]|] eqn:EU.
    3:{ exfalso. apply nth_error_None in EU. specialize (HL u c (or_introl eq_refl)). lia. }
    2:{ apply SK. intros. rewrite (nth_error_nth _ _ None EU). cbn [unit_at]. ring. }
    rewrite (nth_error_nth _ _ None EU) in *. cbn [unit_at] in *.
    destruct (U p (nth_error_In _ _ EU)) as (WP & X0 & Y0).
    assert (WM : wf_patch (pmul mul p c)).
    { unfold wf_patch, pmul in *. cbn [pimg]. destruct (pimg p); auto. }
    destruct (C16_add_to V add mul (pmul mul p c) sm one WM W) as (sm1 & E1 & A1 & B1 & C1).
    destruct (pshape p) as [uh uw] eqn:ES. rewrite E1. cbn [bind].
    assert (SH : 0 <= uh /\ 0 <= uw /\ forall X Y, val_at p X Y <> None -> x0 p <= X < x0 p + uw /\ y0 p <= Y < y0 p + uh).
    { unfold pshape in ES. unfold wf_patch in WP. unfold val_at. destruct (pimg p) as [a|]; injection ES as <- <-.
      - destruct WP. conjs; auto. intros X Y HV. destruct (_ && _) eqn:EB in HV; [|congruence].
        repeat (apply andb_prop in EB; destruct EB as [EB ?]). lia.
      - conjs; auto; try lia. congruence. }
    destruct SH as (S1 & S2 & S3).
    match goal with |- context [acc ums l sm1 (Some ?b)] => set (box1 := b) end.
    assert (B2 : box_ok (Some box1) /\ (forall X Y, inbox box X Y -> inbox (Some box1) X Y) /\
                 (forall X Y, val_at p X Y <> None -> inbox (Some box1) X Y)).
    { unfold box1. destruct box as [[[[xlo xhi] ylo] yhi]|]; cbn [box_ok inbox] in *.
      - conjs; try (intros X Y HV; try apply S3 in HV);
        repeat match goal with |- context [?a <? ?b] => destruct (Z.ltb_spec a b) end; lia.
      - conjs; try tauto; try lia. }
    destruct B2 as (B2 & B3 & B4).
    assert (W1 : wf_arr sm1) by (unfold wf_arr in *; rewrite A1, B1; auto).
    destruct (IH sm1 (Some box1) HL' W1 B2) as (sm' & box' & E & H1 & H2 & H3 & H4 & H5 & H6).
    exists sm', box'. conjs; auto; try congruence.
    + intros X Y HN. rewrite (H5 X Y HN). unfold img_at. destruct (val_at p X Y) eqn:EV; [|ring].
      exfalso. apply HN. apply H4, B4. congruence.
    + intros X Y HX HY. rewrite H6 by congruence. rewrite C1 by auto.
      assert (VM : val_at (pmul mul p c) X Y = match val_at p X Y with Some v => Some (mul v c) | None => None end).
      { unfold val_at, pmul, amap. cbn [pimg x0 y0]. destruct (pimg p); auto. cbn [ah aw px]. destruct (_ && _); auto. }
      rewrite VM. unfold img_at. destruct (val_at p X Y); ring.
Qed.

(** Sums over a slice. *)
Lemma ssum_slice {W} (z o : W) (pl mu su : W -> W -> W) (op : W -> W) (R : ring_theory z o pl mu su op (@eq W)) h w sy ly sx lx (sel : Z -> Z -> bool) (f : Z -> Z -> W) (sel' : Z -> Z -> bool) (f' : Z -> Z -> W) :
  0 <= sy -> 0 <= ly -> sy + ly <= h -> 0 <= sx -> 0 <= lx -> sx + lx <= w ->
  (forall y x, 0 <= y < ly -> 0 <= x < lx -> (if sel' y x then f' y x else z) = (if sel (y + sy) (x + sx) then f (y + sy) (x + sx) else z)) ->
  (forall Y X, 0 <= Y < h -> 0 <= X < w -> ~ (sy <= Y < sy + ly /\ sx <= X < sx + lx) -> (if sel Y X then f Y X else z) = z) ->
  ssum z pl ly lx sel' f' = ssum z pl h w sel f.
Proof.
  intros A1 A2 A3 B1 B2 B3 E O. unfold ssum. symmetry.
  rewrite (sum_slice z o pl mu su op R _ h sy ly); auto.
  - apply sum_ext_in. intros y Hy. apply zrange_in in Hy.
    rewrite (sum_slice z o pl mu su op R _ w sx lx); auto.
    + apply sum_ext_in. intros x Hx. apply zrange_in in Hx. symmetry. auto.
    + intros X HX HN. apply O; try lia.
  - intros Y HY HN. apply (sum_zero z o pl mu su op R). intros X HX. apply zrange_in in HX. apply O; try lia.
Qed.

Notation si := (stat_image zero one add mul sub div abs iszero pos).


(** One source in one image. *)
Lemma stat_image_spec uis cc i m sm s : fs_ok i -> (forall u, In u uis -> (u < length (fs_um i))%nat) ->
  same_size m (fs_chi i) -> (forall X Y, 0 <= X < aw (fs_chi i) -> 0 <= Y < ah (fs_chi i) -> px m Y X = sub (px (fs_mod i) Y X) (fs_sky i)) ->
  same_size sm (fs_chi i) -> (forall X Y, 0 <= X < aw (fs_chi i) -> 0 <= Y < ah (fs_chi i) -> px sm Y X = zero) ->
  exists sm', si uis cc i m sm s = Ok (ct uis cc i s, sm') /\ same_size sm' (fs_chi i) /\
    forall X Y, 0 <= X < aw (fs_chi i) -> 0 <= Y < ah (fs_chi i) -> px sm' Y X = zero.
Proof.
  intros (WC & SI & SM & SE & U) HU Sm Vm Ss Vs. unfold stat_image, contribution. cbv zeta.
  destruct (iszero (sum (fun c => c) cc)) eqn:EC; cbn [orb].
  { exists sm. auto. }
  assert (W : wf_arr sm) by (unfold wf_arr in *; destruct Ss; lia).
  destruct (accumulate_spec (fs_um i) U (combine uis cc) sm None) as (sm1 & box & E & H1 & H2 & HB & _ & HO & HV); auto.
  { intros u c Hi. apply in_combine_l in Hi. auto. }
  { exact Logic.I. }
  rewrite E. cbn [bind]. destruct Ss as [SH SW]. set (h := ah (fs_chi i)) in *. set (w := aw (fs_chi i)) in *.
  set (c := sum (fun c => c) cc) in *.
  assert (H1' : ah sm1 = h) by congruence. assert (H2' : aw sm1 = w) by congruence.
  destruct box as [[[[xlo xhi] ylo] yhi]|].
  2:{ exists sm1. assert (Z1 : forall X Y, sum (fun uc => mul (ua (nth (fst uc) (fs_um i) None) X Y) (snd uc)) (combine uis cc) = zero) by (intros; apply HO; auto).
      assert (C0 : count i (good zero add mul div iszero pos uis cc i) = 0).
      { unfold count. apply (sum_zero 0 1 Z.add Z.mul Z.sub Z.opp Zth). intros Y _. apply (sum_zero 0 1 Z.add Z.mul Z.sub Z.opp Zth). intros X _.
        unfold good, profile. rewrite Z1, zero_div. rewrite (proj2 (iszero_ok zero) eq_refl). auto. }
      rewrite C0. cbn [Z.eqb orb]. rewrite Bool.orb_true_r || idtac. conjs; auto; try (split; auto; congruence).
      intros X Y HX HY. rewrite HV, Vs, Z1 by congruence. ring. }
  cbn [box_ok inbox] in *. destruct HB as [HB1 HB2].
  destruct (slice_box xlo xhi w (proj2 WC) HB1) as (X1 & X2 & X3 & X4).
  destruct (slice_box ylo yhi h (proj1 WC) HB2) as (Y1 & Y2 & Y3 & Y4).
  set (xs := mkSl xlo xhi) in *. set (ys := mkSl ylo yhi) in *.
  set (sy := sl_start h ys) in *. set (ly := sl_len h ys) in *. set (sx := sl_start w xs) in *. set (lx := sl_len w xs) in *.
  match goal with |- context [aupd ?f ?a ?b ?d ?e] => destruct (aupd f a b d e) as [sm2|] eqn:AU end.
  2:{ exfalso. revert AU. unfold aupd, amap, asub. cbn [ah aw px]. rewrite !Z.eqb_refl. discriminate. }
  cbn [bind].
  assert (A2 : ah sm2 = h /\ aw sm2 = w /\ forall X Y, 0 <= X < w -> 0 <= Y < h -> px sm2 Y X = pf uis cc i X Y).
  { revert AU. unfold aupd, amap, asub. cbn [ah aw px]. rewrite H1', H2', !Z.eqb_refl. cbn [andb]. intros [= <-]. cbn [ah aw px]. conjs; auto.
    intros X Y HX HY. cbv zeta. fold sy ly sx lx. rewrite !Z.sub_add. rewrite !HV, !Vs by congruence.
    unfold profile. fold c. destruct (_ && _) eqn:EB.
    - f_equal. ring.
    - rewrite HO; [rewrite zero_div; ring|]. intros [K1 K2]. specialize (X4 X HX K1). specialize (Y4 Y HY K2). revert EB.
      repeat match goal with |- context [?a <=? ?b] => destruct (Z.leb_spec a b); try lia | |- context [?a <? ?b] => destruct (Z.ltb_spec a b); try lia end. }
  destruct A2 as (A2 & B2 & P2). clear AU.
  assert (OUT : forall Y X, 0 <= Y < h -> 0 <= X < w -> ~ (sy <= Y < sy + ly /\ sx <= X < sx + lx) -> pf uis cc i X Y = zero).
  { intros Y X HY HX HN. unfold profile. rewrite HO; [apply zero_div|]. intros [K1 K2]. apply HN. split; auto. }
  assert (SHP : forallb (same_shape (asub sm2 ys xs)) (asub (fs_ie i) ys xs :: asub (fs_chi i) ys xs :: asub m ys xs :: map (fun e => asub e ys xs) (fs_extra i)) = true).
  { apply forallb_forall. intros a Ha.
    assert (exists b, a = asub b ys xs /\ same_size b (fs_chi i)).
    { destruct Ha as [<-|[<-|[<-|Ha]]]; eauto; [exists (fs_chi i); split; auto; split; auto|]. apply in_map_iff in Ha. destruct Ha as (e & <- & He). eauto. }
    destruct H as (b & -> & [HB3 HB4]). unfold same_shape, asub. cbn [ah aw]. rewrite A2, B2, HB3, HB4. fold h w. rewrite !Z.eqb_refl. auto. }
  rewrite SHP. cbn [negb].
  match goal with |- context [aupd ?f ?a ?b ?d ?e] => destruct (aupd f a b d e) as [sm3|] eqn:AU end.
  2:{ exfalso. revert AU. unfold aupd, amap, asub. cbn [ah aw px]. rewrite !Z.eqb_refl. discriminate. }
  cbn [bind].
  assert (A3 : same_size sm3 (fs_chi i) /\ forall X Y, 0 <= X < w -> 0 <= Y < h -> px sm3 Y X = zero).
  { revert AU. unfold aupd, amap, asub. cbn [ah aw px]. rewrite A2, B2, !Z.eqb_refl. cbn [andb]. intros [= <-]. cbn [ah aw px]. conjs; auto.
    { split; auto. }
    intros X Y HX HY. cbv zeta. fold sy ly sx lx. destruct (_ && _) eqn:EB; auto.
    rewrite P2 by auto. apply OUT; auto. intros [K1 K2]. revert EB.
    repeat match goal with |- context [?a <=? ?b] => destruct (Z.leb_spec a b); try lia | |- context [?a <? ?b] => destruct (Z.ltb_spec a b); try lia end. }
  destruct A3 as [S3 V3]. exists sm3. conjs; auto. apply f_equal. apply f_equal2; auto.
  assert (DI : ah (fs_ie i) = h /\ aw (fs_ie i) = w) by (destruct SI; auto). destruct DI as [DI1 DI2].
  assert (DM : ah m = h /\ aw m = w) by (destruct Sm; auto). destruct DM as [DM1 DM2].
  assert (NZ0 : iszero zero = true) by (apply iszero_ok; auto).
  (* every sum *)
  assert (SUM : forall {W : Type} (z o : W) pl mu su op (R : ring_theory z o pl mu su op (@eq W)) (sel : Z -> Z -> bool) (f : Z -> Z -> W) (sel' : Z -> Z -> bool) (f' : Z -> Z -> W),
    (forall Y X, 0 <= Y < h -> 0 <= X < w -> sy <= Y < sy + ly -> sx <= X < sx + lx -> (if sel' (Y - sy) (X - sx) then f' (Y - sy) (X - sx) else z) = (if sel X Y then f X Y else z)) ->
    (forall Y X, 0 <= Y < h -> 0 <= X < w -> pf uis cc i X Y = zero -> (if sel X Y then f X Y else z) = z) ->
    ssum z pl ly lx sel' f' = lsum z pl (fun Y => lsum z pl (fun X => if sel X Y then f X Y else z) (zrange w)) (zrange h)).
  { intros W0 z o pl mu su op R sel f sel' f' G1 G2.
    change (lsum z pl (fun Y => lsum z pl (fun X => if sel X Y then f X Y else z) (zrange w)) (zrange h)) with (ssum z pl h w (fun Y X => sel X Y) (fun Y X => f X Y)).
    apply (ssum_slice z o pl mu su op R h w sy ly sx lx); auto.
    intros y x Hy Hx. rewrite <- G1 by lia. rewrite !Z.add_simpl_r. auto. }
  assert (GD : forall Y X, 0 <= Y < h -> 0 <= X < w ->
    negb (iszero (px (asub sm2 ys xs) (Y - sy) (X - sx))) && pos (px (asub (fs_ie i) ys xs) (Y - sy) (X - sx)) = good zero add mul div iszero pos uis cc i X Y).
  { intros Y X HY HX. unfold asub. cbn [px]. rewrite A2, B2, DI1, DI2. fold sy sx. rewrite !Z.sub_add. unfold good. rewrite P2 by auto. auto. }
  assert (G0 : forall Y X, pf uis cc i X Y = zero -> good zero add mul div iszero pos uis cc i X Y = false).
  { intros Y X HP. unfold good. rewrite HP, NZ0. auto. }
  assert (PX : forall Y X, 0 <= Y < h -> 0 <= X < w -> px (asub sm2 ys xs) (Y - sy) (X - sx) = pf uis cc i X Y).
  { intros Y X HY HX. unfold asub. cbn [px]. rewrite A2, B2. fold sy sx. rewrite !Z.sub_add. auto. }
  assert (PB : forall b Y X, same_size b (fs_chi i) -> px (asub b ys xs) (Y - sy) (X - sx) = px b Y X).
  { intros b Y X [Q1 Q2]. unfold asub. cbn [px]. rewrite Q1, Q2. fold h w. fold sy sx. rewrite !Z.sub_add. auto. }
  assert (PC : same_size (fs_chi i) (fs_chi i)) by (split; auto).
  assert (DP : ah (asub sm2 ys xs) = ly /\ aw (asub sm2 ys xs) = lx) by (unfold asub; cbn [ah aw]; rewrite A2, B2; auto).
  destruct DP as [DP1 DP2].
  assert (CNT : scount (ah (asub sm2 ys xs)) (aw (asub sm2 ys xs)) (fun y x => negb (iszero (px (asub sm2 ys xs) y x)) && pos (px (asub (fs_ie i) ys xs) y x)) =
    count i (good zero add mul div iszero pos uis cc i)).
  { rewrite DP1, DP2. unfold scount, count. apply (SUM Z 0 1 Z.add Z.mul Z.sub Z.opp Zth).
    - intros Y X HY HX _ _. rewrite GD by auto. auto.
    - intros Y X HY HX HP. rewrite G0 by auto. auto. }
  rewrite CNT. destruct (_ =? 0); auto.
  unfold add_stats. cbv zeta. rewrite CNT, DP1, DP2. unfold over. fold h w.
  f_equal; try (apply f_equal); try reflexivity.
  - apply (SUM V zero one add mul sub opp RT); intros Y X HY HX; [intros _ _; rewrite GD, PX, !PB by auto; auto|intros HP; rewrite G0 by auto; auto].
  - apply (SUM V zero one add mul sub opp RT); intros Y X HY HX; [intros _ _; rewrite GD, PX by auto; auto|intros HP; rewrite G0 by auto; auto].
  - apply (SUM V zero one add mul sub opp RT _ _ (fun y x => iszero (px (asub (fs_ie i) ys xs) y x))); intros Y X HY HX; [intros _ _; rewrite PX, PB by auto; auto|intros HP; rewrite HP, abs0; destruct (iszero (px (fs_ie i) Y X)); auto].
  - f_equal.
    + apply (SUM V zero one add mul sub opp RT); intros Y X HY HX; [intros _ _; rewrite GD, PX, PB by auto; rewrite Vm by auto; auto|intros HP; rewrite G0 by auto; auto].
    + apply (SUM V zero one add mul sub opp RT); intros Y X HY HX; [intros _ _; rewrite GD, PX by auto; auto|intros HP; rewrite G0 by auto; auto].
  - apply (SUM V zero one add mul sub opp RT); intros Y X HY HX; [intros _ _; rewrite GD, PX by auto; auto|intros HP; rewrite G0 by auto; auto].
  - apply (SUM V zero one add mul sub opp RT); intros Y X HY HX; [intros _ _; rewrite GD, PX, PB by auto; rewrite Vm by auto; auto|intros HP; rewrite G0 by auto; auto].
  - apply (SUM V zero one add mul sub opp RT (fun _ _ => true) (fun X Y => abs (pf uis cc i X Y)) (fun _ _ => true)); intros Y X HY HX; [intros _ _; rewrite PX by auto; auto|intros HP; rewrite HP, abs0; auto].
  - clear - SE SUM GD G0 PX PB RT. revert SE. generalize (extra s). induction (fs_extra i) as [|e l IH]; intros ex SE.
    + destruct ex; auto.
    + destruct ex as [|x ex]; auto. cbn [map combine fst snd]. f_equal; [|apply IH; intros; apply SE; right; auto]. apply f_equal.
      apply (SUM V zero one add mul sub opp RT); intros Y X HY HX; [intros _ _; rewrite GD, PX, PB by (auto; apply SE; left; auto); auto|intros HP; rewrite G0 by auto; auto].
Qed.

Variable counts_of : Src -> nat -> list V.
Notation sis := (stat_images zero one add mul sub div abs iszero pos counts_of).
Notation sss := (stat_sources zero one add mul sub div abs iszero pos counts_of).
Notation ss := (source_stats zero one add mul sub div abs iszero pos).

(** The images with the sky taken off, and the work arrays all zero. *)
Definition ready (i : fsimg) (m : arr) : Prop := fs_ok i /\ same_size m (fs_chi i) /\
  forall X Y, 0 <= X < aw (fs_chi i) -> 0 <= Y < ah (fs_chi i) -> px m Y X = sub (px (fs_mod i) Y X) (fs_sky i).
Definition clean (i : fsimg) (sm : arr) : Prop := same_size sm (fs_chi i) /\
  forall X Y, 0 <= X < aw (fs_chi i) -> 0 <= Y < ah (fs_chi i) -> px sm Y X = zero.

Lemma stat_images_spec uis src : forall is ms sms k s, Forall2 ready is ms -> Forall2 clean is sms ->
  (forall i u, In i is -> In u uis -> (u < length (fs_um i))%nat) ->
  exists sms', sis uis src k (combine is ms) sms s = Ok (ss uis (counts_of src) k is s, sms') /\ Forall2 clean is sms'.
Proof.
  intros is ms sms k s HR. revert sms k s. induction HR as [|i m is ms (R1 & R2 & R3) HR IH]; intros sms k s HC HU.
  - inversion HC. exists []. auto.
  - inversion HC as [|? sm ? sms0 [C1 C2] HC']. subst. cbn [combine stat_images source_stats].
    destruct (stat_image_spec uis (counts_of src k) i m sm s R1) as (sm' & E & S' & V'); auto.
    { intros u Hu. apply HU; auto. left; auto. }
    rewrite E. cbn [bind].
    destruct (IH sms0 (S k) (ct uis (counts_of src k) i s) HC') as (sms' & E' & F').
    { intros j u Hj Hu. apply HU; auto. right; auto. }
    rewrite E'. cbn [bind]. exists (sm' :: sms'). split; auto. constructor; auto. split; auto.
Qed.

Lemma stat_sources_spec n is ms : Forall2 ready is ms -> forall ufs srcs rest done sms, Forall2 clean is sms ->
  length srcs = length ufs -> (forall i uis u, In i is -> In uis ufs -> In u uis -> (u < length (fs_um i))%nat) ->
  sss n (done ++ srcs ++ rest) (length done) ufs (combine is ms) sms =
    Ok (map (fun su => ss (snd su) (counts_of (fst su)) 0 is (stats0 zero n)) (combine srcs ufs)).
Proof.
  intros HR. induction ufs as [|uis ufs IH]; intros srcs rest done sms HC HL HU; destruct srcs as [|src srcs]; try discriminate; cbn [stat_sources combine map fst snd]; auto.
  rewrite nth_error_app2, Nat.sub_diag by lia. cbn [nth_error app].
  destruct (stat_images_spec uis src is ms sms 0 (stats0 zero n) HR HC) as (sms' & E & HC').
  { intros i u Hi Hu. eapply HU; eauto. left; auto. }
  rewrite E. cbn [bind].
  specialize (IH srcs rest (done ++ [src]) sms' HC'). rewrite app_length in IH. cbn [length] in IH. rewrite <- app_assoc in IH. cbn [app] in IH.
  replace (length done + 1)%nat with (S (length done)) in IH by lia.
  rewrite IH; auto.
  intros i uis' u Hi Hs Hu. eapply HU; eauto. right; auto.
Qed.

Lemma sky_ready i : fs_ok i -> ready i (sky_add add mul iszero (fs_sky i) (opp one) (fs_mod i)).
Proof.
  intros H. split; auto. destruct H as (_ & _ & SM & _). unfold sky_add. destruct (iszero (fs_sky i)) eqn:E.
  - split; auto. intros. apply iszero_ok in E. rewrite E. ring.
  - split; auto. intros. cbn [amap px]. ring.
Qed.

(** The statistics of every source are the profile-weighted sums of its own
    profile, whatever other sources there are, if the catalog begins with the
    sources fitted and no unit-flux model begins left of or below an image; and
    the model images are left as they were. *)
Theorem C57_stats : forall n srcs rest ufs is,
  (forall i, In i is -> fs_ok i) -> length srcs = length ufs ->
  (forall i uis u, In i is -> In uis ufs -> In u uis -> (u < length (fs_um i))%nat) ->
  exists r, get_fitstats zero one add mul sub div opp abs iszero pos max1 counts_of n (srcs ++ rest) ufs is = Ok r /\
    persrc r = map (fun su => ss (snd su) (counts_of (fst su)) 0 is (stats0 zero n)) (combine srcs ufs) /\
    profracflux r = map (fun s => div (ffnum s) (max1 (ffden s))) (persrc r) /\
    fracin r = map (fun s => div (innum s) (max1 (inden s))) (persrc r) /\
    Forall2 (fun i c => c = over zero add i (fun _ _ => true) (fun X Y => mul (px (fs_chi i) Y X) (px (fs_chi i) Y X))) is (imchisq r) /\
    Forall2 (fun i c => c = count i (fun X Y => pos (px (fs_ie i) Y X))) is (imnpix r) /\
    Forall2 (fun i m => same_size m (fs_mod i) /\ forall X Y, 0 <= X < aw (fs_chi i) -> 0 <= Y < ah (fs_chi i) -> px m Y X = px (fs_mod i) Y X) is (mods_after r).
Proof.
  intros n srcs rest ufs is HO HL HU. unfold get_fitstats.
  assert (HR : Forall2 ready is (map (fun i => sky_add add mul iszero (fs_sky i) (opp one) (fs_mod i)) is)).
  { clear HU. induction is as [|i is IH]; constructor; [apply sky_ready; apply HO; left; auto|apply IH; intros; apply HO; right; auto]. }
  assert (HC : Forall2 clean is (map (fun i => mkArr (ah (fs_chi i)) (aw (fs_chi i)) (fun _ _ => zero)) is)).
  { clear. induction is as [|i is IH]; constructor; auto. split; [split; auto|auto]. }
  pose proof (stat_sources_spec n is _ HR ufs srcs rest [] _ HC HL HU) as E. cbn [app length] in E. cbv zeta. rewrite E. cbn [bind].
  eexists. split; [reflexivity|]. cbn [persrc profracflux fracin imchisq imnpix mods_after]. conjs; auto.
  - clear. induction is; constructor; auto.
  - clear - HO. induction is as [|i is IH]; constructor; [|apply IH; intros; apply HO; right; auto].
    destruct (HO i (or_introl eq_refl)) as (_ & [S1 S2] & _). unfold scount, ssum, count. rewrite S1, S2. auto.
  - clear - HO FT iszero_ok. induction is as [|i is IH]; constructor; [|apply IH; intros; apply HO; right; auto].
    cbn [fst snd]. unfold sky_add. destruct (iszero (fs_sky i)).
    + split; [split|]; auto.
    + split; [split|]; auto. intros X Y _ _. cbn [amap px]. ring.
Qed.
End Proofs.

(** ** C58 *)
Section Umodels.
Context {V Src Img : Type}.
Variable unit_models : Src -> Img -> list (option (patch V)).
Notation uo := (umods_of unit_models).

(** A unit-flux model as seen in a region that starts at (x, y). *)
Definition seen_from (x y : Z) (um um' : option (patch V)) : Prop :=
  match um, um' with
  | None, None => True
  | Some p, Some p' => forall X Y, val_at p' X Y = val_at p (X + x) (Y + y)
  | _, _ => False
  end.

Lemma shift_um_seen x y um : seen_from x y um (shift_um x y um).
Proof.
  destruct um as [p|]; cbn; auto. destruct (pimg p) as [a|] eqn:E; intros X Y; unfold val_at; cbn [pimg x0 y0]; rewrite ?E; auto.
  replace (x0 p - x <=? X) with (x0 p <=? X + x) by (destruct (Z.leb_spec (x0 p) (X + x)), (Z.leb_spec (x0 p - x) X); auto; lia).
  replace (X <? x0 p - x + aw a) with (X + x <? x0 p + aw a) by (destruct (Z.ltb_spec (X + x) (x0 p + aw a)), (Z.ltb_spec X (x0 p - x + aw a)); auto; lia).
  replace (y0 p - y <=? Y) with (y0 p <=? Y + y) by (destruct (Z.leb_spec (y0 p) (Y + y)), (Z.leb_spec (y0 p - y) Y); auto; lia).
  replace (Y <? y0 p - y + ah a) with (Y + y <? y0 p + ah a) by (destruct (Z.ltb_spec (Y + y) (y0 p + ah a)), (Z.ltb_spec Y (y0 p - y + ah a)); auto; lia).
  replace (Y + y - y0 p) with (Y - (y0 p - y)) by lia. replace (X + x - x0 p) with (X - (x0 p - x)) by lia. auto.
Qed.

Lemma umods_of_spec img x y : forall srcs ums ufs,
  uo img x y srcs ums ufs = (ums ++ flat_map (fun s => map (shift_um x y) (unit_models s img)) srcs,
    ufs ++ map (fun k => map (fun ui => length ums + length (flat_map (fun s => unit_models s img) (firstn k srcs)) + ui)%nat
                             (seq 0 (length (nth k (map (fun s => unit_models s img) srcs) [])))) (seq 0 (length srcs))).
Proof.
  induction srcs as [|s srcs IH]; intros ums ufs; cbn [umods_of flat_map length].
  - rewrite !app_nil_r. auto.
  - rewrite IH. rewrite <- app_assoc. f_equal. rewrite <- app_assoc. f_equal. cbn [seq map app]. f_equal.
    + cbn [firstn flat_map length nth map]. rewrite map_length, Nat.add_0_r. auto.
    + rewrite <- seq_shift, map_map. apply map_ext. intros k. cbn [firstn flat_map map nth]. rewrite !app_length, map_length.
      apply map_ext. intros u. lia.
Qed.

Lemma umods_concat img x y : forall srcs ums ufs,
  concat (snd (uo img x y srcs ums ufs)) = concat ufs ++ seq (length ums) (length (flat_map (fun s => unit_models s img) srcs)).
Proof.
  induction srcs as [|s srcs IH]; intros ums ufs; cbn [umods_of flat_map length snd].
  - cbn [seq]. rewrite app_nil_r. auto.
  - rewrite IH, concat_app, <- app_assoc. f_equal. cbn [concat]. rewrite app_nil_r, !app_length, map_length, seq_app. f_equal.
    clear. generalize (length (unit_models s img)). intros m. generalize (length ums). intros b.
    induction m as [|m IHm]; auto. rewrite !seq_S, map_app, IHm. cbn [map Nat.add]. auto.
Qed.
Lemma flat_nth {A B} (f : A -> list B) : forall l k a j, nth_error l k = Some a -> (j < length (f a))%nat ->
  nth_error (flat_map f l) (length (flat_map f (firstn k l)) + j) = nth_error (f a) j.
Proof.
  induction l as [|b l IH]; intros [|k] a j Hk Hj; try discriminate; cbn [nth_error] in Hk.
  - injection Hk as ->. cbn [firstn flat_map length Nat.add]. rewrite nth_error_app1; auto.
  - cbn [firstn flat_map]. rewrite app_length, nth_error_app2 by lia. rewrite <- (IH k a j Hk Hj). f_equal. lia.
Qed.

(** Every unit-flux model of every source is at the place the source's list of
    positions says, in every image, moved to the image's region; and all places
    are in the order of the sources. *)
Theorem C58_umodels : forall srcs imgs umodels ufs,
  (forall s i j, In s srcs -> In i imgs -> In j imgs -> length (unit_models s (fst i)) = length (unit_models s (fst j))) ->
  get_umodels unit_models srcs imgs = (umodels, ufs) -> imgs <> [] ->
  length umodels = length imgs /\ length ufs = length srcs /\
  (forall i img x y, nth_error imgs i = Some (img, (x, y)) -> exists umods, nth_error umodels i = Some umods /\
     length umods = length (flat_map (fun s => unit_models s img) srcs) /\ concat ufs = seq 0 (length umods) /\
     forall k s uis, nth_error srcs k = Some s -> nth_error ufs k = Some uis ->
       length uis = length (unit_models s img) /\
       forall j ui um, nth_error uis j = Some ui -> nth_error (unit_models s img) j = Some um ->
         exists um', nth_error umods ui = Some um' /\ seen_from x y um um').
Proof.
  intros srcs imgs umodels ufs HS E HN. unfold get_umodels in E. destruct imgs as [|[img0 [x0' y0']] imgs]; [congruence|].
  set (all := (img0, (x0', y0')) :: imgs) in *. apply pair_equal_spec in E. destruct E as [EU EF]. cbn [fst snd] in EF.
  pose proof (umods_of_spec img0 x0' y0' srcs [] []) as E0. pose proof (umods_concat img0 x0' y0' srcs [] []) as EC. rewrite E0 in EF, EC. cbn [fst snd app concat length Nat.add] in EF, EC. rewrite EF in EC.
  assert (L0 : forall i, In i all -> forall l, (forall s, In s l -> In s srcs) -> length (flat_map (fun s => unit_models s (fst i)) l) = length (flat_map (fun s => unit_models s img0) l)).
  { intros i Hi. induction l as [|s l IH]; intros Hl; cbn [flat_map]; auto. rewrite !app_length. f_equal.
    - apply (HS s i (img0, (x0', y0'))); auto; [apply Hl|]; left; auto.
    - apply IH. intros; apply Hl; right; auto. }
  conjs.
  - rewrite <- EU, map_length. auto.
  - rewrite <- EF, map_length, seq_length. auto.
  - intros i img x y Hi. pose proof (nth_error_In _ _ Hi) as HI.
    eexists. split; [rewrite <- EU, nth_error_map, Hi; reflexivity|]. cbn [fst snd]. rewrite umods_of_spec. cbn [fst app].
    assert (LU : length (flat_map (fun s => map (shift_um x y) (unit_models s img)) srcs) = length (flat_map (fun s => unit_models s img) srcs)).
    { clear. induction srcs; cbn [flat_map]; auto. rewrite !app_length, map_length. auto. }
    conjs; auto.
    + rewrite EC, LU. f_equal. symmetry. apply (L0 (img, (x, y))); auto.
    + intros k s uis Hk Hu. rewrite <- EF, nth_error_map in Hu.
      assert (Lk : (k < length srcs)%nat) by (apply nth_error_Some; congruence).
      assert (SK : nth_error (seq 0 (length srcs)) k = Some k).
      { rewrite (nth_error_nth' _ 0%nat) by (rewrite seq_length; auto). rewrite seq_nth; auto. }
      rewrite SK in Hu. cbn [option_map] in Hu. injection Hu as <-.
      assert (NK : nth k (map (fun s0 : Src => unit_models s0 img0) srcs) [] = unit_models s img0).
      { apply nth_error_nth. rewrite nth_error_map, Hk. auto. }
      rewrite NK. rewrite map_length, seq_length.
      assert (LS : length (unit_models s img0) = length (unit_models s img)).
      { apply (HS s (img0, (x0', y0')) (img, (x, y))); auto; [apply (nth_error_In _ _ Hk)|left; auto]. }
      split; auto. intros j ui um Hj Hm. rewrite nth_error_map in Hj.
      destruct (nth_error (seq 0 (length (unit_models s img0))) j) as [j'|] eqn:Ej; [|discriminate]. cbn [option_map] in Hj. injection Hj as <-.
      assert (j' = j).
      { assert (Lj : (j < length (seq 0 (length (unit_models s img0))))%nat) by (apply nth_error_Some; congruence). rewrite seq_length in Lj.
        rewrite (nth_error_nth' _ 0%nat) in Ej by (rewrite seq_length; auto). rewrite seq_nth in Ej by auto. injection Ej as <-. auto. }
      subst j'. exists (shift_um x y um). split; [|apply shift_um_seen].
      assert (LF : length (flat_map (fun s0 : Src => unit_models s0 img0) (firstn k srcs)) = length (flat_map (fun s0 => map (shift_um x y) (unit_models s0 img)) (firstn k srcs))).
      { rewrite <- (L0 (img, (x, y))); auto.
        - clear. induction (firstn k srcs); cbn [flat_map]; auto. rewrite !app_length, map_length. auto.
        - intros t Ht. rewrite <- (firstn_skipn k srcs). apply in_or_app. auto. }
      rewrite LF. rewrite (flat_nth (fun s0 => map (shift_um x y) (unit_models s0 img)) srcs k s j Hk).
      * rewrite nth_error_map, Hm. auto.
      * rewrite map_length. apply nth_error_Some. congruence.
Qed.
End Umodels.

(** ** Concrete cases and refutations *)
Section Cases.
Let q (z : Z) : Qc := Q2Qc (inject_Z z).
Let zq (a : Qc) : bool := Qeq_bool (this a) 0.
Let posq (a : Qc) : bool := negb (Qle_bool (this a) 0).
Let absq (a : Qc) : Qc := if Qle_bool 0 (this a) then a else (- a)%Qc.
Let max1q (a : Qc) : Qc := if Qle_bool (this a) 1 then q 1 else a.
Let arr_of (h w : Z) (l : list Z) : arr Qc := mkArr h w (fun y x => q (nth (Z.to_nat (y * w + x)) l 0)).
Let img (w : Z) (m ie chi : list Z) (sky : Z) (ums : list (option (patch Qc))) (e : list Z) : @fsimg Qc :=
  mkFs (arr_of 1 w m) (arr_of 1 w ie) (arr_of 1 w chi) (q sky) (q 2) ums [arr_of 1 w e].
Let pt (x w : Z) (l : list Z) : option (patch Qc) := Some (mkPatch x 0 (Some (arr_of 1 w l))).
(** Sources are their counts, the same in every image. *)
Let run := get_fitstats (q 0) (q 1) Qcplus Qcmult Qcminus Qcdiv Qcopp absq zq posq max1q (fun (src : list Z) (_ : nat) => map q src) 1.
Let spec uis src is := source_stats (q 0) (q 1) Qcplus Qcmult Qcminus Qcdiv absq zq posq uis (fun _ => map q src) 0 is (stats0 (q 0) 1).
Let see (s : @stats Qc) := (map this ([prochi2 s; pronpix s; promasked s; ffnum s; ffden s; proflux s; innum s; inden s] ++ extra s), npix s).
Let show (r : res (@fitstats Qc)) := match r with Ok f => map see (persrc f) | Err _ => [] end.

(** Two sources in two images, one with two components; a masked pixel. *)
Let i1 := img 4 [11; 13; 15; 10] [1; 0; 2; 1] [1; 2; 3; 4] 10 [pt 0 3 [1; 1; 2]; pt 1 1 [1]; pt 1 3 [1; 1; 1]] [5; 6; 7; 8].
Let i2 := img 3 [1; 1; 1] [1; 1; 1] [1; 1; 1] 0 [None; None; pt 2 2 [1; 1]] [1; 1; 1].
Let i2n := img 3 [1; 1; 1] [0; 0; 0] [1; 1; 1] 0 [None; None; pt 2 2 [1; 1]] [1; 1; 1].
Ltac fsok := intros i Hi; cbn [In] in Hi; repeat destruct Hi as [<-|Hi]; try destruct Hi; (unfold fs_ok, same_size, wf_arr; cbn; conjs; try lia;
  [intros e [<-|[]]; cbn; lia|intros p Hp; repeat (destruct Hp as [Hp|Hp]; [first [discriminate Hp|injection Hp as <-; unfold wf_patch, wf_arr; cbn; lia]|]); destruct Hp]).
Example case_ok : (forall i, In i [i1; i2] -> fs_ok i) /\ (forall i uis u, In i [i1; i2] -> In uis [[0; 1]; [2]]%nat -> In u uis -> (u < length (fs_um i))%nat).
Proof.
  split; [fsok|]. intros i uis u Hi Hs Hu. repeat destruct Hi as [<-|Hi]; try destruct Hi; repeat destruct Hs as [<-|Hs]; try destruct Hs;
    repeat destruct Hu as [<-|Hu]; try destruct Hu; cbn; lia.
Qed.
Example case_run : show (run [[1; 3]; [2]; [7]] [[0; 1]; [2]]%nat [i1; i2]) = [see (spec [0; 1]%nat [1; 3] [i1; i2]); see (spec [2]%nat [2] [i1; i2])] /\
  see (spec [0; 1]%nat [1; 3] [i1; i2]) = ([(19 # 4); (3 # 4); 1; (6 # 5); (3 # 16); (3 # 4); (7 # 4); 1; (19 # 4)]%Q, 2).
Proof. split; vm_compute; reflexivity. Qed.

(** A unit-flux model that begins left of the image: its source gets no
    statistics at all, and its model is left in the work array and counted for
    the next source. *)
Let i3 := img 6 [0; 0; 0; 0; 0; 0] [1; 1; 1; 1; 1; 1] [1; 1; 1; 1; 1; 1] 0 [pt (-1) 3 [1; 1; 1]; pt 0 2 [1; 1]] [1; 1; 1; 1; 1; 1].
Theorem C57_edge_refuted :
  show (run [[4]; [2]] [[0]; [1]]%nat [i3]) = [([0; 0; 0; 0; 0; 0; 0; 0; 0]%Q, 0); ([6; 6; 0; 1; 3; 18; 6; 1; 6]%Q, 2)] /\
  see (spec [0]%nat [4] [i3]) = ([2; 2; 0; 1; (1 # 2); 4; 2; 1; 2]%Q, 2) /\
  see (spec [1]%nat [2] [i3]) = ([2; 2; 0; 1; 1; 2; 2; 1; 2]%Q, 2).
Proof. conjs; vm_compute; reflexivity. Qed.

(** A frozen source before the one fitted: the counts of the frozen one are
    used. *)
Theorem C57_frozen_refuted :
  show (run [[0]; [2]] [[2]]%nat [i1]) = [([0; 0; 0; 0; 0; 0; 0; 0; 0]%Q, 0)] /\
  show (run [[2]; [0]] [[2]]%nat [i1]) = [see (spec [2]%nat [2] [i1])] /\ snd (see (spec [2]%nat [2] [i1])) = 2.
Proof. conjs; vm_compute; reflexivity. Qed.

(** A source whose pixels are all masked has a masked fraction of 0. *)
Theorem C57_masked_refuted : (forall i, In i [i2n] -> fs_ok i) /\
  show (run [[2]] [[2]]%nat [i2n]) = [([0; 0; 0; 0; 0; 0; 0; 0; 0]%Q, 0)] /\
  this (profile (q 0) Qcplus Qcmult Qcdiv [2]%nat [q 2] i2n 2 0) = 1%Q.
Proof. split; [fsok|]. conjs; vm_compute; reflexivity. Qed.

(** Unit-flux models of two sources (two components, one component) in two
    images with regions. *)
Let um (s : nat) (i : nat) : list (option (patch Qc)) := if (s =? 0)%nat then [pt 5 1 [1]; None] else [pt (Z.of_nat i) 1 [2]].
Example umodels_run : let '(us, ufs) := get_umodels um [0; 1]%nat [(0%nat, (3, 0)); (1%nat, (0, 0))] in
  ufs = [[0; 1]; [2]]%nat /\ map (map (option_map (fun p => x0 p))) us = [[Some 2; None; Some (-3)]; [Some 5; None; Some 1]].
Proof. vm_compute. auto. Qed.
End Cases.

Print Assumptions C57_stats.
Print Assumptions C57_edge_refuted.
Print Assumptions C57_frozen_refuted.
Print Assumptions C57_masked_refuted.
Print Assumptions C58_umodels.
