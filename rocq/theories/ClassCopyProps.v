(** C61: copies made by classes with their own copy method.
    C62: arithmetic on parameter objects. *)
From Coq Require Import String List ZArith Bool Lia Reals Lra.
From Verif Require Import Base ParamsModel ParamsSpec ParamsProofs ParamsProofs2 ParamsProps ClassCopyModel.
Import ListNotations.

Ltac conjs := repeat match goal with |- _ /\ _ => split end.

(** ** Multi-band brightness *)
Section Bands.
Context {V : Type}.

(** What the constructor makes: one value per band, bands distinct, bands
    looked up by position. *)
Definition mbb_ok (m : mbb V) : Prop :=
  NoDup (m_order m) /\ length (l_vals (m_list m)) = length (m_order m) /\
  length (l_liquid (m_list m)) = length (m_order m) /\
  l_names (m_list m) = add_named_params (mkNames [] []) (index_names 0 (m_order m)).

Lemma assoc_index_names k : forall keys i j, nth_error keys j = Some k -> NoDup keys ->
  assoc_name k (index_names i keys ++ []) = Some (i + j).
Proof.
  induction keys as [|k' keys IH]; intros i j NJ ND; [destruct j; discriminate|].
  inversion ND as [|? ? NI ND']; subst. cbn. destruct j as [|j].
  - injection NJ as ->. rewrite String.eqb_refl. f_equal. lia.
  - cbn in NJ. destruct (String.eqb_spec k k') as [->|NE]; [exfalso; apply NI; eapply nth_error_In; eauto|].
    rewrite (IH (S i) j) by auto. f_equal. lia.
Qed.

Lemma get_band_nth (m : mbb V) k j : mbb_ok m -> nth_error (m_order m) j = Some k ->
  get_band m k = py_get (l_vals (m_list m)) j.
Proof.
  intros (ND & _ & _ & NM) NJ. unfold get_band, named_param_index. rewrite NM. cbn [add_named_params namedparams].
  rewrite (assoc_index_names k _ 0 j) by auto. reflexivity.
Qed.

Lemma lookup_in {A} k (v : A) d : NoDup (map fst d) -> In (k, v) d -> lookup k d = Some v.
Proof.
  induction d as [|[k' v'] d IH]; cbn; intros ND HI; [contradiction|]. inversion ND as [|? ? NI ND']; subst.
  destruct HI as [E|HI].
  - injection E as -> ->. rewrite String.eqb_refl. reflexivity.
  - destruct (String.eqb_spec k k') as [->|NE]; auto. exfalso. apply NI. apply in_map_iff. exists (k', v). auto.
Qed.

Lemma collect_combine (vs : list V) : forall ks pre, length ks = length vs ->
  NoDup (map fst (pre ++ combine ks vs)) -> collect ks (pre ++ combine ks vs) = Ok vs.
Proof.
  induction vs as [|v vs IH]; intros [|k ks] pre HL ND; try discriminate; [reflexivity|].
  cbn [collect combine]. rewrite (lookup_in k v); auto.
  2: { apply in_or_app. right. left. auto. }
  replace (pre ++ (k, v) :: combine ks vs) with ((pre ++ [(k, v)]) ++ combine ks vs) by (rewrite <- app_assoc; reflexivity).
  rewrite IH; [reflexivity| |].
  - cbn in HL. lia.
  - rewrite <- app_assoc. exact ND.
Qed.

Lemma mem_in k l : mem k l = true <-> In k l.
Proof.
  unfold mem. rewrite existsb_exists. split.
  - intros (x & HX & E). apply String.eqb_eq in E. subst. auto.
  - intros HI. exists k. split; auto. apply String.eqb_refl.
Qed.

Lemma fst_combine {A B} (ks : list A) : forall (vs : list B), length ks = length vs -> map fst (combine ks vs) = ks.
Proof. induction ks as [|k ks IH]; intros [|v vs] HL; try discriminate; auto. cbn. rewrite IH; auto. Qed.

Definition mbb_of (steps : option V) (ks : list string) (vs : list V) : mbb V :=
  mkMbb ks (mkPlist (add_named_params (mkNames [] []) (index_names 0 ks)) vs
    (map (fun _ => true) vs) (map (fun _ => None) vs) (map (fun _ => None) vs) (map (fun _ => None) vs)
    (match steps with Some s => Some (map (fun _ => s) vs) | None => None end) []).

Lemma mbb_new_combine steps ks (vs : list V) : NoDup ks -> length ks = length vs ->
  mbb_new steps ks (combine ks vs) = Ok (mbb_of steps ks vs).
Proof.
  intros ND HL. unfold mbb_new. rewrite combine_length, <- HL, Nat.min_id, Nat.eqb_refl. cbn [negb].
  rewrite fst_combine by auto.
  assert (F1 : forallb (fun e => mem (fst e) ks) (combine ks vs) = true).
  { apply forallb_forall. intros [k v] HI. apply mem_in. apply in_combine_l in HI. auto. }
  assert (F2 : forallb (fun k => mem k ks) ks = true).
  { apply forallb_forall. intros k HI. apply mem_in. auto. }
  rewrite F1, F2. cbn [andb negb]. pose proof (collect_combine vs ks []) as CC. cbn [app] in CC. rewrite CC by (rewrite ?fst_combine; auto). reflexivity.
Qed.

Lemma band_kw_spec (m : mbb V) f : mbb_ok m -> forall done rest vs, m_order m = done ++ rest ->
  skipn (length done) (l_vals (m_list m)) = vs -> band_kw m f rest = Ok (combine rest (map f vs)).
Proof.
  intros OK done rest. revert done. induction rest as [|b rest IH]; intros done vs EO EV; [reflexivity|].
  cbn [band_kw].
  rewrite (get_band_nth m b (length done)); auto.
  2: { rewrite EO, nth_error_app2, Nat.sub_diag by lia. reflexivity. }
  destruct OK as (ND & LV & LL & NM).
  assert (LT : length done < length (l_vals (m_list m))) by (rewrite LV, EO, app_length; cbn; lia).
  unfold py_get. destruct (nth_error (l_vals (m_list m)) (length done)) as [v|] eqn:EN.
  2: { apply nth_error_None in EN. lia. }
  cbn [bind]. rewrite (IH (done ++ [b]) (skipn (length (done ++ [b])) (l_vals (m_list m)))); auto.
  2: { rewrite <- app_assoc. exact EO. }
  cbn [bind].
  assert (ES : skipn (length done) (l_vals (m_list m)) = v :: skipn (length (done ++ [b])) (l_vals (m_list m))).
  { rewrite app_length. cbn [length]. clear - EN. revert EN. generalize (l_vals (m_list m)). induction (length done) as [|n IH]; intros [|x l] EN; try discriminate.
    - injection EN as ->. reflexivity.
    - cbn [skipn plus]. apply IH. exact EN. }
  rewrite <- EV, ES. reflexivity.
Qed.

Lemma band_map_spec steps f (m : mbb V) : mbb_ok m ->
  band_map steps f m = Ok (mbb_of steps (m_order m) (map f (l_vals (m_list m)))).
Proof.
  intros OK. unfold band_map. rewrite (band_kw_spec m f OK [] (m_order m) (l_vals (m_list m))) by auto.
  cbn [bind]. destruct OK as (ND & LV & _). apply mbb_new_combine; auto. rewrite map_length. auto.
Qed.

Lemma mbb_of_ok steps ks (vs : list V) : NoDup ks -> length ks = length vs -> mbb_ok (mbb_of steps ks vs).
Proof. intros ND HL. unfold mbb_ok, mbb_of. cbn. rewrite map_length. auto. Qed.

Lemma nodup_length_incl (l l' : list string) : NoDup l' -> length l = length l' -> incl l' l -> NoDup l.
Proof. intros N L IN. eapply NoDup_incl_NoDup; eauto. lia. Qed.

(** The constructor makes such objects, for every dictionary of arguments. *)
Lemma mbb_new_ok steps order (kw : list (string * V)) m : NoDup (map fst kw) ->
  mbb_new steps order kw = Ok m -> mbb_ok m.
Proof.
  intros ND E. unfold mbb_new in E. destruct (Nat.eqb_spec (length kw) (length order)) as [HL|]; [|discriminate].
  cbn [negb] in E. destruct (forallb _ kw && forallb _ order) eqn:F; [|discriminate]. cbn [negb] in E.
  apply andb_prop in F. destruct F as [F1 F2]. apply bind_ok in E. destruct E as (vs & EC & E). injection E as <-.
  unfold mbb_ok. cbn [m_order m_list l_vals l_liquid l_names]. rewrite map_length.
  assert (LV : length vs = length order).
  { clear - EC. revert vs EC. induction order as [|k r IH]; intros vs EC; cbn in EC; [injection EC as <-; auto|].
    destruct (lookup k kw); [|discriminate]. apply bind_ok in EC. destruct EC as (ws & EC & E). injection E as <-.
    cbn. f_equal. auto. }
  conjs; auto. apply nodup_length_incl with (map fst kw); auto.
  - rewrite map_length. auto.
  - intros k HK. apply in_map_iff in HK. destruct HK as (e & <- & HE).
    rewrite forallb_forall in F1. apply mem_in. auto.
Qed.
End Bands.

Lemma log10_1 : (log10 (Rabs 1) = 0)%R.
Proof. unfold log10. rewrite Rabs_R1, ln_1. unfold Rdiv. apply Rmult_0_l. Qed.

Lemma map_id_R (f : R -> R) l : (forall x, f x = x) -> map f l = l.
Proof. intros HF. rewrite <- (map_id l) at 2. apply map_ext. exact HF. Qed.

(** *** C61, multi-band brightness: a copy has the same bands, in the same
    order, with the same values, and nothing in it is frozen. *)
Theorem C61_bands (m : mbb R) : mbb_ok m ->
  forall cp, cp = fluxes_copy \/ cp = mags_copy ->
  exists m', cp m = Ok m' /\ mbb_ok m' /\ m_order m' = m_order m /\
    (forall b, In b (m_order m) -> get_band m' b = get_band m b) /\
    get_all_params (PList (m_list m')) = get_all_params (PList (m_list m)) /\
    Forall (fun f => f = true) (l_liquid (m_list m')) /\
    (Forall (fun f => f = true) (l_liquid (m_list m)) ->
       get_params (PList (m_list m')) = get_params (PList (m_list m))).
Proof.
  intros OK cp HC. pose proof OK as (ND & LV & LL & NM).
  assert (E : exists steps, cp m = Ok (mbb_of steps (m_order m) (l_vals (m_list m)))).
  { destruct HC as [-> | ->].
    - exists None. unfold fluxes_copy, fluxes_mul. rewrite band_map_spec by auto.
      rewrite map_id_R; [reflexivity|intros; lra].
    - eexists. unfold mags_copy, mags_mul. rewrite band_map_spec by auto.
      rewrite map_id_R; [reflexivity|]. intros x. rewrite log10_1. lra. }
  destruct E as (steps & E). eexists. split; [exact E|].
  assert (OK' : mbb_ok (mbb_of steps (m_order m) (l_vals (m_list m)))) by (apply mbb_of_ok; auto).
  assert (FT : Forall (fun f => f = true) (map (fun _ : R => true) (l_vals (m_list m)))).
  { apply Forall_forall. intros f HF. apply in_map_iff in HF. destruct HF as (? & <- & _). auto. }
  conjs; auto.
  - intros b HB. apply In_nth_error in HB. destruct HB as (j & HJ).
    rewrite (get_band_nth m b j), (get_band_nth _ b j) by auto. reflexivity.
  - intros F. cbn [get_params mbb_of m_list l_liquid l_vals].
    assert (EQ : l_liquid (m_list m) = map (fun _ : R => true) (l_vals (m_list m))); [|rewrite EQ; reflexivity].
    assert (LE : length (l_liquid (m_list m)) = length (l_vals (m_list m))) by congruence.
    clear - F LE. revert LE. generalize (l_vals (m_list m)). induction F as [|f fs -> F IH]; intros [|v vs] LE; try discriminate; auto.
    cbn. f_equal. apply IH. cbn in LE. lia.
Qed.

(** Multiplying by a factor multiplies every flux; for magnitudes it adds the
    same offset to every band, that of the factor's size. *)
Theorem C61_scaling (m : mbb R) (factor : R) : mbb_ok m ->
  exists m1 m2, fluxes_mul m factor = Ok m1 /\ mags_mul m factor = Ok m2 /\
    m_order m1 = m_order m /\ m_order m2 = m_order m /\
    forall b v, get_band m b = Ok v -> In b (m_order m) ->
      get_band m1 b = Ok (v * factor)%R /\ get_band m2 b = Ok (v - 5 / 2 * (ln (Rabs factor) / ln 10))%R.
Proof.
  intros OK. unfold fluxes_mul, mags_mul. rewrite !band_map_spec by auto. eexists _, _.
  pose proof OK as (ND & LV & LL & NM).
  conjs; [reflexivity|reflexivity|reflexivity|reflexivity|].
  intros b v GB HB. apply In_nth_error in HB. destruct HB as (j & HJ).
  rewrite (get_band_nth m b j) in GB by auto. unfold py_get in GB.
  destruct (nth_error (l_vals (m_list m)) j) as [x|] eqn:EX; [|discriminate]. injection GB as ->.
  split; (erewrite get_band_nth;
    [|apply mbb_of_ok; auto; rewrite map_length; auto|exact HJ]);
    unfold py_get; cbn [mbb_of m_list l_vals]; rewrite (map_nth_error _ _ _ EX); f_equal; unfold log10; lra.
Qed.

Example bands_example : exists m, mbb_new (Some (-1 / 100)%R) ["r"; "g"]%string [("g", 16); ("r", 14)]%R%string = Ok m /\
  mbb_ok m /\ get_all_params (PList (m_list m)) = [14; 16]%R.
Proof.
  eexists. split; [reflexivity|]. split; [|reflexivity].
  apply (mbb_new_ok (Some (-1 / 100)%R) ["r"; "g"]%string) with (kw := [("g"%string, 16%R); ("r"%string, 14%R)]); [|reflexivity].
  cbn. repeat constructor; cbn; intuition discriminate.
Qed.

(** Freezing a band is lost by the copy, so the parameter vectors differ. *)
Theorem C61_bands_frozen_refuted : exists m m' : mbb R, mbb_ok m /\ fluxes_copy m = Ok m' /\
  get_params (PList (m_list m)) = [16]%R /\ get_params (PList (m_list m')) = [14; 16]%R.
Proof.
  set (m := mkMbb ["r"; "g"]%string (mkPlist (add_named_params (mkNames [] []) (index_names 0 ["r"; "g"]%string)) [14; 16]%R
     [false; true] [None; None] [None; None] [None; None] None [])).
  assert (OK : mbb_ok m).
  { unfold mbb_ok, m; cbn. conjs; auto. repeat constructor; cbn; intuition discriminate. }
  exists m. unfold fluxes_copy, fluxes_mul. rewrite band_map_spec by auto. eexists. conjs; auto.
  cbn. f_equal; [lra|]. f_equal. lra.
Qed.

(** ** Other copies *)
Section Copies.
Context {V : Type}.

Lemma all_true_len (vs : list V) : Forall (fun f => f = true) (map (fun _ => true) vs).
Proof. apply Forall_forall. intros f HF. apply in_map_iff in HF. destruct HF as (? & <- & _). auto. Qed.

(** *** C61, Sersic galaxies: all values are kept, the state of freezing within
    the members too, but none of the four members is frozen in the copy. *)
Theorem C61_sersic (one : V) nm pos bright shape index liq :
  let t := PMulti nm [pos; bright; shape; index] liq in
  wf t -> no_none t ->
  exists t', sersic_copy (copy one) t = Ok t' /\ wf t' /\ get_all_params t' = get_all_params t /\
    (forall i, i < 4 -> flag_at t' [i] = Some true) /\
    (forall i j rest, flag_at t' (i :: j :: rest) = flag_at t (i :: j :: rest)) /\
    (liq = [true; true; true; true] -> get_params t' = get_params t).
Proof.
  cbv zeta. intros W NN. cbn in W, NN. destruct W as (LL & W1 & W2 & W3 & W4 & _), NN as (N1 & N2 & N3 & N4 & _).
  destruct (copy_spec one pos N1) as (p1 & E1 & V1 & M1 & C1 & I1 & X1 & F1).
  destruct (copy_spec one bright N2) as (p2 & E2 & V2 & M2 & C2 & I2 & X2 & F2).
  destruct (copy_spec one shape N3) as (p3 & E3 & V3 & M3 & C3 & I3 & X3 & F3).
  destruct (copy_spec one index N4) as (p4 & E4 & V4 & M4 & C4 & I4 & X4 & F4).
  unfold sersic_copy. rewrite E1, E2, E3, E4. cbn [bind]. eexists. split; [reflexivity|].
  unfold mk_multi. cbn [map]. conjs.
  - cbn. auto 10.
  - rewrite !get_all_flat; [|cbn; auto 10|cbn; auto 10].
    unfold vals_of in *. cbn [flat]. destruct liq as [|b1 [|b2 [|b3 [|b4 [|]]]]]; try discriminate LL.
    cbn [flat_walk]. rewrite V1, V2, V3, V4. rewrite !map_app. repeat (rewrite map_map). reflexivity.
  - intros i HI. do 4 (destruct i as [|i]; [reflexivity|]). lia.
  - intros i j rest.
    destruct i as [|[|[|[|i]]]]; [exact (F1 (j :: rest))|exact (F2 (j :: rest))|exact (F3 (j :: rest))|exact (F4 (j :: rest))|].
    cbn [flag_at nth_error]. destruct i; reflexivity.
  - intros ->. rewrite !get_params_flat by (cbn; auto 10). unfold vals_of in *. cbn [flat flat_walk].
    rewrite V1, V2, V3, V4. reflexivity.
Qed.

(** *** C61, photometric calibration: the zeropoint is kept, thawed. *)
Theorem C61_magsphotocal (l : plist V) v : l_vals l = [v] ->
  exists t', magsphotocal_copy l = Ok t' /\ get_all_params t' = [v] /\ get_params t' = [v] /\ flag_at t' [0] = Some true.
Proof. intros E. unfold magsphotocal_copy. rewrite E. cbn. eauto 6. Qed.

(** *** C61, concentric Gaussians: the copy has the thawed sigmas and weights
    only, all thawed, and is refused when their numbers differ. *)
Theorem C61_ncirc (step : V) (s w : plist V) :
  length (l_liquid s) = length (l_vals s) -> length (l_liquid w) = length (l_vals w) ->
  let psf := mk_multi ncirc_names [PList s; PList w] in
  let ts := thawed (combine (l_liquid s) (l_vals s)) in
  let tw := thawed (combine (l_liquid w) (l_vals w)) in
  (length ts = length tw -> exists t', ncirc_copy step s w = Ok t' /\
     get_all_params t' = ts ++ tw /\ get_params t' = ts ++ tw) /\
  (length ts <> length tw -> ncirc_copy step s w = Err AssertionError) /\
  (Forall (fun f => f = true) (l_liquid s) -> Forall (fun f => f = true) (l_liquid w) ->
     length (l_vals s) = length (l_vals w) ->
     exists t', ncirc_copy step s w = Ok t' /\ get_all_params t' = get_all_params psf).
Proof.
  intros LS LW. cbv zeta.
  assert (K : forall l : plist V, length (l_liquid l) = length (l_vals l) ->
     iter_list l = thawed (combine (l_liquid l) (l_vals l))).
  { intros l. unfold iter_list, thawed. generalize (l_vals l). induction (l_liquid l) as [|b r IH]; intros [|v vs] HL; try discriminate; auto.
    cbn. destruct b; cbn; [f_equal|]; apply IH; cbn in HL; lia. }
  assert (KA : forall l : plist V, length (l_liquid l) = length (l_vals l) -> Forall (fun f => f = true) (l_liquid l) ->
     iter_list l = l_vals l).
  { intros l. unfold iter_list. generalize (l_vals l). intros vs HL F. revert vs HL. induction F as [|b r -> F IH]; intros [|v vs] HL; try discriminate; auto.
    cbn. f_equal. apply IH. cbn in HL. lia. }
  assert (KT : forall vs : list V, keep (map (fun _ => true) vs) vs = vs).
  { induction vs as [|v vs IH]; cbn; [auto|]. f_equal. auto. }
  unfold ncirc_copy, ncirc_new. conjs.
  - intros EQ. rewrite !K by auto. rewrite EQ, Nat.eqb_refl. cbn [negb]. eexists. split; [reflexivity|].
    cbn. rewrite !KT, !app_nil_r. auto.
  - intros NE. rewrite !K by auto. apply Nat.eqb_neq in NE. rewrite NE. reflexivity.
  - intros FS FW HL. rewrite !KA by auto. rewrite HL, Nat.eqb_refl. cbn [negb]. eexists. split; reflexivity.
Qed.

(** Two such PSFs with nothing frozen inside have the same hash key exactly
    when they have the same components. *)
Theorem C61_ncirc_hashkey (s w s' w' : plist V) :
  Forall (fun f => f = true) (l_liquid s) -> Forall (fun f => f = true) (l_liquid w) ->
  Forall (fun f => f = true) (l_liquid s') -> Forall (fun f => f = true) (l_liquid w') ->
  length (l_liquid s) = length (l_vals s) -> length (l_liquid w) = length (l_vals w) ->
  length (l_liquid s') = length (l_vals s') -> length (l_liquid w') = length (l_vals w') ->
  length (l_vals s) = length (l_vals w) -> length (l_vals s') = length (l_vals w') ->
  (ncirc_hashkey s w = ncirc_hashkey s' w' <-> ncirc_mog s w = ncirc_mog s' w').
Proof.
  intros F1 F2 F3 F4 L1 L2 L3 L4 L5 L6.
  assert (KA : forall l : plist V, length (l_liquid l) = length (l_vals l) -> Forall (fun f => f = true) (l_liquid l) ->
     iter_list l = l_vals l).
  { intros l. unfold iter_list. generalize (l_vals l). intros vs HL F. revert vs HL. induction F as [|b r -> F IH]; intros [|v vs] HL; try discriminate; auto.
    cbn. f_equal. apply IH. cbn in HL. lia. }
  unfold ncirc_hashkey, ncirc_mog. rewrite !KA by auto. split.
  - intros E. injection E as -> ->. reflexivity.
  - intros E. assert (E1 := f_equal (map fst) E). assert (E2 := f_equal (map snd) E).
    rewrite !fst_combine in E1 by auto.
    assert (SC : forall (a b : list V), length a = length b -> map snd (combine a b) = b).
    { induction a as [|x a IH]; intros [|y b] HL; try discriminate; auto. cbn. f_equal. auto. }
    rewrite !SC in E2 by auto. congruence.
Qed.

(** ** Arithmetic *)

(** Elementwise: the values of an object beyond those of the other operand
    are kept. *)
Fixpoint elementwise (f : V -> V -> V) (a b : list V) : list V :=
  match a, b with
  | x :: a', y :: b' => f x y :: elementwise f a' b'
  | a, _ => a
  end.
Definition combined (f : V -> V -> V) (a : list V) (o : operand V) : list V :=
  match o with OParams t => elementwise f a (get_all_params t) | ONumber x => map (fun v => f v x) a end.

Lemma setall_prefix (p : list V) : forall i vals, i + length p <= length vals ->
  plist_setall_loop i p vals = Ok (firstn i vals ++ p ++ skipn (i + length p) vals).
Proof.
  induction p as [|x p IH]; intros i vals HL; cbn [plist_setall_loop app length] in *.
  - rewrite Nat.add_0_r, firstn_skipn. reflexivity.
  - destruct (Nat.ltb_spec i (length vals)); [|lia]. rewrite IH by (rewrite upd_length; lia). f_equal.
    assert (U : upd i x vals = firstn i vals ++ x :: skipn (S i) vals).
    { clear - H. revert i H. induction vals as [|v vals IHv]; intros [|i] H; cbn in *; try lia; auto.
      f_equal. apply IHv. lia. }
    assert (LF : length (firstn i vals) = i) by (apply firstn_length_le; lia).
    rewrite U. replace (S i) with (length (firstn i vals) + 1) at 1 by lia.
    rewrite firstn_app_2. cbn [firstn]. rewrite <- app_assoc. cbn [app]. f_equal. f_equal. f_equal.
    rewrite skipn_app, LF. replace (S i + length p - i) with (S (length p)) by lia.
    rewrite skipn_all2 by lia. cbn [app]. set (r := skipn (S i) vals). cbn [skipn]. unfold r. rewrite skipn_add. f_equal. lia.
Qed.

Lemma zip_elementwise f (a b : list V) :
  zip_op f a b ++ skipn (length (zip_op f a b)) a = elementwise f a b /\ length (zip_op f a b) <= length a.
Proof.
  revert b. induction a as [|x a IH]; intros [|y b]; cbn; auto; [split; auto; lia|].
  destruct (IH b) as [E L]. rewrite E. split; [auto|lia].
Qed.

Lemma op_list_spec f (a : list V) o : 
  op_list f a o ++ skipn (length (op_list f a o)) a = combined f a o /\ length (op_list f a o) <= length a.
Proof.
  destruct o as [t|x]; cbn [op_list combined].
  - apply zip_elementwise.
  - rewrite map_length, skipn_all, app_nil_r. auto.
Qed.

(** A list or scalar; the classes with arithmetic are of these kinds. *)
Definition leaf (t : ptree V) : Prop := match t with PList _ | PScalar _ => True | _ => False end.
(** The other operand has at least one value (needed for a scalar). *)
Definition enough (t : ptree V) (o : operand V) : Prop :=
  match t, o with PScalar _, OParams u => get_all_params u <> [] | _, _ => True end.

Lemma leaf_set (f : V -> V -> V) (t : ptree V) o : leaf t -> enough t o ->
  exists t', set_all_params t (op_list f (get_all_params t) o) = Ok t' /\
    get_all_params t' = combined f (get_all_params t) o /\
    (forall path, flag_at t' path = flag_at t path) /\
    get_lower_bounds t' = get_lower_bounds t /\ get_upper_bounds t' = get_upper_bounds t /\
    get_max_step t' = get_max_step t.
Proof.
  destruct t as [| | s | l |]; cbn [leaf]; try contradiction; intros _ EN.
  - cbn [get_all_params]. destruct o as [u|x]; cbn [op_list combined map].
    + cbn in EN. destruct (get_all_params u) as [|y r]; [congruence|]. cbn.
      eexists. split; [reflexivity|]. conjs; auto; try (intros [|? [|]]; reflexivity).
    + eexists. split; [reflexivity|]. conjs; auto; try (intros [|? [|]]; reflexivity).
  - cbn [get_all_params set_all_params].
    destruct (op_list_spec f (l_vals l) o) as [E L].
    rewrite setall_prefix by (cbn; lia). cbn [bind firstn app plus]. rewrite E.
    eexists. split; [reflexivity|]. conjs; auto; try (intros [|? [|]]; reflexivity).
Qed.

(** *** C62: sums, differences and products are elementwise over all values,
    frozen or not, leave the operands alone and keep the frozen state; a
    number on the left works like on the right for the symmetric ones. *)
Theorem C62_binop (one : V) (fs : opname -> V -> V -> V) (o : opname) (t : ptree V) (x : operand V) :
  o <> Div -> leaf t -> enough t x ->
  exists t', py_binop one fs o t x = Ok t' /\
    get_all_params t' = combined (fs o) (get_all_params t) x /\
    (forall path, flag_at t' path = flag_at t path).
Proof.
  intros ND LF EN.
  assert (E : py_binop one fs o t x = arith one (fs o) t x) by (destruct o; try reflexivity; congruence).
  rewrite E. unfold arith.
  assert (C : exists t1, copy one t = Ok t1 /\ leaf t1 /\ get_all_params t1 = get_all_params t /\
      (forall path, flag_at t1 path = flag_at t path) /\ enough t1 x).
  { destruct t; cbn in LF; try contradiction; cbn [copy]; eexists; (split; [reflexivity|]); conjs; auto; try (intros [|? [|]]; reflexivity). }
  destruct C as (t1 & -> & LF1 & G1 & F1 & EN1). cbn [bind].
  destruct (leaf_set (fs o) t1 x LF1 EN1) as (t' & -> & G & F & _).
  exists t'. conjs; auto; [rewrite G, G1; reflexivity|]. intros path. rewrite F. auto.
Qed.

Theorem C62_in_place (one : V) (fs : opname -> V -> V -> V) (o : opname) (t : ptree V) (x : operand V) :
  o <> Div -> leaf t -> enough t x ->
  exists t', py_ibinop one fs o t x = Ok t' /\
    get_all_params t' = combined (fs o) (get_all_params t) x /\
    (forall path, flag_at t' path = flag_at t path) /\
    get_lower_bounds t' = get_lower_bounds t /\ get_upper_bounds t' = get_upper_bounds t /\
    get_max_step t' = get_max_step t.
Proof.
  intros ND LF EN.
  assert (E : py_ibinop one fs o t x = arith_in_place (fs o) t x) by (destruct o; try reflexivity; congruence).
  rewrite E. apply leaf_set; auto.
Qed.

Theorem C62_reflected (one : V) (fs : opname -> V -> V -> V) (o : opname) (t : ptree V) (x : V) :
  o = Add \/ o = Mul -> (forall a b, fs o a b = fs o b a) -> leaf t ->
  exists t', py_rbinop one fs o x t = Ok t' /\
    get_all_params t' = map (fun v => fs o x v) (get_all_params t) /\
    (forall path, flag_at t' path = flag_at t path).
Proof.
  intros HO CM LF.
  assert (E : py_rbinop one fs o x t = py_binop one fs o t (ONumber x)) by (destruct HO as [-> | ->]; reflexivity).
  rewrite E. destruct (C62_binop one fs o t (ONumber x)) as (t' & E' & G & F); auto.
  - destruct HO as [-> | ->]; discriminate.
  - destruct t; cbn; auto.
  - exists t'. conjs; auto. rewrite G. cbn. apply map_ext. auto.
Qed.

(** Adding and then subtracting the same thing gives back all values. *)
Theorem C62_add_sub (one : V) (fs : opname -> V -> V -> V) (t : ptree V) (x : operand V) :
  (forall a b, fs Sub (fs Add a b) b = a) -> leaf t -> enough t x ->
  exists t1 t2, py_binop one fs Add t x = Ok t1 /\ py_binop one fs Sub t1 x = Ok t2 /\
    get_all_params t2 = get_all_params t.
Proof.
  intros AS LF EN.
  destruct (C62_binop one fs Add t x) as (t1 & E1 & G1 & F1); auto; [discriminate|].
  assert (K : leaf t1 /\ enough t1 x).
  { unfold py_binop in E1. cbn in E1. unfold arith in E1.
    destruct t as [| | s | l |]; cbn in LF; try contradiction; cbn [copy bind set_all_params] in E1.
    - destruct (op_list _ _ _) as [|y [|]]; try discriminate. injection E1 as <-. split; [exact Logic.I|]. destruct x; auto.
    - apply bind_ok in E1. destruct E1 as (vs & _ & E1). injection E1 as <-. split; exact Logic.I. }
  destruct K as [LF1 EN1].
  destruct (C62_binop one fs Sub t1 x) as (t2 & E2 & G2 & F2); auto; [discriminate|].
  exists t1, t2. conjs; auto. rewrite G2, G1. destruct x as [u|y]; cbn [combined].
  - generalize (get_all_params t) (get_all_params u). induction l as [|a l IH]; intros [|b l0]; cbn; auto.
    rewrite AS, IH. reflexivity.
  - rewrite map_map. rewrite <- (map_id (get_all_params t)) at 2. apply map_ext. auto.
Qed.
End Copies.

(** ** Refutations *)

(** A frozen shape comes back thawed from the copy of a Sersic galaxy. *)
Theorem C61_sersic_frozen_refuted : exists t t' : ptree Z, wf t /\ no_none t /\
  sersic_copy (copy 1%Z) t = Ok t' /\ flag_at t [2] = Some false /\ flag_at t' [2] = Some true /\
  length (get_params t') <> length (get_params t).
Proof.
  set (sc := fun v => PScalar (mkScalar "x" v None None None 1%Z)).
  exists (PMulti (mkNames [] []) [sc 1; sc 2; sc 3; sc 4]%Z [true; true; false; true]).
  eexists. conjs; try reflexivity; cbn; auto 10.
Qed.

(** With everything in the lists frozen the copy of the PSF has no components;
    with one weight frozen it is refused; and two different PSFs have the same
    hash key. *)
Theorem C61_ncirc_frozen_refuted :
  let pl vs liq := mkPlist (mkNames [] []) vs liq [None; None] [None; None] [None; None] None [] : plist Z in
  let off := [false; false] in
  exists t', ncirc_copy 1%Z (pl [3; 4]%Z off) (pl [8; 2]%Z off) = Ok t' /\ get_all_params t' = [] /\
  ncirc_copy 1%Z (pl [3; 4]%Z [true; true]) (pl [8; 2]%Z [true; false]) = Err AssertionError /\
  ncirc_hashkey (pl [3; 4]%Z off) (pl [8; 2]%Z off) = ncirc_hashkey (pl [5; 6]%Z off) (pl [8; 2]%Z off) /\
  ncirc_mog (pl [3; 4]%Z off) (pl [8; 2]%Z off) <> ncirc_mog (pl [5; 6]%Z off) (pl [8; 2]%Z off).
Proof. eexists. conjs; try reflexivity. discriminate. Qed.

Definition zops (o : opname) : Z -> Z -> Z := opfun Z.add Z.sub Z.mul Z.div o.

(** A number minus an object is computed as the object minus the number; and
    Python 3 does not know the division methods at all. *)
Theorem C62_reflected_sub_refuted :
  let t := mk_plist (mkNames [] []) [10; 20]%Z in
  exists t', py_rbinop 1%Z zops Sub 1%Z t = Ok t' /\ get_all_params t' = [9; 19]%Z.
Proof. eexists. split; reflexivity. Qed.

Theorem C62_division_refuted (V : Type) (one : V) (fs : opname -> V -> V -> V) (t : ptree V) (x : operand V) (v : V) :
  py_binop one fs Div t x = Err TypeError /\ py_ibinop one fs Div t x = Err TypeError /\
  py_rbinop one fs Div v t = Err TypeError.
Proof. repeat split; reflexivity. Qed.

Example arith_example :
  let t := PList (mkPlist (mkNames [] []) [10; 20]%Z [true; false] [None; None] [None; None] [None; None] None []) in
  let u := mk_plist (mkNames [] []) [1; 2]%Z in
  leaf t /\ enough t (OParams u) /\
  exists t', py_binop 1%Z zops Add t (OParams u) = Ok t' /\ get_all_params t' = [11; 22]%Z /\ get_params t' = [11]%Z.
Proof. cbv zeta. conjs; try exact Logic.I. eexists. conjs; reflexivity. Qed.

Print Assumptions C61_bands.
Print Assumptions C61_scaling.
Print Assumptions C61_bands_frozen_refuted.
Print Assumptions C61_sersic.
Print Assumptions C61_sersic_frozen_refuted.
Print Assumptions C61_magsphotocal.
Print Assumptions C61_ncirc.
Print Assumptions C61_ncirc_hashkey.
Print Assumptions C61_ncirc_frozen_refuted.
Print Assumptions C62_binop.
Print Assumptions C62_in_place.
Print Assumptions C62_reflected.
Print Assumptions C62_add_sub.
Print Assumptions C62_reflected_sub_refuted.
Print Assumptions C62_division_refuted.
