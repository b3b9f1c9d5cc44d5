(** C54 and C34: Tractor.getDerivs assembles one row per parameter, in
    parameter order, and leaves the parameters as they were. *)
From Coq Require Import String List ZArith Bool Lia.
From Verif Require Import Base ParamsModel ParamsSpec ParamsProofs ParamsProofs2 ParamsProps
  DerivModel DerivSpec DerivProofs DerivProps.
Import ListNotations.

Section Props.
Context {V : Type} (one : V) (vadd : V -> V -> V) {P : Type} {I : Type}.
Context (sub_derivs : ptree V -> option (list (ideriv P))).
Notation ptree := (ptree V).
Notation problem := (problem V).
Context (model_image : problem -> nat -> I) (diff_patch : I -> I -> V -> P).
Context (src_derivs : nat -> ptree -> res (list (option P) * ptree)).

Notation bump := (bump one vadd).
Notation image_sub_derivs := (image_sub_derivs V P sub_derivs).
Notation image_derivs := (image_derivs V P sub_derivs).
Notation img_loop := (img_loop V vadd P I model_image diff_patch).
Notation imgs_loop := (imgs_loop V one vadd P sub_derivs I model_image diff_patch).
Notation src_loop := (src_loop V P src_derivs).
Notation srcs_loop := (srcs_loop V P src_derivs).
Notation get_derivs := (get_derivs V one vadd P sub_derivs I model_image diff_patch src_derivs).

(** What row [i] of a source says: its derivative in every image in which it
    is not None, in image order. *)
Definition src_row (n : nat) (s : ptree) (i : nat) : list (option P * nat) :=
  flat_map (fun j => match src_derivs j s with
                     | Ok (ds, _) => match nth_error ds i with Some (Some p) => [(Some p, j)] | _ => [] end
                     | Err _ => []
                     end) (seq 0 n).

Definition cell (j : nat) (o : option (option P)) : list (option P * nat) :=
  match o with Some (Some p) => [(Some p, j)] | _ => [] end.

Lemma append_ok j : forall ds k acc, k + length ds <= length acc ->
  exists acc', append_derivs P j k ds acc = Ok acc' /\ length acc' = length acc /\
    forall i row, nth_error acc i = Some row ->
      nth_error acc' i = Some (row ++ cell j (if k <=? i then nth_error ds (i - k) else None)).
Proof.
  induction ds as [|d r IH]; intros k acc HL; simpl in *.
  - exists acc. split; auto. split; auto. intros i row E. rewrite E. destruct (k <=? i); [destruct (i - k)|]; simpl; rewrite app_nil_r; auto.
  - assert (HC : forall i, (if k <=? i then nth_error (d :: r) (i - k) else None) =
        if i =? k then Some d else if S k <=? i then nth_error r (i - S k) else None).
    { intros i. destruct (Nat.eqb_spec i k).
      - subst. rewrite Nat.leb_refl, Nat.sub_diag. auto.
      - destruct (Nat.leb_spec k i), (Nat.leb_spec (S k) i); try lia; auto.
        replace (i - k) with (S (i - S k)) by lia. auto. }
    destruct d as [p|].
    + unfold py_get. destruct (nth_error acc k) as [row0|] eqn:E0; [|apply nth_error_None in E0; lia]. cbn [bind].
      destruct (IH (S k) (upd k (row0 ++ [(Some p, j)]) acc)) as (acc' & E & L & H); [rewrite upd_length; lia|].
      rewrite upd_length in L. exists acc'. split; auto. split; auto. intros i row Ei. rewrite HC.
      destruct (Nat.eqb_spec i k).
      * subst i. rewrite E0 in Ei. injection Ei as ->.
        rewrite (H k (row ++ [(Some p, j)])).
        -- destruct (Nat.leb_spec (S k) k); [lia|]. simpl. rewrite app_nil_r. auto.
        -- rewrite nth_error_upd_same; auto. lia.
      * rewrite (H i row); auto. rewrite nth_error_upd_other; auto.
    + destruct (IH (S k) acc) as (acc' & E & L & H); [lia|].
      exists acc'. split; auto. split; auto. intros i row Ei. rewrite HC, (H i row Ei).
      destruct (Nat.eqb_spec i k); auto. subst. destruct (Nat.leb_spec (S k) k); [lia|]. reflexivity.
Qed.

Definition src_good (n : nat) (s : ptree) : Prop :=
  forall j, j < n -> exists ds, src_derivs j s = Ok (ds, s) /\ length ds = number_of_params s.

Lemma src_loop_ok s : forall n j acc, (forall j', j <= j' < j + n -> exists ds, src_derivs j' s = Ok (ds, s) /\ length ds = number_of_params s) ->
  length acc = number_of_params s ->
  exists acc', src_loop j n s acc = Ok (acc', s) /\ length acc' = length acc /\
    forall i row, nth_error acc i = Some row -> nth_error acc' i = Some (row ++
      flat_map (fun j => match src_derivs j s with Ok (ds, _) => cell j (nth_error ds i) | Err _ => [] end) (seq j n)).
Proof.
  induction n as [|n IH]; intros j acc HG HL; simpl.
  - exists acc. split; auto. split; auto. intros. rewrite app_nil_r. auto.
  - destruct (HG j) as (ds & ED & LD); [lia|]. rewrite ED. cbn [bind fst snd].
    destruct (append_ok j ds 0 acc) as (acc1 & E1 & L1 & H1); [lia|]. rewrite E1. cbn [bind].
    destruct (IH (S j) acc1) as (acc2 & E2 & L2 & H2).
    + intros j' Hj. apply HG. lia.
    + lia.
    + exists acc2. split; auto. split; [lia|]. intros i row Ei.
      rewrite (H2 i _ (H1 i row Ei)). rewrite Nat.sub_0_r. simpl. rewrite app_assoc. auto.
Qed.

Lemma nth_ext_some {A} (l1 l2 : list A) : length l1 = length l2 ->
  (forall i x, nth_error l2 i = Some x -> nth_error l1 i = Some x) -> l1 = l2.
Proof.
  revert l2. induction l1 as [|a r IH]; destruct l2 as [|b q]; simpl; intros HL H; try lia; auto.
  assert (E := H 0 b eq_refl). simpl in E. injection E as ->. f_equal. apply IH; auto.
  intros i x E. apply (H (S i) x E).
Qed.

Lemma src_rows_ok n s : src_good n s ->
  src_loop 0 n s (repeat [] (number_of_params s)) = Ok (map (src_row n s) (seq 0 (number_of_params s)), s).
Proof.
  intros HG. destruct (src_loop_ok s n 0 (repeat [] (number_of_params s))) as (acc & E & L & H).
  - intros j Hj. apply HG. lia.
  - apply repeat_length.
  - rewrite E. do 2 f_equal. rewrite repeat_length in L. apply nth_ext_some.
    + rewrite map_length, seq_length. auto.
    + intros i x Hx. assert (HI : i < number_of_params s).
      { rewrite <- (seq_length (number_of_params s) 0), <- (map_length (src_row n s)). apply nth_error_Some. congruence. }
      rewrite (map_nth_error (src_row n s) i (seq 0 (number_of_params s)) (d := i)) in Hx.
      2:{ rewrite (nth_error_nth' _ 0) by (rewrite seq_length; auto). rewrite seq_nth; auto. }
      injection Hx as <-. rewrite (H i []).
      * reflexivity.
      * apply nth_error_repeat. auto.
Qed.

Lemma upd_same {A} (l : list A) : forall k x, nth_error l k = Some x -> upd k x l = l.
Proof. induction l as [|a r IH]; destruct k; simpl; intros x E; try discriminate; [congruence|]. f_equal. auto. Qed.

Lemma with_src_same (pb : problem) k s : nth_error (pb_srcs V pb) k = Some s -> with_src V pb k s = pb.
Proof. intros E. destruct pb. unfold with_src. simpl in *. rewrite upd_same; auto. Qed.
Lemma with_img_same (pb : problem) k s : nth_error (pb_imgs V pb) k = Some s -> with_img V pb k s = pb.
Proof. intros E. destruct pb. unfold with_img. simpl in *. rewrite upd_same; auto. Qed.

Lemma srcs_loop_ok (pb : problem) : forall ss ls k,
  (forall m s, nth_error ss m = Some s -> nth_error (pb_srcs V pb) (k + m) = Some s) ->
  (forall m s, nth_error ss m = Some s -> nth m ls false = true -> s <> PNone -> src_good (length (pb_imgs V pb)) s) ->
  srcs_loop pb k ss ls = Ok (concat (active_map (fun s =>
    map (src_row (length (pb_imgs V pb)) s) (seq 0 (number_of_params s))) ss ls), pb).
Proof.
  induction ss as [|s ss IH]; intros ls k HN HG; [reflexivity|]. destruct ls as [|l ls]; [reflexivity|].
  assert (IH' : srcs_loop pb (S k) ss ls = Ok (concat (active_map (fun s =>
    map (src_row (length (pb_imgs V pb)) s) (seq 0 (number_of_params s))) ss ls), pb)).
  { apply IH.
    - intros m x E. specialize (HN (S m) x E). replace (S k + m) with (k + S m) by lia. auto.
    - intros m x E. apply (HG (S m) x E). }
  simpl. destruct (l && negb (is_none s)) eqn:EB; [|exact IH'].
  apply andb_prop in EB. destruct EB as [-> ENN].
  rewrite src_rows_ok.
  2:{ apply (HG 0 s eq_refl eq_refl). destruct s; simpl in *; congruence. }
  cbn [bind fst snd]. rewrite with_src_same; [rewrite IH'; reflexivity|].
  specialize (HN 0 s eq_refl). rewrite Nat.add_0_r in HN. auto.
Qed.

(** The derivative list of an image: its own where a member supplies one,
    False (step me) elsewhere. *)
Definition sub_good (s : ptree) : Prop :=
  match sub_derivs s with Some sd => length sd = number_of_params s | None => True end.
Definition sub_list (s : ptree) : list (ideriv P) :=
  match sub_derivs s with Some sd => sd | None => repeat (IFalse P) (number_of_params s) end.
Definition img_list (img : ptree) : list (ideriv P) :=
  match img with PMulti _ subs liq => concat (active_map sub_list subs liq) | _ => [] end.
Definition img_good (img : ptree) : Prop :=
  match img with
  | PMulti _ subs _ => forall m s, nth_error subs m = Some s -> sub_good s
  | _ => False
  end.

Lemma image_derivs_ok img : img_good img ->
  image_derivs img = Ok (img_list img) /\ length (img_list img) = number_of_params img.
Proof.
  destruct img as [| | | |nm subs liq]; simpl; try tauto. clear nm. revert liq.
  induction subs as [|s r IH]; intros [|l ls] HG; simpl; auto.
  assert (HS := HG 0 s eq_refl). destruct (IH ls) as [E L]; [intros m x Ex; apply (HG (S m) x Ex)|].
  destruct (l && negb (is_none s)); auto. change ((x <- image_sub_derivs s ;; y <- concat_res (active_map image_sub_derivs r ls) ;; Ok (x ++ y)) = Ok (sub_list s ++ concat (active_map sub_list r ls)) /\ length (sub_list s ++ concat (active_map sub_list r ls)) = number_of_params s + list_sum (active_map number_of_params r ls)). rewrite E.
  assert (ES : image_sub_derivs s = Ok (sub_list s) /\ length (sub_list s) = number_of_params s).
  { unfold DerivModel.image_sub_derivs, sub_list. unfold sub_good in HS. destruct (sub_derivs s) as [sd|].
    - rewrite HS, Nat.eqb_refl. auto.
    - rewrite repeat_length. auto. }
  destruct ES as [-> LS]. cbn [bind]. split; auto. rewrite app_length. lia.
Qed.

(** One image row. *)
Definition img_cell (pb pb' : problem) (k : nat) (d : ideriv P) (st : V) : option P :=
  match d with
  | IPatch _ p => Some p
  | INone _ => None
  | IFalse _ => Some (diff_patch (model_image pb' k) (model_image pb k) st)
  end.

Lemma img_loop_ok (pb : problem) k img : wf img -> img <> PNone ->
  nth_error (pb_imgs V pb) k = Some img ->
  forall ds di, di + length ds = number_of_params img ->
  exists rows, img_loop pb k (model_image pb k) (get_params img) (get_step_sizes one img) di ds = Ok (rows, pb) /\
    length rows = length ds /\
    forall i d st img', nth_error ds i = Some d -> bump img (di + i) st img' ->
      nth_error rows i = Some [(img_cell pb (with_img V pb k img') k d st, k)].
Proof.
  intros W NN EI. induction ds as [|d r IH]; intros di HL; simpl in *.
  - exists []. repeat split; auto. intros [|i]; discriminate.
  - destruct (IH (S di)) as (rows & E & L & H); [lia|].
    assert (HV : exists v st, nth_error (get_params img) di = Some v /\ nth_error (get_step_sizes one img) di = Some st).
    { destruct (nth_error (get_params img) di) as [v|] eqn:E1; [|apply nth_error_None in E1; rewrite (params_len one) in E1 by auto; lia].
      destruct (nth_error (get_step_sizes one img) di) as [st|] eqn:E2; [|apply nth_error_None in E2; rewrite (steps_len one) in E2 by auto; lia].
      eauto. }
    destruct HV as (v & st & HV & HS).
    destruct (C04_set_one_param v img di (vadd v st) W NN) as (img' & old & A1 & A2 & _ & _ & _ & W' & A3); [lia|].
    rewrite HV in A2. injection A2 as <-.
    assert (KL : k < length (pb_imgs V pb)) by (apply nth_error_Some; congruence).
    exists ([(img_cell pb (with_img V pb k img') k d st, k)] :: rows).
    split.
    + destruct d as [p| |]; cbn [bind fst snd]; try (rewrite E; reflexivity).
      unfold py_get. rewrite EI, HV, HS. cbn [bind fst snd]. rewrite A1. cbn [bind fst snd].
      change (pb_imgs V (with_img V pb k img')) with (upd k img' (pb_imgs V pb)).
      rewrite nth_error_upd_same by auto. cbn [bind fst snd]. rewrite A3. cbn [bind fst snd].
      assert (EW : with_img V (with_img V pb k img') k img = pb).
      { destruct pb as [im il io sr sl so]. unfold with_img. simpl in *. f_equal.
        clear - EI. revert k EI. induction im as [|a q IHq]; destruct k; simpl; intros; try discriminate; [congruence|]. f_equal. auto. }
      rewrite EW, E. reflexivity.
    + split; [simpl; lia|]. intros [|i] d0 st0 img0 Ed HB; simpl in *.
      * injection Ed as <-. rewrite Nat.add_0_r in HB. destruct HB as (v1 & B1 & B2 & B3).
        rewrite HV in B1. injection B1 as <-. rewrite HS in B2. injection B2 as <-. rewrite A1 in B3. injection B3 as <-. auto.
      * apply H; auto. replace (S (di + i)) with (di + S i) by lia. auto.
Qed.

(** All image rows: row [before imgs m + i] is about parameter [i] of image [m]. *)
Lemma imgs_loop_ok (pb : problem) : forall imgs liq k, length liq = length imgs ->
  (forall m img, nth_error imgs m = Some img -> nth_error (pb_imgs V pb) (k + m) = Some img /\ wf img) ->
  (forall m img, nth_error imgs m = Some img -> nth m liq false = true -> img_good img) ->
  exists rows, imgs_loop pb k liq = Ok (rows, pb) /\
    length rows = list_sum (active_map number_of_params imgs liq) /\
    forall m img i d st img', nth_error imgs m = Some img -> nth m liq false = true ->
      nth_error (img_list img) i = Some d -> bump img i st img' ->
      nth_error rows (list_sum (active_map number_of_params (firstn m imgs) (firstn m liq)) + i) =
        Some [(img_cell pb (with_img V pb (k + m) img') (k + m) d st, k + m)].
Proof.
  induction imgs as [|im imgs IH]; destruct liq as [|l ls]; simpl; intros k HL HN HG; try lia.
  - exists []. repeat split; auto. intros [|m]; discriminate.
  - destruct (IH ls (S k)) as (rows & E & L & H); [lia| | |].
    + intros m img Em. destruct (HN (S m) img Em). replace (S k + m) with (k + S m) by lia. auto.
    + intros m img Em. apply (HG (S m) img Em).
    + destruct (HN 0 im eq_refl) as [EI W]. rewrite Nat.add_0_r in EI.
      destruct l.
      * assert (G := HG 0 im eq_refl eq_refl). destruct (image_derivs_ok im G) as [ED LD].
        unfold py_get. rewrite EI. cbn [bind]. rewrite ED. cbn [bind].
        assert (NN : im <> PNone) by (destruct im; simpl in G; try tauto; discriminate).
        destruct (img_loop_ok pb k im W NN EI (img_list im) 0 LD) as (r1 & E1 & L1 & H1).
        rewrite E1. cbn [bind fst snd]. rewrite E. cbn [bind fst snd].
        exists (r1 ++ rows). split; auto.
        assert (EN : is_none im = false) by (destruct im; simpl in *; congruence).
        rewrite EN. simpl. rewrite app_length. split; [lia|].
        intros [|m] img i d st img' Em El Ei HB; simpl in *.
        -- injection Em as <-. rewrite Nat.add_0_r. rewrite nth_error_app1.
           ++ apply (H1 i d st img'); auto.
           ++ rewrite L1. apply nth_error_Some. congruence.
        -- rewrite EN. simpl. rewrite nth_error_app2 by lia.
           replace (number_of_params im + list_sum (active_map number_of_params (firstn m imgs) (firstn m ls)) + i - length r1)
             with (list_sum (active_map number_of_params (firstn m imgs) (firstn m ls)) + i) by lia.
           rewrite (H m img i d st img'); auto. replace (S (k + m)) with (k + S m) by lia. auto.
      * simpl. exists rows. split; auto. split; auto.
        intros [|m] img i d st img' Em El Ei HB; simpl in *; try discriminate.
        rewrite (H m img i d st img'); auto. replace (S (k + m)) with (k + S m) by lia. auto.
Qed.

(** *** C54 / C34: getDerivs *)
Theorem C54_get_derivs : forall nm (pb : problem),
  wf (tree_of V nm pb) ->
  (forall m img, pb_imgs_on V pb = true -> nth_error (pb_imgs V pb) m = Some img ->
     nth m (pb_imgliq V pb) false = true -> img_good img) ->
  (forall m s, pb_srcs_on V pb = true -> nth_error (pb_srcs V pb) m = Some s ->
     nth m (pb_srcliq V pb) false = true -> s <> PNone -> src_good (length (pb_imgs V pb)) s) ->
  exists rows,
    get_derivs nm pb = Ok (rows, pb) /\                        (* nothing is left stepped *)
    length rows = number_of_params (tree_of V nm pb) /\        (* one row per parameter *)
    (forall m img i d st pb',                                  (* image parameters first *)
       pb_imgs_on V pb = true -> nth_error (pb_imgs V pb) m = Some img -> nth m (pb_imgliq V pb) false = true ->
       nth_error (img_list img) i = Some d ->
       let k := before (PMulti nm (pb_imgs V pb) (pb_imgliq V pb)) m + i in
       bump (tree_of V nm pb) k st (tree_of V nm pb') ->
       nth_error rows k = Some [(img_cell pb pb' m d st, m)]) /\
    (forall m s i,                                             (* then source parameters *)
       pb_srcs_on V pb = true -> nth_error (pb_srcs V pb) m = Some s -> nth m (pb_srcliq V pb) false = true ->
       s <> PNone -> i < number_of_params s ->
       nth_error rows (before (tree_of V nm pb) 1 + before (PMulti nm (pb_srcs V pb) (pb_srcliq V pb)) m + i) =
         Some (src_row (length (pb_imgs V pb)) s i)).
Proof.
  intros nm pb W HI HS.
  destruct pb as [imgs il ion srcs sl son]; unfold tree_of in *; cbn [pb_imgs pb_imgliq pb_imgs_on pb_srcs pb_srcliq pb_srcs_on] in *; cbv zeta in *.
  set (pb := mkProblem V imgs il ion srcs sl son) in *.
  destruct W as [_ [[WIL WI] [[WSL WS] _]]].
  assert (WI' : forall m img, nth_error imgs m = Some img -> wf img) by (intros m img E; apply (wf_sub nm imgs il m img); auto; split; auto).
  assert (HIM : exists rows, (if ion then imgs_loop pb 0 il else Ok ([], pb)) = Ok (rows, pb) /\
     length rows = (if ion then list_sum (active_map number_of_params imgs il) else 0) /\
     (forall m img i d st img', ion = true -> nth_error imgs m = Some img -> nth m il false = true ->
        nth_error (img_list img) i = Some d -> bump img i st img' ->
        nth_error rows (before (PMulti nm imgs il) m + i) = Some [(img_cell pb (with_img V pb m img') m d st, m)])).
  { destruct ion.
    - destruct (imgs_loop_ok pb imgs il 0) as (rows & E & L & H); auto.
      + intros m img E; split; eauto.
      + intros m img E1 E2. apply (HI m img eq_refl E1 E2).
      + exists rows. split; auto. split; auto. intros m img i d st img' _. apply H.
    - exists []. repeat split; auto. discriminate. }
  destruct HIM as (r1 & E1 & L1 & H1).
  assert (HSM : exists rows, (if son then srcs_loop pb 0 srcs sl else Ok ([], pb)) = Ok (rows, pb) /\
     length rows = (if son then list_sum (active_map number_of_params srcs sl) else 0) /\
     (forall m s i, son = true -> nth_error srcs m = Some s -> nth m sl false = true -> s <> PNone -> i < number_of_params s ->
        nth_error rows (before (PMulti nm srcs sl) m + i) = Some (src_row (length imgs) s i))).
  { destruct son.
    - rewrite (srcs_loop_ok pb srcs sl 0); auto.
      + eexists. split; [reflexivity|]. split.
        * simpl. generalize (length imgs). intros n. clear. revert sl. induction srcs as [|s r IH]; intros [|l ls]; simpl; auto.
          destruct (l && negb (is_none s)); simpl; auto. rewrite app_length, map_length, seq_length, IH. auto.
        * intros m s i _ Em El NN Hi. rewrite before_S, (active_nth _ srcs sl m s i); auto.
          -- apply map_nth_error. rewrite (nth_error_nth' _ 0) by (rewrite seq_length; auto). rewrite seq_nth; auto.
          -- intros. rewrite map_length, seq_length. auto.
      + intros m s Em El NN. apply (HS m s eq_refl Em El NN).
    - exists []. repeat split; auto. discriminate. }
  destruct HSM as (r2 & E2 & L2 & H2).
  assert (HB1 : before (PMulti nm [PMulti nm imgs il; PMulti nm srcs sl] [ion; son]) 1 = length r1).
  { rewrite before_S, L1. destruct ion; simpl; auto. }
  exists (r1 ++ r2). split; [|split; [|split]].
  - unfold DerivModel.get_derivs. change (pb_imgs_on V pb) with ion. change (pb_imgliq V pb) with il.
    rewrite E1. cbn [bind fst snd]. change (pb_srcs_on V pb) with son. change (pb_srcs V pb) with srcs. change (pb_srcliq V pb) with sl.
    rewrite E2. cbn [bind fst snd].
    replace (length (r1 ++ r2) =? number_of_params (tree_of V nm pb)) with true; auto.
    symmetry. apply Nat.eqb_eq. rewrite app_length, L1, L2. destruct ion, son; simpl; lia.
  - rewrite app_length, L1, L2. destruct ion, son; simpl; lia.
  - intros m img i d st pb' EON Em El Ei HB.
    assert (GI := HI m img EON Em El).
    assert (NN : img <> PNone) by (destruct img; simpl in GI; try tauto; discriminate).
    assert (HIi : i < number_of_params img).
    { destruct (image_derivs_ok img GI) as [_ LL]. rewrite <- LL. apply nth_error_Some. congruence. }
    assert (WT : wf (PMulti nm [PMulti nm imgs il; PMulti nm srcs sl] [ion; son])) by (split; [reflexivity|split; [split; auto|split; [split; auto|exact Logic.I]]]).
    assert (HK : before (PMulti nm imgs il) m + i < number_of_params (PMulti nm imgs il)).
    { assert (X := H1). clear - Em El NN HIi WIL. rewrite before_S. simpl. clear nm. revert il m Em El WIL.
      induction imgs as [|a r IH]; destruct il as [|l ls]; destruct m; simpl; intros; try discriminate.
      - injection Em as ->. subst l. destruct img; simpl in *; try congruence; lia.
      - specialize (IH ls m Em El ltac:(lia)). destruct (l && negb (is_none a)); simpl; lia. }
    replace (before (PMulti nm imgs il) m + i)
      with (before (PMulti nm [PMulti nm imgs il; PMulti nm srcs sl] [ion; son]) 0 + (before (PMulti nm imgs il) m + i)) in HB by reflexivity.
    apply (bump_member one vadd nm [PMulti nm imgs il; PMulti nm srcs sl] [ion; son] 0 (PMulti nm imgs il)) in HB; auto; [|discriminate].
    destruct HB as (t' & HB & ET).
    apply (bump_member one vadd nm imgs il m img) in HB; auto; [|split; auto].
    destruct HB as (img' & HB & ->). simpl in ET. destruct pb' as [imgs2 il2 ion2 srcs2 sl2 son2]. simpl in ET.
    injection ET as -> -> -> -> -> ->.
    rewrite nth_error_app1.
    + apply (H1 m img i d st img'); auto.
    + rewrite L1, EON. exact HK.
  - intros m s i EON Em El NN Hi. rewrite HB1. rewrite nth_error_app2 by lia.
    replace (length r1 + before (PMulti nm srcs sl) m + i - length r1) with (before (PMulti nm srcs sl) m + i) by lia.
    apply H2; auto.
Qed.
End Props.
