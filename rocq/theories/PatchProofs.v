(** Proofs about patches. *)
From Coq Require Import List ZArith Bool Lia ZifyBool.
From Verif Require Import Base PatchModel PatchSpec.
Import ListNotations.
Open Scope Z_scope.

Ltac zb := repeat match goal with
  | |- context [?a <? ?b] => destruct (Z.ltb_spec a b)
  | |- context [?a <=? ?b] => destruct (Z.leb_spec a b)
  | |- context [?a =? ?b] => destruct (Z.eqb_spec a b)
  | |- context [?a >=? ?b] => destruct (Z.geb_spec a b)
  | |- context [?a >? ?b] => destruct (Z.gtb_spec a b)
  end; simpl; try lia.

Section Proofs.
Context {V : Type}.
Notation arr := (arr V).
Notation patch := (patch V).

Lemma norm_pos n i : 0 <= n -> 0 <= norm_idx n i <= n.
Proof. unfold norm_idx; intros; destruct (Z.ltb_spec i 0); lia. Qed.

Lemma sub_wf (a : arr) ys xs : wf_arr (asub a ys xs).
Proof. unfold wf_arr, asub, sl_len; simpl; lia. Qed.

Lemma restrict_left (a : arr) X0 Y0 L : wf_arr a -> X0 <= L ->
  forall X Y, val_at (mkPatch L Y0 (Some (asub a (sl_all (ah a)) (sl_from (L - X0) (aw a))))) X Y
    = if L <=? X then val_at (mkPatch X0 Y0 (Some a)) X Y else None.
Proof.
  intros (W1 & W2) HL X Y. unfold val_at, asub, sl_len, sl_start, sl_all, sl_from, norm_idx; simpl.
  replace (L - X0 <? 0) with false by lia. replace (ah a <? 0) with false by lia.
  replace (aw a <? 0) with false by lia.
  destruct (Z.leb_spec L X); simpl; [|auto].
  match goal with |- (if ?c then _ else _) = (if ?d then _ else _) => replace c with d by lia; destruct d eqn:E end; auto.
  f_equal. f_equal; lia.
Qed.

Lemma restrict_right (a : arr) X0 Y0 R : wf_arr a -> X0 <= R ->
  forall X Y, val_at (mkPatch X0 Y0 (Some (asub a (sl_all (ah a)) (sl_to (R - X0))))) X Y
    = if X <? R then val_at (mkPatch X0 Y0 (Some a)) X Y else None.
Proof.
  intros (W1 & W2) HL X Y. unfold val_at, asub, sl_len, sl_start, sl_all, sl_to, norm_idx; simpl.
  replace (R - X0 <? 0) with false by lia. replace (ah a <? 0) with false by lia.
  simpl. 
  destruct (Z.ltb_spec X R).
  - match goal with |- (if ?c then _ else _) = (if ?d then _ else _) => replace c with d by lia; destruct d eqn:E end; auto.
    f_equal. f_equal; lia.
  - match goal with |- (if ?c then _ else _) = _ => replace c with false by lia end; auto.
Qed.

Lemma restrict_top (a : arr) X0 Y0 L : wf_arr a -> Y0 <= L ->
  forall X Y, val_at (mkPatch X0 L (Some (asub a (sl_from (L - Y0) (ah a)) (sl_all (aw a))))) X Y
    = if L <=? Y then val_at (mkPatch X0 Y0 (Some a)) X Y else None.
Proof.
  intros (W1 & W2) HL X Y. unfold val_at, asub, sl_len, sl_start, sl_all, sl_from, norm_idx; simpl.
  replace (L - Y0 <? 0) with false by lia. replace (ah a <? 0) with false by lia.
  replace (aw a <? 0) with false by lia. simpl.
  destruct (Z.leb_spec L Y).
  - match goal with |- (if ?c then _ else _) = (if ?d then _ else _) => replace c with d by lia; destruct d eqn:E end; auto.
    f_equal. f_equal; lia.
  - match goal with |- (if ?c then _ else _) = _ => replace c with false by lia end; auto.
Qed.

Lemma restrict_bottom (a : arr) X0 Y0 R : wf_arr a -> Y0 <= R ->
  forall X Y, val_at (mkPatch X0 Y0 (Some (asub a (sl_to (R - Y0)) (sl_all (aw a))))) X Y
    = if Y <? R then val_at (mkPatch X0 Y0 (Some a)) X Y else None.
Proof.
  intros (W1 & W2) HL X Y. unfold val_at, asub, sl_len, sl_start, sl_all, sl_to, norm_idx; simpl.
  replace (R - Y0 <? 0) with false by lia. replace (aw a <? 0) with false by lia. simpl.
  destruct (Z.ltb_spec Y R).
  - match goal with |- (if ?c then _ else _) = (if ?d then _ else _) => replace c with d by lia; destruct d eqn:E end; auto.
    f_equal. f_equal; lia.
  - match goal with |- (if ?c then _ else _) = _ => replace c with false by lia end; auto.
Qed.

Lemma val_at_out (a : arr) X0 Y0 X Y :
  (X < X0 \/ X0 + aw a <= X \/ Y < Y0 \/ Y0 + ah a <= Y) ->
  val_at (mkPatch X0 Y0 (Some a)) X Y = None.
Proof. intros. unfold val_at; simpl.
  match goal with |- (if ?c then _ else _) = _ => replace c with false by lia end; auto. Qed.

(** The common body of clipTo and clipToRoi. *)
Lemma clip_body (a : arr) X0 Y0 L R T B : wf_arr a -> X0 < R -> Y0 < B -> L <= R -> T <= B ->
  let '(a1, X) := if X0 <? L then (asub a (sl_all (ah a)) (sl_from (L - X0) (aw a)), L) else (a, X0) in
  let '(a2, Y) := if Y0 <? T then (asub a1 (sl_from (T - Y0) (ah a1)) (sl_all (aw a1)), T) else (a1, Y0) in
  let a3 := if X + aw a2 >? R then asub a2 (sl_all (ah a2)) (sl_to (R - X)) else a2 in
  let a4 := if Y + ah a2 >? B then asub a3 (sl_to (B - Y)) (sl_all (aw a3)) else a3 in
  (forall x y, val_at (mkPatch X Y (Some a4)) x y =
     if in_box L R T B x y then val_at (mkPatch X0 Y0 (Some a)) x y else None) /\
  X = Z.max X0 L /\ Y = Z.max Y0 T /\ wf_arr a4 /\
  aw a4 = Z.max 0 (Z.min (X0 + aw a) R - X) /\ ah a4 = Z.max 0 (Z.min (Y0 + ah a) B - Y).
Proof.
  intros W HX HY HLR HTB.
  set (r1 := if X0 <? L then (asub a (sl_all (ah a)) (sl_from (L - X0) (aw a)), L) else (a, X0)).
  assert (E1 : exists a1 X, r1 = (a1, X) /\ X = Z.max X0 L /\ wf_arr a1 /\ ah a1 = ah a /\
     aw a1 = Z.max 0 (X0 + aw a - X) /\
     forall x y, val_at (mkPatch X Y0 (Some a1)) x y =
       if L <=? x then val_at (mkPatch X0 Y0 (Some a)) x y else None).
  { unfold r1. destruct (Z.ltb_spec X0 L).
    - do 2 eexists; split; [reflexivity|]. split; [lia|]. split; [apply sub_wf|].
      destruct W. unfold asub, sl_len, sl_start, sl_all, sl_from, norm_idx; simpl.
      split; [zb|]. split; [zb|]. apply restrict_left; [split; auto|lia].
    - do 2 eexists; split; [reflexivity|]. split; [lia|]. split; auto. split; auto.
      destruct W. split; [lia|]. intros.
      destruct (Z.leb_spec L x); auto. apply val_at_out; lia. }
  destruct E1 as (a1 & X & -> & HX1 & W1 & A1 & A2 & V1).
  set (r2 := if Y0 <? T then (asub a1 (sl_from (T - Y0) (ah a1)) (sl_all (aw a1)), T) else (a1, Y0)).
  assert (E2 : exists a2 Y, r2 = (a2, Y) /\ Y = Z.max Y0 T /\ wf_arr a2 /\ aw a2 = aw a1 /\
     ah a2 = Z.max 0 (Y0 + ah a1 - Y) /\
     forall x y, val_at (mkPatch X Y (Some a2)) x y =
       if T <=? y then val_at (mkPatch X Y0 (Some a1)) x y else None).
  { unfold r2. destruct (Z.ltb_spec Y0 T).
    - do 2 eexists; split; [reflexivity|]. split; [lia|]. split; [apply sub_wf|].
      destruct W1. unfold asub, sl_len, sl_start, sl_all, sl_from, norm_idx; simpl.
      split; [zb|]. split; [zb|]. apply restrict_top; [split; auto|lia].
    - do 2 eexists; split; [reflexivity|]. split; [lia|]. split; auto. split; auto.
      destruct W1. split; [lia|]. intros.
      destruct (Z.leb_spec T y); auto. apply val_at_out; lia. }
  destruct E2 as (a2 & Y & -> & HY1 & W2 & B1 & B2 & V2).
  cbv zeta. set (a3 := if X + aw a2 >? R then asub a2 (sl_all (ah a2)) (sl_to (R - X)) else a2).
  assert (E3 : wf_arr a3 /\ ah a3 = ah a2 /\ aw a3 = Z.min (aw a2) (R - X) /\
     forall x y, val_at (mkPatch X Y (Some a3)) x y =
       if x <? R then val_at (mkPatch X Y (Some a2)) x y else None).
  { unfold a3. destruct (Z.gtb_spec (X + aw a2) R).
    - split; [apply sub_wf|].
      destruct W2. unfold asub, sl_len, sl_start, sl_all, sl_to, norm_idx; simpl.
      split; [zb|]. split; [zb|]. apply restrict_right; [split; auto|lia].
    - split; auto. split; auto. split; [lia|]. intros.
      destruct (Z.ltb_spec x R); auto. apply val_at_out; lia. }
  destruct E3 as (W3 & C1 & C2 & V3).
  set (a4 := if Y + ah a2 >? B then asub a3 (sl_to (B - Y)) (sl_all (aw a3)) else a3).
  assert (E4 : wf_arr a4 /\ aw a4 = aw a3 /\ ah a4 = Z.min (ah a3) (B - Y) /\
     forall x y, val_at (mkPatch X Y (Some a4)) x y =
       if y <? B then val_at (mkPatch X Y (Some a3)) x y else None).
  { unfold a4. rewrite <- C1. destruct (Z.gtb_spec (Y + ah a3) B).
    - split; [apply sub_wf|].
      destruct W3. unfold asub, sl_len, sl_start, sl_all, sl_to, norm_idx; simpl.
      split; [zb|]. split; [zb|]. apply restrict_bottom; [split; auto|lia].
    - split; auto. split; auto. split; [lia|]. intros.
      destruct (Z.ltb_spec y B); auto. apply val_at_out; lia. }
  destruct E4 as (W4 & D1 & D2 & V4). clearbody a4. clearbody a3.
  destruct W as (Wa & Wb). destruct W1, W2, W3.
  split; [|split; [auto|split; [auto|split; [auto|split; lia]]]].
  intros x y. rewrite V4, V3, V2, V1. unfold in_box.
  destruct (L <=? x), (x <? R), (T <=? y), (y <? B); auto.
Qed.

Lemma clip_to_spec (p : patch) W H : wf_patch p -> 0 <= W -> 0 <= H ->
  exists p' b, clip_to p W H = Ok (p', b) /\ wf_patch p' /\
    (forall X Y, val_at p' X Y = if in_box 0 W 0 H X Y then val_at p X Y else None) /\
    (b = false -> pimg p' = None) /\
    (b = true -> exists a, pimg p' = Some a /\ 0 <= x0 p' /\ 0 <= y0 p' /\ x0 p' + aw a <= W /\ y0 p' + ah a <= H).
Proof.
  unfold clip_to, wf_patch. intros WF HW HH.
  destruct p as [X0 Y0 [a|]]; simpl in *.
  2:{ do 2 eexists; split; [reflexivity|]. simpl. repeat split; auto; try discriminate.
      intros. unfold val_at; simpl. destruct (in_box _ _ _ _ _ _); auto. }
  assert (OUT : (X0 >= W \/ Y0 >= H) -> forall X Y,
     val_at (mkPatch X0 Y0 None) X Y = if in_box 0 W 0 H X Y then val_at (mkPatch X0 Y0 (Some a)) X Y else None).
  { intros HO X Y. unfold in_box.
    match goal with |- _ = if ?c then _ else _ => destruct c eqn:E end; auto.
    rewrite val_at_out; auto. lia. }
  destruct (Z.geb_spec X0 W).
  { do 2 eexists; split; [reflexivity|]. simpl. split; auto. split; [apply OUT; lia|]. split; auto; discriminate. }
  destruct (Z.geb_spec Y0 H).
  { do 2 eexists; split; [reflexivity|]. simpl. split; auto. split; [apply OUT; lia|]. split; auto; discriminate. }
  pose proof (clip_body a X0 Y0 0 W 0 H WF ltac:(lia) ltac:(lia) ltac:(lia) ltac:(lia)) as CB.
  rewrite !Z.sub_0_l in CB.
  destruct (if X0 <? 0 then _ else _) as [a1 X].
  destruct (if Y0 <? 0 then _ else _) as [a2 Y].
  cbv zeta in CB |- *.
  destruct CB as (VV & HX & HY & W4 & HW4 & HH4).
  set (a4 := if Y + ah a2 >? H then _ else _) in *.
  destruct WF.
  match goal with |- context [if ?c then Ok _ else _] => replace c with true by lia end.
  do 2 eexists; split; [reflexivity|]. simpl. split; auto. split; auto. split; [discriminate|].
  intros _. exists a4. split; auto. lia.
Qed.

Lemma clip_roi_spec (p : patch) L R T B : wf_patch p -> L <= R -> T <= B ->
  let '(p', b) := clip_to_roi p L R T B in
    wf_patch p' /\
    (forall X Y, val_at p' X Y = if in_box L R T B X Y then val_at p X Y else None) /\
    (b = true -> exists a, pimg p' = Some a /\ L <= x0 p' /\ T <= y0 p' /\ x0 p' + aw a <= R /\ y0 p' + ah a <= B) /\
    (b = false -> pimg p' = None).
Proof.
  unfold clip_to_roi, wf_patch. intros WF HW HH.
  destruct p as [X0 Y0 [a|]]; simpl in *.
  2:{ simpl. repeat split; auto; try discriminate.
      intros. unfold val_at; simpl. destruct (in_box _ _ _ _ _ _); auto. }
  match goal with |- context [if ?c then (mkPatch _ _ None, false) else _] => destruct c eqn:E end.
  { simpl. split; auto. split; [|split; auto; discriminate].
    intros X Y. unfold in_box.
    match goal with |- _ = if ?c then _ else _ => destruct c eqn:E' end; auto.
    rewrite val_at_out; auto. lia. }
  pose proof (clip_body a X0 Y0 L R T B WF ltac:(lia) ltac:(lia) ltac:(lia) ltac:(lia)) as CB.
  destruct (if X0 <? L then _ else _) as [a1 X].
  destruct (if Y0 <? T then _ else _) as [a2 Y].
  cbv zeta in CB |- *.
  destruct CB as (VV & HX & HY & W4 & HW4 & HH4). simpl.
  set (a4 := if Y + ah a2 >? B then _ else _) in *.
  destruct WF. split; auto. split; auto. split; [|discriminate].
  intros _. exists a4. split; auto. lia.
Qed.

Lemma clip_roi_true (p : patch) L R T B : wf_patch p -> L <= R -> T <= B ->
  (snd (clip_to_roi p L R T B) = true <->
    (exists a, pimg p = Some a /\ x0 p < R /\ L < x0 p + aw a /\ y0 p < B /\ T < y0 p + ah a)).
Proof.
  unfold clip_to_roi, wf_patch. intros WF HW HH.
  destruct p as [X0 Y0 [a|]]; simpl in *.
  2:{ split; [discriminate|]. intros (a & E & _); discriminate. }
  match goal with |- context [if ?c then (mkPatch _ _ None, false) else _] => destruct c eqn:E end.
  - simpl. split; [discriminate|]. intros (b & Eb & Hb). injection Eb; intros; subst. lia.
  - destruct (if X0 <? L then _ else _) as [a1 X].
    destruct (if Y0 <? T then _ else _) as [a2 Y]. simpl.
    split; auto. intros _. exists a; split; auto. lia.
Qed.

(** ** Overlapping regions *)
Lemma gor_some xlo xhi xmin xmax o i :
  get_overlapping_region xlo xhi xmin xmax = Some (o, i) ->
  xlo <= xmax /\ xmin <= xhi /\ xlo <= xhi /\ xmin <= xmax /\
  sstart o = Z.max xlo xmin /\ sstop o = Z.min xhi xmax + 1 /\
  sstart i = Z.max xlo xmin - xlo /\ sstop i = Z.min xhi xmax - xlo + 1.
Proof.
  unfold get_overlapping_region.
  match goal with |- (if ?c then _ else _) = _ -> _ => destruct c eqn:E end; try discriminate.
  intros F; injection F; intros; subst; simpl. lia.
Qed.

Lemma gor_none xlo xhi xmin xmax :
  get_overlapping_region xlo xhi xmin xmax = None ->
  forall x, ~ (xlo <= x <= xhi /\ xmin <= x <= xmax).
Proof.
  unfold get_overlapping_region.
  match goal with |- (if ?c then _ else _) = _ -> _ => destruct c eqn:E end; try discriminate.
  intros _ x. lia.
Qed.

(** ** addTo *)
Lemma add_to_spec add mul (p : patch) (img : arr) scale : wf_patch p -> wf_arr img ->
  exists img', add_to add mul p img scale = Ok img' /\
    ah img' = ah img /\ aw img' = aw img /\
    forall Y X, 0 <= Y < ah img -> 0 <= X < aw img ->
      px img' Y X = match val_at p X Y with
                    | Some v => add (px img Y X) (mul v scale)
                    | None => px img Y X
                    end.
Proof.
  unfold add_to, wf_patch. intros WF WI. destruct p as [X0 Y0 [a|]]; simpl in *.
  2:{ exists img; repeat split; auto. }
  destruct WF as (Wa & Wb), WI as (Wc & Wd).
  destruct (get_overlapping_region X0 (X0 + aw a - 1) 0 (aw img - 1)) as [[outx inx]|] eqn:EX.
  2:{ exists img; repeat split; auto. intros Y X HY HX. rewrite val_at_out; auto.
      pose proof (gor_none _ _ _ _ EX X). lia. }
  destruct (get_overlapping_region Y0 (Y0 + ah a - 1) 0 (ah img - 1)) as [[outy iny]|] eqn:EY.
  2:{ exists img; repeat split; auto. intros Y X HY HX. rewrite val_at_out; auto.
      pose proof (gor_none _ _ _ _ EY Y). lia. }
  apply gor_some in EX. apply gor_some in EY.
  destruct EX as (X1 & X2 & X3 & X4 & OX1 & OX2 & IX1 & IX2).
  destruct EY as (Y1 & Y2 & Y3 & Y4 & OY1 & OY2 & IY1 & IY2).
  unfold aupd, asub, sl_len, sl_start; simpl.
  assert (N : forall n i, 0 <= i <= n -> norm_idx n i = i) by (intros; unfold norm_idx; zb).
  rewrite !N by lia.
  match goal with |- context [if ?c then Ok _ else _] => replace c with true by lia end.
  eexists; split; [reflexivity|]. simpl. split; auto. split; auto.
  intros Y X HY HX. unfold val_at; simpl.
  match goal with |- (if ?c then _ else _) = match (if ?d then _ else _) with _ => _ end =>
    replace c with d by lia; destruct d eqn:E end; auto.
  f_equal. f_equal. f_equal; lia.
Qed.

(** ** getSlices *)
Lemma get_slices_spec (p : patch) ih iw : wf_patch p -> 0 <= ih -> 0 <= iw ->
  let '(iny, inx, (outy, outx)) := get_slices p ih iw in
  let '(ph, pw) := pshape p in
  sl_len ph iny = sl_len ih outy /\ sl_len pw inx = sl_len iw outx /\
  (forall i, 0 <= i < sl_len ph iny -> y0 p + (sl_start ph iny + i) = sl_start ih outy + i) /\
  (forall j, 0 <= j < sl_len pw inx -> x0 p + (sl_start pw inx + j) = sl_start iw outx + j) /\
  (forall X Y, in_box 0 iw 0 ih X Y = true ->
     in_box (x0 p) (x0 p + pw) (y0 p) (y0 p + ph) X Y = true ->
     0 <= Y - sl_start ih outy < sl_len ih outy /\ 0 <= X - sl_start iw outx < sl_len iw outx).
Proof.
  unfold get_slices. intros WF HH HW.
  assert (0 <= fst (pshape p) /\ 0 <= snd (pshape p)).
  { unfold pshape, wf_patch in *. destruct (pimg p); simpl; [destruct WF; auto|lia]. }
  destruct (pshape p) as [ph pw]; simpl in *.
  assert (N : forall n i, 0 <= i <= n -> norm_idx n i = i) by (intros; unfold norm_idx; zb).
  assert (Z0 : forall n, 0 <= n -> sl_len n (mkSl 0 0) = 0).
  { intros; unfold sl_len; simpl. rewrite N by lia. lia. }
  destruct (get_overlapping_region (x0 p) (x0 p + pw - 1) 0 (iw - 1)) as [[outx inx]|] eqn:EX.
  2:{ rewrite !Z0 by lia. split; auto. split; auto. split; [lia|]. split; [lia|].
      intros X Y HA HB. pose proof (gor_none _ _ _ _ EX X); unfold in_box in *; lia. }
  destruct (get_overlapping_region (y0 p) (y0 p + ph - 1) 0 (ih - 1)) as [[outy iny]|] eqn:EY.
  2:{ rewrite !Z0 by lia. split; auto. split; auto. split; [lia|]. split; [lia|].
      intros X Y HA HB. pose proof (gor_none _ _ _ _ EY Y); unfold in_box in *; lia. }
  apply gor_some in EX. apply gor_some in EY.
  unfold sl_len, sl_start, in_box. rewrite !N by lia.
  repeat split; intros; lia.
Qed.

(** getSlice with a parent. *)
Lemma get_slice_spec (p : patch) H W a : pimg p = Some a -> wf_arr a -> 0 <= H -> 0 <= W ->
  exists ys xs, get_slice_in p H W = Some (ys, xs) /\
    forall X Y, in_box 0 W 0 H X Y = true ->
      ((0 <= Y - sl_start H ys < sl_len H ys /\ 0 <= X - sl_start W xs < sl_len W xs) <->
        in_box (x0 p) (x0 p + aw a) (y0 p) (y0 p + ah a) X Y = true).
Proof.
  unfold get_slice_in. intros -> (Wa & Wb) HH HW. do 2 eexists; split; [reflexivity|].
  intros X Y. unfold in_box, sl_len, sl_start, np_clip; simpl.
  assert (N : forall n i, 0 <= i <= n -> norm_idx n i = i) by (intros; unfold norm_idx; zb).
  rewrite !N by lia. intros HI. split; intros; lia.
Qed.

(** ** performArithmetic *)
Lemma perform_spec zero f (p q : patch) a b : pimg p = Some a -> pimg q = Some b -> wf_arr a -> wf_arr b ->
  exists r c, perform_arithmetic zero f p q = Ok r /\ pimg r = Some c /\
    x0 r = Z.min (x0 p) (x0 q) /\ y0 r = Z.min (y0 p) (y0 q) /\
    x0 r + aw c = Z.max (x0 p + aw a) (x0 q + aw b) /\
    y0 r + ah c = Z.max (y0 p + ah a) (y0 q + ah b) /\
    forall X Y, val_at r X Y =
      if in_box (x0 r) (x0 r + aw c) (y0 r) (y0 r + ah c) X Y then
        Some (match val_at p X Y, val_at q X Y with
              | Some u, Some v => f u v
              | Some u, None => u
              | None, Some v => f zero v
              | None, None => zero
              end)
      else None.
Proof.
  unfold perform_arithmetic, pshape. intros Hp Hq (Wa & Wb) (Wc & Wd).
  destruct p as [PX PY pp], q as [QX QY qq]; simpl in *. subst pp qq; simpl.
  destruct ((PX =? QX) && (PY =? QY) && (ah a =? ah b) && (aw a =? aw b)) eqn:E.
  - do 2 eexists; split; [reflexivity|]. simpl. split; [reflexivity|]. simpl.
    assert (PX = QX /\ PY = QY /\ ah a = ah b /\ aw a = aw b) as (-> & -> & Eh & Ew) by lia.
    repeat (split; [lia|]).
    intros X Y. unfold in_box, val_at; simpl. rewrite <- Eh, <- Ew.
    match goal with |- (if ?c then _ else _) = _ => destruct c end; auto.
  - unfold aupd at 1, sl_len, sl_start; simpl.
    assert (N : forall n i, 0 <= i <= n -> norm_idx n i = i) by (intros; unfold norm_idx; zb).
    rewrite !N by lia.
    match goal with |- context [if ?c then Ok _ else _] => replace c with true by lia end. simpl.
    unfold aupd, sl_len, sl_start; simpl. rewrite !N by lia.
    match goal with |- context [if ?c then Ok _ else _] => replace c with true by lia end. simpl.
    do 2 eexists; split; [reflexivity|]. simpl. split; [reflexivity|]. simpl.
    repeat (split; [lia|]).
    intros X Y. unfold in_box, val_at; simpl.
    match goal with |- (if ?c then _ else _) = (if ?d then _ else _) =>
      replace c with d by lia; destruct d eqn:Ed end; auto. f_equal.
    repeat match goal with |- context [if ?c then _ else _] =>
      lazymatch c with context [if _ then _ else _] => fail | _ => destruct c eqn:? end end;
    try lia; try reflexivity; repeat (f_equal; try lia).
Qed.

(** ** trimToNonZero *)
Lemma first_loop_spec z n x : (1 <= n)%nat ->
  let r := first_loop z n x in
  (x <= r < x + n)%nat /\ (forall i, (x <= i < r)%nat -> z i = true) /\
  (z r = false \/ r = x + n - 1)%nat.
Proof.
  revert x; induction n as [|n IH]; intros x Hn; [lia|]. cbv zeta. simpl.
  destruct n as [|n].
  - repeat split; try lia.
  - destruct (z x) eqn:Ez; simpl negb; cbv iota.
    + destruct (IH (S x) ltac:(lia)) as (A & B & C).
      split; [lia|]. split.
      * intros i Hi. destruct (Nat.eq_dec i x); [subst; auto|]. apply B; lia.
      * destruct C; auto. right; lia.
    + repeat split; try lia; auto.
Qed.

Lemma last_loop_spec z lo x : (1 <= x)%nat -> (lo < x)%nat ->
  let r := last_loop z lo x in
  (1 <= r <= x)%nat /\ (lo <= r)%nat /\ (forall i, (r <= i < x)%nat -> z i = true) /\
  (z (r - 1)%nat = false \/ (r <= lo)%nat \/ (r = 1)%nat).
Proof.
  assert (G : forall x, (1 <= x)%nat -> (lo <= x)%nat -> let r := last_loop z lo x in
    (1 <= r <= x)%nat /\ (lo <= r)%nat /\ (forall i, (r <= i < x)%nat -> z i = true) /\
    (z (r - 1)%nat = false \/ (r <= lo)%nat \/ (r = 1)%nat)).
  { clear x. induction x as [|x IH]; intros H1 H2; [lia|]. cbv zeta. simpl.
    destruct (z x) eqn:Ez; simpl negb; cbv iota.
    - assert (S x - 1 = x)%nat by lia.
      destruct lo as [|lo'].
      + destruct x as [|x'].
        * repeat split; try lia.
        * destruct (IH ltac:(lia) ltac:(lia)) as (A & B & C & D).
          split; [lia|]. split; [lia|]. split; auto.
          intros i Hi. destruct (Nat.eq_dec i (S x')); [subst; auto|]. apply C; lia.
      + destruct (Nat.leb_spec x lo').
        * repeat split; try lia.
        * destruct x as [|x']; [lia|].
          destruct (IH ltac:(lia) ltac:(lia)) as (A & B & C & D).
          split; [lia|]. split; [lia|]. split; auto.
          intros i Hi. destruct (Nat.eq_dec i (S x')); [subst; auto|]. apply C; lia.
    - split; [lia|]. split; [lia|]. split; [lia|]. left. replace (S x - 1)%nat with x by lia. auto. }
  intros; apply G; lia.
Qed.

Lemma col_zero_true isz (a : arr) x : col_zero isz a x = true <->
  forall y, 0 <= y < ah a -> isz (px a y (Z.of_nat x)) = true.
Proof.
  unfold col_zero. rewrite forallb_forall. split; intros H y Hy.
  - specialize (H (Z.to_nat y)). rewrite Z2Nat.id in H by lia. apply H. apply in_seq. lia.
  - apply H. apply in_seq in Hy. lia.
Qed.
Lemma row_zero_true isz (a : arr) y : row_zero isz a y = true <->
  forall x, 0 <= x < aw a -> isz (px a (Z.of_nat y) x) = true.
Proof.
  unfold row_zero. rewrite forallb_forall. split; intros H x Hx.
  - specialize (H (Z.to_nat x)). rewrite Z2Nat.id in H by lia. apply H. apply in_seq. lia.
  - apply H. apply in_seq in Hx. lia.
Qed.
Lemma forallb_false {A} (f : A -> bool) l : forallb f l = false -> exists x, In x l /\ f x = false.
Proof. induction l as [|y l IH]; simpl; [discriminate|].
  destruct (f y) eqn:E; simpl; [|eauto]. intros H; destruct (IH H) as (z & ? & ?); eauto. Qed.
Lemma col_zero_false isz (a : arr) x : col_zero isz a x = false ->
  exists y, 0 <= y < ah a /\ isz (px a y (Z.of_nat x)) = false.
Proof. intros H. apply forallb_false in H. destruct H as (y & Hy & E).
  apply in_seq in Hy. exists (Z.of_nat y); split; auto; lia. Qed.
Lemma row_zero_false isz (a : arr) y : row_zero isz a y = false ->
  exists x, 0 <= x < aw a /\ isz (px a (Z.of_nat y) x) = false.
Proof. intros H. apply forallb_false in H. destruct H as (x & Hx & E).
  apply in_seq in Hx. exists (Z.of_nat x); split; auto; lia. Qed.

(** The columns (rows) kept by the two loops. *)
Lemma loops_spec z W : (1 <= W)%nat ->
  let c0 := first_loop z W 0 in let c1 := last_loop z c0 W in
  (c0 < W)%nat /\ (c0 <= c1 <= W)%nat /\ (1 <= c1)%nat /\
  (forall i, (i < W)%nat -> z i = false -> (c0 <= i < c1)%nat) /\
  ((exists i, (i < W)%nat /\ z i = false) -> z c0 = false /\ z (c1 - 1)%nat = false /\ (c0 < c1)%nat) /\
  ((forall i, (i < W)%nat -> z i = true) -> (W = 1 /\ c0 = 0 /\ c1 = 1)%nat \/ (1 < W /\ c0 = c1)%nat).
Proof.
  intros HW. cbv zeta.
  destruct (first_loop_spec z W 0 HW) as (A & B & C). set (c0 := first_loop z W 0) in *.
  destruct (last_loop_spec z c0 W HW ltac:(lia)) as (D & E & F & G).
  assert (K : forall i, (i < W)%nat -> z i = false -> (c0 <= i < last_loop z c0 W)%nat).
  { intros i Hi Hz. split.
    - destruct (Nat.le_gt_cases c0 i); auto. rewrite B in Hz by lia. discriminate.
    - destruct (Nat.le_gt_cases (last_loop z c0 W) i); auto. rewrite F in Hz by lia. discriminate. }
  split; [lia|]. split; [lia|]. split; [lia|]. split; [exact K|]. split.
  - intros (i & Hi & Hz). pose proof (K i Hi Hz) as HK.
    assert (Z0 : z c0 = false). { destruct C as [C|C]; auto. assert (i = c0) by lia. subst; auto. }
    split; auto. split; [|lia].
    destruct G as [G|[G|G]]; auto; [lia|]. rewrite G in *. assert (c0 = 0)%nat by lia.
    simpl. rewrite <- H. auto.
  - intros AZ. assert (c0 = W - 1)%nat.
    { destruct C as [C|C]; [rewrite AZ in C by lia; discriminate|lia]. }
    destruct (Nat.eq_dec W 1); [left; lia|right]. split; [lia|].
    destruct G as [G|[G|G]]; [rewrite AZ in G by lia; discriminate|lia|lia].
Qed.

Lemma trim_val isz (p : patch) : wf_patch p ->
  (forall X Y v, val_at (trim isz p) X Y = Some v -> val_at p X Y = Some v) /\
  (forall X Y v, val_at p X Y = Some v -> isz v = false -> val_at (trim isz p) X Y = Some v) /\
  ((exists X Y v, val_at p X Y = Some v /\ isz v = false) ->
    exists a, pimg (trim isz p) = Some a /\ wf_arr a /\
    let q := trim isz p in
    (exists Y v, val_at q (x0 q) Y = Some v /\ isz v = false) /\
    (exists Y v, val_at q (x0 q + aw a - 1) Y = Some v /\ isz v = false) /\
    (exists X v, val_at q X (y0 q) = Some v /\ isz v = false) /\
    (exists X v, val_at q X (y0 q + ah a - 1) = Some v /\ isz v = false)) /\
  ((forall X Y v, val_at p X Y = Some v -> isz v = true) ->
    pimg (trim isz p) = None \/
    (trim isz p = p /\ exists a, pimg p = Some a /\ (ah a = 0 \/ aw a = 0 \/ ah a = 1 /\ aw a = 1))).
Proof.
  unfold wf_patch. destruct p as [X0 Y0 [a|]]; unfold trim; simpl; intros WF.
  2:{ split; auto. split; auto. split; auto. intros (X & Y & v & E & _). discriminate E. }
  destruct WF as (Wh & Ww).
  destruct ((aw a =? 0) || (ah a =? 0)) eqn:E0.
  { split; auto. split; auto. split.
    - intros (X & Y & v & E & _). rewrite val_at_out in E; [discriminate|lia].
    - intros _. right. split; auto. exists a. split; auto. lia. }
  pose proof (loops_spec (col_zero isz a) (Z.to_nat (aw a)) ltac:(lia)) as LC. cbv zeta in LC.
  pose proof (loops_spec (row_zero isz a) (Z.to_nat (ah a)) ltac:(lia)) as LR. cbv zeta in LR.
  set (c0 := first_loop (col_zero isz a) (Z.to_nat (aw a)) 0) in *.
  set (c1 := last_loop (col_zero isz a) c0 (Z.to_nat (aw a))) in *.
  set (r0 := first_loop (row_zero isz a) (Z.to_nat (ah a)) 0) in *.
  set (r1 := last_loop (row_zero isz a) r0 (Z.to_nat (ah a))) in *.
  destruct LC as (C1 & C2 & C3 & C4 & C5 & C6). destruct LR as (R1 & R2 & R3 & R4 & R5 & R6).
  clearbody c0 c1 r0 r1.
  assert (N : forall n i, 0 <= i <= n -> norm_idx n i = i) by (intros; unfold norm_idx; zb).
  match goal with |- (forall X Y v, val_at ?t X Y = _ -> _) /\ _ => set (q := t) end.
  assert (VQ : forall X Y, val_at q X Y =
     if in_box (X0 + Z.of_nat c0) (X0 + Z.of_nat c1) (Y0 + Z.of_nat r0) (Y0 + Z.of_nat r1) X Y
     then val_at (mkPatch X0 Y0 (Some a)) X Y else None).
  { intros X Y. unfold q.
    match goal with |- context [if ?c then mkPatch _ _ _ else _] => destruct c eqn:E1 end.
    - unfold in_box. match goal with |- _ = if ?c then _ else _ => destruct c eqn:E2 end; auto.
      apply val_at_out; lia.
    - unfold asub, sl_len, sl_start; simpl. rewrite !N by lia.
      match goal with |- context [if ?c then None else _] => destruct c eqn:E3 end.
      + unfold val_at at 1; simpl. unfold in_box.
        match goal with |- _ = if ?c then _ else _ => destruct c eqn:E2 end; auto. lia.
      + unfold in_box, val_at; simpl.
        match goal with |- (if ?c then _ else _) = (if ?d then _ else _) =>
          replace c with d by lia; destruct d eqn:E4 end; auto.
        match goal with |- _ = (if ?d then _ else _) => replace d with true by lia end.
        f_equal. f_equal; lia. }
  assert (NZ : forall X Y v, val_at (mkPatch X0 Y0 (Some a)) X Y = Some v -> isz v = false ->
     in_box (X0 + Z.of_nat c0) (X0 + Z.of_nat c1) (Y0 + Z.of_nat r0) (Y0 + Z.of_nat r1) X Y = true /\
     col_zero isz a (Z.to_nat (X - X0)) = false /\ row_zero isz a (Z.to_nat (Y - Y0)) = false /\
     0 <= X - X0 < aw a /\ 0 <= Y - Y0 < ah a).
  { intros X Y v E Hz. unfold val_at in E; simpl in E.
    match type of E with (if ?c then _ else _) = _ => destruct c eqn:EE; [|discriminate] end.
    injection E; intros <-.
    assert (CZ : col_zero isz a (Z.to_nat (X - X0)) = false).
    { destruct (col_zero isz a (Z.to_nat (X - X0))) eqn:Q; auto.
      rewrite col_zero_true in Q. rewrite Z2Nat.id in Q by lia. rewrite Q in Hz; [discriminate|lia]. }
    assert (RZ : row_zero isz a (Z.to_nat (Y - Y0)) = false).
    { destruct (row_zero isz a (Z.to_nat (Y - Y0))) eqn:Q; auto.
      rewrite row_zero_true in Q. rewrite Z2Nat.id in Q by lia. rewrite Q in Hz; [discriminate|lia]. }
    pose proof (C4 (Z.to_nat (X - X0)) ltac:(lia) CZ). pose proof (R4 (Z.to_nat (Y - Y0)) ltac:(lia) RZ).
    unfold in_box. split; [lia|]. split; auto. split; auto. lia. }
  split; [|split; [|split]].
  - intros X Y v. rewrite VQ. destruct (in_box _ _ _ _ X Y); auto; discriminate.
  - intros X Y v E Hz. rewrite VQ. destruct (NZ X Y v E Hz) as (-> & _). auto.
  - intros (X & Y & v & E & Hz). destruct (NZ X Y v E Hz) as (IB & CZ & RZ & HX & HY).
    destruct (C5 ltac:(exists (Z.to_nat (X - X0)); split; [lia|auto])) as (Ca & Cb & Cc).
    destruct (R5 ltac:(exists (Z.to_nat (Y - Y0)); split; [lia|auto])) as (Ra & Rb & Rc).
    assert (Q : exists b, pimg q = Some b /\ x0 q = X0 + Z.of_nat c0 /\ y0 q = Y0 + Z.of_nat r0 /\
       aw b = Z.of_nat c1 - Z.of_nat c0 /\ ah b = Z.of_nat r1 - Z.of_nat r0).
    { unfold q. match goal with |- context [if ?c then mkPatch _ _ _ else _] => destruct c eqn:E1 end.
      - exists a. simpl. split; auto. lia.
      - unfold asub, sl_len, sl_start; simpl. rewrite !N by lia.
        match goal with |- context [if ?c then None else _] => replace c with false by lia end.
        eexists; split; [reflexivity|]. simpl. lia. }
    destruct Q as (b & Qb & Qx & Qy & Qw & Qh).
    exists b. split; auto. split; [split; lia|]. cbv zeta. rewrite Qx, Qy, Qw, Qh.
    apply col_zero_false in Ca, Cb. apply row_zero_false in Ra, Rb.
    assert (K : forall x y, 0 <= x < aw a -> 0 <= y < ah a -> isz (px a y x) = false ->
       val_at q (X0 + x) (Y0 + y) = Some (px a y x)).
    { intros x y Hx Hy Hzz. rewrite VQ.
      assert (VV : val_at (mkPatch X0 Y0 (Some a)) (X0 + x) (Y0 + y) = Some (px a y x)).
      { unfold val_at; simpl.
        match goal with |- (if ?c then _ else _) = _ => replace c with true by lia end.
        f_equal; f_equal; lia. }
      destruct (NZ _ _ _ VV Hzz) as (-> & _). auto. }
    destruct Ca as (y1 & Hy1 & Hz1), Cb as (y2 & Hy2 & Hz2), Ra as (x1 & Hx1 & Hz3), Rb as (x2 & Hx2 & Hz4).
    clear C4 C5 C6 R4 R5 R6 NZ VQ IB CZ RZ E Hz E0.
    split; [|split; [|split]].
    + exists (Y0 + y1), (px a y1 (Z.of_nat c0)). split; auto. apply K; [clear K; lia|clear K; lia|assumption].
    + exists (Y0 + y2), (px a y2 (Z.of_nat (c1 - 1))). split; auto.
      replace (_ + _ - 1) with (X0 + Z.of_nat (c1 - 1)) by lia. apply K; [clear K; lia|clear K; lia|assumption].
    + exists (X0 + x1), (px a (Z.of_nat r0) x1). split; auto. apply K; [clear K; lia|clear K; lia|assumption].
    + exists (X0 + x2), (px a (Z.of_nat (r1 - 1)) x2). split; auto.
      replace (_ + _ - 1) with (Y0 + Z.of_nat (r1 - 1)) by lia. apply K; [clear K; lia|clear K; lia|assumption].
  - intros AZ.
    assert (AP : forall x y, 0 <= x < aw a -> 0 <= y < ah a -> isz (px a y x) = true).
    { intros x y Hx Hy. apply (AZ (X0 + x) (Y0 + y)). unfold val_at; simpl.
      match goal with |- (if ?c then _ else _) = _ => replace c with true by lia end.
      f_equal; f_equal; lia. }
    assert (CA : forall i, (i < Z.to_nat (aw a))%nat -> col_zero isz a i = true).
    { intros i Hi. apply col_zero_true. intros; apply AP; lia. }
    assert (RA : forall i, (i < Z.to_nat (ah a))%nat -> row_zero isz a i = true).
    { intros i Hi. apply row_zero_true. intros; apply AP; lia. }
    specialize (C6 CA). specialize (R6 RA). unfold q.
    match goal with |- context [if ?c then mkPatch _ _ _ else _] => destruct c eqn:E1 end.
    + right. split; auto. exists a. split; auto. lia.
    + left. unfold asub, sl_len, sl_start; simpl. rewrite !N by lia.
      match goal with |- (if ?c then None else _) = _ => replace c with true by lia end. auto.
Qed.

(** ** Bounding boxes *)
Lemma overlaps_bbox_iff (p : patch) bx0 bx1 by0 by1 a : pimg p = Some a ->
  0 < aw a -> 0 < ah a -> bx0 < bx1 -> by0 < by1 ->
  (overlaps_bbox p (bx0, bx1, by0, by1) = true <->
   exists X Y, in_box (x0 p) (x0 p + aw a) (y0 p) (y0 p + ah a) X Y = true /\
               in_box bx0 bx1 by0 by1 X Y = true).
Proof.
  intros E Hw Hh Hx Hy. unfold overlaps_bbox, get_extent, pshape. rewrite E. unfold in_box. split.
  - intros H. exists (Z.max (x0 p) bx0), (Z.max (y0 p) by0). lia.
  - intros (X & Y & A & B). lia.
Qed.

Lemma nonzero_overlap_reduces add mul zero gt0 (p q : patch) a b :
  pimg p = Some a -> pimg q = Some b ->
  0 < aw a -> 0 < ah a -> 0 < aw b -> 0 < ah b ->
  let lx := Z.max (x0 q) (x0 p) in let hx := Z.min (x0 q + aw b) (x0 p + aw a) in
  let ly := Z.max (y0 q) (y0 p) in let hy := Z.min (y0 q + ah b) (y0 p + ah a) in
  has_nonzero_overlap add mul zero gt0 p q =
    if (lx <? hx) && (ly <? hy) then
      Ok (gt0 (sum_upto add zero (fun y => sum_upto add zero (fun x =>
             mul (px a (Z.of_nat y + (ly - y0 p)) (Z.of_nat x + (lx - x0 p)))
                 (px b (Z.of_nat y + (ly - y0 q)) (Z.of_nat x + (lx - x0 q))))
           (Z.to_nat (hx - lx))) (Z.to_nat (hy - ly))))
    else Ok false.
Proof.
  intros Ea Eb Hw Hh Hw' Hh'. cbv zeta. unfold has_nonzero_overlap, has_bbox_overlap, overlaps_bbox.
  unfold get_extent, pshape. rewrite Ea, Eb.
  match goal with |- (if ?c then _ else _) = (if ?d then _ else _) =>
    replace c with (negb d) by lia; destruct d eqn:Ed; simpl; auto end.
  assert (N : forall n i, 0 <= i <= n -> norm_idx n i = i) by (intros; unfold norm_idx; zb).
  destruct (get_overlapping_region (x0 q) (x0 q + aw b - 1) (x0 p) (x0 p + aw a - 1)) as [[ix ox]|] eqn:EX.
  2:{ pose proof (gor_none _ _ _ _ EX (Z.max (x0 q) (x0 p))). lia. }
  destruct (get_overlapping_region (y0 q) (y0 q + ah b - 1) (y0 p) (y0 p + ah a - 1)) as [[iy oy]|] eqn:EY.
  2:{ pose proof (gor_none _ _ _ _ EY (Z.max (y0 q) (y0 p))). lia. }
  apply gor_some in EX. apply gor_some in EY.
  destruct EX as (X1 & X2 & X3 & X4 & OX1 & OX2 & IX1 & IX2).
  destruct EY as (Y1 & Y2 & Y3 & Y4 & OY1 & OY2 & IY1 & IY2).
  unfold same_shape, asub, sl_len, sl_start; simpl. rewrite OX1, OX2, IX1, IX2, OY1, OY2, IY1, IY2.
  rewrite !N by lia.
  match goal with |- (if ?c then _ else _) = _ => replace c with true by lia end.
  unfold arr_sum; simpl. do 2 f_equal.
  replace (Z.to_nat (Z.max 0 (Z.min (y0 q + ah b - 1) (y0 p + ah a - 1) + 1 - y0 p - (Z.max (y0 q) (y0 p) - y0 p))))
    with (Z.to_nat (Z.min (y0 q + ah b) (y0 p + ah a) - Z.max (y0 q) (y0 p))) by lia.
  replace (Z.to_nat (Z.max 0 (Z.min (x0 q + aw b - 1) (x0 p + aw a - 1) + 1 - x0 p - (Z.max (x0 q) (x0 p) - x0 p))))
    with (Z.to_nat (Z.min (x0 q + aw b) (x0 p + aw a) - Z.max (x0 q) (x0 p))) by lia.
  reflexivity.
Qed.
End Proofs.

(** ** Pixel indices *)
Lemma wrap32_id z : -2147483648 <= z < 2147483648 -> wrap32 z = z.
Proof. intros. unfold wrap32. rewrite Z.mod_small; lia. Qed.

Lemma nth_flat_map {A B} (f : A -> list B) w : forall l, (forall x, In x l -> length (f x) = w) ->
  forall i j x, nth_error l i = Some x -> (j < w)%nat ->
  nth_error (flat_map f l) (i * w + j) = nth_error (f x) j.
Proof.
  induction l as [|x l IH]; intros HL i j y Hi Hj; [destruct i; discriminate|].
  destruct i as [|i]; simpl in *.
  - injection Hi; intros ->. rewrite nth_error_app1; auto. rewrite HL by auto. lia.
  - rewrite nth_error_app2 by (rewrite HL by auto; lia).
    rewrite HL by auto. replace (w + i * w + j - w)%nat with (i * w + j)%nat by lia.
    apply IH; auto.
Qed.

Lemma flat_map_len {A B} (f : A -> list B) w l : (forall x, In x l -> length (f x) = w) ->
  length (flat_map f l) = (length l * w)%nat.
Proof. induction l as [|x l IH]; simpl; intros; auto. rewrite app_length, H, IH; auto; intros; apply H; auto. Qed.

Lemma nth_seq n i : (i < n)%nat -> nth_error (seq 0 n) i = Some i.
Proof. intros. rewrite (nth_error_nth' _ 0%nat) by (rewrite seq_length; auto). rewrite seq_nth; auto. Qed.

Lemma pixel_indices_nth {V} (p : patch V) a H W :
  pimg p = Some a -> 0 <= x0 p -> 0 <= y0 p -> x0 p + aw a <= W -> y0 p + ah a <= H ->
  0 <= aw a -> 0 <= ah a -> H * W < 2147483648 ->
  length (get_pixel_indices p W) = Z.to_nat (ah a * aw a) /\
  forall i j, 0 <= i < ah a -> 0 <= j < aw a ->
    nth_error (get_pixel_indices p W) (Z.to_nat (i * aw a + j)) =
      Some ((y0 p + i) * W + (x0 p + j)).
Proof.
  intros E Hx Hy HW HH Hw Hh HB. unfold get_pixel_indices. rewrite E. split.
  - rewrite flat_map_len with (w := Z.to_nat (aw a)) by (intros; rewrite map_length, seq_length; auto).
    rewrite seq_length. nia.
  - intros i j Hi Hj.
    replace (Z.to_nat (i * aw a + j)) with (Z.to_nat i * Z.to_nat (aw a) + Z.to_nat j)%nat by nia.
    erewrite nth_flat_map; [| intros; rewrite map_length, seq_length; auto | apply nth_seq; lia | lia].
    rewrite (map_nth_error _ _ _ (nth_seq (Z.to_nat (aw a)) (Z.to_nat j) ltac:(lia))).
    f_equal. rewrite !Z2Nat.id by lia.
    assert (0 <= (y0 p + i) * W /\ (y0 p + i + 1) * W <= H * W) by nia.
    assert (W < 2147483648) by nia. assert (H < 2147483648) by nia.
    rewrite (wrap32_id (x0 p)), (wrap32_id (y0 p)), (wrap32_id W) by nia.
    rewrite (wrap32_id (j + x0 p)), (wrap32_id (i + y0 p)) by lia.
    rewrite (wrap32_id ((i + y0 p) * W)) by nia. rewrite wrap32_id by nia. nia.
Qed.
