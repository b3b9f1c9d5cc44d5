(** C68: the GPU optimizer's padded frames. *)
From Coq Require Import List ZArith Bool Lia Ring.
From Verif Require Import Base PatchModel Corr7Model Corr7Props PsfModel PsfProps GpuModel.
Import ListNotations.
Open Scope Z_scope.

(** ** Slices that lie inside *)
Section Slices.
Context {V : Type}.
Notation arr := (@arr V).
Lemma sl_in n a b : 0 <= a <= b -> b <= n -> sl_start n (mkSl a b) = a /\ sl_len n (mkSl a b) = b - a.
Proof. intros H1 H2. unfold sl_start, sl_len, norm_idx. cbn [sstart sstop]. zb; lia. Qed.
Lemma asub_in (a : arr) y0 y1 x0 x1 : 0 <= y0 <= y1 -> y1 <= ah a -> 0 <= x0 <= x1 -> x1 <= aw a ->
  ah (asub a (mkSl y0 y1) (mkSl x0 x1)) = y1 - y0 /\ aw (asub a (mkSl y0 y1) (mkSl x0 x1)) = x1 - x0 /\
  forall y x, px (asub a (mkSl y0 y1) (mkSl x0 x1)) y x = px a (y + y0) (x + x0).
Proof.
  intros A B C D. destruct (sl_in (ah a) y0 y1 A B) as [S1 L1]. destruct (sl_in (aw a) x0 x1 C D) as [S2 L2].
  unfold asub. cbn [ah aw px]. rewrite L1, L2. split; [reflexivity|]. split; [reflexivity|]. intros y x. rewrite S1, S2. reflexivity.
Qed.
Lemma aupd_in f (a b : arr) y0 y1 x0 x1 : 0 <= y0 <= y1 -> y1 <= ah a -> 0 <= x0 <= x1 -> x1 <= aw a ->
  ah b = y1 - y0 -> aw b = x1 - x0 ->
  exists r, aupd f a (mkSl y0 y1) (mkSl x0 x1) b = Ok r /\ ah r = ah a /\ aw r = aw a /\
    forall y x, px r y x = if (y0 <=? y) && (y <? y1) && (x0 <=? x) && (x <? x1) then f (px a y x) (px b (y - y0) (x - x0)) else px a y x.
Proof.
  intros A B C D E1 E2. destruct (sl_in (ah a) y0 y1 A B) as [S1 L1]. destruct (sl_in (aw a) x0 x1 C D) as [S2 L2].
  unfold aupd. rewrite L1, L2, E1, E2, !Z.eqb_refl. cbn [andb]. eexists. split; [reflexivity|]. cbn [ah aw px].
  split; [reflexivity|]. split; [reflexivity|]. intros y x. rewrite S1, S2. zb; reflexivity.
Qed.
End Slices.

Section Props.
Context {V D : Type} (zero one : V) (add mul sub : V -> V -> V) (opp : V -> V).
Hypothesis rt : ring_theory zero one add mul sub opp (@eq V).
Add Ring RR : rt.
Variable pos : V -> bool.
Variable filt : D -> list V.
Notation arr := (@arr V).
Notation target := (@target V).
Notation frame := (@frame V).
Notation cell := (@cell V).
Notation plane := (plane zero).
Notation vsum := (vsum zero add).
Notation total := (total zero add).
Notation setup := (setup zero pos).
Notation setup_one := (setup_one zero pos).

(** *** Specification *)
Definition in_ext (e : extent) (Y X : Z) : Prop := e_y0 e <= Y < e_y1 e /\ e_x0 e <= X < e_x1 e.
(** The mask lies in the image, the PSF has pixels. *)
Definition fits (g : target) : Prop :=
  let e := g_ext g in let t := g_tim g in
  0 <= e_x0 e <= e_x1 e /\ e_x1 e <= aw (t_pix t) /\ 0 <= e_y0 e <= e_y1 e /\ e_y1 e <= ah (t_pix t) /\
  ah (t_ie t) = ah (t_pix t) /\ aw (t_ie t) = aw (t_pix t) /\ 1 <= ah (t_psf t) /\ 1 <= aw (t_psf t).
(** [fr] is a frame of W x W pixels for [g]: image pixel (Y, X) is at frame
    pixel (Y - ipy + W/2, X - ipx + W/2). *)
Definition framed (W : Z) (g : target) (fr : frame) : Prop :=
  let e := g_ext g in let t := g_tim g in
  ah (f_pix fr) = W /\ aw (f_pix fr) = W /\ ah (f_ie fr) = W /\ aw (f_ie fr) = W /\ ah (f_psf fr) = W /\ aw (f_psf fr) = W /\
  f_ipx fr = g_ipx g /\ f_ipy fr = g_ipy g /\
  (forall Y X, in_ext e Y X -> let y := Y - g_ipy g + W / 2 in let x := X - g_ipx g + W / 2 in
     0 <= y < W /\ 0 <= x < W /\ px (f_pix fr) y x = px (t_pix t) Y X /\ px (f_ie fr) y x = px (t_ie t) Y X) /\
  (forall y x, 0 <= y < W -> 0 <= x < W -> ~ in_ext e (y + g_ipy g - W / 2) (x + g_ipx g - W / 2) ->
     px (f_pix fr) y x = zero /\ px (f_ie fr) y x = zero) /\
  (forall y x, 0 <= y < W -> 0 <= x < W ->
     px (f_psf fr) y x = plane (t_psf t) (y - W / 2 + ah (t_psf t) / 2) (x - W / 2 + aw (t_psf t) / 2)) /\
  (* moving by d is refused exactly if a pixel with weight would leave *)
  (forall d, off d (f_mindx fr) (f_maxdx fr) = false ->
     forall Y X, in_ext e Y X -> pos (px (t_ie t) Y X) = true -> 0 <= X - (g_ipx g + d) + W / 2 < W) /\
  (forall d, off d (f_mindy fr) (f_maxdy fr) = false ->
     forall Y X, in_ext e Y X -> pos (px (t_ie t) Y X) = true -> 0 <= Y - (g_ipy g + d) + W / 2 < W) /\
  (forall d, off d (f_mindx fr) (f_maxdx fr) = true -> Z.abs d <= W ->
     exists Y X, in_ext e Y X /\ pos (px (t_ie t) Y X) = true /\ ~ 0 <= X - (g_ipx g + d) + W / 2 < W) /\
  (forall d, off d (f_mindy fr) (f_maxdy fr) = true -> Z.abs d <= W ->
     exists Y X, in_ext e Y X /\ pos (px (t_ie t) Y X) = true /\ ~ 0 <= Y - (g_ipy g + d) + W / 2 < W).

(** *** The range of shifts *)
Lemma last_def (b d : Z) r : last (b :: r) d = last r b.
Proof. destruct r as [|x r] using rev_ind; [reflexivity|]. rewrite app_comm_cons, !last_last. reflexivity. Qed.
Lemma last_mem (a : Z) l : In (last l a) (a :: l).
Proof. destruct l as [|x l] using rev_ind; [left; reflexivity|]. rewrite last_last. right. apply in_or_app. right. left. reflexivity. Qed.
Lemma sorted_last (h : Z -> bool) n : forall i l a, filter h (map Z.of_nat (seq i n)) = a :: l ->
  (forall x, In x (a :: l) -> a <= x <= last l a).
Proof.
  induction n as [|n IH]; intros i l a E; [discriminate|]. cbn [seq map filter] in E.
  destruct (h (Z.of_nat i)) eqn:Eh.
  - injection E as <- <-. destruct (filter h (map Z.of_nat (seq (S i) n))) as [|b r] eqn:Er.
    + cbn. intros x [<-|[]]; lia.
    + assert (LB : Z.of_nat i < b).
      { assert (I1 : In b (filter h (map Z.of_nat (seq (S i) n)))) by (rewrite Er; left; auto).
        apply filter_In in I1. destruct I1 as [I1 _]. apply (proj1 (in_map_iff _ _ _)) in I1. destruct I1 as (k & <- & Hk). apply in_seq in Hk. lia. }
      assert (EL : last (b :: r) (Z.of_nat i) = last r b) by apply last_def.
      pose proof (IH _ _ _ Er) as Q. rewrite EL. intros x [<-|Hx]; [specialize (Q b (or_introl eq_refl)); lia|].
      specialize (Q x Hx). lia.
  - apply (IH _ _ _ E).
Qed.
Lemma range_spec W h d : 0 < W -> let '(mn, mx) := range W h in
  (off d mn mx = false -> forall x, 0 <= x < W -> h x = true -> 0 <= x - d < W) /\
  (off d mn mx = true -> Z.abs d <= W -> exists x, 0 <= x < W /\ h x = true /\ ~ 0 <= x - d < W).
Proof.
  intros HW. unfold range. destruct (filter h (map Z.of_nat (seq 0 (Z.to_nat W)))) as [|a l] eqn:E.
  - split.
    + intros _ x Hx Hh. exfalso. assert (I1 : In x (filter h (map Z.of_nat (seq 0 (Z.to_nat W))))).
      { apply filter_In. split; auto. apply in_map_iff. exists (Z.to_nat x). split; [lia|]. apply in_seq. lia. }
      rewrite E in I1. destruct I1.
    + unfold off. intros O A. exfalso. revert O. zb; discriminate.
  - pose proof (sorted_last h _ _ _ _ E) as SL.
    assert (MEM : forall x, In x (a :: l) <-> (0 <= x < W /\ h x = true)).
    { intros x. rewrite <- E. rewrite filter_In. split; intros [A B]; split; auto.
      - apply (proj1 (in_map_iff _ _ _)) in A. destruct A as (k & <- & Hk). apply in_seq in Hk. lia.
      - apply in_map_iff. exists (Z.to_nat x). split; [lia|]. apply in_seq. lia. }
    assert (IL : In (last l a) (a :: l)).
    { apply last_mem. }
    pose proof (proj1 (MEM _) IL) as [L1 L2]. pose proof (proj1 (MEM a) (or_introl eq_refl)) as [A1 A2].
    split.
    + unfold off. intros O x Hx Hh. specialize (SL x (proj2 (MEM x) (conj Hx Hh))). revert O. zb; cbn; intros; try discriminate; lia.
    + unfold off. intros O AB. destruct (Z.ltb_spec 0 d).
      * exists a. split; auto. split; auto. revert O. zb; cbn; intros; try discriminate; lia.
      * exists (last l a). split; auto. split; auto. revert O. zb; cbn; intros; try discriminate; lia.
Qed.
(** *** Frames *)
Definition roomy (W : Z) (g : target) : Prop := forall Y X, in_ext (g_ext g) Y X ->
  6 <= Y - g_ipy g + W / 2 <= W - 7 /\ 6 <= X - g_ipx g + W / 2 <= W - 7.
Lemma size_spec hs : 1 <= hs -> exists c, frame_size hs = 2 * c /\ frame_size hs / 2 = c /\ hs <= c.
Proof.
  intros H. unfold frame_size. pose proof (Z.log2_up_spec (2 * hs) ltac:(lia)) as [_ B].
  pose proof (Z.log2_up_pos (2 * hs) ltac:(lia)) as P.
  exists (2 ^ (Z.log2_up (2 * hs) - 1)). assert (E : 2 ^ Z.log2_up (2 * hs) = 2 * 2 ^ (Z.log2_up (2 * hs) - 1)).
  { rewrite <- Z.pow_succ_r by lia. f_equal. lia. }
  split; [exact E|]. split; [rewrite E, Z.mul_comm; apply Z.div_mul; lia|]. lia.
Qed.
Lemma halfsize_spec (gs : list target) : gs <> [] -> exists hs, halfsize gs = Ok hs /\ forall g, In g gs -> reach g + 5 <= hs.
Proof.
  destruct gs as [|g r]; [congruence|]. intros _. eexists. split; [reflexivity|].
  assert (H : forall l a, a <= fold_left Z.max l a /\ forall x, In x l -> x <= fold_left Z.max l a).
  { induction l as [|b l IH]; intros a; cbn [fold_left]; [split; [lia|intros _ []]|].
    destruct (IH (Z.max a b)) as [A B]. split; [lia|]. intros x [<-|Hx]; [lia|auto]. }
  destruct (H (map reach r) (reach g)) as [A B]. intros g' [<-|Hg]; [lia|]. specialize (B (reach g') (in_map _ _ _ Hg)). lia.
Qed.
Lemma axis_ok c n : 1 <= c -> 1 <= n -> let '(o, i, m) := psf_axis c n (2 * c) in
  0 <= o /\ 0 <= m /\ o + m <= 2 * c /\ 0 <= i /\ i + m <= n /\ o - i = c - n / 2 /\
  (forall x, 0 <= x < 2 * c -> ~ (o <= x < o + m) -> ~ (0 <= x - c + n / 2 < n)).
Proof.
  intros Hc Hn. unfold psf_axis. rewrite Z.geb_leb. assert (Q : 2 * (n / 2) <= n < 2 * (n / 2) + 2) by dlia. set (q := n / 2) in *. clearbody q.
  destruct (Z.leb_spec c q); repeat (split; [lia|]); intros x Hx N; lia.
Qed.
Lemma pad_psf_spec c (img : arr) : 1 <= c -> 1 <= ah img -> 1 <= aw img ->
  exists pad, pad_psf zero (2 * c) img = Ok pad /\ ah pad = 2 * c /\ aw pad = 2 * c /\
    forall y x, 0 <= y < 2 * c -> 0 <= x < 2 * c -> px pad y x = plane img (y - c + ah img / 2) (x - c + aw img / 2).
Proof.
  intros Hc Hh Hw. unfold pad_psf. replace (2 * c / 2) with c by dlia. cbv zeta.
  pose proof (axis_ok c (aw img) Hc Hw) as AX. pose proof (axis_ok c (ah img) Hc Hh) as AY.
  destruct (psf_axis c (aw img) (2 * c)) as [[ox ix] nx]. destruct (psf_axis c (ah img) (2 * c)) as [[oy iy] ny].
  destruct AX as (X1 & X2 & X3 & X4 & X5 & X6 & X7). destruct AY as (Y1 & Y2 & Y3 & Y4 & Y5 & Y6 & Y7).
  destruct (asub_in img iy (iy + ny) ix (ix + nx)) as (S1 & S2 & S3); try lia.
  unfold put. destruct (aupd_in (fun _ v => v) (zeros zero (2 * c) (2 * c)) (asub img (mkSl iy (iy + ny)) (mkSl ix (ix + nx)))
    oy (oy + ny) ox (ox + nx)) as (r & E & R1 & R2 & R3); cbn [zeros ah aw]; try lia.
  exists r. split; [exact E|]. split; [exact R1|]. split; [exact R2|]. intros y x Hy Hx. rewrite R3.
  destruct ((oy <=? y) && (y <? oy + ny) && (ox <=? x) && (x <? ox + nx)) eqn:EB.
  - rewrite !andb_true_iff, !Z.leb_le, !Z.ltb_lt in EB. rewrite S3, plane_in by lia. f_equal; lia.
  - symmetry. cbn [zeros px]. apply plane_out. intros [A B].
    assert (CY : oy <= y < oy + ny) by (destruct (Z_le_dec oy y), (Z_lt_dec y (oy + ny)); auto; exfalso; apply (Y7 y Hy); auto; lia).
    assert (CX : ox <= x < ox + nx) by (destruct (Z_le_dec ox x), (Z_lt_dec x (ox + nx)); auto; exfalso; apply (X7 x Hx); auto; lia).
    revert EB. zb. discriminate.
Qed.
Lemma col_hot_spec (a : arr) x : col_hot pos a x = true <-> exists y, 0 <= y < ah a /\ pos (px a y x) = true.
Proof.
  unfold col_hot. rewrite existsb_exists. split.
  - intros (k & Hk & E). apply in_seq in Hk. exists (Z.of_nat k). split; [lia|auto].
  - intros (y & Hy & E). exists (Z.to_nat y). split; [apply in_seq; lia|]. rewrite Z2Nat.id by lia. auto.
Qed.
Lemma row_hot_spec (a : arr) y : row_hot pos a y = true <-> exists x, 0 <= x < aw a /\ pos (px a y x) = true.
Proof.
  unfold row_hot. rewrite existsb_exists. split.
  - intros (k & Hk & E). apply in_seq in Hk. exists (Z.of_nat k). split; [lia|auto].
  - intros (x & Hx & E). exists (Z.to_nat x). split; [apply in_seq; lia|]. rewrite Z2Nat.id by lia. auto.
Qed.
Lemma setup_one_spec c (g : target) : pos zero = false -> fits g -> reach g + 5 <= c -> exists fr, setup_one (2 * c) g = Ok fr /\ framed (2 * c) g fr /\ roomy (2 * c) g.
Proof.
  intros PZ (F1 & F2 & F3 & F4 & F5 & F6 & F7 & F8) RC. unfold setup_one. cbv zeta.
  assert (RE : forall e, e = g_ext g -> 1 + g_ipx g - e_x0 e <= reach g /\ 1 + e_x1 e - g_ipx g <= reach g /\
    1 + g_ipy g - e_y0 e <= reach g /\ 1 + e_y1 e - g_ipy g <= reach g) by (intros e ->; unfold reach; lia).
  specialize (RE _ eq_refl). set (e := g_ext g) in *. set (t := g_tim g) in *.
  assert (HC : 1 <= c) by lia. replace (2 * c / 2) with c by dlia.
  destruct (pad_psf_spec c (t_psf t) HC F7 F8) as (psf & EP & P1 & P2 & P3). rewrite EP. cbn [bind].
  set (dx := c - g_ipx g) in *. set (dy := c - g_ipy g) in *.
  assert (PUT : forall a : arr, ah a = ah (t_pix t) -> aw a = aw (t_pix t) ->
    exists r, put (zeros zero (2 * c) (2 * c)) (mkSl (e_y0 e + dy) (e_y1 e + dy)) (mkSl (e_x0 e + dx) (e_x1 e + dx))
      (asub a (mkSl (e_y0 e) (e_y1 e)) (mkSl (e_x0 e) (e_x1 e))) = Ok r /\ ah r = 2 * c /\ aw r = 2 * c /\
      (forall Y X, in_ext e Y X -> px r (Y + dy) (X + dx) = px a Y X) /\
      (forall y x, ~ in_ext e (y - dy) (x - dx) -> px r y x = zero)).
  { intros a A1 A2. destruct (asub_in a (e_y0 e) (e_y1 e) (e_x0 e) (e_x1 e)) as (S1 & S2 & S3); try lia.
    destruct (aupd_in (fun _ v => v) (zeros zero (2 * c) (2 * c)) (asub a (mkSl (e_y0 e) (e_y1 e)) (mkSl (e_x0 e) (e_x1 e)))
      (e_y0 e + dy) (e_y1 e + dy) (e_x0 e + dx) (e_x1 e + dx)) as (r & E & R1 & R2 & R3); cbn [zeros ah aw]; try lia.
    exists r. split; [exact E|]. split; [exact R1|]. split; [exact R2|]. split.
    - intros Y X [HY HX]. rewrite R3. zb. cbn [andb]. rewrite S3. f_equal; lia.
    - intros y x N. rewrite R3. destruct (_ && _) eqn:EB; [|reflexivity]. exfalso. apply N.
      rewrite !andb_true_iff, !Z.leb_le, !Z.ltb_lt in EB. split; lia. }
  destruct (PUT (t_pix t) eq_refl eq_refl) as (pix & E1 & A1 & A2 & A3 & A4).
  destruct (PUT (t_ie t) F5 F6) as (ie & E2 & B1 & B2 & B3 & B4).
  rewrite E1. cbn [bind]. rewrite E2. cbn [bind].
  assert (HCOL : forall x, 0 <= x < 2 * c -> (col_hot pos ie x = true <-> exists Y, in_ext e Y (x - dx) /\ pos (px (t_ie t) Y (x - dx)) = true)).
  { intros x Hx. rewrite col_hot_spec. split.
    - intros (y & Hy & Q). assert (DD : in_ext e (y - dy) (x - dx) \/ ~ in_ext e (y - dy) (x - dx)) by (unfold in_ext; lia).
      destruct DD as [D'|D']; [|rewrite B4 in Q by auto; congruence]. exists (y - dy). split; auto.
      rewrite <- B3 by auto. replace (y - dy + dy) with y by lia. replace (x - dx + dx) with x by lia. auto.
    - intros (Y & IE & Q). exists (Y + dy). rewrite B1. split; [unfold in_ext in IE; lia|].
      specialize (B3 _ _ IE). replace (x - dx + dx) with x in B3 by lia. rewrite B3. auto. }
  assert (HROW : forall y, 0 <= y < 2 * c -> (row_hot pos ie y = true <-> exists X, in_ext e (y - dy) X /\ pos (px (t_ie t) (y - dy) X) = true)).
  { intros y Hy. rewrite row_hot_spec. split.
    - intros (x & Hx & Q). assert (DD : in_ext e (y - dy) (x - dx) \/ ~ in_ext e (y - dy) (x - dx)) by (unfold in_ext; lia).
      destruct DD as [D'|D']; [|rewrite B4 in Q by auto; congruence]. exists (x - dx). split; auto.
      rewrite <- B3 by auto. replace (y - dy + dy) with y by lia. replace (x - dx + dx) with x by lia. auto.
    - intros (X & IE & Q). exists (X + dx). rewrite B2. split; [unfold in_ext in IE; lia|].
      specialize (B3 _ _ IE). replace (y - dy + dy) with y in B3 by lia. rewrite B3. auto. }
  pose proof (fun d => range_spec (2 * c) (col_hot pos ie) d ltac:(lia)) as RX.
  pose proof (fun d => range_spec (2 * c) (row_hot pos ie) d ltac:(lia)) as RY.
  destruct (range (2 * c) (col_hot pos ie)) as [mnx mxx]. destruct (range (2 * c) (row_hot pos ie)) as [mny mxy].
  eexists. split; [reflexivity|]. split.
  - unfold framed. fold e t. cbn [f_pix f_ie f_psf f_ipx f_ipy f_mindx f_maxdx f_mindy f_maxdy]. replace (2 * c / 2) with c by dlia.
    do 8 (split; [first [assumption|reflexivity]|]). split; [|split; [|split; [|split; [|split; [|split]]]]].
    + intros Y X IE. specialize (A3 _ _ IE). specialize (B3 _ _ IE). cbv zeta.
      replace (Y - g_ipy g + c) with (Y + dy) by lia. replace (X - g_ipx g + c) with (X + dx) by lia.
      unfold in_ext in IE. split; [lia|]. split; [lia|]. split; assumption.
    + intros y x _ _ N. replace (y + g_ipy g - c) with (y - dy) in N by lia. replace (x + g_ipx g - c) with (x - dx) in N by lia. split; auto.
    + exact P3.
    + intros d O Y X IE Q. destruct (RX d) as [R _]. specialize (R O (X + dx)). unfold in_ext in IE.
      assert (HX : 0 <= X + dx < 2 * c) by lia. specialize (R HX). rewrite (HCOL _ HX) in R.
      replace (X + dx - dx) with X in R by lia. specialize (R (ex_intro _ Y (conj IE Q))). lia.
    + intros d O Y X IE Q. destruct (RY d) as [R _]. specialize (R O (Y + dy)). unfold in_ext in IE.
      assert (HY : 0 <= Y + dy < 2 * c) by lia. specialize (R HY). rewrite (HROW _ HY) in R.
      replace (Y + dy - dy) with Y in R by lia. specialize (R (ex_intro _ X (conj IE Q))). lia.
    + intros d O AB. destruct (RX d) as [_ R]. destruct (R O AB) as (x & Hx & Hh & N). apply (HCOL x Hx) in Hh.
      destruct Hh as (Y & IE & Q). exists Y, (x - dx). split; auto. split; auto. lia.
    + intros d O AB. destruct (RY d) as [_ R]. destruct (R O AB) as (y & Hy & Hh & N). apply (HROW y Hy) in Hh.
      destruct Hh as (X & IE & Q). exists (y - dy), X. split; auto. split; auto. lia.
  - unfold roomy. fold e. replace (2 * c / 2) with c by dlia. intros Y X [HY HX]. lia.
Qed.

(** New frames: every image gets one, all of one even size, with at least six
    pixels of room around the masks. *)
Theorem C68_frames : forall gs : list target, pos zero = false -> gs <> [] -> Forall fits gs ->
  exists W frs, setup gs = Ok (mkParams W frs) /\ W mod 2 = 0 /\ Forall2 (framed W) gs frs /\ Forall (roomy W) gs.
Proof.
  intros gs PZ NE HF. destruct (halfsize_spec gs NE) as (hs & EH & RH). unfold GpuModel.setup. rewrite EH. cbn [bind].
  assert (H1 : 1 <= hs).
  { destruct gs as [|g r]; [congruence|]. inversion_clear HF. specialize (RH g (or_introl eq_refl)).
    destruct H as (A & _ & B & _). unfold reach in RH. lia. }
  destruct (size_spec hs H1) as (c & EW & _ & Hc). rewrite EW.
  assert (M : exists frs, mapM (setup_one (2 * c)) gs = Ok frs /\ Forall2 (framed (2 * c)) gs frs /\ Forall (roomy (2 * c)) gs).
  { clear EH NE. induction gs as [|g r IH]; [exists []; split; [reflexivity|split; constructor]|].
    inversion_clear HF. destruct IH as (frs & E & F2 & FR); auto. { intros g' Hg. apply RH. right; auto. }
    pose proof (RH g (or_introl eq_refl)). destruct (setup_one_spec c g PZ H ltac:(lia)) as (fr & E1 & F1 & R1).
    exists (fr :: frs). cbn [mapM]. rewrite E1. cbn [bind]. rewrite E. split; [reflexivity|]. split; constructor; auto. }
  destruct M as (frs & E & F2 & FR). rewrite E. cbn [bind]. exists (2 * c), frs. split; [reflexivity|]. split; [rewrite Z.mul_comm; apply Z.mod_mul; lia|].
  split; auto.
Qed.
(** *** The sub-pixel shift *)
Lemma total_vsum l : total l = vsum l.
Proof.
  unfold GpuModel.total. assert (H : forall l s, fold_left add l s = add s (vsum l)).
  { clear l. induction l as [|a l IH]; intros s; cbn [fold_left]; [unfold Corr7Props.vsum; cbn; ring|].
    rewrite IH. change (vsum (a :: l)) with (add a (vsum l)). ring. }
  rewrite H. ring.
Qed.
Lemma row7_sum f W row x : 6 <= W -> 0 <= x < W -> row7 zero add mul f W row x =
  vsum (map (fun k => mul (nth k f zero) (let p := x + Z.of_nat k - 3 in if (0 <=? p) && (p <? W) then row p else zero)) (seq 0 7)).
Proof.
  intros HW Hx. unfold row7. destruct ((3 <=? x) && (x <? W - 3)) eqn:EM.
  - rewrite andb_true_iff, Z.leb_le, Z.ltb_lt in EM. rewrite total_vsum. f_equal. apply map_ext_in. intros k Hk. apply in_seq in Hk.
    cbv zeta. zb. cbn [andb]. replace (x - 3 + Z.of_nat k) with (x + Z.of_nat k - 3) by lia. ring.
  - destruct (Z.ltb_spec x 3) as [L|L].
    + rewrite total_vsum. assert (C : x = 0 \/ x = 1 \/ x = 2) by lia.
      change (Z.to_nat 3) with 3%nat.
      destruct C as [->|[->| ->]]; [change (Z.to_nat 0) with 0%nat|change (Z.to_nat 1) with 1%nat|change (Z.to_nat 2) with 2%nat];
        cbn [Nat.add Nat.sub seq map Z.of_nat Pos.of_succ_nat Pos.succ]; cbv zeta; unfold Corr7Props.vsum; cbn [fold_right]; zb; cbn [andb];
        repeat match goal with |- context [row (?a + ?b - 3)] => let v := eval compute in (a + b - 3) in change (a + b - 3) with v end; ring.
    + cbv zeta. set (j := W - 1 - x). assert (C : j = 0 \/ j = 1 \/ j = 2).
      { revert EM. unfold j. zb; cbn; intros; try discriminate; lia. }
      assert (EJ : W = x + 1 + j) by lia.
      rewrite (map_ext_in _ (fun i => mul (nth i f zero) (row (x + Z.of_nat i - 3))))
        by (intros i _; replace (W - 4 - j + Z.of_nat i) with (x + Z.of_nat i - 3) by lia; ring).
      rewrite total_vsum. clearbody j. subst W.
      assert (SP : forall n g, (n <= 7)%nat -> (forall k, (n <= k < 7)%nat -> g k = zero) -> vsum (map g (seq 0 7)) = vsum (map g (seq 0 n))).
      { intros n g Hn Z0. replace 7%nat with (n + (7 - n))%nat by lia. rewrite seq_app, map_app, Nat.add_0_l.
        rewrite (map_ext_in g (fun _ => zero) (seq n (7 - n))) by (intros k Hk; apply in_seq in Hk; apply Z0; lia).
        generalize (map g (seq 0 n)). intros l. induction l as [|a l IH]; cbn [app].
        - rewrite (vsum_zero zero one add mul sub opp rt). reflexivity.
        - change (add a (vsum (l ++ map (fun _ => zero) (seq n (7 - n)))) = add a (vsum l)). rewrite IH. reflexivity. }
      rewrite (SP (4 + Z.to_nat j)%nat) by (try lia; intros k Hk; zb; cbn [andb]; ring).
      f_equal. apply map_ext_in. intros k Hk. apply in_seq in Hk. zb. reflexivity.
Qed.
Notation conv := (conv zero add mul).
Lemma shift_spec (a : arr) fx fy : 6 <= ah a -> 6 <= aw a ->
  exists r, correlate7_2d zero add mul a fx fy = Ok r /\ ah r = ah a /\ aw r = aw a /\
    forall y x, 0 <= y < ah a -> 0 <= x < aw a -> px r y x = conv fx fy a y x.
Proof.
  intros Hh Hw. unfold correlate7_2d. destruct (Z.ltb_spec (aw a) 6); [lia|]. destruct (Z.ltb_spec (ah a) 6); [lia|]. cbn [orb].
  eexists. split; [reflexivity|]. cbn [ah aw px]. split; [reflexivity|]. split; [reflexivity|]. intros y x Hy Hx.
  rewrite row7_sum by lia. unfold PsfProps.conv. f_equal. apply map_ext_in. intros ky _. cbv zeta.
  unfold PsfProps.plane. destruct ((0 <=? y + Z.of_nat ky - 3) && (y + Z.of_nat ky - 3 <? ah a)); cbn [andb].
  - rewrite row7_sum by lia. rewrite (vsum_mul zero one add mul sub opp rt), map_map. f_equal. apply map_ext. intros kx. cbv zeta. 
    destruct ((0 <=? x + Z.of_nat kx - 3) && (x + Z.of_nat kx - 3 <? aw a)); ring.
  - rewrite (map_ext _ (fun _ => zero)) by (intros; ring). rewrite (vsum_zero zero one add mul sub opp rt). ring.
Qed.
(** The GPU's shift is the 7 x 7 correlation, zero outside the array: what the
    CPU code computes (C50_shift). *)
Theorem C68_shift : forall (a : arr) mux muy, 6 <= ah a -> 6 <= aw a ->
  exists r, unit_psf zero add mul filt a mux muy = Ok r /\ ah r = ah a /\ aw r = aw a /\
    forall y x, 0 <= y < ah a -> 0 <= x < aw a -> px r y x = conv (filt mux) (filt muy) a y x.
Proof. intros. apply shift_spec; auto. Qed.

(** *** Model patches *)
Lemma model_patch_spec W g fr (c : cell) : framed W g fr -> 0 < W -> e_x0 (g_ext g) <= e_x1 (g_ext g) -> e_y0 (g_ext g) <= e_y1 (g_ext g) ->
  ah (c_unit c) = W -> aw (c_unit c) = W ->
  exists m, model_patch zero mul W fr (g_ext g) c = Ok (mkPatch (e_x0 (g_ext g)) (e_y0 (g_ext g)) (Some m)) /\
    ah m = e_y1 (g_ext g) - e_y0 (g_ext g) /\ aw m = e_x1 (g_ext g) - e_x0 (g_ext g) /\
    forall Y X, in_ext (g_ext g) Y X -> px m (Y - e_y0 (g_ext g)) (X - e_x0 (g_ext g)) =
      mul (plane (c_unit c) (Y - c_iy c + W / 2) (X - c_ix c + W / 2)) (c_counts c).
Proof.
  intros FR HW HX HY UH UW. set (e := g_ext g) in *. unfold model_patch. cbv zeta.
  set (m := amap (fun v => mul v (c_counts c)) (c_unit c)).
  assert (MH : ah m = W) by exact UH. assert (MW : aw m = W) by exact UW.
  replace (e_x0 e - (f_ipx fr - W / 2) - (c_ix c - f_ipx fr)) with (e_x0 e - c_ix c + W / 2) by lia.
  replace (e_x1 e - (f_ipx fr - W / 2) - (c_ix c - f_ipx fr)) with (e_x1 e - c_ix c + W / 2) by lia.
  replace (e_y0 e - (f_ipy fr - W / 2) - (c_iy c - f_ipy fr)) with (e_y0 e - c_iy c + W / 2) by lia.
  replace (e_y1 e - (f_ipy fr - W / 2) - (c_iy c - f_ipy fr)) with (e_y1 e - c_iy c + W / 2) by lia.
  set (sx := W / 2 - c_ix c). set (sy := W / 2 - c_iy c).
  replace (e_x0 e - c_ix c + W / 2) with (e_x0 e + sx) by lia. replace (e_x1 e - c_ix c + W / 2) with (e_x1 e + sx) by lia.
  replace (e_y0 e - c_iy c + W / 2) with (e_y0 e + sy) by lia. replace (e_y1 e - c_iy c + W / 2) with (e_y1 e + sy) by lia.
  assert (PL : forall y x, mul (plane (c_unit c) y x) (c_counts c) = if (0 <=? y) && (y <? W) && (0 <=? x) && (x <? W) then px m y x else zero).
  { intros y x. unfold PsfProps.plane. rewrite UH, UW. destruct (_ && _); [reflexivity|ring]. }
  destruct ((e_x0 e + sx <? 0) || (e_y0 e + sy <? 0) || (e_x1 e + sx >=? W) || (e_y1 e + sy >=? W)) eqn:EB.
  - clear EB. unfold get_overlapping_region.
    assert (Z0 : (forall Y X, in_ext e Y X -> ~ (0 <= Y + sy < W /\ 0 <= X + sx < W)) ->
      exists m0, @Ok (@patch V) (mkPatch (e_x0 e) (e_y0 e) (Some (zeros zero (e_y1 e - e_y0 e) (e_x1 e - e_x0 e)))) = Ok (mkPatch (e_x0 e) (e_y0 e) (Some m0)) /\
      ah m0 = e_y1 e - e_y0 e /\ aw m0 = e_x1 e - e_x0 e /\
      forall Y X, in_ext e Y X -> px m0 (Y - e_y0 e) (X - e_x0 e) = mul (plane (c_unit c) (Y - c_iy c + W / 2) (X - c_ix c + W / 2)) (c_counts c)).
    { intros N. eexists. split; [reflexivity|]. cbn [zeros ah aw px]. split; [reflexivity|]. split; [reflexivity|].
      intros Y X IE. rewrite PL. specialize (N Y X IE). replace (Y - c_iy c + W / 2) with (Y + sy) by lia. replace (X - c_ix c + W / 2) with (X + sx) by lia.
      destruct (_ && _) eqn:EB; [|reflexivity]. exfalso. apply N. rewrite !andb_true_iff, !Z.leb_le, !Z.ltb_lt in EB. lia. }
    destruct ((e_x0 e + sx >? W - 1) || (e_x1 e + sx - 1 <? 0) || (e_x0 e + sx >? e_x1 e + sx - 1) || (0 >? W - 1)) eqn:EX.
    { apply Z0. intros Y X [IY IX] [_ C]. revert EX. zb. discriminate. }
    destruct ((e_y0 e + sy >? W - 1) || (e_y1 e + sy - 1 <? 0) || (e_y0 e + sy >? e_y1 e + sy - 1) || (0 >? W - 1)) eqn:EY.
    { apply Z0. intros Y X [IY IX] [C _]. revert EY. zb. discriminate. }
    clear Z0. rewrite !orb_false_iff, !Z.gtb_ltb, !Z.ltb_ge in EX, EY.
    set (Xlo := Z.max (e_x0 e + sx) 0). set (Xhi := Z.min (e_x1 e + sx - 1) (W - 1)).
    set (Ylo := Z.max (e_y0 e + sy) 0). set (Yhi := Z.min (e_y1 e + sy - 1) (W - 1)).
    destruct (asub_in m Ylo (Yhi + 1) Xlo (Xhi + 1)) as (S1 & S2 & S3); try (unfold Xlo, Xhi, Ylo, Yhi; lia).
    unfold put. destruct (aupd_in (fun _ v => v) (zeros zero (e_y1 e - e_y0 e) (e_x1 e - e_x0 e)) (asub m (mkSl Ylo (Yhi + 1)) (mkSl Xlo (Xhi + 1)))
      (Ylo - (e_y0 e + sy)) (Ylo - (e_y0 e + sy) + (Yhi - Ylo) + 1) (Xlo - (e_x0 e + sx)) (Xlo - (e_x0 e + sx) + (Xhi - Xlo) + 1)) as (r & E & R1 & R2 & R3);
      cbn [zeros ah aw]; try (unfold Xlo, Xhi, Ylo, Yhi; lia); try (rewrite ?S1, ?S2; lia).
    rewrite E. cbn [bind]. exists r. split; [reflexivity|]. split; [exact R1|]. split; [exact R2|].
    intros Y X [IY IX]. rewrite R3, PL. replace (Y - c_iy c + W / 2) with (Y + sy) by lia. replace (X - c_ix c + W / 2) with (X + sx) by lia.
    destruct ((0 <=? Y + sy) && (Y + sy <? W) && (0 <=? X + sx) && (X + sx <? W)) eqn:EI.
    + rewrite !andb_true_iff, !Z.leb_le, !Z.ltb_lt in EI.
      assert (I1 : Ylo <= Y + sy <= Yhi) by (unfold Ylo, Yhi; lia). assert (I2 : Xlo <= X + sx <= Xhi) by (unfold Xlo, Xhi; lia).
      clearbody Xlo Xhi Ylo Yhi. rewrite S3. zb. cbn [andb]. f_equal; lia.
    + assert (N : ~ (0 <= Y + sy < W /\ 0 <= X + sx < W)) by (intros [N1 N2]; revert EI; zb; discriminate). clear EI.
      destruct (_ && _) eqn:E2; [|reflexivity]. exfalso. rewrite !andb_true_iff, !Z.leb_le, !Z.ltb_lt in E2.
      apply N. unfold Ylo, Yhi, Xlo, Xhi in *. lia.
  - rewrite !Z.geb_leb, !orb_false_iff, !Z.ltb_ge, !Z.leb_gt in EB. 
    destruct (asub_in m (e_y0 e + sy) (e_y1 e + sy) (e_x0 e + sx) (e_x1 e + sx)) as (S1 & S2 & S3); try lia.
    eexists. split; [reflexivity|]. split; [lia|]. split; [lia|]. intros Y X [IY IX]. rewrite S3, PL.
    replace (Y - c_iy c + W / 2) with (Y + sy) by lia. replace (X - c_ix c + W / 2) with (X + sx) by lia.
    zb. cbn [andb]. f_equal; lia.
Qed.
(** The patch of a source covers its mask, and pixel (Y, X) has the counts times
    the stamp around the source's own position, whatever position the frames
    were made for; zero where the stamp ends. *)
Theorem C68_models : forall W g fr (c : cell), framed W g fr -> 0 < W ->
  e_x0 (g_ext g) <= e_x1 (g_ext g) -> e_y0 (g_ext g) <= e_y1 (g_ext g) -> ah (c_unit c) = W -> aw (c_unit c) = W ->
  exists m, model_patch zero mul W fr (g_ext g) c = Ok (mkPatch (e_x0 (g_ext g)) (e_y0 (g_ext g)) (Some m)) /\
    ah m = e_y1 (g_ext g) - e_y0 (g_ext g) /\ aw m = e_x1 (g_ext g) - e_x0 (g_ext g) /\
    forall Y X, in_ext (g_ext g) Y X -> px m (Y - e_y0 (g_ext g)) (X - e_x0 (g_ext g)) =
      mul (plane (c_unit c) (Y - c_iy c + W / 2) (X - c_ix c + W / 2)) (c_counts c).
Proof. exact model_patch_spec. Qed.
(** *** Sums over a mask *)
Definition zrange (a b : Z) : list Z := map (fun i => a + Z.of_nat i) (seq 0 (Z.to_nat (b - a))).
Definition ext_sum (e : extent) (F : Z -> Z -> V) : V :=
  vsum (map (fun Y => vsum (map (fun X => F Y X) (zrange (e_x0 e) (e_x1 e)))) (zrange (e_y0 e) (e_y1 e))).
Lemma zrange_in a b z : In z (zrange a b) <-> a <= z < b.
Proof.
  unfold zrange. rewrite in_map_iff. split.
  - intros (i & E & H). apply in_seq in H. lia.
  - intros H. exists (Z.to_nat (z - a)). rewrite in_seq. lia.
Qed.
Lemma zrange_cons a b : a < b -> zrange a b = a :: zrange (a + 1) b.
Proof.
  intros H. unfold zrange. replace (Z.to_nat (b - a)) with (S (Z.to_nat (b - (a + 1)))) by lia. cbn [seq map].
  f_equal; [lia|]. rewrite <- seq_shift, map_map. apply map_ext. intros i. lia.
Qed.
Lemma zrange_nil a b : b <= a -> zrange a b = [].
Proof. intros H. unfold zrange. replace (Z.to_nat (b - a)) with 0%nat by lia. reflexivity. Qed.
Lemma zrange_app a b c : a <= b <= c -> zrange a c = zrange a b ++ zrange b c.
Proof.
  intros H. remember (Z.to_nat (b - a)) as n eqn:E. revert a H E. induction n as [|n IH]; intros a H E.
  - replace a with b by lia. rewrite (zrange_nil b b) by lia. reflexivity.
  - rewrite (zrange_cons a c), (zrange_cons a b) by lia. cbn [app]. f_equal. apply IH; lia.
Qed.
Lemma zrange_shift a b d : zrange (a + d) (b + d) = map (fun z => z + d) (zrange a b).
Proof. unfold zrange. rewrite map_map. replace (b + d - (a + d)) with (b - a) by lia. apply map_ext. intros. lia. Qed.
Lemma vsum_app l r : vsum (l ++ r) = add (vsum l) (vsum r).
Proof.
  induction l as [|a l IH]; cbn [app]; [unfold Corr7Props.vsum at 2; cbn; ring|].
  change (add a (vsum (l ++ r)) = add (add a (vsum l)) (vsum r)). rewrite IH. ring.
Qed.
Lemma vsum_lin {A} (f g : A -> V) (l : list A) : vsum (map (fun z => add (f z) (g z)) l) = add (vsum (map f l)) (vsum (map g l)).
Proof.
  induction l as [|a l IH]; cbn [map]; [unfold Corr7Props.vsum; cbn; ring|].
  change (add (add (f a) (g a)) (vsum (map (fun z => add (f z) (g z)) l)) = add (add (f a) (vsum (map f l))) (add (g a) (vsum (map g l)))).
  rewrite IH. ring.
Qed.
Lemma vsum_nul {A} (f : A -> V) (l : list A) : (forall z, In z l -> f z = zero) -> vsum (map f l) = zero.
Proof. intros H. rewrite (map_ext_in f (fun _ => zero) l H). apply (vsum_zero zero one add mul sub opp rt). Qed.
Lemma vsum_window G n a b : 0 <= a <= b -> b <= n -> (forall z, 0 <= z < n -> ~ a <= z < b -> G z = zero) ->
  vsum (map G (zrange 0 n)) = vsum (map G (zrange a b)).
Proof.
  intros H1 H2 Z0. rewrite (zrange_app 0 a n), (zrange_app a b n) by lia. rewrite !map_app, !vsum_app.
  rewrite (vsum_nul G (zrange 0 a)) by (intros z Hz; apply zrange_in in Hz; apply Z0; lia).
  rewrite (vsum_nul G (zrange b n)) by (intros z Hz; apply zrange_in in Hz; apply Z0; lia). ring.
Qed.
Lemma asum_zrange (a : arr) : asum zero add a = vsum (map (fun y => vsum (map (fun x => px a y x) (zrange 0 (aw a)))) (zrange 0 (ah a))).
Proof.
  unfold asum. rewrite total_vsum. unfold zrange. rewrite !Z.sub_0_r, map_map. f_equal. apply map_ext. intros y.
  rewrite total_vsum, map_map. reflexivity.
Qed.
Lemma ext_sum_ext e F G : (forall Y X, in_ext e Y X -> F Y X = G Y X) -> ext_sum e F = ext_sum e G.
Proof.
  intros H. unfold ext_sum. f_equal. apply map_ext_in. intros Y HY. f_equal. apply map_ext_in. intros X HX.
  apply zrange_in in HY. apply zrange_in in HX. apply H. split; auto.
Qed.
Lemma ext_sum_lin e F G : ext_sum e (fun Y X => add (F Y X) (G Y X)) = add (ext_sum e F) (ext_sum e G).
Proof.
  unfold ext_sum. rewrite <- vsum_lin. f_equal. apply map_ext. intros Y. apply vsum_lin.
Qed.
(** A sum over a frame whose numbers vanish off the mask. *)
Lemma asum_mask W (g : target) (a : arr) : ah a = W -> aw a = W -> e_x0 (g_ext g) <= e_x1 (g_ext g) -> e_y0 (g_ext g) <= e_y1 (g_ext g) ->
  (forall Y X, in_ext (g_ext g) Y X -> 0 <= Y - g_ipy g + W / 2 < W /\ 0 <= X - g_ipx g + W / 2 < W) ->
  (forall y x, 0 <= y < W -> 0 <= x < W -> ~ in_ext (g_ext g) (y + g_ipy g - W / 2) (x + g_ipx g - W / 2) -> px a y x = zero) ->
  asum zero add a = ext_sum (g_ext g) (fun Y X => px a (Y - g_ipy g + W / 2) (X - g_ipx g + W / 2)).
Proof.
  intros AH AW HX HY IN OUT. rewrite asum_zrange, AH, AW. unfold ext_sum. set (e := g_ext g) in *.
  set (sy := W / 2 - g_ipy g). set (sx := W / 2 - g_ipx g).
  destruct (Z.eq_dec (e_x0 e) (e_x1 e)) as [EX|EX].
  { rewrite vsum_nul.
    - rewrite vsum_nul; [reflexivity|]. intros Y _. rewrite (zrange_nil (e_x0 e)) by lia. reflexivity.
    - intros y Hy. apply zrange_in in Hy. apply vsum_nul. intros x Hx. apply zrange_in in Hx. apply OUT; auto. intros [_ C]. lia. }
  destruct (Z.eq_dec (e_y0 e) (e_y1 e)) as [EY|EY].
  { rewrite (zrange_nil (e_y0 e)) by lia. apply vsum_nul. intros y Hy. apply zrange_in in Hy. apply vsum_nul. intros x Hx. apply zrange_in in Hx.
    apply OUT; auto. intros [C _]. lia. }
  destruct (IN (e_y0 e) (e_x0 e)) as [A1 A2]; [split; lia|]. destruct (IN (e_y1 e - 1) (e_x1 e - 1)) as [B1 B2]; [split; lia|].
  rewrite (vsum_window _ W (e_y0 e + sy) (e_y1 e + sy)); try lia.
  - rewrite zrange_shift, map_map. f_equal. apply map_ext_in. intros Y HY'. apply zrange_in in HY'.
    rewrite (vsum_window _ W (e_x0 e + sx) (e_x1 e + sx)); try lia.
    + rewrite zrange_shift, map_map. f_equal. apply map_ext_in. intros X HX'. f_equal; lia.
    + intros x Hx N. apply OUT; [lia|lia|]. intros [_ C]. lia.
  - intros y Hy N. apply vsum_nul. intros x Hx. apply zrange_in in Hx. apply OUT; [lia|lia|]. intros [C _]. lia.
Qed.

(** *** Chi-squares *)
Definition sb_of (c : cell) : V := match c_sb c with None => zero | Some s => s end.
(** The stamp of a cell laid on the image, zero where it ends. *)
Definition unit_at (c : cell) (Y X : Z) : V :=
  plane (c_unit c) (Y - c_iy c + ah (c_unit c) / 2) (X - c_ix c + aw (c_unit c) / 2).
Definition resid (g : target) (c : cell) (Y X : Z) : V :=
  mul (sub (px (t_pix (g_tim g)) Y X) (add (mul (c_counts c) (unit_at c Y X)) (sb_of c))) (px (t_ie (g_tim g)) Y X).
Fixpoint chisq (gs : list target) (row : list cell) : V :=
  match gs, row with
  | g :: gs, c :: row => add (ext_sum (g_ext g) (fun Y X => mul (resid g c Y X) (resid g c Y X))) (chisq gs row)
  | _, _ => zero
  end.
Lemma slices_len d n : 0 <= n -> sl_len n (fst (slices d n)) = Z.max 0 (n - Z.abs d) /\ sl_len n (snd (slices d n)) = Z.max 0 (n - Z.abs d) /\
  (Z.abs d < n -> sl_start n (fst (slices d n)) = Z.max 0 d /\ sl_start n (snd (slices d n)) = Z.max 0 (- d)).
Proof.
  intros Hn. unfold slices. destruct (Z.ltb_spec 0 d); [|destruct (Z.eqb_spec d 0)]; unfold sl_len, sl_start, norm_idx, sl_all; cbn [fst snd sstart sstop];
    repeat split; zb; lia.
Qed.
Lemma chi_spec W (g : target) (fr : frame) (c : cell) : framed W g fr -> 0 < W -> ah (c_unit c) = W -> aw (c_unit c) = W ->
  exists r, chi add mul sub W fr c = Ok r /\ ah r = W /\ aw r = W /\
    forall y x, 0 <= y < W -> 0 <= x < W -> px r y x =
      mul (sub (px (f_pix fr) y x) (add (mul (c_counts c) (plane (c_unit c) (y - (c_iy c - f_ipy fr)) (x - (c_ix c - f_ipx fr)))) (sb_of c))) (px (f_ie fr) y x).
Proof.
  intros (P1 & P2 & Q1 & Q2 & _) HW UH UW. unfold chi. cbv zeta. set (dx := c_ix c - f_ipx fr). set (dy := c_iy c - f_ipy fr).
  unfold sb_of. destruct ((dx =? 0) && (dy =? 0)) eqn:EZ.
  - apply andb_true_iff in EZ. rewrite !Z.eqb_eq in EZ. destruct EZ as [-> ->].
    destruct (c_sb c) as [s|]; eexists; (split; [reflexivity|]); cbn [amap2 amap ah aw px]; (split; [exact P1|]; split; [exact P2|]); intros y x Hy Hx;
      rewrite plane_in by lia; rewrite !Z.sub_0_r; ring.
  - clear EZ. destruct (slices dx W) as [xp xm] eqn:SX. destruct (slices dy W) as [yp ym] eqn:SY.
    destruct (slices_len dx W ltac:(lia)) as (X1 & X2 & X3). rewrite SX in X1, X2, X3. cbn [fst snd] in *.
    destruct (slices_len dy W ltac:(lia)) as (Y1 & Y2 & Y3). rewrite SY in Y1, Y2, Y3. cbn [fst snd] in *.
    set (work := match c_sb c with None => f_pix fr | Some s => amap (fun v => sub v s) (f_pix fr) end).
    assert (W1 : ah work = W) by (unfold work; destruct (c_sb c); auto). assert (W2 : aw work = W) by (unfold work; destruct (c_sb c); auto).
    unfold aupd. cbn [asub ah aw px amap]. rewrite W1, W2, UH, UW, X1, X2, Y1, Y2, !Z.eqb_refl. cbn [andb bind].
    eexists. split; [reflexivity|]. cbn [amap2 ah aw px]. split; [exact W1 || reflexivity|]. split; [exact W2 || reflexivity|].
    intros y x Hy Hx. assert (WV : px work y x = sub (px (f_pix fr) y x) (match c_sb c with None => zero | Some s => s end)).
    { unfold work. destruct (c_sb c); cbn [amap px]; ring. }
    rewrite WV. destruct (Z_lt_dec (Z.abs dx) W) as [DX|DX].
    + destruct (Z_lt_dec (Z.abs dy) W) as [DY|DY].
      * destruct (X3 DX) as [-> ->]. destruct (Y3 DY) as [-> ->].
        destruct (_ && _) eqn:EI.
        -- rewrite !andb_true_iff, !Z.leb_le, !Z.ltb_lt in EI. rewrite plane_in by lia.
           replace (y - Z.max 0 dy + Z.max 0 (- dy)) with (y - dy) by lia. replace (x - Z.max 0 dx + Z.max 0 (- dx)) with (x - dx) by lia. ring.
        -- rewrite plane_out; [ring|]. intros [C1 C2]. rewrite UH in C1. rewrite UW in C2. revert EI. zb. discriminate.
      * replace (Z.max 0 (W - Z.abs dy)) with 0 by lia. rewrite plane_out by lia. zb; cbn [andb]; try lia; ring.
    + replace (Z.max 0 (W - Z.abs dx)) with 0 by lia. rewrite plane_out by lia. zb; cbn [andb]; try lia; ring.
Qed.
Definition extok (g : target) : Prop := e_x0 (g_ext g) <= e_x1 (g_ext g) /\ e_y0 (g_ext g) <= e_y1 (g_ext g).
Definition stamped (W : Z) (c : cell) : Prop := ah (c_unit c) = W /\ aw (c_unit c) = W.
Lemma dchi_one_spec W (g : target) (fr : frame) (c0 c : cell) : framed W g fr -> extok g -> 0 < W -> stamped W c0 -> stamped W c ->
  dchi_one zero add mul sub W fr c0 c = Ok (sub (ext_sum (g_ext g) (fun Y X => mul (resid g c Y X) (resid g c Y X)))
                                 (ext_sum (g_ext g) (fun Y X => mul (resid g c0 Y X) (resid g c0 Y X)))).
Proof.
  intros FR [HX HY] HW [U0 V0] [U1 V1]. unfold dchi_one.
  destruct (chi_spec W g fr c0 FR HW U0 V0) as (r0 & E0 & A0 & B0 & P0). destruct (chi_spec W g fr c FR HW U1 V1) as (r & E1 & A1 & B1 & P1).
  rewrite E0. cbn [bind]. rewrite E1. cbn [bind]. cbv zeta. f_equal.
  destruct FR as (_ & _ & _ & _ & _ & _ & F1 & F2 & IN & OUT & _).
  assert (RES : forall (c : cell) (q : arr), ah (c_unit c) = W -> aw (c_unit c) = W ->
    (forall y x, 0 <= y < W -> 0 <= x < W -> px q y x =
      mul (sub (px (f_pix fr) y x) (add (mul (c_counts c) (plane (c_unit c) (y - (c_iy c - f_ipy fr)) (x - (c_ix c - f_ipx fr)))) (sb_of c))) (px (f_ie fr) y x)) ->
    (forall Y X, in_ext (g_ext g) Y X -> px q (Y - g_ipy g + W / 2) (X - g_ipx g + W / 2) = resid g c Y X) /\
    (forall y x, 0 <= y < W -> 0 <= x < W -> ~ in_ext (g_ext g) (y + g_ipy g - W / 2) (x + g_ipx g - W / 2) -> px q y x = zero)).
  { intros k q UH UW Q. split.
    - intros Y X IE. destruct (IN Y X IE) as (R1 & R2 & R3 & R4). rewrite Q by lia. rewrite R3, R4. unfold resid, unit_at. rewrite UH, UW, F1, F2.
      replace (Y - g_ipy g + W / 2 - (c_iy k - g_ipy g)) with (Y - c_iy k + W / 2) by lia.
      replace (X - g_ipx g + W / 2 - (c_ix k - g_ipx g)) with (X - c_ix k + W / 2) by lia. reflexivity.
    - intros y x Hy Hx N. rewrite Q by lia. destruct (OUT y x Hy Hx N) as [_ ->]. ring. }
  destruct (RES c0 r0 U0 V0 P0) as [I0 O0]. destruct (RES c r U1 V1 P1) as [I1 O1]. clear RES.
  assert (ING : forall Y X, in_ext (g_ext g) Y X -> 0 <= Y - g_ipy g + W / 2 < W /\ 0 <= X - g_ipx g + W / 2 < W).
  { intros Y X IE. destruct (IN Y X IE) as (R1 & R2 & _). auto. }
  rewrite (asum_mask W g (amap2 mul r0 (amap2 sub r r0))); auto.
  2: { intros y x Hy Hx N. cbn [amap2 px]. rewrite O0, O1 by auto. ring. }
  rewrite (asum_mask W g (amap2 mul (amap2 sub r r0) (amap2 sub r r0))); auto.
  2: { intros y x Hy Hx N. cbn [amap2 px]. rewrite O0, O1 by auto. ring. }
  assert (MV : forall a b c0, add a b = c0 -> a = sub c0 b) by (intros a b k <-; ring).
  apply MV. rewrite <- !ext_sum_lin. apply ext_sum_ext. intros Y X IE. cbn [amap2 px]. rewrite I0, I1 by auto. ring.
Qed.
(** The chi-square changes of the steps against the first one are the exact
    differences of the sums of squared residuals over the masks, each model laid
    around the position of its own step. *)
Theorem C68_chisq : forall W gs frs c0 grid, 0 < W -> Forall2 (framed W) gs frs -> Forall extok gs ->
  Forall (fun row => length row = length gs /\ Forall (stamped W) row) (c0 :: grid) ->
  dchisqs_with zero add mul sub (mkParams W frs) (c0 :: grid) =
  Ok (zero :: map (fun row => sub (chisq gs row) (chisq gs c0)) grid).
Proof.
  intros W gs frs c0 grid HW F2 HE HG. inversion_clear HG as [|? ? [L0 S0] HR]. unfold dchisqs_with. cbn [ip_size ip_frames].
  assert (ONE : forall row, length row = length gs -> Forall (stamped W) row -> forall s,
    dchi_images zero add mul sub W frs c0 row s = Ok (add s (sub (chisq gs row) (chisq gs c0)))).
  { intros row LR SR. clear HR grid. revert c0 row L0 S0 LR SR. induction F2 as [|g fr gs frs FR F2 IH]; intros c0 row L0 S0 LR SR s.
    - destruct c0; [|discriminate]. destruct row; [|discriminate]. cbn. f_equal. ring.
    - destruct c0 as [|a c0]; [discriminate|]. destruct row as [|b row]; [discriminate|]. inversion_clear HE. inversion_clear S0. inversion_clear SR.
      cbn [dchi_images]. rewrite (dchi_one_spec W g) by auto. cbn [bind]. rewrite IH; auto. f_equal. cbn [chisq]. ring. }
  assert (ALL : mapM (fun c => dchi_images zero add mul sub W frs c0 c zero) grid = Ok (map (fun row => sub (chisq gs row) (chisq gs c0)) grid)).
  { induction HR as [|row grid [LR SR] HR IH]; [reflexivity|]. cbn [mapM]. rewrite ONE by auto. cbn [bind]. rewrite IH. cbn [bind map]. do 2 f_equal. ring. }
  rewrite ALL. reflexivity.
Qed.

(** *** Which frames the steps use *)
(** Every pixel with weight lies under the stamp of the cell. *)
Definition covers (W : Z) (g : target) (c : cell) : Prop := forall Y X, in_ext (g_ext g) Y X -> pos (px (t_ie (g_tim g)) Y X) = true ->
  0 <= Y - c_iy c + W / 2 < W /\ 0 <= X - c_ix c + W / 2 < W.
Fixpoint all_cover (W : Z) (gs : list target) (row : list cell) : Prop :=
  match gs, row with g :: gs, c :: row => covers W g c /\ all_cover W gs row | _, _ => True end.
Lemma not_clipped W gs frs grid : Forall2 (framed W) gs frs -> clipped frs grid = false -> Forall (all_cover W gs) grid.
Proof.
  intros F2 H. unfold clipped in H. apply Forall_forall. intros row HR.
  assert (E : existsb (fun fc => clipped_one (fst fc) (snd fc)) (combine frs row) = false).
  { destruct (existsb _ (combine frs row)) eqn:E; [|reflexivity]. rewrite <- H. symmetry. apply existsb_exists. exists row. auto. }
  clear H HR grid. revert row E. induction F2 as [|g fr gs frs FR F2 IH]; intros row E; [exact I|]. destruct row as [|c row]; [exact I|].
  cbn [combine existsb fst snd] in E. apply orb_false_iff in E. destruct E as [E1 E2]. cbn [all_cover]. split; [|apply IH; auto].
  unfold clipped_one in E1. apply orb_false_iff in E1. destruct E1 as [EX EY].
  destruct FR as (_ & _ & _ & _ & _ & _ & F1 & F2' & _ & _ & _ & LX & LY & _). rewrite F1 in EX. rewrite F2' in EY.
  intros Y X IE PO. specialize (LX _ EX Y X IE PO). specialize (LY _ EY Y X IE PO). lia.
Qed.
(** The same images and masks; positions may differ. *)
Definition same_images (gs gs' : list target) : Prop := Forall2 (fun a b => g_tim a = g_tim b /\ g_ext a = g_ext b) gs gs'.
(** With kept frames of the same images and masks: either no step loses a pixel
    with weight, or fresh frames are made. *)
Theorem C68_kept : forall p gs0 gs cells grid, pos zero = false -> gs0 <> [] -> Forall fits gs0 -> same_images gs0 gs ->
  setup gs0 = Ok p -> cells p = Ok grid ->
  (Forall (all_cover (ip_size p) gs) grid /\ dchisqs zero add mul sub pos (Some p) gs cells = dchisqs_with zero add mul sub p grid) \/
  dchisqs zero add mul sub pos (Some p) gs cells = dchisqs zero add mul sub pos None gs cells.
Proof.
  intros p gs0 gs cells grid PZ NE HF SI ES EC. destruct (C68_frames gs0 PZ NE HF) as (W & frs & E & _ & F2 & _). rewrite ES in E. injection E as ->.
  unfold dchisqs. cbn [get_image_params bind ip_frames]. rewrite EC. cbn [bind].
  destruct (clipped frs grid) eqn:EK.
  - right. reflexivity.
  - left. split; [|reflexivity]. apply (not_clipped W gs0 frs) in EK; auto. cbn [ip_size].
    apply Forall_forall. intros row HR. rewrite Forall_forall in EK. specialize (EK row HR). clear - SI EK. revert row EK.
    induction SI as [|a b gs0 gs [E1 E2] SI IH]; intros row EK; [exact EK|]. destruct row as [|c row]; [exact EK|]. destruct EK as [K1 K2].
    split; [|apply IH; auto]. unfold covers in *. rewrite <- E1, <- E2. exact K1.
Qed.

(** *** Point sources *)
(** The stamp that frame and sub-pixel shift make is the correlation of the PSF
    image itself wherever three pixels of the frame surround it. *)
Definition tap_room (W : Z) (iy ix Y X : Z) : Prop := 3 <= Y - iy + W / 2 <= W - 4 /\ 3 <= X - ix + W / 2 <= W - 4.
Lemma psf_conv W (g : target) (fr : frame) (q : @place V D) Y X : framed W g fr -> tap_room W (q_iy q) (q_ix q) Y X ->
  conv (filt (q_mux q)) (filt (q_muy q)) (f_psf fr) (Y - q_iy q + W / 2) (X - q_ix q + W / 2) =
  conv (filt (q_mux q)) (filt (q_muy q)) (t_psf (g_tim g)) (Y - box_y0 (t_psf (g_tim g)) (q_iy q)) (X - box_x0 (t_psf (g_tim g)) (q_ix q)).
Proof.
  intros (_ & _ & _ & _ & P1 & P2 & _ & _ & _ & _ & PV & _) [R1 R2]. apply conv_ext. intros i j Hi Hj.
  rewrite (plane_in zero (f_psf fr)) by lia. rewrite PV by lia. unfold box_y0, box_x0. f_equal; lia.
Qed.
Fixpoint ps_ok (W : Z) (gs : list target) (qs : list (@place V D)) (ps : list (@patch V)) : Prop :=
  match gs, qs, ps with
  | g :: gs, q :: qs, p :: ps =>
      (exists m, p = mkPatch (e_x0 (g_ext g)) (e_y0 (g_ext g)) (Some m) /\ ah m = e_y1 (g_ext g) - e_y0 (g_ext g) /\ aw m = e_x1 (g_ext g) - e_x0 (g_ext g) /\
        forall Y X, in_ext (g_ext g) Y X -> tap_room W (q_iy q) (q_ix q) Y X ->
          px m (Y - e_y0 (g_ext g)) (X - e_x0 (g_ext g)) =
          mul (conv (filt (q_mux q)) (filt (q_muy q)) (t_psf (g_tim g)) (Y - box_y0 (t_psf (g_tim g)) (q_iy q)) (X - box_x0 (t_psf (g_tim g)) (q_ix q))) (q_counts q))
      /\ ps_ok W gs qs ps
  | [], [], [] => True
  | _, _, _ => False
  end.
Lemma ps_models_spec W gs frs qs : Forall2 (framed W) gs frs -> 6 <= W -> Forall extok gs -> length qs = length gs ->
  exists ps, ps_models zero add mul filt W frs gs qs = Ok ps /\ ps_ok W gs qs ps.
Proof.
  intros F2 HW HE. revert qs. induction F2 as [|g fr gs frs FR F2 IH]; intros qs L.
  - destruct qs; [|discriminate]. exists []. split; [reflexivity|exact I].
  - destruct qs as [|q qs]; [discriminate|]. inversion_clear HE. destruct H as [HX HY].
    destruct (IH H0 qs ltac:(cbn in L; lia)) as (ps & EP & OP). pose proof FR as FR'. destruct FR' as (_ & _ & _ & _ & P1 & P2 & _).
    destruct (C68_shift (f_psf fr) (q_mux q) (q_muy q)) as (u & EU & U1 & U2 & UV); try lia.
    destruct (model_patch_spec W g fr (mkCell (q_ix q) (q_iy q) (q_counts q) None u)) as (m & EM & M1 & M2 & MV); auto; try lia; cbn [c_unit]; try lia.
    cbn [ps_models]. rewrite EU. cbn [bind]. rewrite EM. cbn [bind]. rewrite EP. cbn [bind]. eexists. split; [reflexivity|]. cbn [ps_ok]. split; [|exact OP].
    exists m. split; [reflexivity|]. split; [exact M1|]. split; [exact M2|]. intros Y X IE TR. rewrite MV by auto. cbn [c_unit c_ix c_iy c_counts].
    f_equal. destruct TR as [T1 T2]. rewrite plane_in by lia. rewrite UV by lia. apply psf_conv; auto. split; auto.
Qed.
(** A point source at the position the frames are made for: each patch covers
    its mask and has the counts times the shifted PSF image at every pixel, as
    PixelizedPSF renders it (C50_mask). *)
Theorem C68_point_source : forall gs qs, pos zero = false -> gs <> [] -> Forall fits gs -> 
  Forall2 (fun g q => q_ix q = g_ipx g /\ q_iy q = g_ipy g) gs qs ->
  exists ps, point_source_models zero add mul pos filt None gs qs = Ok ps /\
    forall k g q, nth_error gs k = Some g -> nth_error qs k = Some q ->
    exists m, nth_error ps k = Some (mkPatch (e_x0 (g_ext g)) (e_y0 (g_ext g)) (Some m)) /\
      ah m = e_y1 (g_ext g) - e_y0 (g_ext g) /\ aw m = e_x1 (g_ext g) - e_x0 (g_ext g) /\
      forall Y X, in_ext (g_ext g) Y X ->
        px m (Y - e_y0 (g_ext g)) (X - e_x0 (g_ext g)) =
        mul (conv (filt (q_mux q)) (filt (q_muy q)) (t_psf (g_tim g)) (Y - box_y0 (t_psf (g_tim g)) (q_iy q)) (X - box_x0 (t_psf (g_tim g)) (q_ix q))) (q_counts q).
Proof.
  intros gs qs PZ NE HF PL. destruct (C68_frames gs PZ NE HF) as (W & frs & E & _ & F2 & RO).
  unfold point_source_models. cbn [get_image_params]. rewrite E. cbn [bind ip_size ip_frames].
  assert (HW : 6 <= W).
  { destruct (halfsize_spec gs NE) as (hs & EH & RH). unfold GpuModel.setup in E. rewrite EH in E. cbn [bind] in E.
    destruct (bind_ok _ _ _ E) as (frs' & _ & E2). injection E2 as <- _.
    destruct gs as [|g r]; [congruence|]. inversion_clear HF. specialize (RH g (or_introl eq_refl)). destruct H as (A & _ & B & _).
    assert (1 <= reach g) by (unfold reach; lia). destruct (size_spec hs ltac:(lia)) as (c & EW & _ & Hc). lia. }
  destruct (ps_models_spec W gs frs qs F2 HW) as (ps & EP & OP).
  { apply Forall_forall. intros g Hg. rewrite Forall_forall in HF. destruct (HF g Hg) as (A & _ & B & _). split; lia. }
  { clear - PL. induction PL; cbn; congruence. }
  exists ps. split; [exact EP|]. clear E EP F2 HF NE frs. revert ps OP.
  induction PL as [|g q gs qs [Q1 Q2] PL IH]; intros ps OP k g' q' G' Q'.
  - destruct k; discriminate.
  - destruct ps as [|p ps]; [destruct OP|]. destruct OP as [(m & -> & M1 & M2 & MV) OP]. inversion_clear RO. destruct k as [|k].
    + cbn in G', Q'. injection G' as <-. injection Q' as <-. exists m. split; [reflexivity|]. split; [exact M1|]. split; [exact M2|].
      intros Y X IE. apply MV; auto. destruct (H Y X IE) as [A B]. unfold tap_room. lia.
    + cbn in G', Q'. cbn [nth_error]. apply (IH H0 ps OP k g' q' G' Q').
Qed.
End Props.

(** ** Agreement with the CPU's rendering *)
Section Cpu.
Context {V D : Type} (zero one : V) (add mul sub : V -> V -> V) (opp : V -> V) (halfdiff : V -> V -> V).
Hypothesis rt : ring_theory zero one add mul sub opp (@eq V).
Variable pos : V -> bool.
Variable filt : D -> list V.
Hypothesis filt7 : forall d, length (filt d) = 7%nat.
Definition mask_of (e : extent) : mask := mkMask (e_x0 e) (e_y0 e) (e_x1 e - e_x0 e) (e_y1 e - e_y0 e).
(** Point for point, the GPU's patch is the counts times the patch that
    PixelizedPSF.getPointSourcePatch makes for the same mask. *)
Theorem C68_cpu : forall gs qs k g q e, pos zero = false -> Forall fits gs -> env_ok e ->
  Forall2 (fun g q => q_ix q = g_ipx g /\ q_iy q = g_ipy g) gs qs ->
  nth_error gs k = Some g -> nth_error qs k = Some q ->
  (exists Y X, in_ext (g_ext g) Y X /\ in_box (t_psf (g_tim g)) (q_ix q) (q_iy q) Y X) ->
  exists ps m mm, point_source_models zero add mul pos filt None gs qs = Ok ps /\
    nth_error ps k = Some (mkPatch (e_x0 (g_ext g)) (e_y0 (g_ext g)) (Some m)) /\
    point_source_patch zero add mul halfdiff filt e (t_psf (g_tim g)) (q_ix q) (q_iy q) (q_mux q) (q_muy q) None (Some (mask_of (g_ext g))) false =
      Ok (One (mkPatch (e_x0 (g_ext g)) (e_y0 (g_ext g)) (Some mm))) /\
    ah m = ah mm /\ aw m = aw mm /\
    forall y x, 0 <= y < ah m -> 0 <= x < aw m -> px m y x = mul (px mm y x) (q_counts q).
Proof.
  intros gs qs k g q e PZ HF HE PL EG EQ (Y0 & X0 & IE0 & IB0).
  assert (NE : gs <> []) by (intros ->; destruct k; discriminate).
  destruct (C68_point_source zero one add mul sub opp rt pos filt gs qs PZ NE HF PL) as (ps & EP & HP).
  destruct (HP k g q EG EQ) as (m & EM & M1 & M2 & MV).
  rewrite Forall_forall in HF. pose proof (HF g (nth_error_In _ _ EG)) as (A1 & A2 & A3 & A4 & _ & _ & A5 & A6).
  destruct (C50_mask zero one add mul sub opp halfdiff rt filt filt7 e (t_psf (g_tim g)) (q_ix q) (q_iy q) (q_mux q) (q_muy q) (mask_of (g_ext g)) HE)
    as (mm & _ & ER & _ & S1 & S2 & SV & _); cbn [mask_of mh mw]; try lia.
  { exists Y0, X0. split; [exact IB0|]. destruct IE0 as [I1 I2]. unfold in_mask. cbn. lia. }
  cbn [mask_of mx0 my0 mh mw] in *. exists ps, m, mm. split; [exact EP|]. split; [exact EM|]. split; [exact ER|].
  split; [lia|]. split; [lia|]. intros y x Hy Hx.
  replace y with (y + e_y0 (g_ext g) - e_y0 (g_ext g)) by lia. replace x with (x + e_x0 (g_ext g) - e_x0 (g_ext g)) by lia.
  rewrite MV by (split; lia). rewrite SV; [reflexivity|]. unfold in_mask. cbn. lia.
Qed.
End Cpu.

(** ** Concrete cases *)
Definition zpos (v : Z) : bool := 0 <? v.
Definition ex_arr (h w v : Z) : @arr Z := mkArr h w (fun _ _ => v).
Definition ex_target (v n ix : Z) : @target Z :=
  mkTarget (mkTim (ex_arr 6 6 v) (ex_arr 6 6 2) (ex_arr n n 1)) (mkExtent 0 4 1 4) ix 2.
(** Two images: frames of 16 pixels; a stamp of ones around pixel (2, 2) in one
    step and moved by (1, 0) in the next. *)
Definition ex_cell (ix v : Z) : @cell Z := mkCell ix 2 v (Some 1) (ex_arr 16 16 1).
Definition ex_gs := [ex_target 7 3 2; ex_target 5 5 2].
Definition ex_grid := [[ex_cell 2 3; ex_cell 2 3]; [ex_cell 3 4; ex_cell 3 5]].
Lemma ex_fits v n ix : 1 <= n -> fits (ex_target v n ix).
Proof. unfold fits. cbn. lia. Qed.
(** residuals (7 - 4) 2 and (5 - 4) 2, then (7 - 5) 2 and (5 - 6) 2, in 12 pixels *)
Example C68_chisq_ex : exists p, setup 0 zpos ex_gs = Ok p /\ ip_size p = 16 /\
  dchisqs_with 0 Z.add Z.mul Z.sub p ex_grid = Ok [0; 12 * (16 + 4) - 12 * (36 + 4)] /\
  chisq 0 Z.add Z.mul Z.sub ex_gs [ex_cell 2 3; ex_cell 2 3] = 480.
Proof.
  destruct (setup 0 zpos ex_gs) as [p|] eqn:E; [|vm_compute in E; discriminate]. exists p. split; [reflexivity|].
  assert (S : ip_size p = 16). { assert (Q : match setup 0 zpos ex_gs with Ok p => ip_size p | Err _ => 0 end = 16) by (vm_compute; reflexivity). rewrite E in Q. exact Q. }
  split; [exact S|]. split; [|vm_compute; reflexivity].
  destruct (C68_frames 0 1 zpos ex_gs eq_refl) as (W & frs & E2 & _ & F2 & _); [discriminate|repeat constructor; apply ex_fits; lia|].
  rewrite E in E2. injection E2 as ->. cbn [ip_size] in S. subst W.
  unfold ex_grid. rewrite (C68_chisq 0 1 Z.add Z.mul Z.sub Z.opp Zth zpos 16 ex_gs frs) by (try lia; auto; repeat constructor; cbn; lia).
  vm_compute. reflexivity.
Qed.
Definition ex_filt1 (d : Z) : list Z := [1; 1; 1; 1; 1; 1; 1].
Definition ex_q (ix : Z) : @place Z Z := mkPlace ix 2 0 0 3.
Definition ex_at (r : res (list (@patch Z))) (k : nat) (y x : Z) : option Z :=
  match r with Ok ps => match nth_error ps k with Some p => match pimg p with Some m => Some (px m y x) | None => None end | None => None end | Err _ => None end.
Example C68_point_source_ex :
  ex_at (point_source_models 0 Z.add Z.mul zpos ex_filt1 None ex_gs [ex_q 2; ex_q 2]) 0 0 0 = Some 27 /\
  ex_at (point_source_models 0 Z.add Z.mul zpos ex_filt1 None ex_gs [ex_q 2; ex_q 2]) 1 0 0 = Some 60.
Proof. split; vm_compute; reflexivity. Qed.

(** Refutation 1: frames once kept stay, also when they are asked for another
    tractor: the chi-squares are those of the old images. *)
Theorem C68_stale_refuted : exists gs gs' grid p p',
  cache_image_params 0 zpos None gs = Ok (Some p) /\ cache_image_params 0 zpos (Some p) gs' = Ok (Some p') /\ Forall fits gs' /\
  dchisqs 0 Z.add Z.mul Z.sub zpos (Some p') gs' (fun _ => Ok grid) = Ok [0; -240] /\
  dchisqs 0 Z.add Z.mul Z.sub zpos None gs' (fun _ => Ok grid) = Ok [0; -2256].
Proof.
  exists ex_gs, [ex_target 14 3 2; ex_target 12 5 2], ex_grid.
  destruct (setup 0 zpos ex_gs) as [p|] eqn:E; [|vm_compute in E; discriminate]. exists p, p.
  unfold cache_image_params. cbn [get_image_params]. rewrite E. cbn [bind]. split; [reflexivity|]. split; [reflexivity|].
  split; [repeat constructor; apply ex_fits; lia|]. split; [|vm_compute; reflexivity].
  transitivity (match setup 0 zpos ex_gs with Ok p => dchisqs 0 Z.add Z.mul Z.sub zpos (Some p) ex_gs (fun _ => Ok ex_grid) | Err _ => Err ValueError end);
    [|vm_compute; reflexivity].
  rewrite E. unfold dchisqs. cbn [get_image_params bind].
  assert (Q : match setup 0 zpos ex_gs with Ok p => clipped (ip_frames p) ex_grid | Err _ => true end = false) by (vm_compute; reflexivity).
  rewrite E in Q. rewrite Q. reflexivity.
Qed.
(** Refutation 2: within kept frames a source that has moved, but not too far,
    loses taps of the sub-pixel shift at the frame's edge. *)
Theorem C68_edge_refuted : exists g g' p, fits g' /\ g_tim g' = g_tim g /\ g_ext g' = g_ext g /\
  setup 0 zpos [g] = Ok p /\ clipped (ip_frames p) [[mkCell (g_ipx g') (g_ipy g') 3 None (ex_arr 16 16 1)]] = false /\
  ex_at (point_source_models 0 Z.add Z.mul zpos ex_filt1 (Some p) [g'] [mkPlace (g_ipx g') (g_ipy g') 0 0 3]) 0 0 0 = Some 84 /\
  ex_at (point_source_models 0 Z.add Z.mul zpos ex_filt1 None [g'] [mkPlace (g_ipx g') (g_ipy g') 0 0 3]) 0 0 0 = Some 147.
Proof.
  exists (ex_target 7 33 2), (ex_target 7 33 8).
  destruct (setup 0 zpos [ex_target 7 33 2]) as [p|] eqn:E; [|vm_compute in E; discriminate]. exists p.
  split; [apply ex_fits; lia|]. split; [reflexivity|]. split; [reflexivity|]. split; [reflexivity|].
  split.
  { assert (Q : match setup 0 zpos [ex_target 7 33 2] with Ok p => clipped (ip_frames p) [[mkCell 8 2 3 None (ex_arr 16 16 1)]] | Err _ => true end = false) by (vm_compute; reflexivity).
    rewrite E in Q. exact Q. }
  split; [|vm_compute; reflexivity].
  assert (Q : match setup 0 zpos [ex_target 7 33 2] with
    Ok p => ex_at (point_source_models 0 Z.add Z.mul zpos ex_filt1 (Some p) [ex_target 7 33 8] [mkPlace 8 2 0 0 3]) 0 0 0 | Err _ => None end = Some 84) by (vm_compute; reflexivity).
  rewrite E in Q. exact Q.
Qed.
(** Refutation 3: without kept frames nobody checks how far a step moves: pixels
    with weight see no model though the PSF reaches them. *)
Theorem C68_far_refuted : exists g p fr u c, fits g /\ setup 0 zpos [g] = Ok p /\ ip_frames p = [fr] /\
  unit_psf 0 Z.add Z.mul ex_filt1 (f_psf fr) 0 0 = Ok u /\ c = mkCell 14 2 3 None u /\
  dchisqs 0 Z.add Z.mul Z.sub zpos None [g] (fun _ => Ok [[mkCell 2 2 0 None u]; [c]]) = Ok [0; 0] /\
  forall Y X, in_ext (g_ext g) Y X -> zpos (px (t_ie (g_tim g)) Y X) = true /\ unit_at 0 c Y X = 0 /\
    conv 0 Z.add Z.mul (ex_filt1 0) (ex_filt1 0) (t_psf (g_tim g)) (Y - box_y0 (t_psf (g_tim g)) 2) (X - box_x0 (t_psf (g_tim g)) 14) = 49.
Proof.
  set (g := ex_target 7 35 2). exists g.
  destruct (C68_frames 0 1 zpos [g] eq_refl) as (W & frs & E & _ & F2 & _); [discriminate|repeat constructor; apply ex_fits; lia|].
  inversion F2 as [|? fr ? l FR F0]; subst. inversion F0; subst.
  assert (WE : W = 16).
  { assert (Q : match setup 0 zpos [g] with Ok p => ip_size p | Err _ => 0 end = 16) by (vm_compute; reflexivity). rewrite E in Q. exact Q. }
  subst W. pose proof FR as (_ & _ & _ & _ & P1 & P2 & _).
  destruct (C68_shift 0 1 Z.add Z.mul Z.sub Z.opp Zth ex_filt1 (f_psf fr) 0 0) as (u & EU & U1 & U2 & UV); try lia.
  exists (mkParams 16 [fr]), fr, u, (mkCell 14 2 3 None u). split; [apply ex_fits; lia|]. split; [exact E|]. split; [reflexivity|]. split; [exact EU|]. split; [reflexivity|].
  assert (UA : forall Y X, in_ext (g_ext g) Y X -> unit_at 0 (mkCell 14 2 3 None u) Y X = 0).
  { intros Y X [A B]. unfold unit_at. cbn [c_unit c_ix c_iy]. rewrite U1, U2, P1, P2. apply plane_out. rewrite U1, U2, P1, P2. cbn in A, B. change (16 / 2) with 8. lia. }
  split.
  - unfold dchisqs. cbn [get_image_params bind]. rewrite E. cbn [bind].
    rewrite (C68_chisq 0 1 Z.add Z.mul Z.sub Z.opp Zth zpos 16 [g] [fr]).
    + cbn [map chisq]. do 3 f_equal. f_equal. rewrite Z.add_0_r.
      match goal with |- ?a - ?b = 0 => enough (a = b) by lia end. f_equal. apply ext_sum_ext. intros Y X IE. unfold resid. rewrite (UA Y X IE). cbn. reflexivity.
    + lia.
    + exact F2.
    + repeat constructor; cbn; lia.
    + repeat constructor; cbn [c_unit]; lia.
  - intros Y X IE. split; [reflexivity|]. split; [apply UA; exact IE|]. destruct IE as [A B]. cbn in A, B.
    assert (CY : Y = 1 \/ Y = 2 \/ Y = 3) by lia. assert (CX : X = 0 \/ X = 1 \/ X = 2 \/ X = 3) by lia.
    destruct CY as [->|[->| ->]]; destruct CX as [->|[->|[->| ->]]]; vm_compute; reflexivity.
Qed.

Print Assumptions C68_frames.
Print Assumptions C68_shift.
Print Assumptions C68_chisq.
Print Assumptions C68_kept.
Print Assumptions C68_models.
Print Assumptions C68_point_source.
Print Assumptions C68_cpu.
Print Assumptions C68_stale_refuted.
Print Assumptions C68_edge_refuted.
Print Assumptions C68_far_refuted.
