(** C108: integral images in floating point. *)
From Coq Require Import Reals List ZArith Bool Lia Lra Floats.
From Flocq Require Import Core.
From Verif Require Import Base IntImgModel IntImgSpec IntImgProps RoundModel RoundArith.
Import ListNotations.
Open Scope R_scope.

(** ** The algorithm on two kinds of numbers at once *)
Definition rmap {A B} (f : A -> B) (r : res A) : res B := match r with Ok a => Ok (f a) | Err e => Err e end.

Section Hom.
Context {V W : Type} (f : V -> W) (vz : V) (wz : W) (va vs : V -> V -> V) (wa ws : W -> W -> W).
Context (H0 : f vz = wz) (HA : forall a b, f (va a b) = wa (f a) (f b)) (HS : forall a b, f (vs a b) = ws (f a) (f b)).

Lemma cumsum_row_hom r : forall acc, cumsum_row W wa (f acc) (map f r) = map f (cumsum_row V va acc r).
Proof. induction r as [|v r IH]; intros acc; simpl; auto. rewrite <- HA, IH. auto. Qed.
Lemma add_rows_hom a : forall b, add_rows W wa (map f a) (map f b) = map f (add_rows V va a b).
Proof. unfold add_rows. induction a as [|x a IH]; intros [|y b]; simpl; auto. rewrite IH, HA. auto. Qed.
Lemma cumsum_cols_hom rows : forall acc, cumsum_cols W wa (map f acc) (map (map f) rows) = map (map f) (cumsum_cols V va acc rows).
Proof. induction rows as [|r rows IH]; intros acc; simpl; auto. rewrite add_rows_hom, IH. auto. Qed.
Lemma integral_hom img : integral_image W wz wa (map (map f) img) = map (map f) (integral_image V vz va img).
Proof.
  unfold integral_image. replace (map (fun _ => wz) (hd [] (map (map f) img))) with (map f (map (fun _ => vz) (hd [] img))).
  - rewrite cumsum_cols_hom. rewrite !map_map. apply map_ext. intros r. rewrite <- H0. apply cumsum_row_hom.
  - destruct img as [|r img]; simpl; auto. rewrite !map_map. apply map_ext. intros; auto.
Qed.
Lemma idx_hom img y x : idx W (map (map f) img) y x = rmap f (idx V img y x).
Proof.
  unfold idx. rewrite map_length. destruct (py_index (length img) y) as [j|]; auto.
  rewrite nth_error_map. destruct (nth_error img j) as [r|]; auto. simpl. rewrite map_length.
  destruct (py_index (length r) x) as [i|]; auto. unfold py_get. rewrite nth_error_map. destruct (nth_error r i); auto.
Qed.
Lemma rect1_hom img b : rect1 W wa ws (map (map f) img) b = rmap f (rect1 V va vs img b).
Proof.
  destruct b as [[[x0 x1] y0] y1]. unfold rect1. rewrite !idx_hom.
  destruct (idx V img y1 x1) as [a|e]; cbn [rmap bind]; auto.
  destruct ((0 <=? x0)%Z && (0 <=? y0)%Z); [destruct (idx V img y0 x0) as [c|e]; cbn [rmap bind]; auto; rewrite <- HA|cbn [rmap bind]];
  (destruct (0 <=? x0)%Z; [destruct (idx V img y1 x0) as [c'|e]; cbn [rmap bind]; auto; rewrite <- HS|cbn [rmap bind]];
   (destruct (0 <=? y0)%Z; [destruct (idx V img y0 x1) as [c''|e]; cbn [rmap bind]; auto; rewrite <- HS|cbn [rmap bind]]; reflexivity)).
Qed.
End Hom.

(** What holds of the pixels and is kept by the operations holds of the result. *)
Section Inv.
Context {V : Type} (z : V) (va vs : V -> V -> V) (Q : V -> Prop).
Context (Q0 : Q z) (QA : forall a b, Q a -> Q b -> Q (va a b)) (QS : forall a b, Q a -> Q b -> Q (vs a b)).
Lemma cumsum_row_inv r : forall acc, Q acc -> Forall Q r -> Forall Q (cumsum_row V va acc r).
Proof. induction r as [|v r IH]; intros acc Ha HF; simpl; constructor; inversion HF; subst; auto. Qed.
Lemma add_rows_inv a : forall b, Forall Q a -> Forall Q b -> Forall Q (add_rows V va a b).
Proof. unfold add_rows. induction a as [|x a IH]; intros [|y b] Ha Hb; simpl; constructor; inversion Ha; inversion Hb; subst; simpl; auto. Qed.
Lemma integral_inv img : Forall (Forall Q) img -> Forall (Forall Q) (integral_image V z va img).
Proof.
  intros HF. unfold integral_image. apply Forall_map.
  assert (G : forall rows acc, Forall Q acc -> Forall (Forall Q) rows -> Forall (Forall Q) (cumsum_cols V va acc rows)).
  { induction rows as [|r rows IH]; intros acc Ha Hr; simpl; constructor; inversion Hr; subst; auto using add_rows_inv. }
  eapply Forall_impl; [|apply G; [|exact HF]].
  - intros r Hr. apply cumsum_row_inv; auto.
  - apply Forall_map. apply Forall_forall. auto.
Qed.
Lemma idx_inv img y x v : Forall (Forall Q) img -> idx V img y x = Ok v -> Q v.
Proof.
  unfold idx. intros HF. destruct (py_index (length img) y) as [j|]; [|discriminate].
  destruct (nth_error img j) as [r|] eqn:E; [|discriminate]. destruct (py_index (length r) x) as [i|]; [|discriminate].
  unfold py_get. destruct (nth_error r i) as [a|] eqn:E2; [|discriminate]. intros [= <-].
  rewrite Forall_forall in HF. apply nth_error_In in E. apply HF in E. rewrite Forall_forall in E. apply E. eapply nth_error_In; eauto.
Qed.
Lemma rect1_inv img b v : Forall (Forall Q) img -> rect1 V va vs img b = Ok v -> Q v.
Proof.
  intros HF. pose proof (fun y x v => idx_inv img y x v HF) as I.
  destruct b as [[[x0 x1] y0] y1]. unfold rect1.
  destruct (idx V img y1 x1) as [a|e] eqn:Ea; [|discriminate]. cbn [bind]. apply I in Ea.
  assert (G : forall a, Q a -> (a <- (if (0 <=? x0)%Z then c <- idx V img y1 x0 ;; Ok (vs a c) else Ok a) ;;
      (if (0 <=? y0)%Z then c <- idx V img y0 x1 ;; Ok (vs a c) else Ok a)) = Ok v -> Q v).
  { intros a' Qa. destruct (0 <=? x0)%Z; [destruct (idx V img y1 x0) as [c|e] eqn:E1; [apply I in E1|discriminate]|]; cbn [bind];
    (destruct (0 <=? y0)%Z; [destruct (idx V img y0 x1) as [c'|e] eqn:E2; [apply I in E2|discriminate]|]; cbn [bind]; intros [= <-]; auto). }
  destruct ((0 <=? x0)%Z && (0 <=? y0)%Z); [destruct (idx V img y0 x0) as [c|e] eqn:E0; [apply I in E0|discriminate]|]; cbn [bind]; apply G; auto.
Qed.
End Inv.

(** Chains of additions *)
Definition dop (a b : nat) : nat := S (Nat.max a b).
Section Depth.
Lemma drow r : forall acc d, (acc <= d)%nat -> Forall (fun v => v <= d)%nat r -> Forall (fun v => v <= d + length r)%nat (cumsum_row nat dop acc r).
Proof.
  induction r as [|v r IH]; intros acc d Ha HF; simpl; constructor; inversion HF; subst.
  - unfold dop. lia.
  - eapply Forall_impl; [|apply (IH _ (S d))]; [simpl; lia|unfold dop; lia|]. eapply Forall_impl; [|eassumption]. simpl; lia.
Qed.
Lemma dadd a d : forall b, Forall (fun v => v <= d)%nat a -> Forall (fun v => v <= d)%nat b -> Forall (fun v => v <= S d)%nat (add_rows nat dop a b).
Proof. unfold add_rows. induction a as [|x a IH]; intros [|y b] Ha Hb; simpl; constructor; inversion Ha; inversion Hb; subst; simpl; auto. unfold dop; lia. Qed.
Lemma dcols rows : forall acc d, Forall (fun v => v <= d)%nat acc -> Forall (Forall (fun v => v <= d)%nat) rows ->
  Forall (Forall (fun v => v <= d + length rows)%nat) (cumsum_cols nat dop acc rows).
Proof.
  induction rows as [|r rows IH]; intros acc d Ha HF; simpl; constructor; inversion HF; subst.
  - eapply Forall_impl; [|apply (dadd acc d r)]; auto. simpl; lia.
  - eapply Forall_impl; [|apply (IH _ (S d))].
    + intros q Hq. eapply Forall_impl; [|exact Hq]. simpl; lia.
    + apply dadd; auto.
    + eapply Forall_impl; [|eassumption]. intros q Hq. eapply Forall_impl; [|exact Hq]. simpl; lia.
Qed.
Lemma cols_len {V} (va : V -> V -> V) w rows : forall acc, length acc = w -> Forall (fun r => length r = w) rows ->
  Forall (fun r => length r = w) (cumsum_cols V va acc rows).
Proof.
  induction rows as [|r rows IH]; intros acc Ha HF; simpl; constructor; inversion HF; subst.
  - unfold add_rows. rewrite map_length, combine_length. lia.
  - apply IH; auto. unfold add_rows. rewrite map_length, combine_length. lia.
Qed.
Lemma dintegral img w h : rectangular img w h -> Forall (Forall (fun v => v = 0)%nat) img ->
  Forall (Forall (fun v => v <= h + w)%nat) (integral_image nat O dop img).
Proof.
  intros [LH LW] HF. unfold integral_image. apply Forall_map.
  assert (D := dcols img (map (fun _ => O) (hd [] img)) 0).
  assert (L := cols_len dop w img (map (fun _ => O) (hd [] img))).
  assert (Z : length (map (fun _ : nat => O) (hd [] img)) = w \/ img = []).
  { destruct img as [|r rs]; auto. left. rewrite map_length. inversion LW; auto. }
  destruct Z as [Z| ->]; [|constructor].
  specialize (L Z LW). rewrite LH in D. simpl in D. rewrite Forall_forall in *.
  assert (D' : forall x, In x (cumsum_cols nat dop (map (fun _ : nat => O) (hd [] img)) img) -> Forall (fun v => v <= h)%nat x).
  { apply Forall_forall. apply D.
    - intros x Hx. apply in_map_iff in Hx as (? & <- & _). lia.
    - apply Forall_forall. intros r Hr. apply HF in Hr. eapply Forall_impl; [|exact Hr]. simpl; lia. }
  intros r Hr. rewrite <- (L r Hr). apply drow; [lia|auto].
Qed.
Lemma drect img d b v : Forall (Forall (fun v => v <= d)%nat) img -> rect1 nat dop dop img b = Ok v -> (v <= d + 3)%nat.
Proof.
  intros HF. pose proof (fun y x v => idx_inv (fun v => v <= d)%nat img y x v HF) as I.
  destruct b as [[[x0 x1] y0] y1]. unfold rect1.
  destruct (idx nat img y1 x1) as [a|e] eqn:Ea; [|discriminate]. cbn [bind]. apply I in Ea.
  destruct ((0 <=? x0)%Z && (0 <=? y0)%Z); [destruct (idx nat img y0 x0) as [c|e] eqn:E0; [apply I in E0|discriminate]|]; cbn [bind];
  (destruct (0 <=? x0)%Z; [destruct (idx nat img y1 x0) as [c'|e] eqn:E1; [apply I in E1|discriminate]|]; cbn [bind];
   (destruct (0 <=? y0)%Z; [destruct (idx nat img y0 x1) as [c''|e] eqn:E2; [apply I in E2|discriminate]|]; cbn [bind]; intros [= <-]; unfold dop; lia)).
Qed.
End Depth.

(** ** Sums of absolute values *)
Definition RR : ring_theory 0 1 Rplus Rmult Rminus Ropp (@eq R) := RTheory.
Notation rtotal := (total 0 Rplus).
Notation rII := (@II R 0 Rplus).

Lemma rtotal_le {A} (g h : A -> R) l : (forall x, In x l -> g x <= h x) -> rtotal (map g l) <= rtotal (map h l).
Proof. induction l as [|a l IH]; simpl; intros H; [lra|]. apply Rplus_le_compat; auto. Qed.
Lemma rtotal_nonneg {A} (g : A -> R) l : (forall x, In x l -> 0 <= g x) -> 0 <= rtotal (map g l).
Proof. induction l as [|a l IH]; simpl; intros H; [lra|]. apply Rplus_le_le_0_compat; auto. Qed.
Lemma rtotal_abs {A} (g : A -> R) l : Rabs (rtotal (map g l)) <= rtotal (map (fun x => Rabs (g x)) l).
Proof. induction l as [|a l IH]; simpl; [rewrite Rabs_R0; lra|]. eapply Rle_trans; [apply Rabs_triang|]. lra. Qed.

Lemma cumul_mono g a b : (forall i, 0 <= g i) -> (a <= b)%Z -> @cumul R 0 Rplus g a <= @cumul R 0 Rplus g b.
Proof.
  intros Hg L. unfold cumul. destruct (Z.lt_ge_cases a (-1)) as [N|N].
  - rewrite (zrange_nil 0 (a + 1)) by lia. simpl. apply rtotal_nonneg. auto.
  - rewrite (zrange_split 0 (a + 1) (b + 1)) by lia. rewrite map_app, (total_app 0 1 Rplus Rmult Rminus Ropp RR).
    pose proof (rtotal_nonneg g (zrange (a + 1) (b + 1)) (fun i _ => Hg i)). lra.
Qed.
Lemma cumul_nonneg g a : (forall i, 0 <= g i) -> 0 <= @cumul R 0 Rplus g a.
Proof. intros Hg. apply rtotal_nonneg. auto. Qed.
Lemma II_mono g x x' y y' : (forall i j, 0 <= g i j) -> (x' <= x)%Z -> (y' <= y)%Z -> rII g x' y' <= rII g x y.
Proof.
  intros Hg Lx Ly. unfold II. eapply Rle_trans; [apply (cumul_mono _ x' x); auto; intros; apply cumul_nonneg; auto|].
  apply rtotal_le. intros i _. apply cumul_mono; auto.
Qed.

Lemma pixel_abs (img : list (list R)) x y : pixel 0 (map (map Rabs) img) x y = Rabs (pixel 0 img x y).
Proof.
  unfold pixel. destruct ((0 <=? x)%Z && (0 <=? y)%Z); [|rewrite Rabs_R0; auto].
  rewrite <- Rabs_R0 at 1. change (@nil R) with (map Rabs []). rewrite (map_nth (map Rabs)), map_nth. auto.
Qed.
Lemma rect_map {V W} (f : V -> W) (img : list (list V)) w h : rectangular img w h -> rectangular (map (map f) img) w h.
Proof. intros [A B]. split; [rewrite map_length; auto|]. apply Forall_map. eapply Forall_impl; [|exact B]. intros r Hr. simpl. rewrite map_length; auto. Qed.

(** The sum of the absolute values of the entries used *)
Lemma abs_rect img w h b : rectangular img w h -> fits w h b -> exists A,
  rect1 R Rplus Rplus (integral_image R 0 Rplus (map (map Rabs) img)) b = Ok A /\
  A <= 4 * (let '(x0, x1, y0, y1) := b in box_sum 0 Rplus (fun x y => Rabs (pixel 0 img x y)) (-1) x1 (-1) y1).
Proof.
  intros HR. destruct b as [[[x0 x1] y0] y1]. intros (HX & HY & HX0 & HY0).
  pose proof (rect_map Rabs img w h HR) as HR'.
  rewrite (box_II 0 1 Rplus Rmult Rminus Ropp RR).
  set (g := fun x y => Rabs (pixel 0 img x y)).
  assert (E : forall x y, (0 <= x < Z.of_nat w)%Z -> (0 <= y < Z.of_nat h)%Z ->
      idx R (integral_image R 0 Rplus (map (map Rabs) img)) y x = Ok (rII g x y)).
  { intros x y Hx Hy. rewrite (integral_entry 0 1 Rplus Rmult Rminus Ropp RR _ w h) by auto. f_equal.
    unfold II. apply total_ext. intros i _. apply total_ext. intros j _. apply pixel_abs. }
  assert (G : forall i j, 0 <= g i j) by (intros; apply Rabs_pos).
  assert (N : 0 <= rII g x1 y1) by (apply cumul_nonneg; intros; apply cumul_nonneg; auto).
  unfold rect1. rewrite E by lia. cbn [bind].
  destruct (Z.leb_spec 0 x0), (Z.leb_spec 0 y0); simpl andb; cbv iota; cbn [bind];
    repeat (rewrite E by lia; cbn [bind]); eexists; (split; [reflexivity|]);
    try pose proof (II_mono g x1 x0 y1 y0 G ltac:(lia) ltac:(lia));
    try pose proof (II_mono g x1 x0 y1 y1 G ltac:(lia) ltac:(lia));
    try pose proof (II_mono g x1 x1 y1 y0 G ltac:(lia) ltac:(lia)); lra.
Qed.

(** ** C108 *)
Section C108.
Variables (prec emin : Z).
Context (P : (0 < prec)%Z).
Notation fmt := (fmt prec emin).
Notation fadd := (fadd prec emin).
Notation fsub := (fsub prec emin).
Notation u := (unit_err prec).

(** A number with its exact value, the sum of absolute values behind it and its
    chain of additions *)
Record cell := mkCell { ck : nat; cA : R; cx : R; cX : R }.
Definition czero : cell := mkCell 0 0 0 0.
Definition cadd (a b : cell) := mkCell (dop (ck a) (ck b)) (cA a + cA b) (fadd (cx a) (cx b)) (cX a + cX b).
Definition csub (a b : cell) := mkCell (dop (ck a) (ck b)) (cA a + cA b) (fsub (cx a) (cx b)) (cX a - cX b).
Definition good (c : cell) : Prop := near prec emin (ck c) (cA c) (cx c) (cX c).
Definition cell_of (v : R) : cell := mkCell 0 (Rabs v) v v.

Lemma good_add a b : good a -> good b -> good (cadd a b).
Proof. unfold good; simpl. intros A B. apply near_add; auto; [eapply near_weaken; [| |exact A]|eapply near_weaken; [| |exact B]]; lia || lra. Qed.
Lemma good_sub a b : good a -> good b -> good (csub a b).
Proof. unfold good; simpl. intros A B. apply near_sub; auto; [eapply near_weaken; [| |exact A]|eapply near_weaken; [| |exact B]]; lia || lra. Qed.
Lemma good_zero : good czero.
Proof. unfold good; simpl. rewrite <- Rabs_R0 at 1. apply near_exact; auto. apply fmt_0. Qed.

Lemma rect1_error img w h b : rectangular img w h -> Forall (Forall fmt) img -> fits w h b -> exists v,
  rect1 R fadd fsub (integral_image R 0 fadd img) b = Ok v /\
  let '(x0, x1, y0, y1) := b in
  Rabs (v - box_sum 0 Rplus (pixel 0 img) x0 x1 y0 y1) <=
    4 * ((1 + u) ^ (h + w + 3) - 1) * box_sum 0 Rplus (fun x y => Rabs (pixel 0 img x y)) (-1) x1 (-1) y1.
Proof.
  intros HR HF HB. set (ci := map (map cell_of) img).
  set (I := integral_image cell czero cadd ci).
  assert (Mx : map (map cx) ci = img) by (unfold ci; rewrite map_map; rewrite <- (map_id img) at 2; apply map_ext; intros r; rewrite map_map; apply map_id).
  assert (MX : map (map cX) ci = img) by (unfold ci; rewrite map_map; rewrite <- (map_id img) at 2; apply map_ext; intros r; rewrite map_map; apply map_id).
  assert (MA : map (map cA) ci = map (map Rabs) img) by (unfold ci; rewrite map_map; apply map_ext; intros r; rewrite map_map; auto).
  assert (EX := rect1_ok 0 1 Rplus Rmult Rminus Ropp RR img w h b HR HB).
  destruct (abs_rect img w h b HR HB) as (A & EA & LA).
  rewrite <- MX in EX at 1. rewrite <- MA in EA.
  rewrite (integral_hom cX czero 0 cadd Rplus eq_refl (fun _ _ => eq_refl)) in EX.
  rewrite (rect1_hom cX cadd csub Rplus Rminus (fun _ _ => eq_refl) (fun _ _ => eq_refl)) in EX.
  rewrite (integral_hom cA czero 0 cadd Rplus eq_refl (fun _ _ => eq_refl)) in EA.
  rewrite (rect1_hom cA cadd csub Rplus Rplus (fun _ _ => eq_refl) (fun _ _ => eq_refl)) in EA.
  fold I in EX, EA.
  destruct (rect1 cell cadd csub I b) as [c|e] eqn:EC; cbn [rmap] in EX, EA; [|discriminate].
  injection EX as EX. injection EA as EA.
  exists (cx c). split.
  - rewrite <- Mx. rewrite (integral_hom cx czero 0 cadd fadd eq_refl (fun _ _ => eq_refl)).
    rewrite (rect1_hom cx cadd csub fadd fsub (fun _ _ => eq_refl) (fun _ _ => eq_refl)). fold I. rewrite EC. reflexivity.
  - assert (GC : good c).
    { apply (rect1_inv cadd csub good good_add good_sub I b); auto. apply integral_inv; auto using good_add, good_zero.
      unfold ci. apply Forall_map. eapply Forall_impl; [|exact HF]. intros r Hr. apply Forall_map.
      eapply Forall_impl; [|exact Hr]. intros v Hv. apply near_exact; auto. }
    assert (KC : (ck c <= h + w + 3)%nat).
    { apply (drect (integral_image nat O dop (map (map ck) ci)) (h + w) b).
      - apply dintegral; [apply rect_map, rect_map; auto|]. unfold ci. rewrite map_map. apply Forall_map. apply Forall_forall. intros r _.
        rewrite map_map. apply Forall_map. apply Forall_forall. auto.
      - rewrite (integral_hom ck czero O cadd dop eq_refl (fun _ _ => eq_refl)).
        rewrite (rect1_hom ck cadd csub dop dop (fun _ _ => eq_refl) (fun _ _ => eq_refl)). fold I. rewrite EC. reflexivity. }
    destruct GC as (_ & B & E). destruct b as [[[x0 x1] y0] y1]. rewrite <- EX, EA in *.
    pose proof (pow_grow prec (ck c) (h + w + 3) KC) as G.
    assert (0 <= A) by (eapply Rle_trans; [apply Rabs_pos|exact B]).
    eapply Rle_trans; [exact E|]. eapply Rle_trans; [apply (Rmult_le_compat_r A _ ((1 + u) ^ (h + w + 3) - 1)); lra|].
    eapply Rle_trans; [apply Rmult_le_compat_l; [lra|exact LA]|]. lra.
Qed.

(** Any image, any boxes: off by at most about 4 (h + w + 3) / 2^prec of the
    sum of the absolute values of the pixels above and left of the far corner. *)
Theorem C108_error img w h bs : rectangular img w h -> Forall (Forall fmt) img -> Forall (fits w h) bs ->
  exists vals, intimg_rect R fadd fsub (integral_image R 0 fadd img) bs = Ok vals /\
  Forall2 (fun b v => let '(x0, x1, y0, y1) := b in
    Rabs (v - box_sum 0 Rplus (pixel 0 img) x0 x1 y0 y1) <=
      4 * ((1 + bpow radix2 (- prec)) ^ (h + w + 3) - 1) * box_sum 0 Rplus (fun x y => Rabs (pixel 0 img x y)) (-1) x1 (-1) y1) bs vals.
Proof.
  intros HR HF HB. unfold intimg_rect. replace (forallb _ bs) with true.
  - induction HB as [|b bs Hb HB IH]; simpl; [exists []; split; [auto|constructor]|].
    destruct (rect1_error img w h b HR HF Hb) as (v & -> & E). cbn [bind]. destruct IH as (vs & -> & F). cbn [bind].
    exists (v :: vs). split; auto.
  - symmetry. apply forallb_forall. intros b Hb. rewrite Forall_forall in HB. apply HB in Hb.
    destruct b as [[[x0 x1] y0] y1]. destruct Hb as (? & ? & ? & ?). repeat (apply andb_true_intro; split); try (apply Z.leb_le; lia); apply Z.ltb_lt; lia.
Qed.

(** ** Whole numbers *)
Notation zII := (@II Z 0%Z Z.add).
Definition ZR : ring_theory 0%Z 1%Z Z.add Z.mul Z.sub Z.opp (@eq Z) := Zth.
Context (Em : (emin <= 0)%Z).

Record zcell := mkZcell { zA : Z; zx : R; zX : Z }.
Definition zzero := mkZcell 0 0 0.
Definition zadd (a b : zcell) := mkZcell (zA a + zA b) (fadd (zx a) (zx b)) (zX a + zX b).
Definition zgood (c : zcell) : Prop := (Z.abs (zX c) <= zA c)%Z /\ (IZR (zA c) <= bpow radix2 prec -> zx c = IZR (zX c)).
Definition zcell_of (v : Z) : zcell := mkZcell (Z.abs v) (IZR v) v.
Lemma int_add a b : IZR (Z.abs (a + b)) <= bpow radix2 prec -> fadd (IZR a) (IZR b) = IZR (a + b).
Proof. intros H. unfold RoundModel.fadd. rewrite <- plus_IZR. apply rn_fmt; auto. apply fmt_int; auto. Qed.
Lemma int_sub a b : IZR (Z.abs (a - b)) <= bpow radix2 prec -> fsub (IZR a) (IZR b) = IZR (a - b).
Proof. intros H. unfold RoundModel.fsub. rewrite <- minus_IZR. apply rn_fmt; auto. apply fmt_int; auto. Qed.
Lemma zgood_add a b : zgood a -> zgood b -> zgood (zadd a b).
Proof.
  intros [A1 A2] [B1 B2]. split; simpl; [lia|]. intros L.
  assert (IZR (zA a) <= IZR (zA a + zA b)) by (apply IZR_le; lia). assert (IZR (zA b) <= IZR (zA a + zA b)) by (apply IZR_le; lia).
  rewrite A2, B2 by lra. apply int_add. eapply Rle_trans; [apply IZR_le|exact L]. lia.
Qed.

Lemma ztotal_nonneg {A} (g : A -> Z) l : (forall x, In x l -> 0 <= g x)%Z -> (0 <= total 0 Z.add (map g l))%Z.
Proof. induction l as [|a l IH]; simpl; intros H; [lia|]. specialize (IH (fun x Hx => H x (or_intror Hx))). specialize (H a (or_introl eq_refl)). lia. Qed.
Lemma ztotal_le {A} (g h : A -> Z) l : (forall x, In x l -> g x <= h x)%Z -> (total 0 Z.add (map g l) <= total 0 Z.add (map h l))%Z.
Proof. induction l as [|a l IH]; simpl; intros H; [lia|]. specialize (IH (fun x Hx => H x (or_intror Hx))). specialize (H a (or_introl eq_refl)). lia. Qed.
Lemma ztotal_abs {A} (g : A -> Z) l : (Z.abs (total 0 Z.add (map g l)) <= total 0 Z.add (map (fun x => Z.abs (g x)) l))%Z.
Proof. induction l as [|a l IH]; simpl; lia. Qed.
Lemma zcumul_mono g a b : (forall i, 0 <= g i)%Z -> (a <= b)%Z -> (@cumul Z 0 Z.add g a <= @cumul Z 0 Z.add g b)%Z.
Proof.
  intros Hg L. unfold cumul. destruct (Z.lt_ge_cases a (-1)) as [N|N].
  - rewrite (zrange_nil 0 (a + 1)) by lia. simpl. apply ztotal_nonneg. auto.
  - rewrite (zrange_split 0 (a + 1) (b + 1)) by lia. rewrite map_app, (total_app 0%Z 1%Z Z.add Z.mul Z.sub Z.opp ZR).
    pose proof (ztotal_nonneg g (zrange (a + 1) (b + 1)) (fun i _ => Hg i)). lia.
Qed.
Lemma zII_mono g x x' y y' : (forall i j, 0 <= g i j)%Z -> (x' <= x)%Z -> (y' <= y)%Z -> (zII g x' y' <= zII g x y)%Z.
Proof.
  intros Hg Lx Ly. unfold II. eapply Z.le_trans; [apply (zcumul_mono _ x' x); auto; intros; apply ztotal_nonneg; auto|].
  apply ztotal_le. intros i _. apply zcumul_mono; auto.
Qed.
Lemma zII_diff g x x' y : (x' <= x)%Z -> (-1 <= x')%Z -> (Z.abs (zII g x y - zII g x' y) <= zII (fun i j => Z.abs (g i j)) x y)%Z.
Proof.
  intros L N. unfold II, cumul. rewrite (zrange_split 0 (x' + 1) (x + 1)) by lia.
  rewrite !map_app, !(total_app 0%Z 1%Z Z.add Z.mul Z.sub Z.opp ZR).
  set (q := fun i => total 0%Z Z.add (map (fun j => g i j) (zrange 0 (y + 1)))).
  set (r := fun i => total 0%Z Z.add (map (fun j => Z.abs (g i j)) (zrange 0 (y + 1)))).
  assert (0 <= total 0 Z.add (map r (zrange 0 (x' + 1))))%Z by (apply ztotal_nonneg; intros; apply ztotal_nonneg; intros; lia).
  assert (Z.abs (total 0 Z.add (map q (zrange (x' + 1) (x + 1)))) <= total 0 Z.add (map r (zrange (x' + 1) (x + 1))))%Z.
  { eapply Z.le_trans; [apply ztotal_abs|]. apply ztotal_le. intros i _. apply ztotal_abs. }
  lia.
Qed.
Lemma zII_abs g x y : (Z.abs (zII g x y) <= zII (fun i j => Z.abs (g i j)) x y)%Z.
Proof. unfold II, cumul. eapply Z.le_trans; [apply ztotal_abs|]. apply ztotal_le. intros i _. apply ztotal_abs. Qed.
Lemma zpixel_abs (img : list (list Z)) x y : pixel 0%Z (map (map Z.abs) img) x y = Z.abs (pixel 0%Z img x y).
Proof.
  unfold pixel. destruct ((0 <=? x)%Z && (0 <=? y)%Z); auto.
  change (@nil Z) with (map Z.abs []) at 1. rewrite (map_nth (map Z.abs)). change 0%Z with (Z.abs 0) at 1. rewrite map_nth. auto.
Qed.

(** The sum of the absolute values of all pixels *)
Definition weight (img : list (list Z)) (w h : nat) : Z :=
  box_sum 0%Z Z.add (fun x y => Z.abs (pixel 0%Z img x y)) (-1) (Z.of_nat w - 1) (-1) (Z.of_nat h - 1).

Lemma int_entry img w h x y : rectangular img w h -> IZR (weight img w h) <= bpow radix2 prec ->
  (0 <= x < Z.of_nat w)%Z -> (0 <= y < Z.of_nat h)%Z ->
  idx R (integral_image R 0 fadd (map (map IZR) img)) y x = Ok (IZR (zII (pixel 0%Z img) x y)) /\
  (zII (fun i j => Z.abs (pixel 0%Z img i j)) x y <= weight img w h)%Z.
Proof.
  intros HR HT HX HY. set (ci := map (map zcell_of) img). set (I := integral_image zcell zzero zadd ci).
  assert (Mx : map (map zx) ci = map (map IZR) img) by (unfold ci; rewrite map_map; apply map_ext; intros r; rewrite map_map; auto).
  assert (MX : map (map zX) ci = img) by (unfold ci; rewrite map_map; rewrite <- (map_id img) at 2; apply map_ext; intros r; rewrite map_map; apply map_id).
  assert (MA : map (map zA) ci = map (map Z.abs) img) by (unfold ci; rewrite map_map; apply map_ext; intros r; rewrite map_map; auto).
  assert (EX := integral_entry 0%Z 1%Z Z.add Z.mul Z.sub Z.opp ZR img w h x y HR HX HY).
  assert (EA := integral_entry 0%Z 1%Z Z.add Z.mul Z.sub Z.opp ZR _ w h x y (rect_map Z.abs img w h HR) HX HY).
  assert (EQ : zII (pixel 0%Z (map (map Z.abs) img)) x y = zII (fun i j => Z.abs (pixel 0%Z img i j)) x y).
  { unfold II. apply total_ext. intros i _. apply total_ext. intros j _. apply zpixel_abs. }
  rewrite EQ in EA. rewrite <- MX in EX at 1. rewrite <- MA in EA.
  rewrite (integral_hom zX zzero 0%Z zadd Z.add eq_refl (fun _ _ => eq_refl)) in EX. rewrite idx_hom in EX.
  rewrite (integral_hom zA zzero 0%Z zadd Z.add eq_refl (fun _ _ => eq_refl)) in EA. rewrite idx_hom in EA.
  rewrite <- Mx, (integral_hom zx zzero 0 zadd fadd eq_refl (fun _ _ => eq_refl)), idx_hom. fold I in EX, EA |- *.
  destruct (idx zcell I y x) as [c|e] eqn:EC; cbn [rmap] in *; [|discriminate]. injection EX as EX. injection EA as EA.
  assert (LW : (zII (fun i j => Z.abs (pixel 0%Z img i j)) x y <= weight img w h)%Z).
  { unfold weight. rewrite (box_II 0%Z 1%Z Z.add Z.mul Z.sub Z.opp ZR). apply zII_mono; lia. }
  split; auto. assert (GC : zgood c).
  { apply (idx_inv zgood I y x); auto. apply integral_inv; auto using zgood_add.
    - split; simpl; auto; lia.
    - unfold ci. apply Forall_map. apply Forall_forall. intros r _. apply Forall_map. apply Forall_forall. intros v _. split; simpl; auto; lia. }
  destruct GC as [_ G]. rewrite G, EX; auto. rewrite EA. eapply Rle_trans; [apply IZR_le|exact HT]. exact LW.
Qed.

(** Counts of at most half of 2^prec in total: no rounding at all. *)
Theorem C108_counts img w h bs : rectangular img w h -> 2 * IZR (weight img w h) <= bpow radix2 prec -> Forall (fits w h) bs ->
  intimg_rect R fadd fsub (integral_image R 0 fadd (map (map IZR) img)) bs =
  Ok (map (fun b => let '(x0, x1, y0, y1) := b in IZR (box_sum 0%Z Z.add (pixel 0%Z img) x0 x1 y0 y1)) bs).
Proof.
  intros HR HT HB.
  assert (W0 : (0 <= weight img w h)%Z) by (apply ztotal_nonneg; intros; apply ztotal_nonneg; intros; lia).
  assert (HT1 : IZR (weight img w h) <= bpow radix2 prec) by (apply IZR_le in W0; lra).
  assert (FIT : forall z, (Z.abs z <= 2 * weight img w h)%Z -> IZR (Z.abs z) <= bpow radix2 prec).
  { intros z Hz. apply IZR_le in Hz. rewrite mult_IZR in Hz. lra. }
  unfold intimg_rect. replace (forallb _ bs) with true.
  - induction HB as [|b bs Hb HB IH]; simpl; auto. rewrite IH.
    destruct b as [[[x0 x1] y0] y1]. destruct Hb as (HX & HY & HX0 & HY0).
    set (T := weight img w h) in *. set (g := pixel 0%Z img) in *.
    assert (I : forall x y, (0 <= x < Z.of_nat w)%Z -> (0 <= y < Z.of_nat h)%Z ->
       idx R (integral_image R 0 fadd (map (map IZR) img)) y x = Ok (IZR (zII g x y)) /\ (Z.abs (zII g x y) <= T)%Z).
    { intros x y Hx Hy. destruct (int_entry img w h x y HR HT1 Hx Hy) as [A B]. split; auto. eapply Z.le_trans; [apply zII_abs|exact B]. }
    assert (E : rect1 R fadd fsub (integral_image R 0 fadd (map (map IZR) img)) (x0, x1, y0, y1) =
        Ok (IZR (box_sum 0%Z Z.add g x0 x1 y0 y1))); [|rewrite E; reflexivity].
    rewrite (box_diff 0%Z 1%Z Z.add Z.mul Z.sub Z.opp ZR); [|apply pixel_vanishes|lia|lia]. unfold rect1.
    destruct (I x1 y1) as [-> B11]; [lia|lia|]. cbn [bind].
    assert (D : (-1 <= x0)%Z -> (Z.abs (zII g x1 y1 - zII g x0 y1) <= T)%Z).
    { intros L. eapply Z.le_trans; [apply zII_diff; lia|]. destruct (int_entry img w h x1 y1 HR HT1) as [_ Q]; auto. }
    assert (NX : (x0 < 0)%Z -> forall y, zII g x0 y = 0%Z) by (intros L y; apply cumul_neg; auto).
    assert (NY : (y0 < 0)%Z -> forall x, zII g x y0 = 0%Z) by (intros L x; apply (cumul_zero 0%Z 1%Z Z.add Z.mul Z.sub Z.opp ZR); intros; apply cumul_neg; auto).
    destruct (Z.leb_spec 0 x0), (Z.leb_spec 0 y0); simpl andb; cbv iota; cbn [bind];
      try (destruct (I x0 y0) as [-> B00]; [lia|lia|]); cbn [bind];
      try (destruct (I x0 y1) as [-> B01]; [lia|lia|]); cbn [bind];
      try (destruct (I x1 y0) as [-> B10]; [lia|lia|]); cbn [bind].
    + rewrite int_add by (apply FIT; lia). specialize (D ltac:(lia)). rewrite int_sub by (apply FIT; lia).
      assert (BX : (Z.abs (zII g x1 y1 + zII g x0 y0 - zII g x0 y1 - zII g x1 y0) <= 2 * T)%Z).
      { assert (D2 : (Z.abs (zII g x1 y0 - zII g x0 y0) <= T)%Z); [|lia].
        eapply Z.le_trans; [apply zII_diff; lia|]. destruct (int_entry img w h x1 y0 HR HT1) as [_ Q]; auto; lia. }
      rewrite int_sub by (apply FIT; exact BX). do 2 f_equal. lia.
    + rewrite !NY by lia. specialize (D ltac:(lia)). rewrite int_sub by (apply FIT; lia). do 2 f_equal. lia.
    + rewrite !NX by lia. assert (BX : (Z.abs (zII g x1 y1 - zII g x1 y0) <= 2 * T)%Z) by lia.
      rewrite int_sub by (apply FIT; exact BX). do 2 f_equal. lia.
    + rewrite !NX, !NY by lia. do 2 f_equal. lia.
  - symmetry. apply forallb_forall. intros b Hb. rewrite Forall_forall in HB. apply HB in Hb.
    destruct b as [[[x0 x1] y0] y1]. destruct Hb as (? & ? & ? & ?). repeat (apply andb_true_intro; split); try (apply Z.leb_le; lia); apply Z.ltb_lt; lia.
Qed.
End C108.

(** ** Cases, computed in the machine's 64-bit floats *)
(** No pixel is negative, yet a box is; its only pixel is zero (the others
    are 0.1, 0.1 and 0.2). *)
Theorem C108_sign_refuted : exists v,
  intimg_rect PrimFloat.float PrimFloat.add PrimFloat.sub (integral_image PrimFloat.float 0%float PrimFloat.add [[0x1.999999999999ap-4; 0x1.999999999999ap-4]; [0x1.999999999999ap-3; 0]]%float) [(0, 1, 0, 1)%Z] = Ok [v] /\
  (v <? 0)%float = true.
Proof. eexists. split; [vm_compute; reflexivity|vm_compute; reflexivity]. Qed.
(** A total of 2^52 + 2, less than 2^53, is not exact. *)
Theorem C108_large_counts_refuted :
  intimg_rect PrimFloat.float PrimFloat.add PrimFloat.sub (integral_image PrimFloat.float 0%float PrimFloat.add [[4503599627370497; 1]; [0; 0]]%float) [(0, 1, 0, 1)%Z] = Ok [1%float] /\
  weight [[4503599627370497; 1]; [0; 0]]%Z 2 2 = (2 ^ 52 + 2)%Z /\
  box_sum 0%Z Z.add (pixel 0%Z [[4503599627370497; 1]; [0; 0]]%Z) 0 1 0 1 = 0%Z.
Proof. repeat split; vm_compute; reflexivity. Qed.

(** Counts of a small image in binary32: exact, by the theorem *)
Example C108_ex : intimg_rect R (fadd 24 (-149)) (fsub 24 (-149)) (integral_image R 0 (fadd 24 (-149)) (map (map IZR) ex_img)) [(0, 2, 0, 2)%Z; (-1, 1, -1, 0)%Z] = Ok [29; 3].
Proof.
  rewrite (C108_counts 24 (-149)) with (w := 3%nat) (h := 3%nat); [reflexivity|lia|lia| | |].
  - split; repeat constructor.
  - change (weight ex_img 3 3) with 46%Z. simpl. lra.
  - repeat constructor; simpl; lia.
Qed.
Example C108_error_ex : rectangular [[1; 2]; [3; 4]] 2 2 /\ Forall (Forall (fmt 24 (-149))) [[1; 2]; [3; 4]] /\ Forall (fits 2 2) [(0, 1, 0, 1)%Z].
Proof.
  split; [split; repeat constructor|]. split; [|repeat constructor; simpl; lia].
  repeat constructor; apply (fmt_int 24 (-149)); simpl; lia || lra.
Qed.

Print Assumptions C108_error.
Print Assumptions C108_counts.
Print Assumptions C108_sign_refuted.
Print Assumptions C108_large_counts_refuted.
