(** C91: Tractor sources from SDSS catalogues. *)
From Coq Require Import String List ZArith Reals Bool Lia Lra Sorted.
From Verif Require Import Base SdssSrcModel.
Import ListNotations.
Open Scope R_scope.
Local Open Scope list_scope.

(** ** Specification *)
Section Spec.
Variable nmgy_to_mag : R -> R.
Variable c : config.

(** The rows that are asked for (radecrad apart). *)
Definition inside (r : row) : Prop :=
  (forall x0 x1 y0 y1, c_roi c = Some (x0, x1, y0, y1) ->
     x0 <= r_colc r (c_bandnum c) < x1 /\ y0 <= r_rowc r (c_bandnum c) < y1) /\
  (forall a0 a1 d0 d1, c_radecroi c = Some (a0, a1, d0, d1) -> a0 <= r_ra r <= a1 /\ d0 <= r_dec r <= d1) /\
  (c_objcuts c = true -> r_nchild r = 0%Z /\ r_isbright r = false) /\
  (c_primary c = true -> r_isprimary r = true).

(** Stars and galaxies. *)
Definition star (r : row) : Prop :=
  c_force c = true \/ (if c_usetype c then r_type r = 6%Z else r_prob r (c_bandnum c) = 1).
Definition galaxy (r : row) : Prop :=
  c_force c = false /\ (if c_usetype c then r_type r = 3%Z else r_prob r (c_bandnum c) = 0).

(** The value of a band with the given flux. *)
Definition value (f : R) : R :=
  if c_nmgy c then f else if ltb 0 f then nmgy_to_mag f else c_badmag c.

(** A brightness that tells the given fluxes: one value for each band asked
    for, in order, then the extra bands, at zero flux or the bad magnitude. *)
Definition tells (b : bright) (flux : nat -> R) : Prop :=
  b_nmgy b = c_nmgy c /\
  map fst (b_vals b) = map fst (c_bands c) ++ c_extra c /\
  (forall i name k, nth_error (c_bands c) i = Some (name, k) -> nth_error (b_vals b) i = Some (name, value (flux k))) /\
  (c_bands c <> [] -> forall j name, nth_error (c_extra c) j = Some name ->
     nth_error (b_vals b) (length (c_bands c) + j) = Some (name, if c_nmgy c then 0 else c_badmag c)).

(** The shape of a table row turned into a Tractor shape. *)
Definition shaped (h h' : shape) : Prop :=
  h_re h' = Rmax (h_re h) (1 / 30) /\ h_ab h' = h_ab h /\ h_phi h' = - h_phi h.

(** The source that a row should become. *)
Definition right_source (r : row) (s : source) : Prop :=
  let f := r_fracdev r (c_bandnum c) in
  let dev := r_dev r (c_bandnum c) in
  let exp := r_exp r (c_bandnum c) in
  let at_ p := p = (r_ra r, r_dec r) in
  match s with
  | Point p b => star r /\ at_ p /\ tells b (r_psf r)
  | Dev p b h => galaxy r /\ 1 <= f /\ at_ p /\ tells b (r_devflux r) /\ shaped dev h
  | Exp p b h => galaxy r /\ f <= 0 /\ at_ p /\ tells b (r_expflux r) /\ shaped exp h
  | Comp p be he bd hd => galaxy r /\ 0 < f < 1 /\ c_fixed c = false /\ at_ p /\ shaped exp he /\ shaped dev hd /\
      tells bd (fun b => r_cmodel r b * f) /\ tells be (fun b => r_cmodel r b * (1 - f))
  | Fixed p b fdev he hd => galaxy r /\ 0 < f < 1 /\ c_fixed c = true /\ at_ p /\ shaped exp he /\ shaped dev hd /\
      tells b (r_cmodel r) /\ fdev = f
  end.
End Spec.

(** ** Proofs *)
Lemma leb_true a b : leb a b = true <-> a <= b.
Proof. unfold leb. destruct (Rle_dec a b); split; auto; discriminate. Qed.
Lemma ltb_true a b : ltb a b = true <-> a < b.
Proof. unfold ltb. destruct (Rlt_dec a b); split; auto; discriminate. Qed.
Lemma eqb_true a b : eqb a b = true <-> a = b.
Proof. unfold eqb. destruct (Req_EM_T a b); split; auto; discriminate. Qed.

Section Src.
Variable nmgy_to_mag : R -> R.
Variable c : config.
Notation make := (make nmgy_to_mag c).
Notation nmgy2bright := (nmgy2bright nmgy_to_mag c).
Notation get_sources := (get_sources nmgy_to_mag c).
Notation right_source := (right_source nmgy_to_mag c).
Notation tells := (tells nmgy_to_mag c).

Lemma combine_fst {A B} (l : list A) (m : list B) : length l = length m -> map fst (combine l m) = l.
Proof. revert m. induction l as [|a l IH]; intros [|b m] E; cbn in *; try discriminate; [reflexivity|]. rewrite IH by lia. reflexivity. Qed.

Lemma nth_combine {A B} (l : list A) (m : list B) i a b : nth_error l i = Some a -> nth_error m i = Some b -> nth_error (combine l m) i = Some (a, b).
Proof.
  revert m i. induction l as [|x l IH]; intros [|y m] [|i] H1 H2; cbn in *; try discriminate; [congruence|auto].
Qed.

Lemma combine_fst_le {A B} (l : list A) (m : list B) : (length l <= length m)%nat -> map fst (combine l m) = l.
Proof. revert m. induction l as [|a l IH]; intros [|b m] E; cbn in *; try lia; [reflexivity|reflexivity|]. rewrite IH by lia. reflexivity. Qed.

Lemma bright_vals flux : c_bands c <> [] -> nmgy2bright flux =
  mkBright (c_nmgy c) (combine (map fst (c_bands c) ++ c_extra c)
    (map (fun b => value nmgy_to_mag c (flux (snd b))) (c_bands c) ++ map (fun _ => if c_nmgy c then 0 else c_badmag c) (c_extra c))).
Proof.
  intros NE. unfold SdssSrcModel.nmgy2bright, value. destruct (c_bands c) as [|b0 bs]; [contradiction|].
  destruct (c_nmgy c); destruct (c_extra c) as [|e ex]; rewrite ?map_map, ?app_nil_r; cbn [map]; rewrite ?app_nil_r; reflexivity.
Qed.

Lemma tells_bright flux : tells (nmgy2bright flux) flux.
Proof.
  unfold tells. destruct (c_bands c) as [|b0 bs] eqn:EB.
  - unfold SdssSrcModel.nmgy2bright. rewrite EB. destruct (c_nmgy c) eqn:EN; cbn [b_nmgy b_vals map app].
    + split; [reflexivity|]. split.
      * destruct (c_extra c) as [|e ex]; [reflexivity|]. apply combine_fst. cbn [length]. rewrite ?map_length. cbn [map length]. rewrite ?map_length. reflexivity.
      * split; [intros [|i] name k H; discriminate|]. intros H; contradiction.
    + split; [reflexivity|]. split.
      * destruct (c_extra c) as [|e ex]; [reflexivity|]. apply combine_fst_le. cbn. rewrite map_length. lia.
      * split; [intros [|i] name k H; discriminate|]. intros H; contradiction.
  - rewrite <- EB. assert (NE : c_bands c <> []) by (rewrite EB; discriminate).
    fold (nmgy2bright flux). rewrite (bright_vals flux NE). split; [reflexivity|]. cbn [b_vals].
    set (B := c_bands c). set (fl := map (fun b => value nmgy_to_mag c (flux (snd b))) B).
    assert (Lf : length fl = length B) by apply map_length.
    split; [|split].
    + apply combine_fst. rewrite !app_length, !map_length, Lf. reflexivity.
    + intros i name k H. assert (i < length B)%nat by (apply nth_error_Some; congruence).
      apply nth_combine.
      * rewrite nth_error_app1 by (rewrite map_length; lia). rewrite nth_error_map, H. reflexivity.
      * rewrite nth_error_app1 by lia. unfold fl. rewrite nth_error_map, H. reflexivity.
    + intros _ j name H. apply nth_combine.
      * rewrite nth_error_app2 by (rewrite map_length; lia). rewrite map_length.
        replace (length B + j - length B)%nat with j by lia. exact H.
      * rewrite nth_error_app2 by lia. rewrite Lf. replace (length B + j - length B)%nat with j by lia.
        rewrite nth_error_map, H. reflexivity.
Qed.

Lemma num_cases (b : bool) : num b = if b then 1 else 0. Proof. reflexivity. Qed.

(** What the loop makes of a row. *)
Lemma make_right r i s : make (fix_row (with_index r i)) = Some s -> right_source r s.
Proof.
  unfold SdssSrcModel.make, weights, right_source, star, galaxy.
  cbn [fix_row with_index r_type r_prob r_fracdev r_ra r_dec r_psf r_cmodel r_devflux r_expflux r_dev r_exp].
  set (f := r_fracdev r (c_bandnum c)).
  assert (SH : forall h, shaped h (fix_shape h)) by (intros h; repeat split).
  destruct (c_force c) eqn:EF.
  { replace (eqb 1 0) with false by (symmetry; apply not_true_is_false; rewrite eqb_true; lra). cbn [negb].
    intros H; injection H as <-. split; [left; reflexivity|]. split; [reflexivity|apply tells_bright]. }
  destruct (c_usetype c) eqn:EU.
  1: destruct (r_type r =? 6)%Z eqn:ES; destruct (r_type r =? 3)%Z eqn:EG.
  5: destruct (eqb (r_prob r (c_bandnum c)) 1) eqn:ES; destruct (eqb (r_prob r (c_bandnum c)) 0) eqn:EG.
  all: cbv beta iota; cbn [num].
  all: rewrite ?Z.eqb_eq, ?eqb_true in ES; rewrite ?Z.eqb_eq, ?eqb_true in EG.
  all: try (replace (eqb 1 0) with false by (symmetry; apply not_true_is_false; rewrite eqb_true; lra);
    cbn [negb]; intros H; injection H as <-; split; [right; exact ES|]; split; [reflexivity|apply tells_bright]).
  all: try (rewrite ES in EG; lra).
  all: replace (eqb 0 0) with true by (symmetry; apply eqb_true; reflexivity); cbn [negb].
  all: rewrite ?Rmult_0_l, ?Rmult_1_l.
  all: try (replace (ltb 0 0) with false by (symmetry; apply not_true_is_false; rewrite ltb_true; lra); cbn [andb]; discriminate).
  all: destruct (ltb 0 f) eqn:E1; destruct (ltb 0 (1 - f)) eqn:E2; cbn [andb].
  all: try (apply not_true_iff_false in E1; rewrite ltb_true in E1); try (apply not_true_iff_false in E2; rewrite ltb_true in E2).
  all: rewrite ?ltb_true in E1; rewrite ?ltb_true in E2.
  all: try discriminate.
  all: try (destruct (c_fixed c) eqn:EX).
  all: try (intros H; injection H as <-).
  all: split; [split; [reflexivity|exact EG]|].
  all: repeat split; try lra; try apply SH; try apply tells_bright; try reflexivity.
  all: try (field; lra).
  all: apply tells_bright.
Qed.

Lemma make_some r i : star c r \/ galaxy c r -> make (fix_row (with_index r i)) <> None.
Proof.
  unfold SdssSrcModel.make, weights, star, galaxy.
  cbn [fix_row with_index r_type r_prob r_fracdev r_ra r_dec r_psf r_cmodel r_devflux r_expflux r_dev r_exp].
  set (f := r_fracdev r (c_bandnum c)). intros H.
  assert (E10 : eqb 1 0 = false) by (apply not_true_is_false; rewrite eqb_true; lra).
  assert (E00 : eqb 0 0 = true) by (apply eqb_true; reflexivity).
  destruct (c_force c) eqn:EF; [rewrite E10; discriminate|].
  assert (D : forall ls lg : bool, ls = true \/ lg = true ->
    (let '(ls, ldev, lexp) := (let '(a, b) := (num ls, num lg) in (a, b * f, b * (1 - f))) in
     if negb (eqb ls 0) then True else (ltb 0 ldev = true \/ ltb 0 lexp = true))).
  { intros ls lg [->| ->]; cbn [num]; [rewrite E10; exact I|]. destruct ls; cbn [num]; [rewrite E10; exact I|].
    rewrite E00. cbn [negb]. rewrite !Rmult_1_l, !ltb_true. destruct (Rlt_dec 0 f); [left; lra|right; lra]. }
  assert (G : exists ls lg : bool, (ls = true \/ lg = true) /\
    (if c_usetype c then (num (r_type r =? 6)%Z, num (r_type r =? 3)%Z)
     else (num (eqb (r_prob r (c_bandnum c)) 1), num (eqb (r_prob r (c_bandnum c)) 0))) = (num ls, num lg)).
  { destruct (c_usetype c).
    - exists (r_type r =? 6)%Z, (r_type r =? 3)%Z. split; [|reflexivity]. rewrite !Z.eqb_eq.
      destruct H as [[H|H]|(_ & H)]; [discriminate|left|right]; exact H.
    - exists (eqb (r_prob r (c_bandnum c)) 1), (eqb (r_prob r (c_bandnum c)) 0). split; [|reflexivity]. rewrite !eqb_true.
      destruct H as [[H|H]|(_ & H)]; [discriminate|left|right]; exact H. }
  destruct G as (ls & lg & Hl & ->). specialize (D ls lg Hl). cbv beta iota in *.
  destruct (negb (eqb (num ls) 0)); [discriminate|].
  destruct (ltb 0 (num lg * f)); destruct (ltb 0 (num lg * (1 - f))); cbn [andb].
  - destruct (c_fixed c); discriminate.
  - discriminate.
  - discriminate.
  - destruct D; discriminate.
Qed.

Fixpoint filter_map {A B} (f : A -> option B) (l : list A) : list B :=
  match l with [] => [] | a :: l => match f a with Some b => b :: filter_map f l | None => filter_map f l end end.
Definition made (r : row) : bool := match make r with Some _ => true | None => false end.

Lemma loop_fst i l : fst (loop nmgy_to_mag c i l) = filter_map make l.
Proof.
  revert i. induction l as [|r l IH]; intros i; cbn [loop filter_map]; [reflexivity|].
  specialize (IH (S i)). destruct (loop nmgy_to_mag c (S i) l) as (ss, is). cbn [fst] in IH.
  destruct (make r); cbn [fst]; rewrite IH; reflexivity.
Qed.

Lemma loop_pick pre l : pick (pre ++ l) (snd (loop nmgy_to_mag c (length pre) l)) = Ok (filter made l).
Proof.
  revert pre. induction l as [|r l IH]; intros pre; cbn [loop filter]; [reflexivity|].
  specialize (IH (pre ++ [r])). rewrite app_length in IH. cbn [length] in IH.
  replace (length pre + 1)%nat with (S (length pre)) in IH by lia.
  rewrite <- app_assoc in IH. cbn [app] in IH.
  destruct (loop nmgy_to_mag c (S (length pre)) l) as (ss, is). cbn [snd] in IH. unfold made at 1.
  destruct (make r); cbn [snd]; [|exact IH]. cbn [pick]. unfold py_get.
  rewrite nth_error_app2 by lia. rewrite Nat.sub_diag. cbn [nth_error bind]. rewrite IH. reflexivity.
Qed.

Lemma filter_map_Forall2 l : Forall2 (fun r s => make r = Some s) (filter made l) (filter_map make l).
Proof.
  induction l as [|r l IH]; cbn [filter filter_map]; [constructor|]. unfold made at 1.
  destruct (make r) eqn:E; [constructor; assumption|exact IH].
Qed.

Lemma filter_map_length l : length (filter_map make l) = length (filter made l).
Proof. induction l as [|r l IH]; cbn [filter filter_map]; [reflexivity|]. unfold made at 1. destruct (make r); cbn [length]; lia. Qed.

Lemma filter_all {A} (f : A -> bool) l : length (filter f l) = length l -> filter f l = l.
Proof.
  induction l as [|a l IH]; cbn [filter]; [reflexivity|]. assert (length (filter f l) <= length l)%nat.
  { clear. induction l as [|b l IH]; cbn [filter]; [lia|]. destruct (f b); cbn [length]; lia. }
  destruct (f a); cbn [length]; intros E; [rewrite IH by lia; reflexivity|lia].
Qed.

Lemma filter_le {A} (f : A -> bool) l : (length (filter f l) <= length l)%nat.
Proof. induction l as [|b l IH]; cbn [filter]; [lia|]. destruct (f b); cbn [length]; lia. Qed.

Lemma number_in k l r : In r (number k l) <-> exists i r0, nth_error l i = Some r0 /\ r = with_index r0 (k + i).
Proof.
  revert k. induction l as [|a l IH]; intros k; cbn [number].
  - split; [intros []|]. intros ([|i] & r0 & H & _); discriminate.
  - cbn [In]. rewrite IH. split.
    + intros [<-|(i & r0 & H & ->)].
      * exists 0%nat, a. rewrite Nat.add_0_r. auto.
      * exists (S i), r0. split; [exact H|]. f_equal. lia.
    + intros ([|i] & r0 & H & ->).
      * left. cbn in H. injection H as ->. rewrite Nat.add_0_r. reflexivity.
      * right. exists i, r0. split; [exact H|]. f_equal. lia.
Qed.

Lemma number_index k l : map r_index (number k l) = seq k (length l).
Proof. revert k. induction l as [|a l IH]; intros k; cbn [number map seq length]; [reflexivity|]. rewrite IH. reflexivity. Qed.

Lemma number_length k l : length (number k l) = length l.
Proof. revert k. induction l as [|a l IH]; intros k; cbn [number length]; [reflexivity|]. rewrite IH. reflexivity. Qed.

Lemma seq_sorted k n : StronglySorted lt (seq k n).
Proof. revert k. induction n as [|n IH]; intros k; cbn [seq]; constructor; [apply IH|]. apply Forall_forall. intros x H. apply in_seq in H. lia. Qed.

Lemma sorted_filter (f : row -> bool) l : StronglySorted lt (map r_index l) -> StronglySorted lt (map r_index (filter f l)).
Proof.
  induction l as [|a l IH]; cbn [map filter]; intros H; [constructor|].
  inversion H as [|? ? H1 H2]; subst. destruct (f a); [|apply IH; exact H1].
  cbn [map]. constructor; [apply IH; exact H1|].
  rewrite Forall_forall in *. intros x I. apply H2. apply in_map_iff in I. destruct I as (y & <- & I). apply filter_In in I. apply in_map. tauto.
Qed.

Definition insideb (r : row) : bool := in_roi c r && in_radecroi c r && good c r && primary c r.

Lemma insideb_true r : insideb r = true <-> inside c r.
Proof.
  unfold insideb, inside, in_roi, in_radecroi, good, primary. rewrite !andb_true_iff.
  assert (T1 : (match c_roi c with None => true | Some (x0, x1, y0, y1) =>
      let x := r_colc r (c_bandnum c) in let y := r_rowc r (c_bandnum c) in leb x0 x && ltb x x1 && leb y0 y && ltb y y1 end = true)
    <-> (forall x0 x1 y0 y1, c_roi c = Some (x0, x1, y0, y1) ->
     x0 <= r_colc r (c_bandnum c) < x1 /\ y0 <= r_rowc r (c_bandnum c) < y1)).
  { destruct (c_roi c) as [[[[x0 x1] y0] y1]|].
    - cbv zeta. rewrite !andb_true_iff, !leb_true, !ltb_true. split.
      + intros H a b d e E. injection E as <- <- <- <-. lra.
      + intros H. specialize (H x0 x1 y0 y1 eq_refl). lra.
    - split; [intros _ a b d e E; discriminate|reflexivity]. }
  assert (T2 : (match c_radecroi c with None => true | Some (r0, r1, d0, d1) => leb r0 (r_ra r) && leb (r_ra r) r1 && leb d0 (r_dec r) && leb (r_dec r) d1 end = true)
    <-> (forall a0 a1 d0 d1, c_radecroi c = Some (a0, a1, d0, d1) -> a0 <= r_ra r <= a1 /\ d0 <= r_dec r <= d1)).
  { destruct (c_radecroi c) as [[[[x0 x1] y0] y1]|].
    - rewrite !andb_true_iff, !leb_true. split.
      + intros H a b d e E. injection E as <- <- <- <-. lra.
      + intros H. specialize (H x0 x1 y0 y1 eq_refl). lra.
    - split; [intros _ a b d e E; discriminate|reflexivity]. }
  rewrite T1, T2. destruct (c_objcuts c); destruct (c_primary c); rewrite ?andb_true_iff, ?Z.eqb_eq, ?negb_true_iff; intuition congruence.
Qed.

Lemma filter_filter {A} (f g : A -> bool) l : filter f (filter g l) = filter (fun x => g x && f x) l.
Proof. induction l as [|a l IH]; cbn [filter]; [reflexivity|]. destruct (g a); cbn [filter andb]; [destruct (f a)|]; rewrite IH; reflexivity. Qed.

Lemma filter_ext' {A} (f g : A -> bool) l : (forall a, f a = g a) -> filter f l = filter g l.
Proof. intros E. induction l as [|a l IH]; cbn [filter]; [reflexivity|]. rewrite E, IH. reflexivity. Qed.

Lemma cuts_plain l : c_near c = None -> cuts c l = Ok (filter insideb l).
Proof.
  intros N. unfold cuts. rewrite N. cbn [bind]. rewrite !filter_filter. f_equal. apply filter_ext'.
  intros a. unfold insideb. destruct (in_roi c a), (in_radecroi c a), (good c a), (primary c a); reflexivity.
Qed.

Lemma pick_in l J l' r : pick l J = Ok l' -> In r l' -> In r l.
Proof.
  revert l'. induction J as [|j J IH]; cbn [pick]; intros l' H I; [injection H as <-; destruct I|].
  unfold py_get in H. destruct (nth_error l j) eqn:E; cbn [bind] in H; [|discriminate].
  destruct (pick l J) as [rs|]; cbn [bind] in H; [|discriminate]. injection H as <-.
  destruct I as [<-|I]; [eapply nth_error_In; exact E|]. apply (IH rs); auto.
Qed.

Lemma cuts_in l k r : cuts c l = Ok k -> In r k -> In r l /\ inside c r.
Proof.
  unfold cuts. intros H I.
  destruct (match c_near c with None => Ok _ | Some near => _ end) as [m|] eqn:E; cbn [bind] in H; [|discriminate].
  injection H as <-. apply filter_In in I. destruct I as (I & I1). apply filter_In in I. destruct I as (I & I2).
  assert (J : In r (filter (in_radecroi c) (filter (in_roi c) l))).
  { destruct (c_near c) as [near|]; [apply (pick_in _ _ _ _ E I)|injection E as <-; exact I]. }
  apply filter_In in J. destruct J as (J & J1). apply filter_In in J. destruct J as (J & J2).
  split; [exact J|]. apply insideb_true. unfold insideb. rewrite J1, J2, I1, I2. reflexivity.
Qed.

(** The list the loop runs over. *)
Definition final (kept : list row) : list row := typed c (map fix_row kept).

Lemma typed_star r : star c r \/ galaxy c r -> forall i, In (fix_row (with_index r i)) (typed c [fix_row (with_index r i)]).
Proof.
  intros H i. unfold typed. destruct (negb (c_force c) && c_usetype c) eqn:E; [|left; reflexivity].
  apply andb_true_iff in E. destruct E as (E1 & E2). apply negb_true_iff in E1. unfold star, galaxy in H. rewrite E1, E2 in H.
  cbn [filter fix_row with_index r_type].
  destruct H as [[H|H]|(_ & H)]; [discriminate| |]; rewrite H; left; reflexivity.
Qed.

Lemma typed_in r l : In r l -> In r (typed c [r]) -> In r (typed c l).
Proof.
  unfold typed. destruct (negb (c_force c) && c_usetype c); [|auto]. intros H1 H2. apply filter_In in H2. apply filter_In. tauto.
Qed.

Lemma typed_sub r l : In r (typed c l) -> In r l.
Proof. unfold typed. destruct (negb (c_force c) && c_usetype c); [intros H; apply filter_In in H; tauto|auto]. Qed.

(** get_sources, once and for all. *)
Lemma get_sources_spec objs kept : cuts c (number 0 objs) = Ok kept ->
  let l := final kept in
  let rows := filter made l in
  get_sources objs = match kept with
    | [] => (Ok ([], if c_wantobjs c then Some (mkExtras None None None) else None), [])
    | _ :: _ =>
        ((if c_wantobjs c then
            match rows with
            | [] => match l with [] => Ok ([], Some (mkExtras (Some (number 0 objs)) (Some []) (Some []))) | _ :: _ => Err IndexError end
            | _ :: _ => Ok (filter_map make l, Some (mkExtras (Some (number 0 objs)) (Some (map r_index rows)) (Some rows)))
            end
          else Ok (filter_map make l, None)), l)
    end.
Proof.
  intros E l rows. unfold SdssSrcModel.get_sources. rewrite E. destruct kept as [|k0 ks]; [reflexivity|].
  fold (final (k0 :: ks)). fold l. pose proof (loop_fst 0 l) as F. pose proof (loop_pick [] l) as G. cbn [app length] in G.
  destruct (loop nmgy_to_mag c 0 l) as (ss, is). cbn [fst snd] in F, G. subst ss. destruct (c_wantobjs c); [|reflexivity].
  rewrite filter_map_length. fold rows in G |- *. destruct (Nat.ltb_spec (length rows) (length l)) as [L|L].
  - destruct is as [|i is].
    + cbn [pick] in G. injection G as G. rewrite <- G. destruct l; [cbn in L; lia|reflexivity].
    + rewrite G. cbn [bind]. destruct rows as [|r0 rs] eqn:ER; [|reflexivity].
      exfalso. cbn [pick] in G. destruct (py_get l i); cbn [bind] in G; [|discriminate]. destruct (pick l is); discriminate.
  - assert (rows = l) as ->.
    { apply filter_all. pose proof (filter_le made l). unfold rows in L |- *. lia. }
    destruct l; reflexivity.
Qed.

Lemma final_row kept objs r : cuts c (number 0 objs) = Ok kept -> In r (final kept) ->
  exists r0, nth_error objs (r_index r) = Some r0 /\ r = fix_row (with_index r0 (r_index r)) /\ inside c r0.
Proof.
  intros E H. apply typed_sub in H. apply in_map_iff in H. destruct H as (r1 & <- & H).
  destruct (cuts_in _ _ _ E H) as (H1 & H2). apply number_in in H1. destruct H1 as (i & r0 & H1 & ->).
  exists r0. cbn [fix_row with_index r_index plus]. split; [exact H1|]. split; [reflexivity|exact H2].
Qed.

Lemma Forall2_map_l {A B C} (P : C -> B -> Prop) (f : A -> C) l m : Forall2 (fun a b => P (f a) b) l m -> Forall2 P (map f l) m.
Proof. induction 1; cbn [map]; constructor; auto. Qed.

Lemma Forall2_impl_in {A B} (P Q : A -> B -> Prop) l m : (forall a b, In a l -> P a b -> Q a b) -> Forall2 P l m -> Forall2 Q l m.
Proof. intros H F. induction F; constructor; [apply H; [left; reflexivity|assumption]|]. apply IHF. intros; apply H; [right|]; assumption. Qed.

(** Every source returned is the right one for a row of the table that was
    asked for, the one named by getobjinds. *)
Theorem C91_right objs ss e tbl : get_sources objs = (Ok (ss, e), tbl) ->
  exists rows, Forall2 (fun i s => exists r, nth_error objs i = Some r /\ inside c r /\ right_source r s) rows ss /\
    (forall x, e = Some x -> ss <> [] -> e_inds x = Some rows /\
       exists rs, e_rows x = Some rs /\ map r_index rs = rows).
Proof.
  intros H. destruct (cuts c (number 0 objs)) as [kept|] eqn:E.
  - rewrite (get_sources_spec objs kept E) in H. set (l := final kept) in *.
    assert (FF : Forall2 (fun i s => exists r, nth_error objs i = Some r /\ inside c r /\ right_source r s) (map r_index (filter made l)) (filter_map make l)).
    { apply Forall2_map_l. eapply Forall2_impl_in; [|apply filter_map_Forall2]. intros r s Ir M. apply filter_In in Ir. destruct Ir as (Ir & _).
      destruct (final_row kept objs r E Ir) as (r0 & H1 & H2 & H3). exists r0. split; [exact H1|]. split; [exact H3|].
      rewrite H2 in M. apply (make_right r0 _ s M). }
    exists (map r_index (filter made l)). destruct kept as [|k0 ks].
    + injection H as <- <- <-. split; [|intros x _ N; contradiction].
      assert (l = []) as -> by (unfold l, final, typed; destruct (_ && _); reflexivity). constructor.
    + destruct (c_wantobjs c).
      * destruct (filter made l) as [|r0 rs] eqn:ER.
        -- destruct l; [|discriminate]. injection H as <- <- <-. split; [exact FF|intros x _ N; contradiction].
        -- injection H as <- <- <-. split; [exact FF|]. intros x X _. injection X as <-. cbn [e_inds e_rows].
           split; [reflexivity|]. exists (r0 :: rs). auto.
      * injection H as <- <- <-. split; [exact FF|]. intros x X; discriminate.
  - unfold SdssSrcModel.get_sources in H. rewrite E in H. discriminate.
Qed.

(** Without radecrad, the sources come in the order of the table, each row at
    most once, and every star or galaxy asked for is there. *)
Theorem C91_all objs ss e tbl : c_near c = None -> get_sources objs = (Ok (ss, e), tbl) ->
  exists rows, Forall2 (fun i s => exists r, nth_error objs i = Some r /\ inside c r /\ right_source r s) rows ss /\
    StronglySorted lt rows /\
    (forall i r, nth_error objs i = Some r -> inside c r -> star c r \/ galaxy c r -> In i rows).
Proof.
  intros N H. pose proof (cuts_plain (number 0 objs) N) as E. set (kept := filter insideb (number 0 objs)) in *.
  rewrite (get_sources_spec objs kept E) in H. set (l := final kept) in *.
  assert (FF : Forall2 (fun i s => exists r, nth_error objs i = Some r /\ inside c r /\ right_source r s) (map r_index (filter made l)) (filter_map make l)).
  { apply Forall2_map_l. eapply Forall2_impl_in; [|apply filter_map_Forall2]. intros r s Ir M. apply filter_In in Ir. destruct Ir as (Ir & _).
    destruct (final_row kept objs r E Ir) as (r0 & H1 & H2 & H3). exists r0. split; [exact H1|]. split; [exact H3|].
    rewrite H2 in M. apply (make_right r0 _ s M). }
  assert (SS : ss = filter_map make l).
  { destruct kept as [|k0 ks]; [injection H as <- <- <-; assert (l = []) as -> by (unfold l, final, typed; destruct (_ && _); reflexivity); reflexivity|].
    destruct (c_wantobjs c); [|injection H as <- <- <-; reflexivity].
    destruct (filter made l) as [|r0 rs] eqn:ER; [|injection H as <- <- <-; reflexivity].
    destruct l; [injection H as <- <- <-; reflexivity|discriminate]. }
  subst ss. exists (map r_index (filter made l)). split; [exact FF|]. split.
  - apply sorted_filter. assert (S1 : StronglySorted lt (map r_index (map fix_row kept))).
    { rewrite map_map. cbn [fix_row r_index]. change (fun x => r_index x) with r_index. apply sorted_filter. rewrite number_index. apply seq_sorted. }
    unfold l, final, typed. destruct (_ && _); [apply sorted_filter|]; exact S1.
  - intros i r Hi Hr Hs. apply in_map_iff. exists (fix_row (with_index r i)). split; [reflexivity|].
    apply filter_In. split.
    + unfold l, final. apply typed_in; [|apply typed_star; exact Hs]. apply in_map. unfold kept. apply filter_In.
      split; [apply number_in; exists i, r; auto|]. apply insideb_true. exact Hr.
    + unfold made. pose proof (make_some r i Hs). destruct (make (fix_row (with_index r i))); [reflexivity|contradiction].
Qed.

(** It works whenever a row asked for is a star or a galaxy, or no extra output
    is asked for. *)
Theorem C91_works objs : c_near c = None ->
  (c_wantobjs c = false \/ exists r, In r objs /\ inside c r /\ (star c r \/ galaxy c r)) ->
  exists ss e tbl, get_sources objs = (Ok (ss, e), tbl).
Proof.
  intros N H. pose proof (cuts_plain (number 0 objs) N) as E. rewrite (get_sources_spec objs _ E).
  destruct (filter insideb (number 0 objs)) as [|k0 ks] eqn:EK; [repeat eexists|].
  destruct (c_wantobjs c); [|repeat eexists]. destruct H as [H|(r & I & Ir & Hs)]; [discriminate|].
  destruct (filter made (final (k0 :: ks))) as [|r0 rs] eqn:ER; [|repeat eexists].
  exfalso. apply In_nth_error in I. destruct I as (i & I).
  assert (J : In (fix_row (with_index r i)) (filter made (final (k0 :: ks)))).
  { apply filter_In. split.
    - unfold final. apply typed_in; [|apply typed_star; exact Hs]. apply in_map. rewrite <- EK. apply filter_In.
      split; [apply number_in; exists i, r; auto|]. apply insideb_true. exact Ir.
    - unfold made. pose proof (make_some r i Hs). destruct (make (fix_row (with_index r i))); [reflexivity|contradiction]. }
  rewrite ER in J. destruct J.
Qed.

(** The two parts of a composite galaxy add up to its catalogued flux, in every
    band asked for. *)
Theorem C91_composite r p be he bd hd i name k : c_nmgy c = true -> right_source r (Comp p be he bd hd) ->
  nth_error (c_bands c) i = Some (name, k) ->
  exists fe fd, nth_error (b_vals be) i = Some (name, fe) /\ nth_error (b_vals bd) i = Some (name, fd) /\ fe + fd = r_cmodel r k.
Proof.
  intros N H Hi. cbn [right_source] in H. destruct H as (_ & _ & _ & _ & _ & _ & (_ & _ & Td & _) & (_ & _ & Te & _)).
  specialize (Td i name k Hi). specialize (Te i name k Hi). unfold value in Td, Te. rewrite N in Td, Te.
  do 2 eexists. split; [exact Te|]. split; [exact Td|]. cbv beta. ring.
Qed.

(** The documentation says that extra bands start at the flux of the first band
    asked for; they start at zero. *)
Theorem C91_extra_refuted flux name : c_nmgy c = true -> c_bands c <> [] -> In name (c_extra c) ->
  In (name, 0) (b_vals (nmgy2bright flux)).
Proof.
  intros N B I. destruct (tells_bright flux) as (_ & _ & _ & T). apply In_nth_error in I. destruct I as (j & I).
  specialize (T B j name I). rewrite N in T. eapply nth_error_In. exact T.
Qed.

(** Extra bands only: as fluxes, all start at the flux in the band that governs
    the cuts, as documented; as magnitudes only the first does. *)
Theorem C91_extra_only flux e ex : c_bands c = [] -> c_extra c = e :: ex ->
  b_vals (nmgy2bright flux) =
    if c_nmgy c then map (fun n => (n, flux (c_bandnum c))) (e :: ex)
    else (e, value nmgy_to_mag c (flux (c_bandnum c))) :: map (fun n => (n, c_badmag c)) ex.
Proof.
  intros B X. unfold SdssSrcModel.nmgy2bright, value. rewrite B, X. cbn [map app]. destruct (c_nmgy c); cbn [b_vals nth combine].
  - f_equal. clear. induction ex as [|a ex IH]; cbn [map combine]; [reflexivity|]. rewrite IH. reflexivity.
  - f_equal. generalize (c_badmag c) as bm. intros bm. clear. induction ex as [|a ex IH]; [reflexivity|].
    cbn [map combine]. f_equal. exact IH.
Qed.

(** Nothing in the region: with getobjs the table comes back as None, though
    the file may have had any number of rows. *)
Theorem C91_none_refuted objs : c_near c = None -> c_wantobjs c = true -> (forall r, In r objs -> ~ inside c r) ->
  get_sources objs = (Ok ([], Some (mkExtras None None None)), []).
Proof.
  intros N W H. pose proof (cuts_plain (number 0 objs) N) as E. rewrite (get_sources_spec objs _ E).
  destruct (filter insideb (number 0 objs)) as [|k0 ks] eqn:EK; [rewrite W; reflexivity|].
  exfalso. assert (I : In k0 (filter insideb (number 0 objs))) by (rewrite EK; left; reflexivity).
  apply filter_In in I. destruct I as (I & Ib). apply number_in in I. destruct I as (i & r0 & I & ->).
  apply (H r0 (nth_error_In _ _ I)). apply insideb_true in Ib. exact Ib.
Qed.

(** Something in the region, but neither stars nor galaxies: with any of the
    extra outputs this is an error. *)
Theorem C91_unclassified_refuted objs : c_near c = None -> c_wantobjs c = true -> c_usetype c = false ->
  (forall r, In r objs -> ~ star c r /\ ~ galaxy c r) -> (exists r, In r objs /\ inside c r) ->
  fst (get_sources objs) = Err IndexError.
Proof.
  intros N W U H (r & I & Ir). pose proof (cuts_plain (number 0 objs) N) as E. rewrite (get_sources_spec objs _ E).
  apply In_nth_error in I. destruct I as (i & I).
  assert (J : In (with_index r i) (filter insideb (number 0 objs))).
  { apply filter_In. split; [apply number_in; exists i, r; auto|]. apply insideb_true. exact Ir. }
  destruct (filter insideb (number 0 objs)) as [|k0 ks] eqn:EK; [destruct J|]. rewrite W. cbn [fst].
  assert (F : filter made (final (k0 :: ks)) = []).
  { destruct (filter made (final (k0 :: ks))) as [|x xs] eqn:EX; [reflexivity|]. exfalso.
    assert (IX : In x (filter made (final (k0 :: ks)))) by (rewrite EX; left; reflexivity).
    apply filter_In in IX. destruct IX as (IX & M). destruct (final_row (k0 :: ks) objs x E IX) as (r0 & H1 & H2 & _).
    unfold made in M. destruct (make x) eqn:EM; [|discriminate]. rewrite H2 in EM. apply make_right in EM.
    destruct (H r0 (nth_error_In _ _ H1)) as (A & B).
    destruct s; cbn [right_source] in EM; tauto. }
  rewrite F. unfold final, typed. rewrite U, andb_false_r. reflexivity.
Qed.

(** *** The table is changed in place *)
Definition turn (h : shape) : shape := mkShape (h_re h) (h_ab h) (- h_phi h).
Definition turned (s : source) : source :=
  match s with
  | Point p b => Point p b
  | Dev p b h => Dev p b (turn h)
  | Exp p b h => Exp p b (turn h)
  | Comp p be he bd hd => Comp p be (turn he) bd (turn hd)
  | Fixed p b f he hd => Fixed p b f (turn he) (turn hd)
  end.

Lemma fix_twice h : fix_shape (fix_shape h) = turn (fix_shape h).
Proof. unfold fix_shape, turn. cbn [h_re h_ab h_phi]. f_equal. apply Rmax_left. apply Rmax_r. Qed.

Lemma make_twice r i : make (fix_row (with_index (fix_row r) i)) = option_map turned (make (fix_row r)).
Proof.
  unfold SdssSrcModel.make, weights.
  cbn [fix_row with_index r_type r_prob r_fracdev r_ra r_dec r_psf r_cmodel r_devflux r_expflux r_dev r_exp].
  rewrite !fix_twice.
  destruct (if c_force c then _ else _) as ((ls, ld), le).
  destruct (negb (eqb ls 0)); [reflexivity|].
  destruct (ltb 0 ld); destruct (ltb 0 le); cbn [andb]; try reflexivity.
  destruct (c_fixed c); [reflexivity|]. destruct (comp2bright nmgy_to_mag c (r_cmodel r) ld le); reflexivity.
Qed.

Lemma filter_number (f : row -> bool) k l : (forall r i, f (with_index r i) = f r) -> (forall r, In r l -> f r = true) ->
  filter f (number k l) = number k l.
Proof.
  intros Hi. revert k. induction l as [|a l IH]; intros k H; cbn [number filter]; [reflexivity|].
  rewrite Hi, (H a (or_introl eq_refl)). rewrite IH by (intros r I; apply H; right; exact I). reflexivity.
Qed.

(** Asked again with the table that the first call left behind, every galaxy
    comes out turned the other way. *)
Theorem C91_twice_refuted objs ss tbl : c_near c = None -> c_wantobjs c = false ->
  get_sources objs = (Ok (ss, None), tbl) -> fst (get_sources tbl) = Ok (map turned ss, None).
Proof.
  intros N W H. pose proof (cuts_plain (number 0 objs) N) as E. rewrite (get_sources_spec objs _ E) in H. rewrite W in H.
  assert (F : tbl = final (filter insideb (number 0 objs)) /\ ss = filter_map make tbl).
  { destruct (filter insideb (number 0 objs)) as [|k0 ks]; injection H as <- <-; [|split; reflexivity].
    unfold final, typed. destruct (_ && _); split; reflexivity. }
  destruct F as (F & ->). clear H E.
  pose proof (cuts_plain (number 0 tbl) N) as E.
  rewrite filter_number in E.
  2:{ reflexivity. }
  2:{ intros r I. rewrite F in I. apply typed_sub in I. apply in_map_iff in I. destruct I as (x & <- & I). apply filter_In in I. apply I. }
  rewrite (get_sources_spec tbl _ E). rewrite W.
  assert (T : final (number 0 tbl) = map fix_row (number 0 tbl)).
  { unfold final, typed. destruct (negb (c_force c) && c_usetype c) eqn:X; [|reflexivity].
    enough (forall k, filter (fun r => (r_type r =? 6)%Z || (r_type r =? 3)%Z) (map fix_row (number k tbl)) = map fix_row (number k tbl)) as Y by apply Y.
    assert (G : forall r, In r tbl -> (r_type r =? 6)%Z || (r_type r =? 3)%Z = true).
    { intros r I. rewrite F in I. unfold final, typed in I. rewrite X in I. apply filter_In in I. apply I. }
    clear - G. induction tbl as [|a l IH]; intros k; cbn [number map filter]; [reflexivity|].
    cbn [fix_row with_index r_type]. rewrite (G a (or_introl eq_refl)). rewrite IH by (intros r I; apply G; right; exact I). reflexivity. }
  assert (M : filter_map make (map fix_row (number 0 tbl)) = map turned (filter_map make tbl)).
  { assert (G : forall r, In r tbl -> exists r1, r = fix_row r1).
    { intros r I. rewrite F in I. apply typed_sub in I. apply in_map_iff in I. destruct I as (x & <- & _). eauto. }
    clear - G. generalize 0%nat as k. induction tbl as [|a l IH]; intros k; cbn [number map filter_map]; [reflexivity|].
    destruct (G a (or_introl eq_refl)) as (a1 & ->). rewrite make_twice. rewrite IH by (intros r I; apply G; right; exact I).
    destruct (make (fix_row a1)); reflexivity. }
  destruct (number 0 tbl) as [|k0 ks] eqn:EN.
  - destruct tbl; [reflexivity|discriminate].
  - cbn [fst]. rewrite T, M. reflexivity.
Qed.
End Src.

(** ** Examples *)
Module SdssEx.
Definition cfg : config := mkConfig 2 [("g"%string, 1%nat); ("r"%string, 2%nat)] ["w1"%string] None None None true false false false false true 25 true.
Definition sh (re : R) : nat -> shape := fun _ => mkShape re (1 / 2) 10.
Definition row0 (prob frac : R) : row :=
  mkRow 0 150 2 (fun _ => 5) (fun _ => 6) 0 false true 6 (fun _ => prob) (fun _ => frac)
    (fun b => INR b) (fun _ => 8) (fun _ => 9) (fun _ => 10) (sh 0) (sh 4).

(** A star, a composite galaxy and a row that is neither: two sources, rows 0
    and 1; the extra band starts at zero. *)
Example C91_ex : exists e tbl,
  get_sources (fun f => f) cfg [row0 1 0; row0 0 (1 / 4); row0 (1 / 2) 0] =
  (Ok ([Point (150, 2) (mkBright true [("g"%string, INR 1); ("r"%string, INR 2); ("w1"%string, 0)]);
        Comp (150, 2) (mkBright true [("g"%string, 8 * (1 * (1 - 1 / 4))); ("r"%string, 8 * (1 * (1 - 1 / 4))); ("w1"%string, 0)]) (fix_shape (mkShape 4 (1 / 2) 10))
             (mkBright true [("g"%string, 8 * (1 * (1 / 4))); ("r"%string, 8 * (1 * (1 / 4))); ("w1"%string, 0)]) (fix_shape (mkShape 0 (1 / 2) 10))], Some e), tbl) /\
  e_inds e = Some [0; 1]%nat.
Proof.
  unfold get_sources, cuts. cbn [number c_near cfg filter in_roi in_radecroi c_roi c_radecroi bind good c_objcuts row0 with_index r_nchild r_isbright
    Z.eqb negb andb primary c_primary map typed c_force c_usetype fix_row loop].
  unfold make, weights. cbn [fix_row with_index r_type r_prob r_fracdev r_ra r_dec r_psf r_cmodel r_devflux r_expflux r_dev r_exp row0 c_force c_usetype c_bandnum cfg].
  assert (F : forall a b, a <> b -> eqb a b = false) by (intros a b N; apply not_true_is_false; rewrite eqb_true; exact N).
  assert (T : forall a, eqb a a = true) by (intros a; apply eqb_true; reflexivity).
  rewrite !T, !(F (1 / 2) 1), !(F (1 / 2) 0), !(F 0 1), !(F 1 0) by lra. cbn [num].
  rewrite !T, !(F 1 0) by lra. cbn [negb].
  replace (ltb 0 (0 * 0)) with false by (symmetry; apply not_true_is_false; rewrite ltb_true; lra).
  replace (ltb 0 (0 * (1 - 0))) with false by (symmetry; apply not_true_is_false; rewrite ltb_true; lra).
  replace (ltb 0 (1 * (1 / 4))) with true by (symmetry; apply ltb_true; lra).
  replace (ltb 0 (1 * (1 - 1 / 4))) with true by (symmetry; apply ltb_true; lra).
  cbn. do 2 eexists; split; reflexivity.
Qed.
End SdssEx.

Print Assumptions C91_right.
Print Assumptions C91_all.
Print Assumptions C91_works.
Print Assumptions C91_composite.
Print Assumptions C91_extra_refuted.
Print Assumptions C91_extra_only.
Print Assumptions C91_none_refuted.
Print Assumptions C91_unclassified_refuted.
Print Assumptions C91_twice_refuted.
