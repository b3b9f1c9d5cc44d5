(** C36: the dense optimizers solve the normal equations of the full system and
    put each update in its own slot. *)
From Coq Require Import List ZArith QArith Qcanon Bool Lia Field Permutation.
From Verif Require Import Base PatchModel PatchSpec PatchProofs PatchProps DenseModel.
Import ListNotations.
Open Scope nat_scope.

Ltac conjs := match goal with |- _ /\ _ => split; [|conjs] | _ => idtac end.

(** ** Specification *)
Section Spec.
Context {V : Type}.
Variables zero one : V.
Variables add mul sub : V -> V -> V.
Notation image := (@image V).
Notation ent := (patch V * image)%type.
Notation sum := (lsum zero add).

(** The derivative of pixel (Y, X) of image [i] by parameter [p], divided by the
    error: the sum of the derivative patches of [p] for that image there. *)
Definition deriv_at (ds : list (list ent)) (p : nat) (i : image) (Y X : Z) : V :=
  sum (fun e => if im_id (snd e) =? im_id i then mul (img_at zero (fst e) X Y) (im_ie i Y X) else zero) (nth p ds []).

(** Row [k] of the prior: its coefficient for parameter [p], and its constant. *)
Definition prior_at (ts : list (term (V := V))) (k p : nat) : V :=
  sum (fun t => if t_col t =? p
                then sum (fun e => if fst e =? k then snd e else zero) (combine (t_rows t) (t_vals t))
                else zero) ts.
Definition prior_b (ts : list (term (V := V))) (k : nat) : V :=
  sum (fun t => sum (fun e => if fst e =? k then snd e else zero) (combine (t_rows t) (t_b t))) ts.

(** Sum over all pixels of an image. *)
Definition pixel_sum (i : image) (f : Z -> Z -> V) : V :=
  sum (fun y => sum (fun x => f (Z.of_nat y) (Z.of_nat x)) (seq 0 (Z.to_nat (im_w i)))) (seq 0 (Z.to_nat (im_h i))).

(** The linear combination of the columns of a row [a] with weights [x]. *)
Definition predict (n : nat) (a : nat -> V) (x : list V) : V := sum (fun q => mul (a q) (nth q x zero)) (seq 0 n).

(** The normal equations of the full system (every pixel of every image, every
    prior row, every parameter): A^T (A x - b) = 0. *)
Definition normal_equations (imgs : list image) (ds : list (list ent)) (ts : list term) (x : list V) : Prop :=
  let n := length ds in
  forall np, (forall t r, In t ts -> In r (t_rows t) -> r < np) ->
  forall p, p < n ->
    add (sum (fun i => pixel_sum i (fun Y X =>
           mul (deriv_at ds p i Y X) (sub (predict n (fun q => deriv_at ds q i Y X) x) (im_chi i Y X)))) imgs)
        (sum (fun k => mul (prior_at ts k p) (sub (predict n (prior_at ts k) x) (prior_b ts k))) (seq 0 np)) = zero.

(** The matrix A^T A of the full system. *)
Definition gram (imgs : list image) (ds : list (list ent)) (ts : list term) (np : nat) (p q : nat) : V :=
  add (sum (fun i => pixel_sum i (fun Y X => mul (deriv_at ds p i Y X) (deriv_at ds q i Y X))) imgs)
      (sum (fun k => mul (prior_at ts k p) (prior_at ts k q)) (seq 0 np)).

(** [imgs] lists all images, each once; every derivative belongs to one of
    them; image sizes are not negative. *)
Definition images_ok (imgs : list image) (ds : list (list ent)) : Prop :=
  NoDup (map im_id imgs) /\ (forall i, In i imgs -> (0 <= im_w i)%Z /\ (0 <= im_h i)%Z) /\
  forall d e, In d ds -> In e d -> In (snd e) imgs /\ wf_patch (fst e).

(** No parameter has two derivatives in the same image. *)
Definition one_each (ds : list (list ent)) : Prop := forall d, In d ds -> NoDup (map (fun e => im_id (snd e)) d).

(** Prior terms: equal lengths, and no (row, column) twice. *)
Definition priors_ok (ts : list (term (V := V))) : Prop :=
  NoDup (flat_map (fun t => map (fun r => (r, t_col t)) (t_rows t)) ts) /\
  forall t, In t ts -> length (t_vals t) = length (t_rows t) /\ length (t_b t) = length (t_rows t).

Definition terms_of (pri : option (list (term (V := V)))) : list term := match pri with None => [] | Some ts => ts end.

(** A least-squares solver: one number per column, solving the normal equations
    of the matrix it was given. *)
Definition least_squares (lstsq : @sys V -> option (list V)) : Prop :=
  forall s x, lstsq s = Some x -> length x = s_ncols s /\
    forall c, c < s_ncols s ->
      sum (fun r => mul (s_A s r c) (sub (sum (fun c' => mul (s_A s r c') (nth c' x zero)) (seq 0 (s_ncols s))) (s_B s r)))
          (seq 0 (s_nrows s)) = zero.
End Spec.

(** ** Lists of parameters *)
Lemma index_of_some q cm : forall c, index_of q cm = Some c -> nth_error cm c = Some q.
Proof.
  induction cm as [|p cm IH]; simpl; intros c H; [discriminate|].
  destruct (Nat.eqb_spec p q); [inversion H; subst; auto|].
  destruct (index_of q cm) as [d|]; [|discriminate]. inversion H; subst. apply IH; auto.
Qed.
Lemma index_of_none q cm : index_of q cm = None -> ~ In q cm.
Proof.
  induction cm as [|p cm IH]; simpl; intros H; [tauto|].
  destruct (Nat.eqb_spec p q); [discriminate|].
  destruct (index_of q cm) as [d|]; [discriminate|]. intros [|]; auto. apply IH; auto.
Qed.
Lemma index_of_nth q cm c : NoDup cm -> nth_error cm c = Some q -> index_of q cm = Some c.
Proof.
  intros HN H. destruct (index_of q cm) as [d|] eqn:E.
  - apply index_of_some in E. apply f_equal. rewrite NoDup_nth_error in HN. symmetry. apply HN; [|congruence].
    apply nth_error_Some. congruence.
  - exfalso. apply (index_of_none _ _ E). eapply nth_error_In; eauto.
Qed.

Lemma upd_nth_other {A} (l : list A) k j v d : k <> j -> nth j (upd k v l) d = nth j l d.
Proof.
  intros H. destruct (nth_error l j) as [a|] eqn:E.
  - rewrite (nth_error_nth (upd k v l) j d (x := a)); [symmetry; apply nth_error_nth; auto|].
    rewrite nth_error_upd_other; auto.
  - apply nth_error_None in E. rewrite !nth_overflow; auto. rewrite upd_length. auto.
Qed.

Section Live.
Context {V : Type}.
Notation ent := (patch V * @image V)%type.
Lemma live_spec (ds : list (list ent)) pri lv : live ds pri = Ok lv ->
  length lv = length ds /\ (forall t, In t (terms_of pri) -> t_col t < length ds) /\
  forall p, p < length ds -> (nth p lv false = true <-> nth p ds [] <> [] \/ exists t, In t (terms_of pri) /\ t_col t = p).
Proof.
  unfold live. cbv zeta. match goal with |- context [map ?f ds] => set (l0 := map f ds) end.
  assert (L0 : length l0 = length ds) by (unfold l0; apply map_length).
  assert (E0 : forall p, p < length ds -> (nth p l0 false = true <-> nth p ds [] <> [])).
  { intros p Hp. pose proof (map_nth (fun d : list ent => match d with [] => false | _ => true end) ds [] p) as Q.
    cbv beta iota in Q. unfold l0. rewrite Q. destruct (nth p ds []); split; congruence. }
  clearbody l0. destruct pri as [ts|]; cbn [terms_of].
  2:{ intros E; injection E as <-. split; [exact L0|split; [intros t []|]]. intros p Hp. rewrite E0 by auto. split; auto. intros [|(t & [] & _)]; auto. }
  destruct (forallb _ ts) eqn:EF; [|discriminate]. rewrite forallb_forall in EF.
  assert (HT : forall t, In t ts -> t_col t < length ds) by (intros t Ht; apply Nat.ltb_lt; auto).
  intros E. assert (E' : fold_left (fun l t => upd (t_col t) true l) ts l0 = lv) by (inversion E; auto). clear E EF.
  assert (G : forall ts l, (forall t, In t ts -> t_col t < length l) ->
     let lv := fold_left (fun l (t : term (V := V)) => upd (t_col t) true l) ts l in
     length lv = length l /\ forall p, (nth p lv false = true <-> nth p l false = true \/ exists t, In t ts /\ t_col t = p)).
  { clear. induction ts as [|t ts IH]; intros l HB; cbn [fold_left]; cbv zeta.
    - split; auto. intros p. split; auto. intros [|(t & [] & _)]; auto.
    - destruct (IH (upd (t_col t) true l)) as [A B]; [intros; rewrite upd_length; apply HB; right; auto|]. cbv zeta in *.
      rewrite upd_length in A. split; auto. intros p. rewrite B.
      assert (HB0 := HB t (or_introl eq_refl)).
      destruct (Nat.eq_dec (t_col t) p) as [<-|Np].
      + rewrite (nth_error_nth _ _ false (nth_error_upd_same _ _ _ HB0)).
        split; [intros _; right; exists t; simpl; auto|auto].
      + rewrite upd_nth_other by auto. split.
        * intros [|(t' & H1 & H2)]; auto. right. exists t'. simpl. auto.
        * intros [|(t' & [->|H1] & H2)]; [auto|congruence|]. right. exists t'. auto. }
  destruct (G ts l0) as [A B]; [rewrite L0; auto|]. cbv zeta in *. rewrite E' in *. split; [congruence|split; [exact HT|]].
  intros p Hp. rewrite B, E0 by auto. tauto.
Qed.

Lemma flatnonzero_spec lv : NoDup (flatnonzero lv) /\ forall p, In p (flatnonzero lv) <-> p < length lv /\ nth p lv false = true.
Proof.
  unfold flatnonzero. split; [apply NoDup_filter, seq_NoDup|]. intros p. rewrite filter_In, in_seq. split; intros [A B]; split; auto; lia.
Qed.

End Live.

(** ** Proofs *)
Section Proofs.
Context {V : Type}.
Variables zero one : V.
Variables add mul sub : V -> V -> V.
Variable opp : V -> V.
Variable div : V -> V -> V.
Variable inv : V -> V.
Variable sqrtf : V -> V.
Variable pos : V -> bool.
Variable finite : V -> bool.
Hypothesis F : field_theory zero one add mul sub opp div inv (@eq V).
Add Field VF : F.

Notation image := (@image V).
Notation ent := (patch V * image)%type.
Notation sum := (lsum zero add).
Notation D := (deriv_at zero add mul).
Notation PA := (prior_at zero add).
Notation PB := (prior_b zero add).

(** *** Sums *)
Lemma sum_ext_in {A} (f g : A -> V) l : (forall a, In a l -> f a = g a) -> sum f l = sum g l.
Proof. induction l; simpl; intros H; auto. rewrite H, IHl; auto. Qed.
Lemma sum_zero {A} (f : A -> V) l : (forall a, In a l -> f a = zero) -> sum f l = zero.
Proof. induction l; simpl; intros H; auto. rewrite H, IHl by auto. ring. Qed.
Lemma sum_app {A} (f : A -> V) l m : sum f (l ++ m) = add (sum f l) (sum f m).
Proof. induction l; simpl; [ring|]. rewrite IHl. ring. Qed.
Lemma sum_map {A B} (g : A -> B) (f : B -> V) l : sum f (map g l) = sum (fun a => f (g a)) l.
Proof. induction l; simpl; auto. rewrite IHl; auto. Qed.
Lemma sum_mul {A} k (f : A -> V) l : sum (fun a => mul k (f a)) l = mul k (sum f l).
Proof. induction l; simpl; [ring|]. rewrite IHl. ring. Qed.
Lemma sum_perm {A} (f : A -> V) l m : Permutation l m -> sum f l = sum f m.
Proof. induction 1; simpl; auto; [rewrite IHPermutation; auto|ring|congruence]. Qed.

(** A sum over a larger set is the sum over the part where it is not zero. *)
Lemma sum_support {A B} (key : A -> B) (f : A -> V) s : forall l,
  NoDup (map key s) -> NoDup (map key l) -> (forall a, In a s -> In a l) ->
  (forall a, In a l -> ~ In a s -> f a = zero) -> sum f l = sum f s.
Proof.
  induction s as [|a s IH]; intros l Hs Hl Hi Hz.
  - apply sum_zero. intros b Hb. apply Hz; auto.
  - destruct (in_split a l (Hi a (or_introl eq_refl))) as (l1 & l2 & ->).
    rewrite (sum_perm f (l1 ++ a :: l2) (a :: l1 ++ l2)) by (symmetry; apply Permutation_middle).
    simpl. apply f_equal. inversion Hs as [|? ? Hs1 Hs2]; subst.
    assert (Hl' : NoDup (map key (a :: l1 ++ l2))).
    { eapply Permutation_NoDup; [|exact Hl]. apply Permutation_map. symmetry. apply Permutation_middle. }
    simpl in Hl'. inversion Hl' as [|? ? Hl1 Hl2]; subst.
    apply IH; auto.
    + intros b Hb. assert (Hb' : In b (l1 ++ a :: l2)) by (apply Hi; right; auto).
      apply in_app_or in Hb'. apply in_or_app. destruct Hb' as [|[->|]]; auto.
      exfalso. apply Hs1. apply in_map; auto.
    + intros b Hb Hn. apply Hz.
      * apply in_app_or in Hb. apply in_or_app. simpl. tauto.
      * intros [->|]; auto. apply Hl1. apply in_map; auto.
Qed.

Lemma sum_seq_shift (f : nat -> V) n : forall a, sum f (seq a n) = sum (fun k => f (a + k)) (seq 0 n).
Proof.
  induction n as [|n IH]; intros a; auto. cbn [seq lsum fold_right]. rewrite Nat.add_0_r. apply f_equal.
  change (sum f (seq (S a) n) = sum (fun k => f (a + k)) (seq 1 n)).
  rewrite IH.
  symmetry. rewrite <- (seq_shift n 0), sum_map. apply sum_ext_in. intros k _. f_equal. lia.
Qed.
Lemma sum_seq_split (f : nat -> V) n m : sum f (seq 0 (n + m)) = add (sum f (seq 0 n)) (sum (fun k => f (n + k)) (seq 0 m)).
Proof. rewrite seq_app, sum_app. f_equal. apply sum_seq_shift. Qed.
Lemma sum_grid (f : nat -> nat -> V) w h :
  sum (fun k => f (k / w) (k mod w)) (seq 0 (w * h)) = sum (fun y => sum (fun x => f y x) (seq 0 w)) (seq 0 h).
Proof.
  induction h as [|h IH].
  - rewrite Nat.mul_0_r. reflexivity.
  - replace (w * S h) with (w * h + w) by lia. rewrite sum_seq_split, IH.
    replace (S h) with (h + 1) at 1 by lia. rewrite sum_seq_split. f_equal.
    cbn [seq lsum fold_right]. rewrite Nat.add_0_r.
    transitivity (sum (fun x => f h x) (seq 0 w)); [|unfold lsum; ring].
    apply sum_ext_in. intros k Hk. apply in_seq in Hk. f_equal.
    + rewrite Nat.mul_comm, Nat.add_comm, Nat.div_add by lia. rewrite Nat.div_small; lia.
    + rewrite Nat.mul_comm, Nat.add_comm, Nat.mod_add by lia. apply Nat.mod_small; lia.
Qed.
(** A sum over [0, n) that vanishes outside [a, a + m). *)
Lemma sum_window (f : nat -> V) n a m : a + m <= n -> (forall k, k < n -> k < a \/ a + m <= k -> f k = zero) ->
  sum f (seq 0 n) = sum (fun k => f (a + k)) (seq 0 m).
Proof.
  intros H Hz. replace n with (a + (m + (n - a - m))) by lia. rewrite sum_seq_split, sum_seq_split.
  rewrite (sum_zero f (seq 0 a)).
  2:{ intros k Hk. apply in_seq in Hk. apply Hz; lia. }
  rewrite (sum_zero (fun k => f (a + (m + k)))).
  2:{ intros k Hk. apply in_seq in Hk. apply Hz; lia. }
  ring.
Qed.

(** *** Blocks of rows *)
Fixpoint chain (bx : image -> box) (offs : list (image * nat)) (s e : nat) : Prop :=
  match offs with
  | [] => s = e
  | (i, o) :: r => o = s /\ chain bx r (s + area (bx i)) e
  end.

Lemma chain_le bx offs : forall s e, chain bx offs s e -> s <= e.
Proof. induction offs as [|[i o] r IH]; simpl; intros s e H; [lia|]. destruct H as [_ H]. apply IH in H. lia. Qed.
Lemma chain_app bx a b : forall s e, chain bx (a ++ b) s e <-> exists m, chain bx a s m /\ chain bx b m e.
Proof.
  induction a as [|[i o] r IH]; simpl; intros s e.
  - split; [intros H; exists s; auto|intros (m & -> & H); auto].
  - rewrite IH. split.
    + intros (-> & m & H1 & H2). exists m; auto.
    + intros (m & [-> H1] & H2). split; auto. exists m; auto.
Qed.
Lemma chain_in bx offs : forall s e i o, chain bx offs s e -> In (i, o) offs -> s <= o /\ o + area (bx i) <= e.
Proof.
  induction offs as [|[j p] r IH]; simpl; intros s e i o H HI; [tauto|]. destruct H as [-> H].
  destruct HI as [E|HI].
  - inversion E; subst. pose proof (chain_le _ _ _ _ H). lia.
  - destruct (IH _ _ _ _ H HI). lia.
Qed.
Lemma chain_disjoint bx offs : forall s e i o j p, chain bx offs s e -> In (i, o) offs -> In (j, p) offs ->
  im_id i <> im_id j -> o + area (bx i) <= p \/ p + area (bx j) <= o.
Proof.
  induction offs as [|[l q] r IH]; simpl; intros s e i o j p H Hi Hj N; [tauto|]. destruct H as [-> H].
  destruct Hi as [E1|Hi], Hj as [E2|Hj].
  - inversion E1; inversion E2; subst. congruence.
  - inversion E1; subst. destruct (chain_in _ _ _ _ _ _ H Hj). lia.
  - inversion E2; subst. destruct (chain_in _ _ _ _ _ _ H Hi). lia.
  - eapply IH; eauto.
Qed.
Lemma chain_sum bx (g : nat -> V) offs : forall s e, chain bx offs s e ->
  sum g (seq s (e - s)) = sum (fun io => sum (fun k => g (snd io + k)) (seq 0 (area (bx (fst io))))) offs.
Proof.
  induction offs as [|[i o] r IH]; simpl; intros s e H.
  - subst. replace (e - e) with 0 by lia. reflexivity.
  - destruct H as [-> H]. pose proof (chain_le _ _ _ _ H).
    replace (e - s) with (area (bx i) + (e - (s + area (bx i)))) by lia.
    rewrite seq_app, sum_app, sum_seq_shift. apply f_equal. apply IH; auto.
Qed.

Definition inside (b : box) (i : image) : Prop :=
  let '(a0, a1, b0, b1) := b in (0 <= a0 /\ a0 <= a1 /\ a1 <= im_w i /\ 0 <= b0 /\ b0 <= b1 /\ b1 <= im_h i)%Z.
Definition outside (b : box) (Y X : Z) : Prop :=
  let '(a0, a1, b0, b1) := b in (X < a0 \/ a1 <= X \/ Y < b0 \/ b1 <= Y)%Z.
Definition box_y (b : box) (k : nat) : Z := let '(_, _, b0, _) := b in (b0 + Z.of_nat (k / width b))%Z.
Definition box_x (b : box) (k : nat) : Z := let '(a0, _, _, _) := b in (a0 + Z.of_nat (k mod width b))%Z.

Lemma box_sum (b : box) i (h : Z -> Z -> V) : inside b i ->
  (forall Y X, (0 <= Y < im_h i)%Z -> (0 <= X < im_w i)%Z -> outside b Y X -> h Y X = zero) ->
  sum (fun k => h (box_y b k) (box_x b k)) (seq 0 (area b)) = pixel_sum zero add i h.
Proof.
  destruct b as [[[a0 a1] b0] b1]. unfold inside, outside, pixel_sum, area, box_y, box_x. intros Hin Hz.
  rewrite (sum_grid (fun y x => h (b0 + Z.of_nat y)%Z (a0 + Z.of_nat x)%Z)).
  unfold width, height.
  rewrite (sum_window _ (Z.to_nat (im_h i)) (Z.to_nat b0) (Z.to_nat (b1 - b0))); [|lia|].
  2:{ intros k Hk Ho. apply sum_zero. intros x Hx. apply in_seq in Hx. apply Hz; lia. }
  apply sum_ext_in. intros y Hy. apply in_seq in Hy.
  rewrite (sum_window _ (Z.to_nat (im_w i)) (Z.to_nat a0) (Z.to_nat (a1 - a0))); [|lia|].
  2:{ intros k Hk Ho. apply Hz; lia. }
  apply sum_ext_in. intros x Hx. f_equal; lia.
Qed.

(** The rows of the matrix are the pixels of the boxes and the prior rows. *)
Lemma rows_sum (imgs : list image) bx offs npix np (g : nat -> V) (h : image -> Z -> Z -> V) (e : nat -> V) :
  chain bx offs 0 npix -> NoDup (map im_id imgs) -> NoDup (map (fun io => im_id (fst io)) offs) ->
  (forall i o, In (i, o) offs -> In i imgs /\ inside (bx i) i) ->
  (forall i o k, In (i, o) offs -> k < area (bx i) -> g (o + k) = h i (box_y (bx i) k) (box_x (bx i) k)) ->
  (forall i o Y X, In (i, o) offs -> (0 <= Y < im_h i)%Z -> (0 <= X < im_w i)%Z -> outside (bx i) Y X -> h i Y X = zero) ->
  (forall i Y X, In i imgs -> ~ In i (map fst offs) -> h i Y X = zero) ->
  (forall k, k < np -> g (npix + k) = e k) ->
  sum g (seq 0 (npix + np)) = add (sum (fun i => pixel_sum zero add i (h i)) imgs) (sum e (seq 0 np)).
Proof.
  intros HC HN HN' HI HG HO HZ HE. rewrite sum_seq_split. f_equal.
  2:{ apply sum_ext_in. intros k Hk. apply in_seq in Hk. apply HE. lia. }
  pose proof (chain_sum bx g offs 0 npix HC) as E. rewrite Nat.sub_0_r in E. rewrite E.
  transitivity (sum (fun i => pixel_sum zero add i (h i)) (map fst offs)).
  - rewrite sum_map. apply sum_ext_in. intros [i o] Hio. cbn [fst snd].
    rewrite <- (box_sum (bx i)); [|apply (HI i o); auto|intros; eapply HO; eauto].
    apply sum_ext_in. intros k Hk. apply in_seq in Hk. apply HG; auto. lia.
  - symmetry. apply (sum_support im_id).
    + rewrite map_map. exact HN'.
    + exact HN.
    + intros i Hi. apply in_map_iff in Hi. destruct Hi as ([j o] & <- & Hi). apply (HI j o); auto.
    + intros i Hi Hn. unfold pixel_sum. apply sum_zero. intros y _. apply sum_zero. intros x _. apply HZ; auto.
Qed.

(** *** Live columns *)
Lemma upd_nth_same (l : list V) k v d : k < length l -> nth k (upd k v l) d = v.
Proof. intros H. apply nth_error_nth. apply nth_error_upd_same. auto. Qed.
Lemma expand_gen (cm : list nat) : forall (x l : list V), NoDup cm -> length x = length cm -> (forall q, In q cm -> q < length l) ->
  let r := fold_left (fun l e => upd (fst e) (snd e) l) (combine cm x) l in
  length r = length l /\ (forall q, ~ In q cm -> nth q r zero = nth q l zero) /\
  (forall c, c < length cm -> nth (nth c cm 0) r zero = nth c x zero).
Proof.
  induction cm as [|q cm IH]; intros x l HN HL HB.
  - simpl. conjs; auto. intros; lia.
  - destruct x as [|v x]; [discriminate|]. cbn [combine fold_left fst snd]. inversion HN as [|? ? H1 H2]; subst.
    assert (HL' : length x = length cm) by (simpl in HL; lia).
    assert (HB' : forall q0, In q0 cm -> q0 < length (upd q v l)) by (intros; rewrite upd_length; apply HB; right; auto).
    destruct (IH x (upd q v l) H2 HL' HB') as (A & B & C). cbv zeta in *.
    conjs.
    + rewrite A. apply upd_length.
    + intros q' Hq. rewrite B by (intros ?; apply Hq; right; auto). apply upd_nth_other. intros ->. apply Hq. left; auto.
    + intros [|c] Hc; cbn [nth].
      * rewrite B by auto. apply upd_nth_same. apply HB. left; auto.
      * apply C. simpl in Hc. lia.
Qed.

Lemma nth_repeat_any n (k : nat) : nth k (repeat zero n) zero = zero.
Proof. revert k. induction n; destruct k; simpl; auto. Qed.

Lemma expand_spec n (cm : list nat) (x : list V) : NoDup cm -> length x = length cm -> (forall q, In q cm -> q < n) ->
  length (expand zero n cm x) = n /\ (forall q, ~ In q cm -> nth q (expand zero n cm x) zero = zero) /\
  (forall c, c < length cm -> nth (nth c cm 0) (expand zero n cm x) zero = nth c x zero).
Proof.
  intros H1 H2 H3. unfold expand.
  destruct (expand_gen cm x (repeat zero n) H1 H2) as (A & B & C).
  - intros q Hq. rewrite repeat_length. auto.
  - cbv zeta in *. conjs; auto.
    + rewrite A. apply repeat_length.
    + intros q Hq. rewrite B by auto. apply nth_repeat_any.
Qed.

Lemma live_sum n (cm : list nat) (x y : list V) (a : nat -> V) : NoDup cm -> (forall q, In q cm -> q < n) ->
  (forall q, ~ In q cm -> nth q y zero = zero \/ a q = zero) ->
  (forall c, c < length cm -> nth (nth c cm 0) y zero = nth c x zero) ->
  sum (fun c => mul (a (nth c cm 0)) (nth c x zero)) (seq 0 (length cm)) = predict zero add mul n a y.
Proof.
  intros HN HB HZ HX. unfold predict.
  rewrite (sum_support (fun q : nat => q) _ cm (seq 0 n)).
  - rewrite (sum_ext_in _ (fun c => (fun q => mul (a q) (nth q y zero)) (nth c cm 0))).
    2:{ intros c Hc. apply in_seq in Hc. rewrite HX by lia. reflexivity. }
    etransitivity; [symmetry; apply (sum_map (fun c => nth c cm 0) (fun q => mul (a q) (nth q y zero)))|]. f_equal.
    clear. apply nth_ext with (d := 0) (d' := 0); [rewrite map_length, seq_length; auto|].
    intros k Hk. rewrite map_length, seq_length in Hk.
    rewrite (nth_indep _ 0 (nth 0 cm 0)) by (rewrite map_length, seq_length; auto).
    rewrite (map_nth (fun c => nth c cm 0)), seq_nth; auto.
  - rewrite map_id; auto.
  - rewrite map_id. apply seq_NoDup.
  - intros q Hq. apply in_seq. specialize (HB q Hq). lia.
  - intros q _ Hq. destruct (HZ q Hq) as [E|E]; rewrite E; ring.
Qed.

(** *** Prior rows *)
Lemma prior_rows_spec npix col rvb : forall M b M' b', prior_rows add npix col rvb M b = (M', b') ->
  (forall r c, r < npix -> M' r c = M r c) /\ (forall r, r < npix -> b' r = b r) /\
  (forall k, b' (npix + k) = add (b (npix + k)) (sum (fun e : nat * V * V => if fst (fst e) =? k then snd e else zero) rvb)) /\
  (NoDup (map (fun e : nat * V * V => fst (fst e)) rvb) -> (forall e, In e rvb -> M (npix + fst (fst e)) col = zero) ->
   forall k c, M' (npix + k) c = add (M (npix + k) c)
     (if c =? col then sum (fun e : nat * V * V => if fst (fst e) =? k then snd (fst e) else zero) rvb else zero)).
Proof.
  induction rvb as [|[[r0 v] x] rest IH]; intros M b M' b' E; cbn [prior_rows] in E.
  - inversion E; subst. conjs; auto.
    + intros k. simpl. ring.
    + intros _ _ k c. simpl. destruct (c =? col); ring.
  - destruct (IH _ _ _ _ E) as (A & B & C & D). clear IH E.
    unfold set1, setf in *. conjs.
    + intros r c Hr. rewrite A by auto. destruct (Nat.eqb_spec r (npix + r0)); [lia|]. reflexivity.
    + intros r Hr. rewrite B by auto. destruct (Nat.eqb_spec r (npix + r0)); [lia|]. reflexivity.
    + intros k. rewrite C. cbn [lsum fold_right fst snd]. destruct (Nat.eqb_spec r0 k) as [->|Hk].
      * rewrite Nat.eqb_refl. unfold lsum. ring.
      * destruct (Nat.eqb_spec (npix + k) (npix + r0)); [lia|]. unfold lsum. ring.
    + cbn [map fst]. intros HN HZ k c. inversion HN as [|? ? H1 H2]; subst.
      rewrite D; [|exact H2|].
      * cbn [lsum fold_right fst snd]. destruct (Nat.eqb_spec c col) as [->|Hc].
        -- rewrite andb_true_r. destruct (Nat.eqb_spec r0 k) as [->|Hk].
           ++ rewrite Nat.eqb_refl. pose proof (HZ (k, v, x) (or_introl eq_refl)) as HK. cbn [fst] in HK. rewrite HK.
              unfold lsum. ring.
           ++ destruct (Nat.eqb_spec (npix + k) (npix + r0)); [lia|]. unfold lsum. ring.
        -- rewrite andb_false_r. ring.
      * intros e He. destruct (Nat.eqb_spec (npix + fst (fst e)) (npix + r0)) as [Eq|Eq].
        -- exfalso. apply H1. replace r0 with (fst (fst e)) by lia. apply (in_map (fun e : nat * V * V => fst (fst e))). auto.
        -- cbn [andb]. apply HZ. right; auto.
Qed.

Lemma zip3_rv {A B C} (a : list A) : forall (b : list B) (c : list C), length b = length a -> length c = length a ->
  map fst (combine (combine a b) c) = combine a b.
Proof. induction a; intros [|? b] [|? c]; simpl; intros; try discriminate; auto. rewrite IHa by lia. auto. Qed.
Lemma zip3_rb {A B C} (a : list A) : forall (b : list B) (c : list C), length b = length a -> length c = length a ->
  map (fun e => (fst (fst e), snd e)) (combine (combine a b) c) = combine a c.
Proof. induction a; intros [|? b] [|? c]; simpl; intros; try discriminate; auto. rewrite IHa by lia. auto. Qed.
Lemma zip_fst {A B} (a : list A) : forall (b : list B), length b = length a -> map fst (combine a b) = a.
Proof. induction a; intros [|? b]; simpl; intros; try discriminate; auto. rewrite IHa by lia. auto. Qed.

Lemma smart_priors_spec scale cm npix ts : forall M b sc M' b' sc',
  smart_priors zero add mul scale cm npix ts M b sc = Ok (M', b', sc') -> NoDup cm ->
  (forall t, In t ts -> In (t_col t) cm) /\
  (forall r c, r < npix -> M' r c = M r c) /\ (forall r, r < npix -> b' r = b r) /\
  (priors_ok ts -> (forall k, b' (npix + k) = add (b (npix + k)) (PB ts k)) /\
   ((forall t r c, In t ts -> In r (t_rows t) -> index_of (t_col t) cm = Some c -> M (npix + r) c = zero) ->
    forall k c, c < length cm -> M' (npix + k) c = add (M (npix + k) c) (PA ts k (nth c cm 0)))).
Proof.
  induction ts as [|t ts IH]; intros M b sc M' b' sc' E HN; cbn [smart_priors] in E.
  - inversion E; subst. conjs; auto.
    + intros t [].
    + intros _. split; [intros k; simpl; ring|]. intros _ k c _. simpl. ring.
  - destruct (index_of (t_col t) cm) as [col|] eqn:EC; [|discriminate].
    destruct (prior_rows add npix col _ M b) as [M1 b1] eqn:E1.
    destruct (prior_rows_spec _ _ _ _ _ _ _ E1) as (A & B & C & D).
    destruct (IH _ _ _ _ _ _ E HN) as (I0 & I1 & I2 & I3). clear IH E E1.
    pose proof (index_of_some _ _ _ EC) as EN. conjs.
    + intros t' [<-|Ht]; auto. eapply nth_error_In; eauto.
    + intros r c Hr. rewrite I1, A; auto.
    + intros r Hr. rewrite I2, B; auto.
    + intros [PN PL]. destruct (PL t (or_introl eq_refl)) as [L1 L2]. cbn [flat_map] in PN.
      assert (PT : priors_ok ts).
      { split; [|intros t' Ht; apply PL; right; auto]. clear -PN.
        induction (map (fun r => (r, t_col t)) (t_rows t)); auto. apply IHl. simpl in PN. inversion PN; auto. }
      destruct (I3 PT) as [J1 J2]. split.
      * intros k. rewrite J1, C. unfold prior_b at 2. cbn [lsum fold_right].
        rewrite <- (zip3_rb (t_rows t) (t_vals t) (t_b t) L1 L2), sum_map. unfold prior_b. cbn [fst snd]. unfold lsum. ring.
      * intros HZ k c Hc.
        assert (RN : map (fun e : nat * V * V => fst (fst e)) (combine (combine (t_rows t) (t_vals t)) (t_b t)) = t_rows t).
        { rewrite <- (map_map fst fst), zip3_rv, zip_fst; auto. }
        assert (D' := D). rewrite RN in D'. clear D.
        assert (ND : NoDup (t_rows t)).
        { clear -PN. apply (NoDup_map_inv (fun r => (r, t_col t))).
          induction (map (fun r => (r, t_col t)) (t_rows t)); [constructor|].
          simpl in PN. inversion PN as [|? ? H1 H2]; subst. constructor; auto. intros ?; apply H1. apply in_or_app; auto. }
        assert (Z1 : forall e, In e (combine (combine (t_rows t) (t_vals t)) (t_b t)) -> M (npix + fst (fst e)) col = zero).
        { intros e He. apply (HZ t); auto; [left; auto|].
          rewrite <- RN. apply (in_map (fun e : nat * V * V => fst (fst e))). auto. }
        specialize (D' ND Z1). clear Z1.
        rewrite J2; auto.
        -- rewrite D'. unfold prior_at at 2. cbn [lsum fold_right].
           assert (Hq : (c =? col) = (t_col t =? nth c cm 0)).
           { destruct (Nat.eqb_spec c col) as [->|Hcc]; symmetry.
             - rewrite (nth_error_nth cm col 0 EN). apply Nat.eqb_refl.
             - apply Nat.eqb_neq. intros Eq. apply Hcc.
               assert (E2 : nth_error cm c = Some (t_col t)) by (rewrite Eq; apply nth_error_nth'; auto).
               rewrite (index_of_nth _ _ _ HN E2) in EC. congruence. }
           rewrite Hq. destruct (t_col t =? nth c cm 0).
           ++ pose proof (sum_map fst (fun e : nat * V => if fst e =? k then snd e else zero)
                            (combine (combine (t_rows t) (t_vals t)) (t_b t))) as ES.
              rewrite zip3_rv in ES by auto. cbv beta in ES. rewrite <- ES. unfold prior_at, lsum. ring.
           ++ unfold prior_at, lsum. ring.
        -- intros t' r c' Ht Hr Hi. rewrite D', (HZ t' r c'); auto; [|right; auto].
           destruct (Nat.eqb_spec c' col) as [->|_]; [|ring].
           rewrite sum_zero; [ring|]. intros e He. destruct (Nat.eqb_spec (fst (fst e)) r) as [Eq|_]; auto.
           exfalso. apply index_of_some in Hi. rewrite Hi in EN. inversion EN as [ET].
           assert (R1 : In (r, t_col t) (map (fun r => (r, t_col t)) (t_rows t))).
           { apply (in_map (fun r => (r, t_col t))). rewrite <- RN, <- Eq. apply (in_map (fun e : nat * V * V => fst (fst e))). auto. }
           assert (R2 : In (r, t_col t) (flat_map (fun t => map (fun r => (r, t_col t)) (t_rows t)) ts)).
           { apply in_flat_map. exists t'. split; auto. apply in_map_iff. exists r. rewrite ET; auto. }
           revert PN R1 R2. clear. generalize (r, t_col t) as z.
           induction (map (fun r => (r, t_col t)) (t_rows t)) as [|y l IHl]; simpl; [tauto|].
           intros z PN [->|R1] R2; inversion PN as [|? ? H1 H2]; subst; [apply H1; apply in_or_app; auto|]. eapply IHl; eauto.
Qed.

(** *** The unscaled matrix and the full system *)
Record matches (imgs : list image) (ds : list (list ent)) (ts : list (term (V := V))) (offs : list (image * nat))
    (bx : image -> box) (npix np : nat) (cm : list nat) (M : nat -> nat -> V) (B : nat -> V) : Prop := {
  m_chain : chain bx offs 0 npix;
  m_nodup : NoDup (map (fun io => im_id (fst io)) offs);
  m_in : forall i o, In (i, o) offs -> In i imgs /\ inside (bx i) i;
  m_pix : forall i o k c, In (i, o) offs -> k < area (bx i) -> c < length cm ->
            M (o + k) c = D ds (nth c cm 0) i (box_y (bx i) k) (box_x (bx i) k);
  m_chi : forall i o k, In (i, o) offs -> k < area (bx i) -> B (o + k) = im_chi i (box_y (bx i) k) (box_x (bx i) k);
  m_out : forall i o p Y X, In (i, o) offs -> (0 <= Y < im_h i)%Z -> (0 <= X < im_w i)%Z -> outside (bx i) Y X ->
            D ds p i Y X = zero;
  m_noimg : forall i p Y X, In i imgs -> ~ In i (map fst offs) -> D ds p i Y X = zero;
  m_pri : forall k c, c < length cm -> M (npix + k) c = PA ts k (nth c cm 0);
  m_prib : forall k, B (npix + k) = PB ts k;
  m_cm : NoDup cm;
  m_cmn : forall q, In q cm -> q < length ds;
  m_dead : forall p, ~ In p cm -> (forall i Y X, D ds p i Y X = zero) /\ forall k, PA ts k p = zero;
  m_np : forall t r, In t ts -> In r (t_rows t) -> r < np;
  m_min : forall n, (forall t r, In t ts -> In r (t_rows t) -> r < n) -> np <= n }.

Lemma PA_beyond ts k p : (forall t r, In t ts -> In r (t_rows t) -> r <> k) -> PA ts k p = zero.
Proof.
  intros H. unfold prior_at. apply sum_zero. intros t Ht. destruct (t_col t =? p); auto.
  apply sum_zero. intros [r v] He. cbn [fst snd]. destruct (Nat.eqb_spec r k); auto.
  exfalso. apply (H t r); auto. eapply in_combine_l; eauto.
Qed.

Lemma full_normal imgs ds ts offs bx npix np cm M B x y : NoDup (map im_id imgs) ->
  matches imgs ds ts offs bx npix np cm M B ->
  (forall c, c < length cm -> nth (nth c cm 0) y zero = nth c x zero) ->
  (forall c, c < length cm ->
     sum (fun r => mul (M r c) (sub (sum (fun c' => mul (M r c') (nth c' x zero)) (seq 0 (length cm))) (B r))) (seq 0 (npix + np)) = zero) ->
  normal_equations zero add mul sub imgs ds ts y.
Proof.
  intros HI HM HY HS. unfold normal_equations. cbv zeta. intros np' Hnp p Hp. pose proof (m_min _ _ _ _ _ _ _ _ _ _ HM np' Hnp) as Hle.
  destruct (in_dec Nat.eq_dec p cm) as [Hin|Hin].
  2:{ destruct (m_dead _ _ _ _ _ _ _ _ _ _ HM p Hin) as [Z1 Z2].
      rewrite !sum_zero; [ring| |].
      - intros k _. rewrite Z2. ring.
      - intros i _. unfold pixel_sum. apply sum_zero. intros Y _. apply sum_zero. intros X _. rewrite Z1. ring. }
  destruct (In_nth cm p 0 Hin) as (c & Hc & <-).
  rewrite (sum_window _ np' 0 np); [|lia|].
  2:{ intros k Hk Ho. rewrite PA_beyond; [ring|]. intros t r Ht Hr.
      pose proof (m_np _ _ _ _ _ _ _ _ _ _ HM t r Ht Hr). lia. }
  cbn [Nat.add].
  etransitivity; [|exact (HS c Hc)].
  assert (LS : forall a, (forall q, ~ In q cm -> a q = zero) ->
            sum (fun c' => mul (a (nth c' cm 0)) (nth c' x zero)) (seq 0 (length cm)) = predict zero add mul (length ds) a y).
  { intros a Ha. apply live_sum; auto; try apply HM. }
  symmetry.
  apply (rows_sum imgs bx offs npix np _
           (fun i Y X => mul (D ds (nth c cm 0) i Y X)
              (sub (predict zero add mul (length ds) (fun q => D ds q i Y X) y) (im_chi i Y X)))
           (fun k => mul (PA ts k (nth c cm 0)) (sub (predict zero add mul (length ds) (PA ts k) y) (PB ts k)))).
  - apply HM.
  - exact HI.
  - apply HM.
  - apply HM.
  - intros i o k Hio Hk.
    rewrite (m_pix _ _ _ _ _ _ _ _ _ _ HM i o k c Hio Hk Hc), (m_chi _ _ _ _ _ _ _ _ _ _ HM i o k Hio Hk).
    f_equal. f_equal. rewrite <- LS.
    + apply sum_ext_in. intros c' Hc'. apply in_seq in Hc'. f_equal. apply (m_pix _ _ _ _ _ _ _ _ _ _ HM); auto; lia.
    + intros q Hq. apply (m_dead _ _ _ _ _ _ _ _ _ _ HM q Hq).
  - intros i o Y X Hio HY1 HX1 Ho. rewrite (m_out _ _ _ _ _ _ _ _ _ _ HM i o) by auto. ring.
  - intros i Y X Hi Hn. rewrite (m_noimg _ _ _ _ _ _ _ _ _ _ HM i) by auto. ring.
  - intros k Hk. rewrite (m_pri _ _ _ _ _ _ _ _ _ _ HM k c Hc), (m_prib _ _ _ _ _ _ _ _ _ _ HM k).
    f_equal. f_equal. rewrite <- LS.
    + apply sum_ext_in. intros c' Hc'. apply in_seq in Hc'. f_equal. apply (m_pri _ _ _ _ _ _ _ _ _ _ HM); lia.
    + intros q Hq. apply (m_dead _ _ _ _ _ _ _ _ _ _ HM q Hq).
Qed.

Lemma full_gram imgs ds ts offs bx npix np cm M B c c' : NoDup (map im_id imgs) ->
  matches imgs ds ts offs bx npix np cm M B -> c < length cm -> c' < length cm ->
  sum (fun r => mul (M r c) (M r c')) (seq 0 (npix + np)) = gram zero add mul imgs ds ts np (nth c cm 0) (nth c' cm 0).
Proof.
  intros HI HM Hc Hc'. unfold gram.
  apply (rows_sum imgs bx offs npix np _ (fun i Y X => mul (D ds (nth c cm 0) i Y X) (D ds (nth c' cm 0) i Y X))
           (fun k => mul (PA ts k (nth c cm 0)) (PA ts k (nth c' cm 0)))).
  - apply HM.
  - exact HI.
  - apply HM.
  - apply HM.
  - intros i o k Hio Hk. rewrite !(m_pix _ _ _ _ _ _ _ _ _ _ HM i o k _ Hio Hk) by auto. reflexivity.
  - intros i o Y X Hio HY1 HX1 Ho. rewrite (m_out _ _ _ _ _ _ _ _ _ _ HM i o) by auto. ring.
  - intros i Y X Hi Hn. rewrite (m_noimg _ _ _ _ _ _ _ _ _ _ HM i) by auto. ring.
  - intros k Hk. rewrite !(m_pri _ _ _ _ _ _ _ _ _ _ HM k) by auto. reflexivity.
Qed.

(** *** Column scaling *)
Lemma one_neq_zero : one <> zero.
Proof. apply (F_1_neq_0 F). Qed.

Lemma div_mul a b : b <> zero -> mul (div a b) b = a.
Proof. intros H. field; auto. Qed.

Lemma unscaled_normal (M : nat -> nat -> V) (B : nat -> V) (s : nat -> V) n nr x : (forall c, s c <> zero) -> length x = n ->
  (forall c, c < n -> sum (fun r => mul (div (M r c) (s c))
      (sub (sum (fun c' => mul (div (M r c') (s c')) (nth c' x zero)) (seq 0 n)) (B r))) (seq 0 nr) = zero) ->
  let y := map (fun k => div (nth k x zero) (s k)) (seq 0 (length x)) in
  length y = n /\ forall c, c < n -> sum (fun r => mul (M r c) (sub (sum (fun c' => mul (M r c') (nth c' y zero)) (seq 0 n)) (B r))) (seq 0 nr) = zero.
Proof.
  intros Hs HL HE y. subst y. split; [rewrite map_length, seq_length; auto|].
  intros c Hc.
  transitivity (mul (s c) (sum (fun r => mul (div (M r c) (s c))
      (sub (sum (fun c' => mul (div (M r c') (s c')) (nth c' x zero)) (seq 0 n)) (B r))) (seq 0 nr))).
  2:{ rewrite HE by auto. ring. }
  rewrite <- sum_mul. apply sum_ext_in. intros r _.
  rewrite (sum_ext_in (fun c' => mul (M r c') (nth c' _ zero)) (fun c' => mul (div (M r c') (s c')) (nth c' x zero))).
  - field. auto.
  - intros c' Hc'. apply in_seq in Hc'.
    rewrite (nth_indep _ zero (div (nth 0 x zero) (s 0))) by (rewrite map_length, seq_length; lia).
    rewrite (map_nth (fun k => div (nth k x zero) (s k))), seq_nth by lia. cbn [Nat.add]. field. auto.
Qed.

(** *** Common to both optimizers *)
Lemma npriors_spec (pri : option (list (term (V := V)))) np : npriors pri = Ok np ->
  (forall t r, In t (terms_of pri) -> In r (t_rows t) -> r < np) /\
  (forall n, (forall t r, In t (terms_of pri) -> In r (t_rows t) -> r < n) -> np <= n).
Proof.
  destruct pri as [ts|]; cbn [npriors terms_of].
  2:{ intros E; inversion E; subst. split; [intros t r []|intros; lia]. }
  destruct (_ || _) eqn:EO; [discriminate|]. apply orb_false_iff in EO. destruct EO as [_ EO].
  intros E. assert (E' : fold_right (fun (t : term) m => Nat.max (S (fold_right Nat.max 0 (t_rows t))) m) 0 ts = np) by (inversion E; auto).
  clear E. subst np.
  assert (MX : forall l r, In r l -> r <= fold_right Nat.max 0 l).
  { induction l; simpl; [tauto|]. intros r [->|H]; [lia|]. apply IHl in H. lia. }
  assert (MI : forall l, l <> [] -> In (fold_right Nat.max 0 l) l).
  { induction l as [|a l IHl]; [congruence|]. intros _. simpl. destruct l as [|b l].
    - left. simpl. lia.
    - destruct (Nat.max_spec a (fold_right Nat.max 0 (b :: l))) as [[_ ->]|[_ ->]]; [|left; auto]. right. apply IHl. congruence. }
  induction ts as [|t ts IH].
  - split; [intros t r []|intros; simpl; lia].
  - cbn [existsb] in EO. apply orb_false_iff in EO. destruct EO as [EO1 EO2]. destruct (IH EO2) as [A B]. split.
    + intros t' r [<-|Ht] Hr; cbn [fold_right]; [apply MX in Hr; lia|]. specialize (A _ _ Ht Hr). lia.
    + intros n H. cbn [fold_right]. apply Nat.max_lub.
      * apply (H t); [left; auto|]. apply MI. intros E. rewrite E in EO1. discriminate.
      * apply B. intros t' r Ht Hr. apply (H t'); auto. right; auto.
Qed.

Lemma off_of_in offs (i : image) : forall o, off_of offs i = Some o -> exists j, In (j, o) offs /\ im_id j = im_id i.
Proof.
  induction offs as [|[j p] r IH]; simpl; intros o H; [discriminate|].
  destruct (Nat.eqb_spec (im_id j) (im_id i)) as [E|E].
  - inversion H; subst. exists j; auto.
  - destruct (IH o H) as (j' & A & B). exists j'; auto.
Qed.
Lemma off_of_none offs (i : image) : off_of offs i = None -> forall j o, In (j, o) offs -> im_id j <> im_id i.
Proof.
  induction offs as [|[j p] r IH]; simpl; intros H j' o' HI; [tauto|].
  destruct (Nat.eqb_spec (im_id j) (im_id i)) as [E|E]; [discriminate|].
  destruct HI as [E'|HI]; [inversion E'; subst; auto|]. eapply IH; eauto.
Qed.

Lemma nodup_uniq (imgs : list image) i j : NoDup (map im_id imgs) -> In i imgs -> In j imgs -> im_id i = im_id j -> i = j.
Proof.
  induction imgs as [|a l IH]; simpl; intros HN Hi Hj E; [tauto|]. inversion HN as [|? ? H1 H2]; subst.
  destruct Hi as [->|Hi], Hj as [->|Hj]; auto.
  - exfalso. apply H1. rewrite E. apply in_map; auto.
  - exfalso. apply H1. rewrite <- E. apply in_map; auto.
Qed.
Lemma off_unique (offs : list (image * nat)) i o o' : NoDup (map (fun io => im_id (fst io)) offs) ->
  In (i, o) offs -> In (i, o') offs -> o = o'.
Proof.
  induction offs as [|[j p] r IH]; simpl; intros HN H1 H2; [tauto|]. inversion HN as [|? ? N1 N2]; subst.
  destruct H1 as [E1|H1], H2 as [E2|H2].
  - inversion E1; inversion E2; subst; auto.
  - inversion E1; subst. exfalso. apply N1. apply (in_map (fun io => im_id (fst io)) _ _ H2).
  - inversion E2; subst. exfalso. apply N1. apply (in_map (fun io => im_id (fst io)) _ _ H1).
  - apply IH; auto.
Qed.

Lemma D_empty (ds : list (list ent)) p i Y X : nth p ds [] = [] -> D ds p i Y X = zero.
Proof. intros E. unfold deriv_at. rewrite E. reflexivity. Qed.
Lemma D_noimg (ds : list (list ent)) p i Y X : (forall d e, In d ds -> In e d -> im_id (snd e) <> im_id i) -> D ds p i Y X = zero.
Proof.
  intros H. unfold deriv_at. apply sum_zero. intros e He.
  destruct (Nat.eqb_spec (im_id (snd e)) (im_id i)) as [E|E]; auto.
  exfalso. destruct (Nat.lt_ge_cases p (length ds)) as [L|L].
  - apply (H (nth p ds []) e); auto. apply nth_In; auto.
  - rewrite nth_overflow in He by auto. destruct He.
Qed.
Lemma PA_col ts k p : (forall t, In t ts -> t_col t <> p) -> PA ts k p = zero.
Proof.
  intros H. unfold prior_at. apply sum_zero. intros t Ht. destruct (Nat.eqb_spec (t_col t) p); auto.
  exfalso. eapply H; eauto.
Qed.

(** *** The compact optimizer *)
Section Smart.
Variable imgs : list image.
Hypothesis imgs_nodup : NoDup (map im_id imgs).
Hypothesis imgs_size : forall i, In i imgs -> (0 <= im_w i)%Z /\ (0 <= im_h i)%Z.

Definition bd_ok (bd : nat -> option box) : Prop := forall i b, In i imgs -> bd (im_id i) = Some b -> inside b i.
Definition ent_ok (e : ent) : Prop := In (snd e) imgs /\ wf_patch (fst e).
(** The second entry is the first, clipped to its image. *)
Definition clipped (e e' : ent) : Prop :=
  snd e' = snd e /\
  forall X Y, val_at (fst e') X Y = if in_box 0 (im_w (snd e)) 0 (im_h (snd e)) X Y then val_at (fst e) X Y else None.

Lemma widen_inside old e i : inside e i -> (forall b, old = Some b -> inside b i) -> inside (widen old e) i.
Proof.
  destruct e as [[[a0 a1] b0] b1]. intros H1 H2. destruct old as [[[[c0 c1] d0] d1]|]; [|exact H1].
  specialize (H2 _ eq_refl). unfold inside, widen in *. lia.
Qed.

Lemma clip_param_spec ds : forall bd cs bd', clip_param ds bd = Ok (cs, bd') -> bd_ok bd -> Forall ent_ok ds ->
  bd_ok bd' /\ Forall2 clipped ds cs.
Proof.
  induction ds as [|[d i] r IH]; intros bd cs bd' E HB HF; cbn [clip_param] in E.
  - inversion E; subst. split; auto.
  - apply bind_ok in E. destruct E as ([p ok] & E1 & E2). apply bind_ok in E2. destruct E2 as ([r' bd2] & E3 & E4).
    inversion E4; subst; clear E4. inversion HF as [|? ? [H1 H2] HF']; subst. cbn [fst snd] in *.
    destruct (imgs_size i H1) as [HW HH].
    destruct (C17_clip_to V d (im_w i) (im_h i) H2 HW HH) as (p' & b & E & WF & VA & _ & HT).
    rewrite E1 in E. inversion E; subst p' b; clear E.
    destruct (IH _ _ _ E3) as [A B]; auto.
    + destruct ok; auto. intros j b Hj. unfold setf. destruct (Nat.eqb_spec (im_id j) (im_id i)) as [Ej|Ej]; [|apply HB; auto].
      intros Eb. inversion Eb; subst b; clear Eb. rewrite (nodup_uniq imgs j i) by auto.
      apply widen_inside; [|intros b Hb; apply HB; auto].
      destruct (HT eq_refl) as (a & Ea & X0 & Y0 & X1 & Y1). unfold get_extent, pshape. rewrite Ea. unfold inside.
      unfold wf_patch in WF. rewrite Ea in WF. unfold wf_arr in WF. lia.
    + split; auto. constructor; auto. split; auto.
Qed.

Lemma clip_all_spec ds : forall bd cs bd', clip_all ds bd = Ok (cs, bd') -> bd_ok bd -> Forall (Forall ent_ok) ds ->
  bd_ok bd' /\ Forall2 (Forall2 clipped) ds cs.
Proof.
  induction ds as [|d r IH]; intros bd cs bd' E HB HF; cbn [clip_all] in E.
  - inversion E; subst. split; auto.
  - apply bind_ok in E. destruct E as ([d' bd1] & E1 & E2). apply bind_ok in E2. destruct E2 as ([r' bd2] & E3 & E4).
    inversion E4; subst; clear E4. inversion HF as [|? ? H1 H2]; subst.
    destruct (clip_param_spec _ _ _ _ E1 HB H1) as [A B]. destruct (IH _ _ _ E3 A H2) as [C D']. auto.
Qed.

Lemma clipped_D ds cs p i Y X : Forall (Forall ent_ok) ds -> Forall2 (Forall2 clipped) ds cs -> In i imgs ->
  (0 <= Y < im_h i)%Z -> (0 <= X < im_w i)%Z -> D cs p i Y X = D ds p i Y X.
Proof.
  intros HF HC Hi HY HX. unfold deriv_at.
  assert (H1 : Forall2 clipped (nth p ds []) (nth p cs [])).
  { clear HF. revert p. induction HC; intros [|p]; simpl; auto. }
  assert (H2 : Forall ent_ok (nth p ds [])).
  { clear -HF. revert p. induction HF; intros [|p]; simpl; auto. }
  induction H1 as [|e e' l l' [E1 E2] HL IH]; [reflexivity|]. inversion H2 as [|? ? [K1 K2] H3]; subst.
  cbn [lsum fold_right]. change (fold_right _ zero l') with (sum (fun e => if im_id (snd e) =? im_id i then mul (img_at zero (fst e) X Y) (im_ie i Y X) else zero) l').
  change (fold_right _ zero l) with (sum (fun e => if im_id (snd e) =? im_id i then mul (img_at zero (fst e) X Y) (im_ie i Y X) else zero) l).
  rewrite (IH H3). f_equal. rewrite E1. destruct (Nat.eqb_spec (im_id (snd e)) (im_id i)) as [E|]; auto.
  rewrite (nodup_uniq imgs _ _ imgs_nodup K1 Hi E) in E2.
  unfold img_at. rewrite E2. unfold in_box.
  replace ((0 <=? X) && (X <? im_w i) && (0 <=? Y) && (Y <? im_h i))%Z with true; auto.
  symmetry. rewrite !andb_true_iff. conjs; lia.
Qed.

Definition boxof (bd : nat -> option box) (i : image) : box :=
  match bd (im_id i) with Some b => b | None => (0, 0, 0, 0)%Z end.

Lemma place_spec bd ds : forall offs next offs' next', place bd ds offs next = Ok (offs', next') ->
  chain (boxof bd) offs 0 next -> NoDup (map (fun io => im_id (fst io)) offs) ->
  (forall i o, In (i, o) offs -> In i imgs /\ bd (im_id i) <> None) -> Forall (fun e => In (snd e) imgs) ds ->
  chain (boxof bd) offs' 0 next' /\ NoDup (map (fun io => im_id (fst io)) offs') /\
  (forall i o, In (i, o) offs' -> In i imgs /\ bd (im_id i) <> None) /\
  (forall io, In io offs -> In io offs') /\
  (forall e, In e ds -> In (snd e) (map fst offs')).
Proof.
  induction ds as [|[d i] r IH]; intros offs next offs' next' E HC HN HI HF; cbn [place] in E.
  - inversion E; subst. conjs; auto. intros e [].
  - inversion HF as [|? ? H1 H2]; subst. cbn [snd] in H1.
    destruct (off_of offs i) as [o|] eqn:EO.
    + destruct (IH _ _ _ _ E HC HN HI H2) as (A & B & C & G & K). conjs; auto.
      intros e [<-|He]; auto. cbn [snd]. destruct (off_of_in _ _ _ EO) as (j & Hj & Ej).
      rewrite <- (nodup_uniq imgs j i) by (auto; apply (HI _ _ Hj)). apply (in_map fst _ _ (G _ Hj)).
    + destruct (bd (im_id i)) as [b|] eqn:EB; [|discriminate].
      assert (EX : boxof bd i = b) by (unfold boxof; rewrite EB; auto).
      destruct (IH _ _ _ _ E) as (A & B & C & G & K); auto.
      * apply chain_app. exists next. split; auto. simpl. split; auto. rewrite EX; auto.
      * rewrite map_app. cbn [map fst]. eapply Permutation_NoDup; [apply Permutation_cons_append|]. constructor; auto.
        intros Hin. apply in_map_iff in Hin. destruct Hin as ([j o] & Ej & Hj).
        exact (off_of_none _ _ EO j o Hj Ej).
      * intros j o Hj. apply in_app_or in Hj. destruct Hj as [Hj|[Ej|[]]]; [apply (HI _ _ Hj)|]. inversion Ej; subst. split; auto. congruence.
      * conjs; auto.
        -- intros io Hio. apply G. apply in_or_app. auto.
        -- intros e [<-|He]; auto. cbn [snd]. apply (in_map fst offs' (i, next)). apply G. apply in_or_app. right; left; auto.
Qed.

Section Fill.
Variable bd : nat -> option box.
Variable offs : list (image * nat).
Variable npix : nat.
Hypothesis HC : chain (boxof bd) offs 0 npix.
Hypothesis HN : NoDup (map (fun io => im_id (fst io)) offs).
Hypothesis HI : forall i o, In (i, o) offs -> In i imgs /\ bd (im_id i) <> None.

Lemma box_eqb_eq a b : box_eqb a b = true -> a = b.
Proof.
  destruct a as [[[? ?] ?] ?], b as [[[? ?] ?] ?]. simpl. rewrite !andb_true_iff, !Z.eqb_eq. intros (((-> & ->) & ->) & ->). auto.
Qed.

Lemma box_xy_bounds (b : box) k : k < area b ->
  let '(a0, a1, b0, b1) := b in (a0 <= box_x b k < a1 /\ b0 <= box_y b k < b1)%Z.
Proof.
  destruct b as [[[a0 a1] b0] b1]. unfold area, box_x, box_y. intros H.
  assert (W : width (a0, a1, b0, b1) <> 0) by (intros E; rewrite E in H; lia).
  assert (k / width (a0, a1, b0, b1) < height (a0, a1, b0, b1)) by (apply Nat.div_lt_upper_bound; auto).
  pose proof (Nat.mod_upper_bound k _ W). unfold width, height in *. lia.
Qed.

Lemma apix_img d a i k : pimg d = Some a -> k < area (get_extent d) ->
  apix mul a i (get_extent d) k = mul (img_at zero d (box_x (get_extent d) k) (box_y (get_extent d) k))
                                      (im_ie i (box_y (get_extent d) k) (box_x (get_extent d) k)).
Proof.
  intros Ea Hk. pose proof (box_xy_bounds _ _ Hk) as HB. unfold get_extent, pshape in *. rewrite Ea in *.
  unfold apix. cbn [box_x box_y] in *. f_equal. unfold img_at, val_at. rewrite Ea.
  set (w := width _) in *.
  replace ((x0 d <=? x0 d + Z.of_nat (k mod w)) && (x0 d + Z.of_nat (k mod w) <? x0 d + aw a) &&
           (y0 d <=? y0 d + Z.of_nat (k / w)) && (y0 d + Z.of_nat (k / w) <? y0 d + ah a))%Z with true.
  - f_equal; lia.
  - symmetry. rewrite !andb_true_iff. conjs; lia.
Qed.

Notation term_at i Y X := (fun e : ent => if im_id (snd e) =? im_id i then mul (img_at zero (fst e) X Y) (im_ie i Y X) else zero).

Lemma fill_param_spec col cs : forall M s M' s', fill_param zero add mul bd offs col cs M s = Ok (M', s') ->
  Forall (fun e => In (snd e) imgs) cs ->
  (forall r c, c <> col \/ npix <= r -> M' r c = M r c) /\
  (forall e a, In e cs -> pimg (fst e) = Some a -> bd (im_id (snd e)) = Some (get_extent (fst e))) /\
  (forall i o k, In (i, o) offs -> k < area (boxof bd i) -> (forall e, In e cs -> im_id (snd e) <> im_id i) -> M' (o + k) col = M (o + k) col) /\
  (NoDup (map (fun e => im_id (snd e)) cs) -> forall i o k, In (i, o) offs -> k < area (boxof bd i) -> M (o + k) col = zero ->
     M' (o + k) col = sum (term_at i (box_y (boxof bd i) k) (box_x (boxof bd i) k)) cs).
Proof.
  induction cs as [|[d j] r IH]; intros M s M' s' E HF; cbn [fill_param] in E.
  - inversion E; subst. conjs; auto. intros e a [].
  - inversion HF as [|? ? H1 H2]; subst. cbn [snd] in H1.
    destruct (pimg d) as [a|] eqn:Ea.
    2:{ destruct (IH _ _ _ _ E H2) as (A & B & C & G). conjs; auto.
        - intros e a [<-|He]; [cbn [fst]; congruence|]. eapply B; eauto.
        - intros i o k Hio Hk Hne. apply (C i o k); auto. intros e He. apply Hne. right; auto.
        - cbn [map snd]. intros ND i o k Hio Hk HZ. apply NoDup_cons_iff in ND. destruct ND as [N1 N2]. try subst b.
          rewrite (G N2 i o k) by auto. cbn [lsum fold_right fst snd].
          transitivity (add zero (sum (term_at i (box_y (boxof bd i) k) (box_x (boxof bd i) k)) r)); [ring|].
          f_equal. unfold img_at, val_at. rewrite Ea. destruct (_ =? _); ring. }
    destruct (bd (im_id j)) as [b|] eqn:EB; [|discriminate]. destruct (off_of offs j) as [oj|] eqn:EO; [|discriminate].
    destruct (box_eqb b (get_extent d)) eqn:EQ; [|discriminate]. apply box_eqb_eq in EQ.
    destruct (off_of_in _ _ _ EO) as (j' & Hj & Ej). rewrite (nodup_uniq imgs j' j) in Hj by (auto; apply (HI _ _ Hj)).
    assert (BX : boxof bd j = b) by (unfold boxof; rewrite EB; auto).
    destruct (chain_in _ _ _ _ _ _ HC Hj) as [_ Hup]. rewrite BX in Hup.
    destruct (IH _ _ _ _ E H2) as (A & B & C & G). clear IH E. conjs.
    + intros r0 c Hc. rewrite A by auto. unfold set_block.
      destruct (Nat.eqb_spec c col); cbn [andb]; auto. destruct (Nat.leb_spec oj r0); cbn [andb]; auto.
      destruct (Nat.ltb_spec r0 (oj + area b)); auto. lia.
    + intros e a' [<-|He] Ha; [cbn [fst snd]; rewrite EB, EQ; reflexivity|]. eapply B; eauto.
    + intros i o k Hio Hk Hne. rewrite (C i o k) by (auto; intros e He; apply Hne; right; auto).
      unfold set_block. rewrite Nat.eqb_refl. cbn [andb].
      destruct (chain_disjoint _ _ _ _ _ _ _ _ HC Hio Hj) as [Hd|Hd]; [apply not_eq_sym; apply not_eq_sym; intros X; apply (Hne (d, j) (or_introl eq_refl)); auto| |];
        rewrite ?BX in Hd; destruct (Nat.leb_spec oj (o + k)); cbn [andb]; auto; destruct (Nat.ltb_spec (o + k) (oj + area b)); auto; lia.
    + cbn [map snd]. intros ND i o k Hio Hk HZ. apply NoDup_cons_iff in ND. destruct ND as [N1 N2]. try subst b.
      cbn [lsum fold_right fst snd].
      destruct (Nat.eqb_spec (im_id j) (im_id i)) as [Eji|Nji].
      * assert (j = i) by (apply (nodup_uniq imgs); auto; apply (HI _ _ Hio)). subst i.
        assert (oj = o) by (eapply off_unique; eauto). subst oj.
        rewrite (C j o k Hio Hk).
        -- unfold set_block. rewrite Nat.eqb_refl. rewrite BX in Hk.
           replace (o <=? o + k) with true by (symmetry; apply Nat.leb_le; lia).
           replace (o + k <? o + area (get_extent d)) with true by (symmetry; apply Nat.ltb_lt; lia). cbn [andb].
           replace (o + k - o) with k by lia. rewrite (apix_img d a) by auto. rewrite BX.
           transitivity (add (mul (img_at zero d (box_x (get_extent d) k) (box_y (get_extent d) k)) (im_ie j (box_y (get_extent d) k) (box_x (get_extent d) k))) zero); [ring|].
           f_equal. symmetry. apply sum_zero. intros e He. destruct (Nat.eqb_spec (im_id (snd e)) (im_id j)) as [Ee|]; auto.
           exfalso. apply N1. rewrite <- Ee. apply (in_map (fun e : ent => im_id (snd e)) _ _ He).
        -- intros e He Ee. apply N1. rewrite <- Ee. apply (in_map (fun e : ent => im_id (snd e)) _ _ He).
      * rewrite (G N2 i o k); auto.
        -- unfold lsum. ring.
        -- unfold set_block. rewrite Nat.eqb_refl. cbn [andb].
           destruct (chain_disjoint _ _ _ _ _ _ _ _ HC Hio Hj) as [Hd|Hd]; [auto| |];
             rewrite ?BX in Hd; destruct (Nat.leb_spec oj (o + k)); cbn [andb]; auto;
             destruct (Nat.ltb_spec (o + k) (oj + area (get_extent d))); auto; lia.
Qed.

Lemma fill_all_spec scale cm cs : forall ip M sc M' sc', fill_all zero add mul scale bd offs cm ip cs M sc = Ok (M', sc') ->
  NoDup cm -> Forall (Forall (fun e => In (snd e) imgs)) cs ->
  (forall r c, npix <= r -> M' r c = M r c) /\
  (forall d e a, In d cs -> In e d -> pimg (fst e) = Some a -> bd (im_id (snd e)) = Some (get_extent (fst e))) /\
  (forall i o k c, In (i, o) offs -> k < area (boxof bd i) -> c < length cm ->
     (nth c cm 0 < ip -> M' (o + k) c = M (o + k) c) /\
     (ip <= nth c cm 0 -> M (o + k) c = zero -> one_each cs ->
      M' (o + k) c = D cs (nth c cm 0 - ip) i (box_y (boxof bd i) k) (box_x (boxof bd i) k))).
Proof.
  induction cs as [|d r IH]; intros ip M sc M' sc' E ND HF; cbn [fill_all] in E.
  - inversion E; subst. conjs; auto.
    + intros d e a [].
    + intros i o k c Hio Hk Hc. split; auto. intros _ HZ _. rewrite HZ. symmetry. apply D_empty. destruct (nth c cm 0 - ip); auto.
  - inversion HF as [|? ? H1 H2]; subst.
    assert (one_tl : one_each (d :: r) -> one_each r) by (intros HO d' Hd'; apply HO; right; auto).
    destruct d as [|e0 d0].
    + destruct (IH _ _ _ _ _ E ND H2) as (A & B & C). conjs; auto.
      * intros d e a [<-|Hd] He; [destruct He|]. eapply B; eauto.
      * intros i o k c Hio Hk Hc. destruct (C i o k c Hio Hk Hc) as [C1 C2]. split.
        -- intros Hl. apply C1. lia.
        -- intros Hl HZ HO. destruct (Nat.eq_dec (nth c cm 0) ip) as [Eq|Nq].
           ++ rewrite C1 by lia. rewrite HZ. symmetry. apply D_empty. rewrite Eq, Nat.sub_diag. reflexivity.
           ++ rewrite C2; auto; try lia. replace (nth c cm 0 - ip) with (S (nth c cm 0 - S ip)) by lia. reflexivity.
    + destruct (index_of ip cm) as [col|] eqn:EC; [|discriminate].
      apply bind_ok in E. destruct E as ([M1 s1] & E1 & E2).
      destruct (fill_param_spec _ _ _ _ _ _ E1 H1) as (P1 & P2 & _ & P4).
      destruct (IH _ _ _ _ _ E2 ND H2) as (A & B & C). clear IH E1 E2. pose proof (index_of_some _ _ _ EC) as EN.
      conjs.
      * intros r0 c Hr. rewrite A by auto. apply P1; auto.
      * intros d e a [<-|Hd] He; [eapply P2; eauto|eapply B; eauto].
      * intros i o k c Hio Hk Hc. destruct (C i o k c Hio Hk Hc) as [C1 C2].
        assert (EC' : c <> col -> nth c cm 0 <> ip).
        { intros Nc Eq. apply Nc. assert (E3 : nth_error cm c = Some ip) by (rewrite <- Eq; apply nth_error_nth'; auto).
          rewrite (index_of_nth _ _ _ ND E3) in EC. congruence. }
        assert (EC2 : c = col -> nth c cm 0 = ip) by (intros ->; apply nth_error_nth; auto).
        split.
        -- intros Hl. rewrite C1 by lia. apply P1. left. intros Eq. apply EC2 in Eq. lia.
        -- intros Hl HZ HO. destruct (Nat.eq_dec c col) as [Eq|Nq].
           ++ specialize (EC2 Eq). subst c. rewrite C1 by lia. rewrite (P4 (HO _ (or_introl eq_refl)) i o k Hio Hk HZ).
              rewrite EC2, Nat.sub_diag. reflexivity.
           ++ specialize (EC' Nq). rewrite C2; auto; try lia.
              ** replace (nth c cm 0 - ip) with (S (nth c cm 0 - S ip)) by lia. reflexivity.
              ** rewrite P1; auto.
Qed.

End Fill.

Lemma smart_chi_spec bd offs : forall s e b b', smart_chi bd offs b = Ok b' -> chain (boxof bd) offs s e ->
  (forall r, r < s \/ e <= r -> b' r = b r) /\
  (forall i o k, In (i, o) offs -> k < area (boxof bd i) -> b' (o + k) = im_chi i (box_y (boxof bd i) k) (box_x (boxof bd i) k)).
Proof.
  induction offs as [|[i o] r IH]; intros s e b b' E HC; cbn [smart_chi] in E.
  - inversion E; subst. split; auto. intros i o k [].
  - destruct (bd (im_id i)) as [bx|] eqn:EB; [|discriminate]. cbn [chain] in HC. destruct HC as [-> HC].
    assert (BX : boxof bd i = bx) by (unfold boxof; rewrite EB; auto). rewrite BX in HC.
    destruct bx as [[[a0 a1] b0] b1] eqn:EX. rewrite <- EX in *.
    pose proof (chain_le _ _ _ _ HC) as HL.
    destruct (IH _ _ _ _ E HC) as [A B]. split.
    + intros r0 Hr. rewrite A by lia. unfold set_vec. destruct (Nat.leb_spec s r0); cbn [andb]; auto.
      destruct (Nat.ltb_spec r0 (s + area bx)); auto. lia.
    + intros j o' k [Ej|Hj] Hk; [|exact (B j o' k Hj Hk)]. injection Ej as <- <-. rewrite BX in *. rewrite A by lia.
      unfold set_vec. destruct (Nat.leb_spec s (s + k)); [|lia]. destruct (Nat.ltb_spec (s + k) (s + area bx)); [|lia]. cbn [andb].
      replace (s + k - s) with k by lia. rewrite EX. reflexivity.
Qed.

Lemma fill_all_noscale bd offs cm cs : forall ip M sc M' sc',
  fill_all zero add mul false bd offs cm ip cs M sc = Ok (M', sc') -> sc' = sc.
Proof.
  induction cs as [|d r IH]; intros ip M sc M' sc' E; cbn [fill_all] in E; [inversion E; auto|].
  destruct d as [|e d]; [eapply IH; eauto|]. destruct (index_of ip cm); [|discriminate].
  apply bind_ok in E. destruct E as ([M1 s1] & _ & E). eapply IH; eauto.
Qed.
Lemma smart_priors_noscale cm npix ts : forall M b sc M' b' sc',
  smart_priors zero add mul false cm npix ts M b sc = Ok (M', b', sc') -> sc' = sc.
Proof.
  induction ts as [|t r IH]; intros M b sc M' b' sc' E; cbn [smart_priors] in E; [inversion E; auto|].
  destruct (index_of (t_col t) cm); [|discriminate].
  destruct (prior_rows add npix _ _ M b). eapply IH; eauto.
Qed.

Hypothesis root_pos : forall v, pos (sqrtf v) = true -> sqrtf v <> zero.

Lemma smart_system_spec scale ds pri s : images_ok imgs ds -> one_each ds -> priors_ok (terms_of pri) ->
  smart_system zero one add mul div sqrtf pos false scale ds pri = Ok (Some s) ->
  exists offs bx npix np M,
    matches imgs ds (terms_of pri) offs bx npix np (s_inv s) M (s_B s) /\
    s_nrows s = npix + np /\ s_ncols s = length (s_inv s) /\
    (scale = false -> (forall r c, s_A s r c = M r c) /\ forall c, s_scales s c = zero) /\
    (scale = true -> forall c, s_scales s c <> zero /\ forall r, s_A s r c = div (M r c) (s_scales s c)) /\
    (forall p, In p (s_inv s) <-> p < length ds /\ (nth p ds [] <> [] \/ exists t, In t (terms_of pri) /\ t_col t = p)).
Proof.
  intros (_ & _ & HE) HO HP E. unfold smart_system in E.
  apply bind_ok in E. destruct E as ([cs bd] & E1 & E). apply bind_ok in E. destruct E as (np & E2 & E).
  apply bind_ok in E. destruct E as (lv & E3 & E). apply bind_ok in E. destruct E as ([offs npix] & E4 & E).
  destruct (npix + np =? 0); [discriminate|].
  apply bind_ok in E. destruct E as ([M1 sc1] & E5 & E). apply bind_ok in E. destruct E as ([[M2 b2] sc2] & E6 & E).
  apply bind_ok in E. destruct E as (b3 & E7 & E). inversion E; subst s; clear E. cbn [s_inv s_B s_nrows s_ncols s_A s_scales].
  assert (HF : Forall (Forall ent_ok) ds).
  { apply Forall_forall. intros d Hd. apply Forall_forall. intros e He. apply (HE d e); auto. }
  destruct (clip_all_spec _ _ _ _ E1) as [BO CL]; auto; [intros i b _ Hb; discriminate|].
  assert (CI : Forall (Forall (fun e => In (snd e) imgs)) cs).
  { clear -HF CL. induction CL as [|d d' l l' H1 H2 IH]; constructor; inversion HF as [|? ? K1 K2]; subst; auto.
    clear -H1 K1. induction H1 as [|e e' l l' [A _] H2 IH]; constructor; inversion K1 as [|? ? [J1 _] J2]; subst; auto. rewrite A; auto. }
  assert (CIC : Forall (fun e => In (snd e) imgs) (concat cs)) by (apply Forall_concat; auto).
  destruct (place_spec bd _ _ _ _ _ E4) as (PC & PN & PI & _ & PE); auto; [reflexivity|constructor|intros i o []|].
  destruct (live_spec _ _ _ E3) as (LL & LT & LP).
  destruct (flatnonzero_spec lv) as [FN FI].
  assert (CO : one_each cs).
  { intros d' Hd'. clear -HO CL Hd'. revert d' Hd'. induction CL as [|d d0 l l' H1 H2 IH]; [intros ? []|].
    intros d' [<-|Hd'].
    - assert (Q : map (fun e : ent => im_id (snd e)) d0 = map (fun e : ent => im_id (snd e)) d).
      { clear -H1. induction H1 as [|e e' l l' [A _] H2 IH]; simpl; auto. rewrite A, IH. auto. }
      rewrite Q. apply HO. left; auto.
    - apply IH; auto. intros d1 Hd1. apply HO. right; auto. }
  destruct (fill_all_spec bd offs npix PC PN PI scale (flatnonzero lv) cs 0 _ _ _ _ E5 FN CI) as (A1 & A2 & A3).
  destruct (smart_priors_spec _ _ _ _ _ _ _ _ _ _ E6 FN) as (B0 & B1 & B2 & B3).
  destruct (B3 HP) as [B4 B5]. clear B3.
  destruct (smart_chi_spec _ _ _ _ _ _ E7 PC) as [C1 C2].
  destruct (npriors_spec _ _ E2) as [N1 N2].
  assert (NE : forall p, nth p ds [] = [] \/ p < length ds).
  { intros p. destruct (Nat.lt_ge_cases p (length ds)); auto. left. apply nth_overflow; auto. }
  assert (INV : forall p, In p (flatnonzero lv) <-> p < length ds /\ (nth p ds [] <> [] \/ exists t, In t (terms_of pri) /\ t_col t = p)).
  { intros p. rewrite FI, LL. split; intros [Hp Hq]; split; auto; apply LP; auto. }
  exists offs, (boxof bd), npix, np, M2. conjs.
  - constructor; auto.
    + intros i o Hio. destruct (PI i o Hio) as [Q1 Q2]. split; auto. unfold boxof. destruct (bd (im_id i)) eqn:EB; [|congruence]. apply BO; auto.
    + intros i o k c Hio Hk Hc. destruct (chain_in _ _ _ _ _ _ PC Hio) as [_ Hu]. rewrite B1 by lia.
      destruct (A3 i o k c Hio Hk Hc) as [_ A4]. rewrite A4; auto; [|lia]. rewrite Nat.sub_0_r.
      destruct (PI i o Hio) as [Q1 Q2].
      assert (Q3 : inside (boxof bd i) i) by (unfold boxof; destruct (bd (im_id i)) eqn:EB; [apply BO; auto|congruence]).
      pose proof (box_xy_bounds _ _ Hk) as Q4.
      apply clipped_D; auto; destruct (boxof bd i) as [[[? ?] ?] ?]; unfold inside in Q3; lia.
    + intros i o p Y X Hio HY HX Ho. destruct (PI i o Hio) as [Q1 Q2].
      rewrite <- (clipped_D ds cs) by auto. unfold deriv_at. apply sum_zero. intros e He.
      destruct (Nat.eqb_spec (im_id (snd e)) (im_id i)) as [Ei|]; auto.
      assert (Hd : In (nth p cs []) cs).
      { destruct (Nat.lt_ge_cases p (length cs)); [apply nth_In; auto|]. rewrite nth_overflow in He by auto. destruct He. }
      unfold img_at, val_at. destruct (pimg (fst e)) as [a|] eqn:Ea; [|ring].
      pose proof (A2 _ _ _ Hd He Ea) as Eb. unfold boxof in Ho. rewrite <- Ei, Eb in Ho. unfold get_extent, pshape in Ho. rewrite Ea in Ho.
      unfold outside in Ho.
      destruct (Z.leb_spec (x0 (fst e)) X), (Z.ltb_spec X (x0 (fst e) + aw a)), (Z.leb_spec (y0 (fst e)) Y), (Z.ltb_spec Y (y0 (fst e) + ah a)); cbn [andb]; try ring. lia.
    + intros i p Y X Hi Hn. apply D_noimg. intros d e Hd He Ei.
      apply Hn. assert (Q : exists e', In e' (concat cs) /\ snd e' = snd e).
      { clear -CL Hd He. induction CL as [|d1 d2 l l' H1 H2 IH]; [destruct Hd|]. destruct Hd as [->|Hd].
        - clear -H1 He. induction H1 as [|e1 e2 l l2 [A _] H2 IH]; [destruct He|]. destruct He as [->|He].
          + exists e2. split; auto. simpl. auto.
          + destruct (IH He) as (e' & Q1 & Q2). exists e'. split; auto. simpl. auto.
        - destruct (IH Hd) as (e' & Q1 & Q2). exists e'. split; auto. simpl. apply in_or_app. auto. }
      destruct Q as (e' & Q1 & Q2). specialize (PE _ Q1). rewrite Q2 in PE.
      rewrite <- (nodup_uniq imgs (snd e) i); auto. apply (HE d e); auto.
    + intros k c Hc. rewrite B5; auto.
      * rewrite A1 by lia. unfold terms_of. ring.
      * intros t r c' _ _ _. rewrite A1 by lia. reflexivity.
    + intros k. rewrite C1 by lia. rewrite B4. unfold terms_of. ring.
    + intros q Hq. apply INV in Hq. tauto.
    + intros p Hp. split.
      * intros i Y X. apply D_empty. destruct (NE p) as [|Hl]; auto. destruct (nth p ds []) eqn:En; auto.
        exfalso. apply Hp. apply INV. split; auto. left. congruence.
      * intros k. apply PA_col. intros t Ht Et. apply Hp. apply INV. split; [rewrite <- Et; auto|]. right. exists t. auto.
  - reflexivity.
  - reflexivity.
  - intros ->. split; auto. intros c. rewrite (smart_priors_noscale _ _ _ _ _ _ _ _ _ E6), (fill_all_noscale _ _ _ _ _ _ _ _ _ E5). reflexivity.
  - intros -> c. destruct (pos (sqrtf (sc2 c))) eqn:EP.
    + split; [apply root_pos; auto|]. intros r. reflexivity.
    + split; [apply one_neq_zero|]. intros r. field. apply one_neq_zero.
  - exact INV.
Qed.

(** *** The plain dense optimizer *)
Definition whole (i : image) : box := (0, im_w i, 0, im_h i)%Z.

Lemma width_whole i : width (whole i) = Z.to_nat (im_w i).
Proof. unfold width, whole. f_equal. lia. Qed.
Lemma area_whole i : area (whole i) = numpix i.
Proof. unfold area, numpix. rewrite width_whole. unfold height, whole. f_equal. f_equal. lia. Qed.
Lemma inside_whole i : In i imgs -> inside (whole i) i.
Proof. intros H. destruct (imgs_size i H). unfold inside, whole. lia. Qed.

Lemma dimg_spec d a i v : In i imgs -> wf_patch d -> pimg d = Some a -> dimg zero one add mul d a i = Ok v ->
  forall k, k < area (whole i) -> v k = mul (img_at zero d (box_x (whole i) k) (box_y (whole i) k)) (im_ie i (box_y (whole i) k) (box_x (whole i) k)).
Proof.
  intros Hi WF Ea E k Hk. destruct (imgs_size i Hi) as [HW HH]. pose proof (box_xy_bounds _ _ Hk) as HB.
  unfold box_x, box_y, whole in *. fold (whole i) in *. rewrite width_whole in *. rewrite !Z.add_0_l in *.
  unfold dimg in E. apply bind_ok in E. destruct E as (f & E1 & E2). injection E2 as <-.
  destruct (_ && _) eqn:EQ.
  - rewrite !andb_true_iff, !Z.eqb_eq in EQ. destruct EQ as (((X0 & Y0) & Hh) & Hw). injection E1 as <-.
    f_equal. unfold img_at, val_at. rewrite Ea, X0, Y0, Hw, Hh.
    replace ((0 <=? Z.of_nat (k mod Z.to_nat (im_w i))) && (Z.of_nat (k mod Z.to_nat (im_w i)) <? 0 + im_w i) &&
             (0 <=? Z.of_nat (k / Z.to_nat (im_w i))) && (Z.of_nat (k / Z.to_nat (im_w i)) <? 0 + im_h i))%Z with true.
    + f_equal; lia.
    + symmetry. rewrite !andb_true_iff. conjs; lia.
  - apply bind_ok in E1. destruct E1 as (g & E1 & E3). injection E3 as <-.
    destruct (C16_add_to V add mul d (mkArr (im_h i) (im_w i) (fun _ _ => zero)) one WF) as (g' & Eg & G1 & G2 & G3); [split; auto|].
    rewrite E1 in Eg. injection Eg as <-. cbn [ah aw px] in *. f_equal.
    rewrite G3 by lia. unfold img_at. destruct (val_at d _ _); [ring|reflexivity].
Qed.

Lemma dplace_spec ds : forall offs next offs' next', dplace ds offs next = (offs', next') ->
  chain whole offs 0 next -> NoDup (map (fun io => im_id (fst io)) offs) ->
  (forall i o, In (i, o) offs -> In i imgs) -> Forall (fun e => In (snd e) imgs) ds ->
  chain whole offs' 0 next' /\ NoDup (map (fun io => im_id (fst io)) offs') /\
  (forall i o, In (i, o) offs' -> In i imgs) /\
  (forall io, In io offs -> In io offs') /\
  (forall e, In e ds -> In (snd e) (map fst offs')).
Proof.
  induction ds as [|[d i] r IH]; intros offs next offs' next' E HC HN HI HF; cbn [dplace] in E.
  - inversion E; subst. conjs; auto. intros e [].
  - inversion HF as [|? ? H1 H2]; subst. cbn [snd] in H1.
    destruct (off_of offs i) as [o|] eqn:EO.
    + destruct (IH _ _ _ _ E HC HN HI H2) as (A & B & C & G & K). conjs; auto.
      intros e [<-|He]; auto. cbn [snd]. destruct (off_of_in _ _ _ EO) as (j & Hj & Ej).
      rewrite <- (nodup_uniq imgs j i) by (auto; apply (HI _ _ Hj)). apply (in_map fst _ _ (G _ Hj)).
    + destruct (IH _ _ _ _ E) as (A & B & C & G & K); auto.
      * apply chain_app. exists next. split; auto. simpl. split; auto. rewrite area_whole; auto.
      * rewrite map_app. cbn [map fst]. eapply Permutation_NoDup; [apply Permutation_cons_append|]. constructor; auto.
        intros Hin. apply in_map_iff in Hin. destruct Hin as ([j o] & Ej & Hj).
        exact (off_of_none _ _ EO j o Hj Ej).
      * intros j o Hj. apply in_app_or in Hj. destruct Hj as [Hj|[Ej|[]]]; [apply (HI _ _ Hj)|]. inversion Ej; subst. auto.
      * conjs; auto.
        -- intros io Hio. apply G. apply in_or_app. auto.
        -- intros e [<-|He]; auto. cbn [snd]. apply (in_map fst offs' (i, next)). apply G. apply in_or_app. right; left; auto.
Qed.

Section DFill.
Variable offs : list (image * nat).
Variable npix : nat.
Hypothesis HC : chain whole offs 0 npix.
Hypothesis HN : NoDup (map (fun io => im_id (fst io)) offs).
Hypothesis HI : forall i o, In (i, o) offs -> In i imgs.

Notation term_at i Y X := (fun e : ent => if im_id (snd e) =? im_id i then mul (img_at zero (fst e) X Y) (im_ie i Y X) else zero).

Lemma dfill_param_spec col cs : forall M s M' s', dfill_param zero one add mul finite offs col cs M s = Ok (M', s') ->
  Forall ent_ok cs ->
  (forall r c, c <> col \/ npix <= r -> M' r c = M r c) /\
  (forall i o k, In (i, o) offs -> k < area (whole i) -> (forall e, In e cs -> im_id (snd e) <> im_id i) -> M' (o + k) col = M (o + k) col) /\
  (NoDup (map (fun e => im_id (snd e)) cs) -> forall i o k, In (i, o) offs -> k < area (whole i) -> M (o + k) col = zero ->
     M' (o + k) col = sum (term_at i (box_y (whole i) k) (box_x (whole i) k)) cs).
Proof.
  induction cs as [|[d j] r IH]; intros M s M' s' E HF; cbn [dfill_param] in E.
  - inversion E; subst. conjs; auto.
  - inversion HF as [|? ? [H1 W1] H2]; subst. cbn [fst snd] in H1, W1.
    destruct (pimg d) as [a|] eqn:Ea.
    2:{ destruct (IH _ _ _ _ E H2) as (A & C & G). conjs; auto.
        - intros i o k Hio Hk Hne. apply (C i o k); auto. intros e He. apply Hne. right; auto.
        - cbn [map snd]. intros ND i o k Hio Hk HZ. apply NoDup_cons_iff in ND. destruct ND as [N1 N2].
          rewrite (G N2 i o k) by auto. cbn [lsum fold_right fst snd].
          transitivity (add zero (sum (term_at i (box_y (whole i) k) (box_x (whole i) k)) r)); [ring|].
          f_equal. unfold img_at, val_at. rewrite Ea. destruct (_ =? _); ring. }
    destruct (off_of offs j) as [oj|] eqn:EO; [|discriminate].
    apply bind_ok in E. destruct E as (v & EV & E). destruct (forallb _ _); [|discriminate].
    destruct (off_of_in _ _ _ EO) as (j' & Hj & Ej). rewrite (nodup_uniq imgs j' j) in Hj by (auto; apply (HI _ _ Hj)).
    destruct (chain_in _ _ _ _ _ _ HC Hj) as [_ Hup].
    pose proof (dimg_spec _ _ _ _ H1 W1 Ea EV) as DS.
    rewrite <- area_whole in E.
    destruct (IH _ _ _ _ E H2) as (A & C & G). clear IH E. conjs.
    + intros r0 c Hc. rewrite A by auto. unfold set_block.
      destruct (Nat.eqb_spec c col); cbn [andb]; auto. destruct (Nat.leb_spec oj r0); cbn [andb]; auto.
      destruct (Nat.ltb_spec r0 (oj + area (whole j))); auto. lia.
    + intros i o k Hio Hk Hne. rewrite (C i o k) by (auto; intros e He; apply Hne; right; auto).
      unfold set_block. rewrite Nat.eqb_refl. cbn [andb].
      destruct (chain_disjoint _ _ _ _ _ _ _ _ HC Hio Hj) as [Hd|Hd]; [intros X; apply (Hne (d, j) (or_introl eq_refl)); auto| |];
        destruct (Nat.leb_spec oj (o + k)); cbn [andb]; auto; destruct (Nat.ltb_spec (o + k) (oj + area (whole j))); auto; lia.
    + cbn [map snd]. intros ND i o k Hio Hk HZ. apply NoDup_cons_iff in ND. destruct ND as [N1 N2].
      cbn [lsum fold_right fst snd].
      destruct (Nat.eqb_spec (im_id j) (im_id i)) as [Eji|Nji].
      * assert (j = i) by (apply (nodup_uniq imgs); auto; apply (HI _ _ Hio)). subst i.
        assert (oj = o) by (eapply off_unique; eauto). subst oj.
        rewrite (C j o k Hio Hk).
        -- unfold set_block. rewrite Nat.eqb_refl.
           replace (o <=? o + k) with true by (symmetry; apply Nat.leb_le; lia).
           replace (o + k <? o + area (whole j)) with true by (symmetry; apply Nat.ltb_lt; lia). cbn [andb].
           replace (o + k - o) with k by lia. rewrite DS by auto.
           transitivity (add (mul (img_at zero d (box_x (whole j) k) (box_y (whole j) k)) (im_ie j (box_y (whole j) k) (box_x (whole j) k))) zero); [ring|].
           f_equal. symmetry. apply sum_zero. intros e He. destruct (Nat.eqb_spec (im_id (snd e)) (im_id j)) as [Ee|]; auto.
           exfalso. apply N1. rewrite <- Ee. apply (in_map (fun e : ent => im_id (snd e)) _ _ He).
        -- intros e He Ee. apply N1. rewrite <- Ee. apply (in_map (fun e : ent => im_id (snd e)) _ _ He).
      * rewrite (G N2 i o k); auto.
        -- unfold lsum. ring.
        -- unfold set_block. rewrite Nat.eqb_refl. cbn [andb].
           destruct (chain_disjoint _ _ _ _ _ _ _ _ HC Hio Hj) as [Hd|Hd]; [auto| |];
             destruct (Nat.leb_spec oj (o + k)); cbn [andb]; auto;
             destruct (Nat.ltb_spec (o + k) (oj + area (whole j))); auto; lia.
Qed.

Lemma dfill_all_spec scale cs : forall ip M sc M' sc', dfill_all zero one add mul finite scale offs ip cs M sc = Ok (M', sc') ->
  Forall (Forall ent_ok) cs ->
  (forall r c, npix <= r -> M' r c = M r c) /\
  (forall i o k c, In (i, o) offs -> k < area (whole i) ->
     (c < ip -> M' (o + k) c = M (o + k) c) /\
     (ip <= c -> M (o + k) c = zero -> one_each cs ->
      M' (o + k) c = D cs (c - ip) i (box_y (whole i) k) (box_x (whole i) k))).
Proof.
  induction cs as [|d r IH]; intros ip M sc M' sc' E HF; cbn [dfill_all] in E.
  - inversion E; subst. conjs; auto.
    intros i o k c Hio Hk. split; auto. intros _ HZ _. rewrite HZ. symmetry. apply D_empty. destruct (c - ip); auto.
  - inversion HF as [|? ? H1 H2]; subst.
    assert (one_tl : one_each (d :: r) -> one_each r) by (intros HO d' Hd'; apply HO; right; auto).
    apply bind_ok in E. destruct E as ([M1 s1] & E1 & E2).
    destruct (dfill_param_spec _ _ _ _ _ _ E1 H1) as (P1 & _ & P4).
    destruct (IH _ _ _ _ _ E2 H2) as (A & C). clear IH E1 E2.
    conjs.
    + intros r0 c Hr. rewrite A by auto. apply P1; auto.
    + intros i o k c Hio Hk. destruct (C i o k c Hio Hk) as [C1 C2]. split.
      * intros Hl. rewrite C1 by lia. apply P1. left. lia.
      * intros Hl HZ HO. destruct (Nat.eq_dec c ip) as [Eq|Nq].
        -- subst c. rewrite C1 by lia. rewrite (P4 (HO _ (or_introl eq_refl)) i o k Hio Hk HZ).
           rewrite Nat.sub_diag. reflexivity.
        -- rewrite C2; auto; try lia.
           ++ replace (c - ip) with (S (c - S ip)) by lia. reflexivity.
           ++ rewrite P1; auto.
Qed.
End DFill.

Lemma dense_chi_spec offs : forall s e b, chain whole offs s e ->
  (forall r, r < s \/ e <= r -> dense_chi offs b r = b r) /\
  (forall i o k, In (i, o) offs -> k < area (whole i) -> dense_chi offs b (o + k) = im_chi i (box_y (whole i) k) (box_x (whole i) k)).
Proof.
  induction offs as [|[i o] r IH]; intros s e b HC; cbn [dense_chi].
  - split; auto. intros i o k [].
  - cbn [chain] in HC. destruct HC as [-> HC]. cbv zeta. rewrite <- area_whole.
    pose proof (chain_le _ _ _ _ HC) as HL.
    edestruct (IH _ _ (set_vec b s (area (whole i)) (fun k => im_chi i (Z.of_nat (k / Z.to_nat (im_w i))) (Z.of_nat (k mod Z.to_nat (im_w i))))) HC) as [A B].
    split.
    + intros r0 Hr. rewrite A by lia. unfold set_vec. destruct (Nat.leb_spec s r0); cbn [andb]; auto.
      destruct (Nat.ltb_spec r0 (s + area (whole i))); auto. lia.
    + intros j o' k [Ej|Hj] Hk; [|exact (B j o' k Hj Hk)]. injection Ej as <- <-. rewrite A by lia.
      unfold set_vec. destruct (Nat.leb_spec s (s + k)); [|lia]. destruct (Nat.ltb_spec (s + k) (s + area (whole i))); [|lia]. cbn [andb].
      replace (s + k - s) with k by lia. unfold box_x, box_y, whole. fold (whole i). rewrite width_whole, !Z.add_0_l. reflexivity.
Qed.

Lemma index_of_seq n : forall a q, a <= q < a + n -> index_of q (seq a n) = Some (q - a).
Proof.
  induction n as [|n IH]; intros a q H; [lia|]. cbn [seq index_of]. destruct (Nat.eqb_spec a q) as [->|Hn].
  - rewrite Nat.sub_diag. auto.
  - rewrite IH by lia. cbn [option_map]. apply f_equal. lia.
Qed.
Lemma dense_priors_smart scale n npix ts : forall M b sc res,
  dense_priors zero add mul scale n npix ts M b sc = Ok res -> smart_priors zero add mul scale (seq 0 n) npix ts M b sc = Ok res.
Proof.
  induction ts as [|t r IH]; intros M b sc res E; cbn [dense_priors smart_priors] in *; auto.
  destruct (Nat.ltb_spec (t_col t) n) as [HL|]; [|discriminate].
  rewrite index_of_seq by lia. rewrite Nat.sub_0_r. destruct (prior_rows add npix (t_col t) _ M b). apply IH; auto.
Qed.

Hypothesis root_pos' : forall v, pos v = true -> sqrtf v <> zero.
Hypothesis root_one : sqrtf one = one.

Lemma dense_system_spec scale ds pri s : images_ok imgs ds -> one_each ds -> priors_ok (terms_of pri) ->
  dense_system zero one add mul div sqrtf pos finite false scale ds pri = Ok (Some s) ->
  exists offs npix np M,
    matches imgs ds (terms_of pri) offs whole npix np (seq 0 (length ds)) M (s_B s) /\
    s_nrows s = npix + np /\ s_ncols s = length ds /\
    (scale = false -> forall r c, s_A s r c = M r c) /\
    (scale = true -> forall c, s_scales s c <> zero /\ forall r, s_A s r c = div (M r c) (s_scales s c)).
Proof.
  intros (_ & _ & HE) HO HP E. unfold dense_system in E.
  destruct (dplace (concat ds) [] 0) as [offs npix] eqn:E4.
  apply bind_ok in E. destruct E as (np & E2 & E).
  destruct (npix + np =? 0); [discriminate|].
  apply bind_ok in E. destruct E as ([M1 sc1] & E5 & E). apply bind_ok in E. destruct E as ([[M2 b2] sc2] & E6 & E).
  inversion E; subst s; clear E. cbn [s_inv s_B s_nrows s_ncols s_A s_scales].
  assert (HF : Forall (Forall ent_ok) ds).
  { apply Forall_forall. intros d Hd. apply Forall_forall. intros e He. apply (HE d e); auto. }
  assert (CIC : Forall (fun e => In (snd e) imgs) (concat ds)).
  { apply Forall_concat. eapply Forall_impl; [|exact HF]. intros d Hd. eapply Forall_impl; [|exact Hd]. intros e [He _]; auto. }
  destruct (dplace_spec _ _ _ _ _ E4) as (PC & PN & PI & _ & PE); auto; [reflexivity|constructor|intros i o []|].
  destruct (dfill_all_spec offs npix PC PN PI scale ds 0 _ _ _ _ E5 HF) as (A1 & A3).
  apply dense_priors_smart in E6.
  destruct (smart_priors_spec _ _ _ _ _ _ _ _ _ _ E6 (seq_NoDup _ _)) as (B0 & B1 & B2 & B3).
  destruct (B3 HP) as [B4 B5]. clear B3.
  destruct (dense_chi_spec offs 0 npix b2 PC) as [C1 C2].
  destruct (npriors_spec _ _ E2) as [N1 N2].
  exists offs, npix, np, M2. conjs.
  - constructor; auto.
    + intros i o Hio. split; [apply (PI _ _ Hio)|apply inside_whole, (PI _ _ Hio)].
    + intros i o k c Hio Hk Hc. destruct (chain_in _ _ _ _ _ _ PC Hio) as [_ Hu]. rewrite B1 by lia.
      destruct (A3 i o k c Hio Hk) as [_ A4]. rewrite A4; auto; [|lia]. rewrite Nat.sub_0_r.
      rewrite seq_length in Hc. rewrite seq_nth by auto. reflexivity.
    + intros i o p Y X Hio HY HX Ho. unfold outside, whole in Ho. lia.
    + intros i p Y X Hi Hn. apply D_noimg. intros d e Hd He Ei.
      apply Hn. rewrite <- (nodup_uniq imgs (snd e) i); auto; [|apply (HE d e); auto].
      apply PE. apply in_concat. exists d. auto.
    + intros k c Hc. rewrite B5; auto.
      * rewrite A1 by lia. unfold terms_of. ring.
      * intros t r c' _ _ _. rewrite A1 by lia. reflexivity.
    + intros k. rewrite C1 by lia. rewrite B4. unfold terms_of. ring.
    + apply seq_NoDup.
    + intros q Hq. apply in_seq in Hq. lia.
    + intros p Hp. assert (Hl : length ds <= p) by (destruct (Nat.le_gt_cases (length ds) p); auto; exfalso; apply Hp, in_seq; lia).
      split.
      * intros i Y X. apply D_empty. apply nth_overflow; auto.
      * intros k. apply PA_col. intros t Ht Et. specialize (B0 t Ht). rewrite Et in B0. auto.
  - reflexivity.
  - reflexivity.
  - intros ->. auto.
  - intros -> c. destruct (pos (sc2 c)) eqn:EP.
    + split; [apply root_pos'; auto|]. intros r. reflexivity.
    + rewrite root_one. split; [apply one_neq_zero|]. intros r. field. apply one_neq_zero.
Qed.
End Smart.
(** ** Theorems *)
Notation smart_update := (smart_update zero one add mul div sqrtf pos finite).
Notation smart_system := (smart_system zero one add mul div sqrtf pos).
Notation dense_update := (dense_update zero one add mul div sqrtf pos finite).
Notation dense_system := (dense_system zero one add mul div sqrtf pos finite).
Notation normal_equations := (normal_equations zero add mul sub).
Notation least_squares := (least_squares zero add mul sub).

(** The compact optimizer: one entry per parameter, zero for parameters with
    neither derivative nor prior, and a solution of the normal equations of the
    full system, whichever way columns are scaled. *)
Theorem C36_compact : forall imgs lstsq scale ds pri x,
  images_ok imgs ds -> one_each ds -> priors_ok (terms_of pri) -> least_squares lstsq ->
  (forall v, pos (sqrtf v) = true -> sqrtf v <> zero) ->
  smart_update lstsq false scale ds pri = Ok (Some x) ->
  length x = length ds /\
  (forall p, nth p ds [] = [] -> (forall t, In t (terms_of pri) -> t_col t <> p) -> nth p x zero = zero) /\
  normal_equations imgs ds (terms_of pri) x.
Proof.
  intros imgs lstsq scale ds pri x HI HO HP HL HR E. unfold DenseModel.smart_update in E.
  apply bind_ok in E. destruct E as ([s|] & E1 & E); [|discriminate].
  destruct (lstsq s) as [x0|] eqn:E2; [|discriminate]. cbv zeta in E. destruct (forallb finite _); [|discriminate].
  injection E as <-. destruct (HL _ _ E2) as [L1 L2].
  assert (HI' := HI). destruct HI' as (ND & SZ & _).
  destruct (smart_system_spec imgs ND SZ HR _ _ _ _ HI HO HP E1) as (offs & bx & npix & np & M & HM & R & C & S0 & S1 & IN).
  set (y := unscale zero div scale x0 (s_scales s)).
  assert (Y : length y = length (s_inv s) /\ forall c, c < length (s_inv s) ->
     sum (fun r => mul (M r c) (sub (sum (fun c' => mul (M r c') (nth c' y zero)) (seq 0 (length (s_inv s)))) (s_B s r))) (seq 0 (npix + np)) = zero).
  { rewrite C, R in *. unfold y, unscale. destruct scale.
    - apply (unscaled_normal M (s_B s) (s_scales s)); auto; [intros c; apply (S1 eq_refl c)|].
      intros c Hc. etransitivity; [|exact (L2 c Hc)]. apply sum_ext_in. intros r _. destruct (S1 eq_refl c) as [_ S2]. rewrite S2. f_equal. f_equal.
      apply sum_ext_in. intros c' _. destruct (S1 eq_refl c') as [_ S3]. rewrite S3. reflexivity.
    - split; auto. intros c Hc. etransitivity; [|exact (L2 c Hc)]. destruct (S0 eq_refl) as [S2 _]. apply sum_ext_in. intros r _. rewrite S2. f_equal. f_equal.
      apply sum_ext_in. intros c' _. rewrite S2. reflexivity. }
  destruct Y as [Y1 Y2].
  destruct (expand_spec (length ds) (s_inv s) y) as (X1 & X2 & X3); [apply (m_cm _ _ _ _ _ _ _ _ _ _ HM)|auto|apply (m_cmn _ _ _ _ _ _ _ _ _ _ HM)|].
  conjs; auto.
  - intros p Hp Hc. apply X2. rewrite IN. intros (_ & [Hd|(t & Ht & Et)]); [auto|]. exact (Hc t Ht Et).
  - eapply full_normal; eauto.
Qed.

(** The plain dense optimizer solves the same equations; it returns the empty
    vector only if there is nothing to fit. *)
Theorem C36_dense : forall imgs lstsq scale ds pri x,
  images_ok imgs ds -> one_each ds -> priors_ok (terms_of pri) -> least_squares lstsq ->
  (forall v, pos v = true -> sqrtf v <> zero) -> sqrtf one = one ->
  dense_update lstsq false scale ds pri = Ok (Some x) ->
  (length x = length ds /\ normal_equations imgs ds (terms_of pri) x) \/
  (x = [] /\ pri = None /\ forall d e, In d ds -> In e d -> (im_w (snd e) = 0 \/ im_h (snd e) = 0)%Z).
Proof.
  intros imgs lstsq scale ds pri x HI HO HP HL HR H1 E. unfold DenseModel.dense_update in E.
  apply bind_ok in E. assert (HI' := HI). destruct HI' as (ND & SZ & HE).
  destruct E as ([s|] & E1 & E).
  - left. destruct (lstsq s) as [x0|] eqn:E2; [|discriminate]. cbv zeta in E. destruct (forallb finite _); [|discriminate].
    injection E as <-. destruct (HL _ _ E2) as [L1 L2].
    destruct (dense_system_spec imgs ND SZ HR H1 _ _ _ _ HI HO HP E1) as (offs & npix & np & M & HM & R & C & S0 & S1).
    set (y := unscale zero div scale x0 (s_scales s)).
    assert (Y : length y = length ds /\ forall c, c < length ds ->
       sum (fun r => mul (M r c) (sub (sum (fun c' => mul (M r c') (nth c' y zero)) (seq 0 (length ds))) (s_B s r))) (seq 0 (npix + np)) = zero).
    { rewrite C, R in *. unfold y, unscale. destruct scale.
      - apply (unscaled_normal M (s_B s) (s_scales s)); auto; [intros c; apply (S1 eq_refl c)|].
        intros c Hc. etransitivity; [|exact (L2 c Hc)]. apply sum_ext_in. intros r _. destruct (S1 eq_refl c) as [_ S2]. rewrite S2. f_equal. f_equal.
        apply sum_ext_in. intros c' _. destruct (S1 eq_refl c') as [_ S3]. rewrite S3. reflexivity.
      - split; auto. intros c Hc. etransitivity; [|exact (L2 c Hc)]. pose proof (S0 eq_refl) as S2. apply sum_ext_in. intros r _. rewrite S2. f_equal. f_equal.
        apply sum_ext_in. intros c' _. rewrite S2. reflexivity. }
    destruct Y as [Y1 Y2]. split; auto.
    apply (full_normal imgs ds (terms_of pri) offs whole npix np (seq 0 (length ds)) M (s_B s) y y); auto.
    + intros c Hc. rewrite seq_length in Hc. rewrite seq_nth by auto. reflexivity.
    + rewrite seq_length. exact Y2.
  - right. injection E as <-. split; auto. unfold DenseModel.dense_system in E1.
    destruct (dplace (concat ds) [] 0) as [offs npix] eqn:E4.
    apply bind_ok in E1. destruct E1 as (np & E2 & E1). destruct (Nat.eqb_spec (npix + np) 0) as [Ez|].
    2:{ apply bind_ok in E1. destruct E1 as ([M1 sc1] & E5 & E). apply bind_ok in E. destruct E as ([[M2 b2] sc2] & E6 & E). discriminate. }
    assert (CIC : Forall (fun e => In (snd e) imgs) (concat ds)).
    { apply Forall_forall. intros e He. apply in_concat in He. destruct He as (d & Hd & He). apply (HE d e); auto. }
    destruct (dplace_spec imgs ND _ _ _ _ _ E4) as (PC & _ & _ & _ & PE); auto; [reflexivity|constructor|intros i o []|].
    split.
    + destruct pri as [ts|]; auto. cbn [npriors] in E2. destruct ts as [|t ts]; [discriminate|].
      destruct (_ || _); [discriminate|]. exfalso. cbn [fold_right] in E2.
      set (a := fold_right Nat.max 0 (t_rows t)) in E2. set (b := fold_right _ 0 ts) in E2.
      assert (Q : Nat.max (S a) b = np) by congruence. lia.
    + intros d e Hd He. assert (Q : In (snd e) (map fst offs)) by (apply PE, in_concat; exists d; auto).
      apply in_map_iff in Q. destruct Q as ([i o] & Ei & Hi). cbn [fst] in Ei.
      destruct (chain_in _ _ _ _ _ _ PC Hi) as [_ Hu]. rewrite area_whole, Ei in Hu. unfold numpix in Hu.
      destruct (SZ (snd e)) as [W1 W2]; [apply (HE d e); auto|].
      assert (Q : Z.to_nat (im_w (snd e)) * Z.to_nat (im_h (snd e)) = 0) by lia. apply Nat.mul_eq_0 in Q. lia.
Qed.

Lemma chain_row bx offs : forall s e r, chain bx offs s e -> s <= r < e -> exists i o k, In (i, o) offs /\ k < area (bx i) /\ r = o + k.
Proof.
  induction offs as [|[i o] l IH]; simpl; intros s e r H Hr; [lia|]. destruct H as [-> H].
  destruct (Nat.lt_ge_cases r (s + area (bx i))).
  - exists i, s, (r - s). conjs; auto; lia.
  - destruct (IH _ _ r H) as (j & p & k & A & B & C); [lia|]. exists j, p, k. auto.
Qed.

(** Its entries for skipped parameters are zero too if the solver gives zero for
    an all-zero column (numpy's minimum-norm solution does). *)
Theorem C36_dense_skipped : forall imgs lstsq scale ds pri x p,
  images_ok imgs ds -> one_each ds -> priors_ok (terms_of pri) -> least_squares lstsq ->
  (forall s x c, lstsq s = Some x -> c < s_ncols s -> (forall r, r < s_nrows s -> s_A s r c = zero) -> nth c x zero = zero) ->
  (forall v, pos v = true -> sqrtf v <> zero) -> sqrtf one = one ->
  dense_update lstsq false scale ds pri = Ok (Some x) ->
  nth p ds [] = [] -> (forall t, In t (terms_of pri) -> t_col t <> p) -> nth p x zero = zero.
Proof.
  intros imgs lstsq scale ds pri x p HI HO HP HL HZ HR H1 E Hd Hp. unfold DenseModel.dense_update in E.
  apply bind_ok in E. assert (HI' := HI). destruct HI' as (ND & SZ & HE).
  destruct E as ([s|] & E1 & E); [|injection E as <-; destruct p; auto].
  destruct (lstsq s) as [x0|] eqn:E2; [|discriminate]. cbv zeta in E. destruct (forallb finite _); [|discriminate].
  injection E as <-. destruct (HL _ _ E2) as [L1 _].
  destruct (dense_system_spec imgs ND SZ HR H1 _ _ _ _ HI HO HP E1) as (offs & npix & np & M & HM & R & C & S0 & S1).
  assert (UL : length (unscale zero div scale x0 (s_scales s)) = length ds).
  { unfold unscale. destruct scale; [rewrite map_length, seq_length|]; congruence. }
  destruct (Nat.lt_ge_cases p (length ds)) as [Hl|Hl]; [|apply nth_overflow; lia].
  assert (MZ : forall r, r < npix + np -> M r p = zero).
  { intros r Hr. assert (Hc : p < length (seq 0 (length ds))) by (rewrite seq_length; auto).
    assert (Hn : nth p (seq 0 (length ds)) 0 = p) by (rewrite seq_nth; auto).
    destruct (Nat.lt_ge_cases r npix) as [Hq|Hq].
    - destruct (chain_row _ _ _ _ r (m_chain _ _ _ _ _ _ _ _ _ _ HM)) as (i & o & k & A & B & ->); [lia|].
      rewrite (m_pix _ _ _ _ _ _ _ _ _ _ HM i o k p A B Hc), Hn. apply D_empty; auto.
    - replace r with (npix + (r - npix)) by lia. rewrite (m_pri _ _ _ _ _ _ _ _ _ _ HM _ p Hc), Hn. apply PA_col; auto. }
  assert (X0 : nth p x0 zero = zero).
  { apply (HZ s); auto; [congruence|]. intros r Hr. rewrite R in Hr. destruct scale.
    - destruct (S1 eq_refl p) as [S2 S3]. rewrite S3, MZ by auto. field. auto.
    - rewrite (S0 eq_refl). auto. }
  unfold unscale. destruct scale; auto.
  rewrite (nth_indep _ zero (div (nth 0 x0 zero) (s_scales s 0))) by (rewrite map_length, seq_length; lia).
  rewrite (map_nth (fun k => div (nth k x0 zero) (s_scales s k))), seq_nth by lia. cbn [Nat.add]. rewrite X0.
  destruct (S1 eq_refl p) as [S2 _]. field. auto.
Qed.

(** With column scaling the inverse covariance returned with get_cov is A^T A of
    the full system, for the parameters of inv_column_map. *)
Theorem C36_cov : forall imgs ds pri s np c c',
  images_ok imgs ds -> one_each ds -> priors_ok (terms_of pri) ->
  (forall v, pos (sqrtf v) = true -> sqrtf v <> zero) ->
  smart_system false true ds pri = Ok (Some s) ->
  (forall t r, In t (terms_of pri) -> In r (t_rows t) -> r < np) ->
  c < length (s_inv s) -> c' < length (s_inv s) ->
  smart_cov zero add mul s c c' = gram zero add mul imgs ds (terms_of pri) np (nth c (s_inv s) 0) (nth c' (s_inv s) 0).
Proof.
  intros imgs ds pri s np' c c' HI HO HP HR E Hnp Hc Hc'. assert (HI' := HI). destruct HI' as (ND & SZ & HE).
  destruct (smart_system_spec imgs ND SZ HR _ _ _ _ HI HO HP E) as (offs & bx & npix & np & M & HM & R & C & _ & S1 & _).
  transitivity (gram zero add mul imgs ds (terms_of pri) np (nth c (s_inv s) 0) (nth c' (s_inv s) 0)).
  - rewrite <- (full_gram imgs ds (terms_of pri) offs bx npix np (s_inv s) M (s_B s) c c'); auto.
    unfold smart_cov. rewrite R. destruct (S1 eq_refl c) as [N1 S2], (S1 eq_refl c') as [N2 S3].
    transitivity (mul (mul (s_scales s c') (s_scales s c)) (sum (fun r => mul (s_A s r c) (s_A s r c')) (seq 0 (npix + np)))); [ring|].
    rewrite <- sum_mul. apply sum_ext_in. intros r _. rewrite S2, S3. field. auto.
  - unfold gram. f_equal. symmetry. apply (sum_window _ np' 0 np).
    + pose proof (m_min _ _ _ _ _ _ _ _ _ _ HM np' Hnp). lia.
    + intros k Hk Ho. rewrite PA_beyond; [ring|]. intros t r Ht Hr. pose proof (m_np _ _ _ _ _ _ _ _ _ _ HM t r Ht Hr). lia.
Qed.

(** Without column scaling it is always the zero matrix: colscales stays zero. *)
Theorem C36_cov_unscaled_refuted : forall imgs ds pri s c c',
  images_ok imgs ds -> one_each ds -> priors_ok (terms_of pri) ->
  (forall v, pos (sqrtf v) = true -> sqrtf v <> zero) ->
  smart_system false false ds pri = Ok (Some s) -> smart_cov zero add mul s c c' = zero.
Proof.
  intros imgs ds pri s c c' HI HO HP HR E. assert (HI' := HI). destruct HI' as (ND & SZ & HE).
  destruct (smart_system_spec imgs ND SZ HR _ _ _ _ HI HO HP E) as (offs & bx & npix & np & M & _ & _ & _ & S0 & _).
  destruct (S0 eq_refl) as [_ S2]. unfold smart_cov. rewrite !S2. ring.
Qed.

End Proofs.

(** *** When the compact optimizer runs *)
Section Runs.
Context {V : Type}.
Variables zero one : V.
Variables add mul div : V -> V -> V.
Variable sqrtf : V -> V.
Variable pos : V -> bool.
Notation image := (@image V).
Notation ent := (patch V * image)%type.
Variable bx : nat -> box.

Definition fits (e : ent) : Prop :=
  exists p', clip_to (fst e) (im_w (snd e)) (im_h (snd e)) = Ok (p', true) /\ get_extent p' = bx (im_id (snd e)).
Definition bd_inv (bd : nat -> option box) : Prop := forall k, bd k = None \/ bd k = Some (bx k).
Definition done (bd : nat -> option box) (e : ent) : Prop :=
  bd (im_id (snd e)) = Some (bx (im_id (snd e))) /\ get_extent (fst e) = bx (im_id (snd e)).

Lemma widen_self b : widen (Some b) b = b.
Proof. destruct b as [[[? ?] ?] ?]. unfold widen. rewrite !Z.min_id, !Z.max_id. auto. Qed.

Lemma clip_param_runs ds : forall bd, Forall fits ds -> bd_inv bd ->
  exists cs bd', clip_param ds bd = Ok (cs, bd') /\ bd_inv bd' /\ Forall (done bd') cs /\ map snd cs = map snd ds /\
    (forall k, bd k <> None -> bd' k = Some (bx k)).
Proof.
  induction ds as [|[d i] r IH]; intros bd HF HB.
  - exists [], bd. simpl. conjs; auto. intros k Hk. destruct (HB k); tauto.
  - inversion HF as [|? ? (p' & E & EX) HF']; subst. cbn [fst snd] in *. cbn [clip_param]. rewrite E. cbn [bind].
    set (bd1 := setf bd (im_id i) (Some (widen (bd (im_id i)) (get_extent p')))).
    assert (B1 : bd1 (im_id i) = Some (bx (im_id i))).
    { unfold bd1, setf. rewrite Nat.eqb_refl, EX. destruct (HB (im_id i)) as [->| ->]; [|rewrite widen_self]; auto.
      destruct (bx (im_id i)) as [[[? ?] ?] ?]. auto. }
    assert (B2 : bd_inv bd1).
    { intros k. destruct (Nat.eq_dec k (im_id i)) as [->|Nk]; [right; auto|]. unfold bd1, setf. apply Nat.eqb_neq in Nk. rewrite Nk. apply HB. }
    destruct (IH bd1 HF' B2) as (cs & bd' & E1 & I1 & I2 & I3 & I4). rewrite E1. cbn [bind].
    exists ((p', i) :: cs), bd'. conjs; auto.
    + constructor; auto. split; cbn [fst snd]; auto. apply I4. congruence.
    + cbn [map snd]. rewrite I3. auto.
    + intros k Hk. apply I4. unfold bd1, setf. destruct (k =? im_id i); [congruence|auto].
Qed.
Lemma clip_all_runs ds : forall bd, Forall (Forall fits) ds -> bd_inv bd ->
  exists cs bd', clip_all ds bd = Ok (cs, bd') /\ bd_inv bd' /\ Forall (Forall (done bd')) cs /\ map (map snd) cs = map (map snd) ds /\
    (forall k, bd k <> None -> bd' k = Some (bx k)).
Proof.
  induction ds as [|d r IH]; intros bd HF HB.
  - exists [], bd. simpl. conjs; auto. intros k Hk. destruct (HB k); tauto.
  - inversion HF as [|? ? H1 H2]; subst. destruct (clip_param_runs d bd H1 HB) as (c & bd1 & E1 & I1 & I2 & I3 & I4).
    destruct (IH bd1 H2 I1) as (cs & bd2 & E2 & J1 & J2 & J3 & J4). exists (c :: cs), bd2. cbn [clip_all]. rewrite E1. cbn [bind]. rewrite E2. cbn [bind].
    conjs; auto.
    + constructor; auto. eapply Forall_impl; [|exact I2]. intros e [K1 K2]. split; auto. apply J4. congruence.
    + cbn [map]. rewrite I3, J3. auto.
    + intros k Hk. apply J4. rewrite I4 by auto. congruence.
Qed.

Lemma off_of_app offs (i j : image) o : off_of (offs ++ [(i, o)]) j =
  match off_of offs j with Some x => Some x | None => if im_id i =? im_id j then Some o else None end.
Proof. induction offs as [|[k p] r IH]; simpl; auto. destruct (im_id k =? im_id j); auto. Qed.

Lemma place_runs bd cs : forall offs next, Forall (done bd) cs -> (forall i o, In (i, o) offs -> bd (im_id i) <> None) ->
  exists offs' next', place bd cs offs next = Ok (offs', next') /\ (forall i o, In (i, o) offs' -> bd (im_id i) <> None) /\
    (forall i, off_of offs i <> None -> off_of offs' i <> None) /\ (forall e, In e cs -> off_of offs' (snd e) <> None) /\
    next <= next' /\ (forall e, In e cs -> off_of offs (snd e) = None -> area (bx (im_id (snd e))) <= next').
Proof.
  induction cs as [|[d i] r IH]; intros offs next HF HO; cbn [place].
  - exists offs, next. conjs; auto; intros e [].
  - inversion HF as [|? ? [H1 H2] HF']; subst. cbn [fst snd] in *. destruct (off_of offs i) as [o|] eqn:EO.
    + destruct (IH offs next HF' HO) as (offs' & n' & E & A & B & C & L & G). exists offs', n'. conjs; auto.
      * intros e [<-|He]; auto. cbn [snd]. apply B. congruence.
      * intros e [<-|He]; auto. cbn [snd]. congruence.
    + rewrite H1. destruct (IH (offs ++ [(i, next)]) (next + area (bx (im_id i))) HF') as (offs' & n' & E & A & B & C & L & G).
      { intros j o Hj. apply in_app_or in Hj. destruct Hj as [Hj|[Ej|[]]]; [apply (HO _ _ Hj)|]. injection Ej as <- <-. congruence. }
      exists offs', n'. conjs; auto.
      * intros j Hj. apply B. rewrite off_of_app. destruct (off_of offs j); congruence.
      * intros e [<-|He]; auto. cbn [snd]. apply B. rewrite off_of_app, EO, Nat.eqb_refl. congruence.
      * lia.
      * intros e [<-|He] He'; [cbn [snd]; lia|].
        destruct (Nat.eqb_spec (im_id i) (im_id (snd e))) as [Ei|Ni].
        -- rewrite <- Ei. lia.
        -- apply G; auto. rewrite off_of_app, He'. apply Nat.eqb_neq in Ni. rewrite Ni. auto.
Qed.

Lemma box_eqb_refl b : box_eqb b b = true.
Proof. destruct b as [[[? ?] ?] ?]. unfold box_eqb. rewrite !Z.eqb_refl. auto. Qed.

Lemma fill_param_runs bd offs col cs : forall M s, Forall (done bd) cs -> (forall e, In e cs -> off_of offs (snd e) <> None) ->
  exists r, fill_param zero add mul bd offs col cs M s = Ok r.
Proof.
  induction cs as [|[d i] r IH]; intros M s HF HO; cbn [fill_param]; [eauto|].
  inversion HF as [|? ? [H1 H2] HF']; subst. cbn [fst snd] in *.
  assert (HO' : forall e, In e r -> off_of offs (snd e) <> None) by (intros; apply HO; right; auto).
  destruct (pimg d); [|apply IH; auto]. rewrite H1. specialize (HO (d, i) (or_introl eq_refl)). cbn [snd] in HO.
  destruct (off_of offs i); [|congruence]. rewrite H2, box_eqb_refl. apply IH; auto.
Qed.
Lemma fill_all_runs scale bd offs inv cs : forall ip M sc, Forall (Forall (done bd)) cs -> (forall d e, In d cs -> In e d -> off_of offs (snd e) <> None) ->
  (forall k d, nth_error cs k = Some d -> d <> [] -> In (ip + k) inv) ->
  exists r, fill_all zero add mul scale bd offs inv ip cs M sc = Ok r.
Proof.
  induction cs as [|d r IH]; intros ip M sc HF HO HI; cbn [fill_all]; [eauto|].
  inversion HF as [|? ? H1 H2]; subst.
  assert (HO' : forall d e, In d r -> In e d -> off_of offs (snd e) <> None) by (intros d' e Hd He; apply (HO d' e); auto; right; auto).
  assert (HI' : forall k d, nth_error r k = Some d -> d <> [] -> In (S ip + k) inv).
  { intros k d' Hk Hd. replace (S ip + k) with (ip + S k) by lia. apply (HI (S k) d'); auto. }
  destruct d as [|e d]; [apply IH; auto|].
  destruct (index_of ip inv) as [col|] eqn:EC.
  - destruct (fill_param_runs bd offs col (e :: d) M zero H1) as ([M1 s1] & E1); [intros e' He; apply (HO (e :: d)); auto; left; auto|].
    rewrite E1. cbn [bind]. apply IH; auto.
  - exfalso. apply (index_of_none _ _ EC). rewrite <- (Nat.add_0_r ip). apply (HI 0 (e :: d)); auto. congruence.
Qed.
Lemma smart_priors_runs scale inv npix ts : forall M b sc, (forall t, In t ts -> In (t_col t) inv) ->
  exists r, smart_priors zero add mul scale inv npix ts M b sc = Ok r.
Proof.
  induction ts as [|t r IH]; intros M b sc H; cbn [smart_priors]; [eauto|].
  destruct (index_of (t_col t) inv) eqn:EC.
  - destruct (prior_rows add npix _ _ M b). apply IH. intros; apply H; right; auto.
  - exfalso. apply (index_of_none _ _ EC). apply H. left; auto.
Qed.
Lemma smart_chi_runs bd (offs : list (image * nat)) : forall b, (forall i o, In (i, o) offs -> bd (im_id i) <> None) -> exists r, smart_chi bd offs b = Ok r.
Proof.
  induction offs as [|[i o] r IH]; intros b H; cbn [smart_chi]; [eauto|].
  pose proof (H i o (or_introl eq_refl)) as Hi. destruct (bd (im_id i)) as [[[[? ?] ?] ?]|]; [|congruence].
  apply IH. intros; apply (H _ o0). right; auto.
Qed.

(** If the derivatives of each image, clipped to the image, cover one and the
    same box, no exception is raised; there is no system only if there is
    nothing to fit. *)
Theorem C36_runs : forall scale (ds : list (list ent)) pri,
  (forall d e, In d ds -> In e d -> fits e) ->
  (forall ts, pri = Some ts -> ts <> [] /\ forall t, In t ts -> t_rows t <> [] /\ t_col t < length ds) ->
  exists o, smart_system zero one add mul div sqrtf pos false scale ds pri = Ok o /\
    (o = None -> pri = None /\ forall d e, In d ds -> In e d -> area (bx (im_id (snd e))) = 0).
Proof.
  intros scale ds pri HD HP. unfold smart_system.
  assert (HF : Forall (Forall fits) ds).
  { apply Forall_forall. intros d Hd. apply Forall_forall. intros e He. eapply HD; eauto. }
  destruct (clip_all_runs ds (fun _ => None) HF) as (cs & bd & E1 & BI & DN & MS & _); [intros k; left; auto|].
  rewrite E1. cbn [bind].
  assert (EN : exists np, npriors pri = Ok np /\ (pri <> None -> 0 < np)).
  { destruct pri as [ts|]; [|exists 0; split; [reflexivity|congruence]]. destruct (HP ts eq_refl) as [T1 T2]. cbn [npriors].
    destruct ts as [|t ts]; [congruence|]. cbn [orb].
    destruct (existsb _ (t :: ts)) eqn:EX.
    - exfalso. apply existsb_exists in EX. destruct EX as (t' & Ht & Er). destruct (T2 t' Ht) as [R _]. destruct (t_rows t'); congruence.
    - eexists. split; [reflexivity|]. intros _. cbn [fold_right]. lia. }
  destruct EN as (np & EN & NP). rewrite EN. cbn [bind].
  assert (EL : exists lv, live ds pri = Ok lv).
  { unfold live. destruct pri as [ts|]; [|eauto]. destruct (HP ts eq_refl) as [_ T2].
    assert (Q : forallb (fun t => t_col t <? length ds) ts = true).
    { apply forallb_forall. intros t Ht. apply Nat.ltb_lt. apply (T2 t Ht). }
    rewrite Q. eauto. }
  destruct EL as (lv & EL). rewrite EL. cbn [bind].
  assert (DC : Forall (done bd) (concat cs)) by (apply Forall_concat; auto).
  destruct (place_runs bd (concat cs) [] 0 DC) as (offs & npix & EP & O1 & _ & O2 & _ & O3); [intros i o []|].
  rewrite EP. cbn [bind].
  destruct (Nat.eqb_spec (npix + np) 0) as [Ez|Nz].
  - eexists. split; [reflexivity|]. intros _. split.
    + destruct pri; auto. assert (0 < np) by (apply NP; congruence). lia.
    + intros d e Hd He. assert (Q : exists e', In e' (concat cs) /\ snd e' = snd e).
      { assert (Q1 : In (snd e) (concat (map (map snd) cs))).
        { rewrite MS. apply in_concat. exists (map snd d). split; apply in_map; auto. }
        rewrite <- concat_map in Q1. apply in_map_iff in Q1. destruct Q1 as (e' & <- & Q1). eauto. }
      destruct Q as (e' & Q1 & Q2). specialize (O3 _ Q1 eq_refl). rewrite Q2 in O3. lia.
  - destruct (live_spec ds pri lv EL) as (LL & LT & LP). destruct (flatnonzero_spec lv) as [FN FI].
    assert (LC : length cs = length ds) by (rewrite <- (map_length (map snd) cs), MS, map_length; auto).
    destruct (fill_all_runs scale bd offs (flatnonzero lv) cs 0 (fun _ _ => zero) (fun _ => zero) DN) as ([M1 sc1] & E5).
    { intros d e Hd He. apply O2. apply in_concat. eauto. }
    { intros k d Hk Hd. cbn [Nat.add]. assert (Hl : k < length ds) by (rewrite <- LC; apply nth_error_Some; congruence).
      apply FI. split; [lia|]. apply LP; auto. left. intros En.
      assert (Q : nth k (map (map snd) cs) [] = nth k (map (map snd) ds) []) by (rewrite MS; auto).
      change (@nil image) with (map (@snd (patch V) image) []) in Q. rewrite !map_nth, En in Q.
      rewrite (nth_error_nth cs k [] Hk) in Q. destruct d; [congruence|discriminate]. }
    rewrite E5. cbn [bind].
    destruct (smart_priors_runs scale (flatnonzero lv) npix (match pri with None => [] | Some ts => ts end) M1 (fun _ => zero) sc1) as ([[M2 b2] sc2] & E6).
    { intros t Ht. apply FI. assert (Hl := LT t Ht). split; [lia|]. apply LP; auto. right. exists t. auto. }
    rewrite E6. cbn [bind].
    destruct (smart_chi_runs bd offs b2 O1) as (b3 & E7). rewrite E7. cbn [bind].
    eexists. split; [reflexivity|]. discriminate.
Qed.
End Runs.

(** ** Examples, with rational pixels *)
Section Example.
Open Scope nat_scope.
Let q (z : Z) : Qc := Q2Qc (inject_Z z).
Let qimg (h w : Z) (l : list Z) : arr Qc := mkArr h w (fun y x => q (nth (Z.to_nat (y * w + x)) l 0%Z)).
Let qpatch (x y h w : Z) (l : list Z) : patch Qc := mkPatch x y (Some (qimg h w l)).
Let root (v : Qc) : Qc := if Qc_eq_dec v (q 25) then q 5 else if Qc_eq_dec v (q 4) then q 2 else v.
Let nonpos (v : Qc) : bool := Qc_eq_bool v (q 0) || Qle_bool (this v) 0%Q.
Let ispos (v : Qc) : bool := negb (nonpos v).
Let fin (v : Qc) : bool := true.
(* A 2x2 image with inverse errors 1. *)
Let im0 : @image Qc := mkImage 0 2 2 (fun _ _ => q 1) (px (qimg 2 2 [6; 14; 9; 9]%Z)).

(* Parameters 0 and 2 change pixels (0,0) and (1,0) of the image, parameter 1
   changes none, parameter 3 only has a prior. *)
Let ds0 : list (list (patch Qc * @image Qc)) := [[(qpatch 0 0 1 2 [3; 4]%Z, im0)]; []; [(qpatch 0 0 1 2 [0; 2]%Z, im0)]; []].
Let pri0 : list (@term Qc) := [mkTerm [0] 3 [q 2] [q 6]].

Let qsum := @lsum Qc (q 0) Qcplus.
Let check (s : @sys Qc) (x : list Qc) : bool :=
  (length x =? s_ncols s) && forallb (fun c => Qc_eq_bool
    (qsum _ (fun r => s_A s r c * (qsum _ (fun c' => s_A s r c' * nth c' x (q 0)) (seq 0 (s_ncols s)) - s_B s r))%Qc (seq 0 (s_nrows s)))
    (q 0)) (seq 0 (s_ncols s)).
(* A least-squares solver that looks the answer up in a list. *)
Let solve (cands : list (list Qc)) (s : @sys Qc) : option (list Qc) := find (check s) cands.
Let cands : list (list Qc) := [[q 2; q 3; q 3]; [q 10; q 6; q 6]; [q 2; q 0; q 3; q 3]; [q 10; q 0; q 6; q 6]].

Example solve_least_squares : forall cs, least_squares (q 0) Qcplus Qcmult Qcminus (solve cs).
Proof.
  intros cs s x H. apply find_some in H. destruct H as [_ H]. unfold check in H. apply andb_prop in H. destruct H as [H1 H2].
  split; [apply Nat.eqb_eq; auto|]. intros c Hc. rewrite forallb_forall in H2. specialize (H2 c). apply Qc_eq_bool_correct.
  apply H2. apply in_seq. lia.
Qed.
Example root_ok : forall v, ispos (root v) = true -> root v <> q 0.
Proof. intros v H E. rewrite E in H. vm_compute in H. discriminate. Qed.

Example ds0_ok : images_ok [im0] ds0 /\ one_each ds0 /\ priors_ok pri0.
Proof.
  conjs.
  - split; [repeat constructor; intros []|]. split.
    + intros i [<-|[]]. simpl. lia.
    + intros d e Hd He. simpl in Hd. repeat destruct Hd as [<-|Hd]; try destruct Hd; simpl in He; try tauto;
        destruct He as [<-|[]]; split; simpl; auto; unfold wf_patch; simpl; unfold wf_arr; simpl; lia.
  - intros d Hd. simpl in Hd. repeat destruct Hd as [<-|Hd]; try destruct Hd; simpl; repeat constructor; simpl; tauto.
  - split; [repeat constructor; simpl; tauto|]. intros t [<-|[]]. auto.
Qed.
Let bx0 : nat -> box := fun _ => (0, 2, 0, 1)%Z.
Example ds0_fits : forall d e, In d ds0 -> In e d -> fits bx0 e.
Proof.
  intros d e Hd He. simpl in Hd. repeat destruct Hd as [<-|Hd]; try destruct Hd; simpl in He; try tauto;
    destruct He as [<-|[]]; eexists; split; reflexivity.
Qed.

Let smart scale ds pri := smart_update (q 0) (q 1) Qcplus Qcmult Qcdiv root ispos fin (solve cands) false scale ds pri.
Let dense scale ds pri := dense_update (q 0) (q 1) Qcplus Qcmult Qcdiv root ispos fin (solve cands) false scale ds pri.
Let show (r : res (option (list Qc))) := match r with Ok (Some x) => Ok (Some (map (fun v => this v) x)) | Ok None => Ok None | Err e => Err e end.

(* Both optimizers find 3 x0 = 6, 4 x0 + 2 x2 = 14, 2 x3 = 6; parameter 1 stays. *)
Example compact_run : show (smart true ds0 (Some pri0)) = Ok (Some [2; 0; 3; 3]%Q) /\ show (smart false ds0 (Some pri0)) = Ok (Some [2; 0; 3; 3]%Q).
Proof. split; vm_compute; reflexivity. Qed.
Example dense_run : show (dense true ds0 (Some pri0)) = Ok (Some [2; 0; 3; 3]%Q) /\ show (dense false ds0 (Some pri0)) = Ok (Some [2; 0; 3; 3]%Q).
Proof. split; vm_compute; reflexivity. Qed.

Let covs scale ds pri := match smart_system (q 0) (q 1) Qcplus Qcmult Qcdiv root ispos false scale ds pri with
  | Ok (Some s) => Ok (map (fun j => map (fun k => this (smart_cov (q 0) Qcplus Qcmult s j k)) (seq 0 (s_ncols s))) (seq 0 (s_ncols s)), s_inv s)
  | Ok None => Ok ([], []) | Err e => Err e end.
(* A^T A for parameters 0, 2 and 3; without column scaling, zeros. *)
Example cov_run : covs true ds0 (Some pri0) = Ok ([[25; 8; 0]; [8; 4; 0]; [0; 0; 4]]%Q, [0; 2; 3]).
Proof. vm_compute. reflexivity. Qed.
Theorem C36_cov_zero_refuted : covs false ds0 (Some pri0) = Ok ([[0; 0; 0]; [0; 0; 0]; [0; 0; 0]]%Q, [0; 2; 3]) /\
  this (gram (q 0) Qcplus Qcmult [im0] ds0 pri0 1 0 0) = 25%Q.
Proof. split; vm_compute; reflexivity. Qed.

(** Two parameters whose derivatives cover different parts of one image: the
    compact optimizer raises RuntimeError, the dense one gives the answer. *)
Let ds1 : list (list (patch Qc * @image Qc)) := [[(qpatch 0 0 1 2 [3; 4]%Z, im0)]; [(qpatch 1 0 1 1 [2]%Z, im0)]].
Theorem C36_boxes_refuted : show (smart true ds1 None) = Err RuntimeError /\
  show (dense_update (q 0) (q 1) Qcplus Qcmult Qcdiv root ispos fin (solve [[q 10; q 6]]) false true ds1 None) = Ok (Some [2; 3]%Q) /\
  images_ok [im0] ds1 /\ one_each ds1.
Proof.
  conjs; [vm_compute; reflexivity|vm_compute; reflexivity| |].
  - split; [repeat constructor; intros []|]. split.
    + intros i [<-|[]]. simpl. lia.
    + intros d e Hd He. simpl in Hd. repeat destruct Hd as [<-|Hd]; try destruct Hd; simpl in He; try tauto;
        destruct He as [<-|[]]; split; simpl; auto; unfold wf_patch; simpl; unfold wf_arr; simpl; lia.
  - intros d Hd. simpl in Hd. repeat destruct Hd as [<-|Hd]; try destruct Hd; simpl; repeat constructor; simpl; tauto.
Qed.

(** An image whose only derivative lies right of it: KeyError (the dense optimizer
    gives no change). *)
Theorem C36_outside_refuted : show (smart true [[(qpatch 5 0 1 2 [3; 4]%Z, im0)]] None) = Err KeyError /\
  show (dense_update (q 0) (q 1) Qcplus Qcmult Qcdiv root ispos fin (solve [[q 0]]) false true [[(qpatch 5 0 1 2 [3; 4]%Z, im0)]] None) = Ok (Some [0%Q]).
Proof. split; vm_compute; reflexivity. Qed.

(** One parameter with two derivatives for the same image (two sources that
    share it): the later one overwrites the earlier one, so the
    matrix holds half the derivative. *)
Let ds2 : list (list (patch Qc * @image Qc)) := [[(qpatch 0 0 1 2 [3; 4]%Z, im0); (qpatch 0 0 1 2 [3; 4]%Z, im0)]].
Let cols scale ds pri := match smart_system (q 0) (q 1) Qcplus Qcmult Qcdiv root ispos false scale ds pri with
  | Ok (Some s) => Ok (map (fun r => this (s_A s r 0)) (seq 0 (s_nrows s))) | Ok None => Ok [] | Err e => Err e end.
Let dcols scale ds pri := match dense_system (q 0) (q 1) Qcplus Qcmult Qcdiv root ispos fin false scale ds pri with
  | Ok (Some s) => Ok (map (fun r => this (s_A s r 0)) (seq 0 (s_nrows s))) | Ok None => Ok [] | Err e => Err e end.
Theorem C36_repeated_refuted : cols false ds2 None = Ok [3; 4]%Q /\ dcols false ds2 None = Ok [3; 4; 0; 0]%Q /\
  this (deriv_at (q 0) Qcplus Qcmult ds2 0 im0 0 0) = 6%Q /\ this (deriv_at (q 0) Qcplus Qcmult ds2 0 im0 0 1) = 8%Q.
Proof. conjs; vm_compute; reflexivity. Qed.

(** Nothing to fit: the compact optimizer returns None, the dense one []. *)
Example empty_run : show (smart true [[]; []] None) = Ok None /\ show (dense true [[]; []] None) = Ok (Some []).
Proof. split; vm_compute; reflexivity. Qed.
End Example.

Print Assumptions C36_compact.
Print Assumptions C36_dense.
Print Assumptions C36_dense_skipped.
Print Assumptions C36_cov.
Print Assumptions C36_cov_unscaled_refuted.
Print Assumptions C36_runs.
Print Assumptions C36_cov_zero_refuted.
Print Assumptions C36_boxes_refuted.
Print Assumptions C36_outside_refuted.
Print Assumptions C36_repeated_refuted.
