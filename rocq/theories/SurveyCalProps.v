(** C96: calibrations of SDSS and CFHT images as parameters. *)
From Coq Require Import String List ZArith Reals Bool Lia Lra.
From Verif Require Import Base MagsModel MagsProps SurveyCalModel.
From Verif Require SkyOpsProps TanProps.
Import ListNotations.
Local Open Scope R_scope.
Local Open Scope list_scope.

(** ** Spec *)
(** The vector [p] written over the thawed entries of [c]. *)
Definition overwrite : list bool -> list R -> list R -> list R := SkyOpsProps.put.
(** The index among all of the i-th thawed parameter. *)
Definition raw_index : list bool -> nat -> option nat := TanProps.raw_index.

(** ** Parameter lists in general *)
Section List.
Context {S : Type} (get : S -> nat -> res R) (set : S -> nat -> R -> res S) (things : S -> list R -> Prop) (kept : S -> S -> Prop) (n : nat).
Hypothesis set_ok : forall s i v l, things s l -> (i < n)%nat -> exists s', set s i v = Ok s' /\ things s' (upd i v l) /\ kept s s'.
Hypothesis get_ok : forall s i l, things s l -> (i < n)%nat -> get s i = Ok (nth i l 0).
Hypothesis kept_refl : forall s l, things s l -> kept s s.
Hypothesis kept_trans : forall a b c, kept a b -> kept b c -> kept a c.
Lemma upd_here {A} : forall (pre : list A) v c x, upd (length pre) x (pre ++ v :: c) = pre ++ x :: c.
Proof. induction pre as [|a pre IH]; intros v c x; cbn; [reflexivity|]. f_equal. apply IH. Qed.
Lemma set_from_ok : forall liq c p pre s, things s (pre ++ c) -> (length pre + length c = n)%nat -> length liq = length c ->
  length p = count_true liq -> exists s', set_from set s liq (length pre) p = Ok s' /\ things s' (pre ++ overwrite liq p c) /\ kept s s'.
Proof.
  induction liq as [|b liq IH]; intros c p pre s T LN LL LP.
  - destruct c; [|discriminate]. exists s. split; [reflexivity|]. split; [exact T|]. eauto.
  - destruct c as [|v c]; [discriminate|]. cbn in LL, LN. rewrite count_true_cons in LP. destruct b; cbn [Nat.add] in LP.
    + destruct p as [|x p]; [discriminate|]. cbn [set_from].
      destruct (set_ok s (length pre) x (pre ++ v :: c) T ltac:(lia)) as (s1 & E1 & T1 & K1). rewrite E1. cbn [bind]. rewrite upd_here in T1.
      destruct (IH c p (pre ++ [x]) s1) as (s2 & E2 & T2 & K2); [rewrite <- app_assoc; exact T1|rewrite app_length; cbn; lia|lia|cbn in LP; lia|].
      rewrite app_length in E2. cbn in E2. rewrite Nat.add_1_r in E2. exists s2. split; [exact E2|].
      split; [rewrite <- app_assoc in T2; exact T2|eauto].
    + cbn [set_from]. destruct (IH c p (pre ++ [v]) s) as (s2 & E2 & T2 & K2); [rewrite <- app_assoc; exact T|rewrite app_length; cbn; lia|lia|exact LP|].
      rewrite app_length in E2. cbn in E2. rewrite Nat.add_1_r in E2. exists s2. split; [exact E2|]. split; [rewrite <- app_assoc in T2; exact T2|exact K2].
Qed.
Lemma index_ok : forall liq i raw, index_liquid liq i raw = match raw_index liq i with Some j => Ok (raw + j)%nat | None => Err IndexError end.
Proof.
  induction liq as [|b liq IH]; intros i raw; [reflexivity|]. unfold raw_index in *. destruct b; cbn; [destruct i as [|i]; [f_equal; lia|]|];
  rewrite IH; destruct (TanProps.raw_index liq i); cbn; try reflexivity; f_equal; lia.
Qed.
Lemma set_one_ok liq s l i j v : things s l -> length liq = n -> raw_index liq i = Some j ->
  exists s', set_one get set liq s i v = Ok (s', nth j l 0) /\ things s' (upd j v l) /\ kept s s'.
Proof.
  intros T LL RI. pose proof (TanProps.raw_index_lt _ _ _ RI) as J. rewrite LL in J.
  destruct (set_ok s j v l T J) as (s' & E & T' & K). exists s'. unfold set_one. rewrite index_ok, RI. cbn [bind Nat.add].
  rewrite (get_ok s j l T J). cbn [bind]. rewrite E. cbn [bind]. auto.
Qed.
End List.

(** ** SdssWcs *)
Section Wcs.
Context (to_pixel : trans -> R * R -> R * R) (to_pixel_color : trans -> R * R -> R -> R * R)
        (to_radec : trans -> R * R -> R * R) (cd_at : trans -> R -> R -> matrix).
Notation position_to_pixel := (position_to_pixel to_pixel to_pixel_color).
Notation pixel_to_position := (pixel_to_position to_radec).
Notation cd_at_pixel := (cd_at_pixel cd_at).
Notation cd_inverse_at_pixel := (cd_inverse_at_pixel cd_at).
Notation pixscale_at := (pixscale_at cd_at).
Notation set_constant_cd := (set_constant_cd cd_at).

Definition wf (s : state) : Prop := (s_ref (snd s) < length (fst s))%nat /\ length (s_liquid (snd s)) = 20%nat.
Definition names : list string := firstn 18 pnames.
Lemma names_eq : pnames = names ++ ["x0"; "y0"]%string. Proof. reflexivity. Qed.
Lemma names_nodup : NoDup names.
Proof. unfold names. cbn. repeat constructor; cbn; intro H; repeat (destruct H as [H|H]; [discriminate H|]); exact H. Qed.
Lemma get_trans_ok s : wf s -> exists t, nth_error (fst s) (s_ref (snd s)) = Some t /\ get_trans s = Ok t.
Proof.
  intros (L & _). destruct (nth_error (fst s) (s_ref (snd s))) as [t|] eqn:E; [|apply nth_error_None in E; lia].
  exists t. split; [reflexivity|]. unfold get_trans, py_get. rewrite E. reflexivity.
Qed.

(** What a change of parameters leaves alone. *)
Definition rest (s s' : state) : Prop :=
  wf s' /\ s_ref (snd s') = s_ref (snd s) /\ s_liquid (snd s') = s_liquid (snd s) /\ s_cd (snd s') = s_cd (snd s) /\
  s_cdi (snd s') = s_cdi (snd s) /\ s_steps (snd s') = s_steps (snd s) /\
  (forall r, r <> s_ref (snd s) -> nth_error (fst s') r = nth_error (fst s) r) /\
  (forall t t' k, get_trans s = Ok t -> get_trans s' = Ok t' -> ~ In k names -> t' k = t k).
Definition things (s : state) (l : list R) : Prop := wf s /\ get_things s = Ok l.
Lemma rest_refl s : wf s -> rest s s.
Proof. intro W. repeat split; try apply W; auto. intros t t' k E E' _. congruence. Qed.
Lemma rest_trans a b c : rest a b -> rest b c -> rest a c.
Proof.
  intros (A1 & A2 & A3 & A4 & A5 & A6 & A7 & A8) (B1 & B2 & B3 & B4 & B5 & B6 & B7 & B8).
  split; [exact B1|]. repeat (split; [congruence|]). split.
  - intros r NE. rewrite B7 by congruence. now apply A7.
  - intros t t' k E E' NI. destruct (get_trans_ok b A1) as (tb & _ & EB). rewrite (B8 tb t' k EB E' NI). now apply (A8 t tb).
Qed.
Lemma map_put : forall l (t : trans) i k v, NoDup l -> nth_error l i = Some k -> map (put t k v) l = upd i v (map t l).
Proof.
  induction l as [|a l IH]; intros t i k v ND E; [destruct i; discriminate|]. inversion ND as [|? ? NI ND']; subst. destruct i as [|i]; cbn in E |- *.
  - injection E as ->. f_equal.
    + unfold put. now rewrite String.eqb_refl.
    + apply map_ext_in. intros b I. unfold put. destruct (String.eqb_spec b k) as [-> |]; [contradiction|reflexivity].
  - f_equal; [|now apply IH]. unfold put. destruct (String.eqb_spec a k) as [-> |]; [|reflexivity].
    exfalso. apply NI. eapply nth_error_In. exact E.
Qed.
Lemma upd_app_l {A} : forall (l r : list A) i v, (i < length l)%nat -> upd i v (l ++ r) = upd i v l ++ r.
Proof. induction l as [|a l IH]; intros r i v L; [cbn in L; lia|]. destruct i; cbn; [reflexivity|]. f_equal. apply IH. cbn in L. lia. Qed.
Lemma nth_names i : (i < 18)%nat -> exists k, nth_error names i = Some k /\ py_get pnames i = Ok k.
Proof.
  intro L. destruct (nth_error names i) as [k|] eqn:E; [|apply nth_error_None in E; cbn in E; lia].
  exists k. split; [reflexivity|]. unfold py_get. rewrite names_eq, nth_error_app1 by (cbn; lia). now rewrite E.
Qed.

Lemma set_ok s i v l : things s l -> (i < 20)%nat -> exists s', set_thing s i v = Ok s' /\ things s' (upd i v l) /\ rest s s'.
Proof.
  intros [W G] L. destruct (get_trans_ok s W) as (t & EN & ET). unfold get_things in G. rewrite ET in G. cbn [bind] in G.
  assert (EL : l = map t names ++ [s_x0 (snd s); s_y0 (snd s)]) by (unfold names; congruence). subst l. clear G.
  destruct s as [h w]. cbn [fst snd] in *.
  destruct (Nat.eq_dec i 18) as [-> |N18]; [|destruct (Nat.eq_dec i 19) as [-> |N19]].
  - eexists. split; [reflexivity|]. split; [split; [exact W|]|].
    + unfold get_things, get_trans. cbn [fst snd s_ref s_x0 s_y0]. unfold get_trans in ET. cbn [fst snd] in ET. rewrite ET. reflexivity.
    + repeat split; try apply W. intros t0 t' k E E' _. unfold get_trans in *. cbn [fst snd s_ref] in *. congruence.
  - eexists. split; [reflexivity|]. split; [split; [exact W|]|].
    + unfold get_things, get_trans. cbn [fst snd s_ref s_x0 s_y0]. unfold get_trans in ET. cbn [fst snd] in ET. rewrite ET. reflexivity.
    + repeat split; try apply W. intros t0 t' k E E' _. unfold get_trans in *. cbn [fst snd s_ref] in *. congruence.
  - assert (I : (i < 18)%nat) by lia. destruct (nth_names i I) as (k & EK & PK). unfold set_thing.
    rewrite (proj2 (Nat.eqb_neq i 18) N18), (proj2 (Nat.eqb_neq i 19) N19), ET. cbn [bind]. rewrite PK. cbn [bind].
    eexists. split; [reflexivity|].
    assert (W' : wf (upd (s_ref w) (put t k v) h, w)) by (unfold wf in *; cbn [fst snd] in *; rewrite TanProps.upd_length'; exact W).
    assert (ET' : get_trans (upd (s_ref w) (put t k v) h, w) = Ok (put t k v)).
    { unfold get_trans, py_get. cbn [fst snd]. now rewrite (TanProps.nth_error_upd_same' _ _ _ _ EN). }
    split; [split; [exact W'|]|].
    + unfold get_things. rewrite ET'. cbn [bind snd]. f_equal. fold names. rewrite (map_put names t i k v names_nodup EK).
      symmetry. apply upd_app_l. rewrite map_length. exact I.
    + repeat split; try apply W'.
      * cbn [fst snd]. intros r NE. apply TanProps.nth_error_upd_other'. congruence.
      * intros t0 t' k' E E' NI. rewrite ET in E. rewrite ET' in E'. injection E as <-. injection E' as <-. unfold put.
        destruct (String.eqb_spec k' k) as [-> |]; [|reflexivity]. exfalso. apply NI. eapply nth_error_In. exact EK.
Qed.
Lemma get_ok s i l : things s l -> (i < 20)%nat -> get_thing s i = Ok (nth i l 0).
Proof.
  intros [W G] L. destruct (get_trans_ok s W) as (t & EN & ET). unfold get_things in G. rewrite ET in G. cbn [bind] in G.
  assert (EL : l = map t names ++ [s_x0 (snd s); s_y0 (snd s)]) by (unfold names; congruence). subst l. clear G.
  unfold get_thing. destruct (Nat.eq_dec i 18) as [-> |N18]; [reflexivity|]. destruct (Nat.eq_dec i 19) as [-> |N19]; [reflexivity|].
  rewrite (proj2 (Nat.eqb_neq i 18) N18), (proj2 (Nat.eqb_neq i 19) N19), ET. cbn [bind].
  assert (I : (i < 18)%nat) by lia. destruct (nth_names i I) as (k & EK & PK). rewrite PK. cbn [bind]. f_equal.
  fold names. rewrite app_nth1 by (rewrite map_length; exact I). symmetry. apply nth_error_nth. rewrite nth_error_map, EK. reflexivity.
Qed.
Lemma things_of s : wf s -> exists t, get_trans s = Ok t /\ things s (map t names ++ [s_x0 (snd s); s_y0 (snd s)]).
Proof. intro W. destruct (get_trans_ok s W) as (t & _ & ET). exists t. split; [exact ET|]. split; [exact W|]. unfold get_things. rewrite ET. reflexivity. Qed.
Lemma rest_refl' s l : things s l -> rest s s. Proof. intros [W _]. now apply rest_refl. Qed.

(** Setting the thawed parameters sets these and nothing else. *)
Theorem C96_parameters : forall s p, wf s -> length p = count_true (s_liquid (snd s)) -> exists s' l,
  set_params s p = Ok s' /\ get_things s = Ok l /\ get_things s' = Ok (overwrite (s_liquid (snd s)) p l) /\ get_params s' = Ok p /\ rest s s'.
Proof.
  intros s p W LP. destruct (things_of s W) as (t & ET & T). set (l := map t names ++ _) in T.
  destruct (set_from_ok set_thing things rest 20 set_ok rest_refl' rest_trans (s_liquid (snd s)) l p [] s T) as (s' & E & T' & K);
    [reflexivity|exact (proj2 W)|exact LP|].
  exists s', l. split; [exact E|]. split; [apply T|]. split; [apply T'|]. split; [|exact K].
  unfold get_params. rewrite (proj2 T'). cbn [bind app]. destruct K as (_ & _ & -> & _). f_equal.
  apply SkyOpsProps.keep_put; [exact (proj2 W)|exact LP].
Qed.
(** Each named parameter is the value of that name; those without a name are the offset. *)
Theorem C96_names : forall s t, wf s -> get_trans s = Ok t ->
  length named_params = 18%nat /\
  (forall k i, In (k, i) named_params -> get_thing s i = Ok (t k) /\
     forall v, exists s' t', set_thing s i v = Ok s' /\ get_trans s' = Ok t' /\ t' k = v /\ forall k', k' <> k -> t' k' = t k') /\
  get_thing s 18 = Ok (s_x0 (snd s)) /\ get_thing s 19 = Ok (s_y0 (snd s)).
Proof.
  intros s t W ET. split; [reflexivity|]. split; [|split; reflexivity]. intros k i I.
  assert (IN : (i < 18)%nat /\ py_get pnames i = Ok k).
  { cbn in I. repeat (destruct I as [I|I]; [injection I as <- <-; split; [lia|reflexivity]|]). destruct I. }
  destruct IN as [L PK]. unfold get_thing, set_thing. destruct s as [h w].
  rewrite (proj2 (Nat.eqb_neq i 18) ltac:(lia)), (proj2 (Nat.eqb_neq i 19) ltac:(lia)), ET. cbn [bind]. rewrite PK. cbn [bind].
  split; [reflexivity|]. intro v. destruct (get_trans_ok _ W) as (t0 & EN & ET0). cbn [fst snd] in EN.
  eexists. exists (put t k v). split; [reflexivity|]. split; [|split].
  - unfold get_trans, py_get. cbn [fst snd]. now rewrite (TanProps.nth_error_upd_same' _ _ _ _ EN).
  - unfold put. now rewrite String.eqb_refl.
  - intros k' NE. unfold put. destruct (String.eqb_spec k' k); [contradiction|reflexivity].
Qed.
(** setParam returns the old value; setting it again restores all. *)
Theorem C96_restore : forall s i j v, wf s -> raw_index (s_liquid (snd s)) i = Some j -> exists s1 s2 l o,
  get_things s = Ok l /\ set_param s i v = Ok (s1, nth j l 0) /\ get_things s1 = Ok (upd j v l) /\
  set_param s1 i (nth j l 0) = Ok (s2, o) /\ get_things s2 = Ok l /\ rest s s2.
Proof.
  intros s i j v W RI. destruct (things_of s W) as (t & ET & T). set (l := map t names ++ _) in T.
  destruct (set_one_ok get_thing set_thing things rest 20 set_ok get_ok (s_liquid (snd s)) s l i j v T (proj2 W) RI) as (s1 & E1 & T1 & K1).
  assert (EQ : s_liquid (snd s1) = s_liquid (snd s)) by apply K1.
  destruct (set_one_ok get_thing set_thing things rest 20 set_ok get_ok (s_liquid (snd s)) s1 (upd j v l) i j (nth j l 0) T1 (proj2 W) RI) as (s2 & E2 & T2 & K2).
  exists s1, s2, l, (nth j (upd j v l) 0). split; [apply T|]. split; [exact E1|]. split; [apply T1|].
  split; [unfold set_param; rewrite EQ; exact E2|]. split; [|eapply rest_trans; eauto].
  rewrite TanProps.upd_back in T2. apply T2.
Qed.
(** Positions and pixels without a colour. *)
Theorem C96_inverse : forall s t, get_trans s = Ok t ->
  (forall p, to_radec t (to_pixel t p) = p) -> (forall q, to_pixel t (to_radec t q) = q) ->
  (forall p, exists xy, position_to_pixel s p 0 = Ok xy /\ pixel_to_position s (fst xy) (snd xy) = Ok p) /\
  (forall x y, exists p, pixel_to_position s x y = Ok p /\ position_to_pixel s p 0 = Ok (x, y)).
Proof.
  intros s t ET H1 H2. unfold SurveyCalModel.position_to_pixel, SurveyCalModel.pixel_to_position. rewrite ET. cbn [bind].
  destruct (Req_EM_T 0 0) as [_|N]; [|now destruct N]. split.
  - intro p. eexists. split; [reflexivity|]. cbn [fst snd]. f_equal. rewrite <- (H1 p) at 3. f_equal.
    destruct (to_pixel t p) as [a b]. cbn. f_equal; ring.
  - intros x y. eexists. split; [reflexivity|]. rewrite H2. cbn [fst snd]. do 2 f_equal; ring.
Qed.
(** Moving the origin moves all pixels. *)
Theorem C96_origin : forall s p c xy dx dy, position_to_pixel s p c = Ok xy ->
  position_to_pixel (set_x0y0 s (s_x0 (snd s) + dx) (s_y0 (snd s) + dy)) p c = Ok (fst xy - dx, snd xy - dy).
Proof.
  intros [h w] p c xy dx dy E. unfold SurveyCalModel.position_to_pixel, set_x0y0, get_trans in *. cbn [fst snd s_ref s_x0 s_y0] in *.
  destruct (py_get h (s_ref w)) as [t|]; [|discriminate]. cbn [bind] in *. injection E as <-. cbn [fst snd]. do 2 f_equal; ring.
Qed.

(** The matrix told is that at the pixel of the whole image, and its inverse. *)
Definition mmul (a b : matrix) : matrix :=
  ((fst (fst a) * fst (fst b) + snd (fst a) * fst (snd b), fst (fst a) * snd (fst b) + snd (fst a) * snd (snd b)),
   (fst (snd a) * fst (fst b) + snd (snd a) * fst (snd b), fst (snd a) * snd (fst b) + snd (snd a) * snd (snd b))).
Definition identity : matrix := ((1, 0), (0, 1)).
Lemma minv_ok m : mdet m <> 0 -> exists i, minv m = Ok i /\ mmul m i = identity /\ mmul i m = identity.
Proof.
  intro D. unfold minv. destruct (Req_EM_T (mdet m) 0) as [|_]; [contradiction|]. eexists. split; [reflexivity|].
  destruct m as [[a b] [c d]]. unfold mdet in *. cbn [fst snd] in *. unfold mmul, identity. cbn [fst snd].
  split; repeat (apply f_equal2); field; exact D.
Qed.
Theorem C96_cd : forall s t x y, get_trans s = Ok t -> s_cd (snd s) = None -> s_cdi (snd s) = None ->
  let m := cd_at t (x + s_x0 (snd s)) (y + s_y0 (snd s)) in mdet m <> 0 ->
  cd_at_pixel s x y = Ok m /\ (exists i, cd_inverse_at_pixel s x y = Ok i /\ mmul m i = identity /\ mmul i m = identity) /\
  exists s', set_constant_cd s x y = Ok s' /\ fst s' = fst s /\
    forall x' y', cd_at_pixel s' x' y' = Ok m /\ exists i, cd_inverse_at_pixel s' x' y' = Ok i /\ mmul m i = identity.
Proof.
  intros [h w] t x y ET C CI m D. unfold SurveyCalModel.cd_at_pixel, SurveyCalModel.cd_inverse_at_pixel, SurveyCalModel.set_constant_cd, SurveyCalModel.cd_at_pixel.
  cbn [snd] in *. rewrite C, CI, ET. cbn [bind]. fold m. destruct (minv_ok m D) as (i & EI & I1 & I2). rewrite EI.
  split; [reflexivity|]. split; [eauto|]. cbn [bind]. eexists. split; [reflexivity|]. split; [reflexivity|].
  intros x' y'. cbn [snd s_cd s_cdi]. split; [reflexivity|eauto].
Qed.
(** The constant is never renewed: not by setting it at another pixel, not when
    parameters change. *)
Theorem C96_constant_refuted : forall s m, s_cd (snd s) = Some m ->
  (forall x y s', set_constant_cd s x y = Ok s' -> forall x' y', cd_at_pixel s' x' y' = Ok m) /\
  (forall p s', wf s -> length p = count_true (s_liquid (snd s)) -> set_params s p = Ok s' -> forall x' y', cd_at_pixel s' x' y' = Ok m).
Proof.
  intros s m C. split.
  - intros x y s' E x' y'. destruct s as [h w]. cbn [snd] in C. unfold SurveyCalModel.set_constant_cd, SurveyCalModel.cd_at_pixel in *. cbn [snd] in *.
    rewrite C in E. cbn [bind] in E. destruct (minv m) as [i|]; [|discriminate]. cbn [bind] in E. injection E as <-. reflexivity.
  - intros p s' W LP E x' y'. destruct (C96_parameters s p W LP) as (s1 & l & E1 & _ & _ & _ & K). rewrite E in E1. injection E1 as <-.
    unfold SurveyCalModel.cd_at_pixel. destruct K as (_ & _ & _ & -> & _). rewrite C. reflexivity.
Qed.
(** pixscale_at is documented in arcseconds per pixel; it is in degrees. *)
Definition arcseconds (m : matrix) : R := 3600 * sqrt (Rabs (mdet m)).
Theorem C96_pixscale_refuted : forall s x y m, cd_at_pixel s x y = Ok m -> mdet m <> 0 ->
  exists r, pixscale_at s x y = Ok r /\ r * 3600 = arcseconds m /\ r < arcseconds m.
Proof.
  intros s x y m E D. unfold SurveyCalModel.pixscale_at. rewrite E. cbn [bind]. eexists. split; [reflexivity|]. unfold arcseconds.
  assert (0 < sqrt (Rabs (mdet m))) by (apply sqrt_lt_R0; now apply Rabs_pos_lt). split; [ring|lra].
Qed.

(** Step sizes: one for each thawed parameter, all positive; the coefficient of
    a power of the pixel coordinate moves the far end of the image (2000
    pixels) by one pixel (0.396 arcseconds).  They cannot be set, and the list
    of all is something else. *)
Definition power (i : nat) : nat := nth i [0; 1; 1; 0; 1; 1; 0; 1; 2; 3; 0; 1; 2; 3; 0; 0; 0; 0; 0; 0]%nat 0%nat.
Definition one_pixel (i : nat) : R := if (i <? 6)%nat then 0.396 / 3600 else 1.
Theorem C96_steps : forall s, wf s -> length (step_sizes s) = count_true (s_liquid (snd s)) /\ Forall (fun x => 0 < x) (step_sizes s) /\
  forall i j, raw_index (s_liquid (snd s)) i = Some j -> exists x, nth_error (step_sizes s) i = Some x /\ x * 2000 ^ power j = one_pixel j.
Proof.
  intros s W. split; [apply keep_length; exact (proj2 W)|]. unfold step_sizes. split.
  - assert (F : Forall (fun x => 0 < x) step_list).
    { assert (0 < 0.396 / 3600) by lra. unfold step_list. cbv zeta.
      repeat (constructor; [try lra; try (apply Rdiv_lt_0_compat; [lra|try apply pow_lt; lra])|]). constructor. }
    revert F. generalize step_list (s_liquid (snd s)). induction l as [|x l IH]; intros liq F; destruct liq as [|[] liq]; cbn; try constructor;
      inversion F; subst; auto.
  - intros i j RI. pose proof (TanProps.raw_index_lt _ _ _ RI) as J. rewrite (proj2 W) in J.
    rewrite (TanProps.keep_raw _ _ i j RI) by exact J. clear RI. unfold step_list. cbv zeta.
    do 20 (destruct j as [|j]; [eexists; split; [reflexivity|]; unfold power, one_pixel; cbn [nth Nat.ltb Nat.leb]; generalize (0.396 / 3600); intros; field|]). lia.
Qed.
Theorem C96_steps_refuted : forall s ss s', set_step_sizes s ss = Ok s' ->
  step_sizes s' = step_sizes s /\
  (forall h r, (r < length h)%nat -> all_step_sizes (new_sdss h r) = Ok (repeat 1 20) /\ step_sizes (new_sdss h r) <> repeat 1 20).
Proof.
  intros [h w] ss s' E. split.
  - unfold set_step_sizes in E. destruct (spread (s_liquid w) ss) as [l|]; [|discriminate]. cbn [bind] in E. injection E as <-. reflexivity.
  - clear. intros h r L. split.
    + unfold all_step_sizes, new_sdss. cbn [snd s_steps]. destruct (things_of (new_sdss h r)) as (t & _ & _ & G); [split; [exact L|reflexivity]|].
      unfold new_sdss in G. rewrite G. cbn [bind]. f_equal.
    + unfold step_sizes, new_sdss, step_list. cbn. intro E. injection E as E _. lra.
Qed.
(** There is no copy, and there are at most three bounds for twenty parameters. *)
(** What is set is told by getAllStepSizes, with 1 for frozen parameters. *)
Theorem C96_all_steps : forall s ss, wf s -> length ss = count_true (s_liquid (snd s)) -> exists s' l,
  set_step_sizes s ss = Ok s' /\ all_step_sizes s' = Ok l /\ length l = 20%nat /\ keep (s_liquid (snd s)) l = ss /\
  forall j, nth_error (s_liquid (snd s)) j = Some false -> nth_error l j = Some 1.
Proof.
  intros [h w] ss W L. assert (LL := proj2 W). cbn [snd] in *.
  assert (G : exists l, spread (s_liquid w) ss = Ok l /\ length l = length (s_liquid w) /\ keep (s_liquid w) l = ss /\
    forall j, nth_error (s_liquid w) j = Some false -> nth_error l j = Some 1).
  { clear W LL. revert ss L. induction (s_liquid w) as [|b liq IH]; intros ss L.
    - destruct ss; [|discriminate]. exists []. repeat split. intros [|j] E; discriminate.
    - cbn [spread]. destruct b.
      + destruct ss as [|x ss]; [discriminate|]. destruct (IH ss) as (l & -> & E1 & E2 & E3); [cbn in L; injection L; auto|]. exists (x :: l). cbn [bind].
        split; [reflexivity|]. split; [cbn; now rewrite E1|]. split; [cbn; now rewrite E2|]. intros [|j] E; [discriminate|]. now apply E3.
      + destruct (IH ss) as (l & -> & E1 & E2 & E3); [exact L|]. exists (1 :: l). cbn [bind].
        split; [reflexivity|]. split; [cbn; now rewrite E1|]. split; [cbn; now rewrite E2|]. intros [|j] E; [reflexivity|]. now apply E3. }
  destruct G as (l & E & E1 & E2 & E3). unfold set_step_sizes. rewrite E. cbn [bind]. do 2 eexists. split; [reflexivity|]. split; [reflexivity|].
  split; [rewrite E1; exact LL|]. auto.
Qed.
Theorem C96_copy_refuted : forall s, wf s -> copy s = Err TypeError /\ (length (lower_bounds s) <= 3)%nat.
Proof.
  intros s W. split.
  - destruct (things_of s W) as (t & _ & _ & G). unfold copy. rewrite G. reflexivity.
  - unfold lower_bounds. destruct (s_liquid (snd s)) as [|[] [|[] [|[] l]]]; cbn; try lia; destruct l as [|[]]; cbn; lia.
Qed.
(** Objects with the same hash key have the same values and offset. *)
Theorem C96_hash : forall s s' t t', get_trans s = Ok t -> get_trans s' = Ok t' -> hashkey s = hashkey s' ->
  (forall k, In k names -> t k = t' k) /\ s_x0 (snd s) = s_x0 (snd s') /\ s_y0 (snd s) = s_y0 (snd s').
Proof.
  intros s s' t t' E E' H. unfold hashkey, get_things in H. rewrite E, E' in H. cbn [bind] in H. injection H. intros.
  split.
  - intros k I. cbn in I. repeat (destruct I as [<-|I]; [assumption|]). destruct I.
  - split; assumption.
Qed.
End Wcs.

(** Two coordinate systems made from one AsTrans change together. *)
Theorem C96_shared_refuted : forall h r v, (r < length h)%nat -> exists s t,
  set_thing (new_sdss h r) 0 v = Ok s /\ get_trans (fst s, snd (new_sdss h r)) = Ok t /\ t "a"%string = v.
Proof.
  intros h r v L. assert (W : wf (new_sdss h r)) by (split; [exact L|reflexivity]).
  destruct (get_trans_ok _ W) as (t & EN & ET). destruct (C96_names _ t W ET) as (_ & N & _).
  destruct (N "a"%string 0%nat) as [_ Q]; [now left|]. destruct (Q v) as (s' & t' & E & E' & A & _). exists s', t'. split; [exact E|]. split; [|exact A].
  unfold set_thing, new_sdss in E. cbn [Nat.eqb] in E. unfold new_sdss in ET. rewrite ET in E. cbn [bind] in E.
  injection E as <-. exact E'.
Qed.

(** ** Photometric calibrations *)
(** The two CFHT calibrations give the same counts, for magnitudes and for the
    nanomaggies of these. *)
Lemma from_mag_band b k m : get_band b k = Ok m -> exists f, from_mag b = Ok f /\ get_band f k = Ok (mag_to_nanomaggies m).
Proof.
  unfold from_mag. induction b as [|[k' v] b IH]; cbn; intro E; [discriminate|].
  assert (T : forall b : bands, exists f, over_bands b (fun _ v => Ok (mag_to_nanomaggies v)) = Ok f).
  { clear. induction b as [|[k v] b IH]; cbn; [eauto|]. destruct IH as (f & ->). cbn. eauto. }
  destruct (String.eqb_spec k k') as [-> |N].
  - injection E as ->. destruct (T b) as (f & ->). cbn [bind]. eexists. split; [reflexivity|]. cbn. now rewrite String.eqb_refl.
  - destruct (IH E) as (f & -> & G). cbn [bind]. eexists. split; [reflexivity|]. cbn. destruct (String.eqb_spec k k'); [contradiction|exact G].
Qed.
Theorem C96_cfht : forall h k sc b m, 0 < exptime h -> get_band b k = Ok m -> exists f c,
  from_mag b = Ok f /\ linear_to_counts (new_linear (Some h) (Some k) sc) f = Ok c /\ cfht_counts (new_cfht h k) b = Ok c /\
  c = exptime h * pow10 ((phot_c h + phot_k h * (airmass h - 1) - m) / 2.5).
Proof.
  intros h k sc b m X B. destruct (from_mag_band b k m B) as (f & EF & BF). exists f. eexists. split; [exact EF|].
  unfold linear_to_counts, new_linear, linear_counts, cfht_counts, new_cfht. cbn [cl_band cl_val c_band c_c c_k c_airmass c_exptime num].
  rewrite BF, B. cbn [bind num]. split; [reflexivity|].
  assert (E : mag_to_nanomaggies m * zeropoint_to_scale (zeropoint h) = exptime h * pow10 ((phot_c h + phot_k h * (airmass h - 1) - m) / 2.5)).
  { unfold mag_to_nanomaggies, zeropoint_to_scale, zeropoint. rewrite <- (pow10_log10 (exptime h) X) at 2. rewrite <- !pow10_plus. f_equal. generalize (phot_k h * (airmass h - 1)). intro q. lra. }
  rewrite E. split; [|reflexivity]. do 3 f_equal. generalize (phot_k h * (airmass h - 1)). intro q. lra.
Qed.
(** SdssMagsPhotoCal: a magnitude is a ratio of counts to the exposure time. *)
Theorem C96_sdss_mags : forall c aa mag, 0 < m_exptime c -> m_aa c = Some aa ->
  smags_counts_of c mag = Ok match mag with
    | Some m => if Rlt_dec 50 m then 0 else m_exptime c * pow10 (- (m + aa + m_kk c * m_airmass c) / 2.5)
    | None => 0 end.
Proof.
  intros c aa [m|] X E; [|reflexivity]. unfold smags_counts_of. destruct (Rlt_dec 50 m); [reflexivity|]. rewrite E. cbn [num bind]. f_equal.
  rewrite <- (pow10_log10 (m_exptime c) X) at 2. rewrite <- pow10_plus. f_equal. generalize (m_kk c * m_airmass c). intro q. lra.
Qed.
(** Copies: of a CfhtLinearPhotoCal made from a header, whatever its scale was
    set to; of a CfhtPhotoCal.  Not without a header, nor of a SdssMagsPhotoCal. *)
Theorem C96_photocal_copy : forall h k sc v c o, linear_set (new_linear (Some h) k sc) 0 v = Ok (c, o) ->
  o = zeropoint_to_scale (zeropoint h) /\ linear_copy c = Ok c /\ cl_val c = v /\ linear_copy (new_linear (Some h) k sc) = Ok (new_linear (Some h) k sc) /\
  forall c', cfht_copy c' = c'.
Proof.
  intros h k sc v c o E. cbn in E. injection E as <- <-. split; [reflexivity|]. split; [reflexivity|]. split; [reflexivity|]. split; [reflexivity|].
  intros []. reflexivity.
Qed.
Theorem C96_photocal_copy_refuted : (forall k sc, linear_copy (new_linear None k sc) = Err AttributeError) /\ (forall c, smags_copy c = Err TypeError).
Proof. split; reflexivity. Qed.
(** A derivative puts the scale of the linear one back... *)
Theorem C96_derivative : forall c step, step_and_back linear_set_p c [Some (cl_val c)] 0 step = Ok c.
Proof. intros [v k h] step. reflexivity. Qed.
(** ... and leaves None in the other two: no counts and no derivatives any more. *)
Theorem C96_derivative_refuted : forall step b,
  (forall c m, c_c c <> None -> get_band b (c_band c) = Ok m -> exists c', step_and_back cfht_set c (cfht_params c) 0 step = Ok c' /\
     cfht_params c' = [None] /\ cfht_counts c' b = Err TypeError /\ step_and_back cfht_set c' (cfht_params c') 0 step = Err TypeError) /\
  (forall c m, m_aa c <> None -> get_band b (m_band c) = Ok m -> m <= 50 -> exists c', step_and_back smags_set c [m_aa c] 0 step = Ok c' /\
     m_aa c' = None /\ smags_counts c' b = Err TypeError).
Proof.
  intros step b. split.
  - intros [e [v|] k a bd] m N B; [|now destruct N]. eexists. split; [reflexivity|]. split; [reflexivity|]. split; [|reflexivity].
    unfold cfht_counts. cbn [c_band] in *. rewrite B. reflexivity.
  - intros [bd e [v|] k a] m N B L; [|now destruct N]. eexists. split; [reflexivity|]. split; [reflexivity|].
    unfold smags_counts. cbn [m_band] in *. rewrite B. cbn [bind]. unfold smags_counts_of. destruct (Rlt_dec 50 m); [lra|reflexivity].
Qed.
(** setParams sets the parameter. *)
Theorem C96_cfht_set : forall c v, exists c', cfht_set_all c [v] = Ok c' /\ cfht_params c' = [v] /\ c_band c' = c_band c /\
  (c_exptime c', c_k c', c_airmass c') = (c_exptime c, c_k c, c_airmass c) /\
  forall p, length p <> 1%nat -> cfht_set_all c p = Err AssertionError.
Proof.
  intros c v. eexists. split; [reflexivity|]. split; [reflexivity|]. split; [reflexivity|]. split; [reflexivity|].
  intros [|? [|]] N; try reflexivity. now destruct N.
Qed.
(** Equal hash keys mean equal counts for SdssMagsPhotoCal; the key of a
    CfhtPhotoCal does not have the band. *)
Theorem C96_photocal_hash : forall c c' b, smags_hash c = smags_hash c' -> smags_counts c b = smags_counts c' b.
Proof. intros [a b c d e] [a' b' c' d' e'] bs H. unfold smags_hash in H. cbn in H. injection H as -> -> -> -> ->. reflexivity. Qed.
Definition two_bands : bands := [("r"%string, 20); ("g"%string, 22)].
Theorem C96_photocal_hash_refuted : forall h, 0 < exptime h -> exists r g,
  cfht_hash (new_cfht h "r") = cfht_hash (new_cfht h "g") /\
  cfht_counts (new_cfht h "r") two_bands = Ok r /\ cfht_counts (new_cfht h "g") two_bands = Ok g /\ g < r.
Proof.
  intros h X. destruct (C96_cfht h "r"%string 1 two_bands 20 X eq_refl) as (_ & r & _ & _ & ER & VR).
  destruct (C96_cfht h "g"%string 1 two_bands 22 X eq_refl) as (_ & g & _ & _ & EG & VG).
  exists r, g. split; [reflexivity|]. split; [exact ER|]. split; [exact EG|]. rewrite VR, VG.
  apply Rmult_lt_compat_l; [exact X|]. apply pow10_lt. lra.
Qed.
(** Both have one parameter and no bounds for it. *)
Theorem C96_photocal_bounds_refuted : forall c, length (cfht_params c) = 1%nat /\ base_lower_bounds = [].
Proof. split; reflexivity. Qed.

(** ** Concrete cases *)
Definition ex_trans : trans := fun k => if String.eqb k "a" then 10 else if String.eqb k "node" then 95 else 0.
Definition ex_to_pixel (t : trans) (p : R * R) : R * R := (fst p - t "a"%string, snd p).
Definition ex_to_pixel_color (t : trans) (p : R * R) (c : R) : R * R := (fst p - t "a"%string + c, snd p).
Definition ex_to_radec (t : trans) (q : R * R) : R * R := (fst q + t "a"%string, snd q).
Definition ex_cd (t : trans) (x y : R) : matrix := ((1 + x, 0), (0, 1)).
Example sdss_example :
  let s := new_sdss [ex_trans] 0 in wf s /\ raw_index (s_liquid (snd s)) 18 = Some 18%nat /\
  (forall p, ex_to_radec ex_trans (ex_to_pixel ex_trans p) = p) /\ (forall q, ex_to_pixel ex_trans (ex_to_radec ex_trans q) = q) /\
  mdet (ex_cd ex_trans (0 + 0) (0 + 0)) <> 0 /\ set_constant_cd ex_cd s 0 0 = Ok ([ex_trans], mkSw 0 0 0 (repeat true 20) (Some ((1 + (0 + 0), 0), (0, 1)))
    (Some ((1 / ((1 + (0 + 0)) * 1 - 0 * 0), - 0 / ((1 + (0 + 0)) * 1 - 0 * 0)), (- 0 / ((1 + (0 + 0)) * 1 - 0 * 0), (1 + (0 + 0)) / ((1 + (0 + 0)) * 1 - 0 * 0)))) None).
Proof.
  cbv zeta. split; [split; [cbn; lia|reflexivity]|]. split; [reflexivity|].
  split; [intros [a b]; unfold ex_to_radec, ex_to_pixel; cbn; f_equal; ring|]. split; [intros [a b]; unfold ex_to_radec, ex_to_pixel; cbn; f_equal; ring|].
  assert (D : mdet (ex_cd ex_trans (0 + 0) (0 + 0)) <> 0) by (unfold mdet, ex_cd; cbn; lra). split; [exact D|].
  unfold set_constant_cd, cd_at_pixel, new_sdss. cbn [snd s_cd get_trans fst s_ref py_get nth_error bind s_x0 s_y0].
  unfold minv. destruct (Req_EM_T _ 0) as [Z|_]; [contradiction|]. reflexivity.
Qed.
(** With a colour, going back does not give the position. *)
Theorem C96_color_refuted : exists xy, position_to_pixel ex_to_pixel ex_to_pixel_color (new_sdss [ex_trans] 0) (10, 0) 1 = Ok xy /\
  pixel_to_position ex_to_radec (new_sdss [ex_trans] 0) (fst xy) (snd xy) <> Ok (10, 0).
Proof.
  unfold position_to_pixel, pixel_to_position, new_sdss. cbn [get_trans fst snd s_ref py_get nth_error bind s_x0 s_y0].
  destruct (Req_EM_T 1 0) as [E|_]; [lra|]. eexists. split; [reflexivity|].
  unfold ex_to_radec, ex_to_pixel_color, ex_trans. cbn. intro E. injection E as E. lra.
Qed.
Example cfht_example : 0 < exptime (mkHdr 100 26 (-0.1) 1.2) /\ get_band two_bands "g"%string = Ok 22 /\
  c_c (new_cfht (mkHdr 100 26 (-0.1) 1.2) "g") <> None.
Proof. cbn. split; [lra|]. split; [reflexivity|discriminate]. Qed.

Print Assumptions C96_parameters.
Print Assumptions C96_names.
Print Assumptions C96_restore.
Print Assumptions C96_inverse.
Print Assumptions C96_origin.
Print Assumptions C96_cd.
Print Assumptions C96_constant_refuted.
Print Assumptions C96_pixscale_refuted.
Print Assumptions C96_steps.
Print Assumptions C96_steps_refuted.
Print Assumptions C96_all_steps.
Print Assumptions C96_copy_refuted.
Print Assumptions C96_hash.
Print Assumptions C96_shared_refuted.
Print Assumptions C96_cfht.
Print Assumptions C96_sdss_mags.
Print Assumptions C96_photocal_copy.
Print Assumptions C96_photocal_copy_refuted.
Print Assumptions C96_derivative.
Print Assumptions C96_derivative_refuted.
Print Assumptions C96_cfht_set.
Print Assumptions C96_photocal_hash.
Print Assumptions C96_photocal_hash_refuted.
Print Assumptions C96_photocal_bounds_refuted.
Print Assumptions C96_color_refuted.
