(** C105: the sources of a SourceExtractor model-fit catalogue. *)
From Coq Require Import Reals.
From Coquelicot Require Import Coquelicot.
From Interval Require Import Tactic.
From Coq Require Import String List Bool Lia Lra Sorted.
From Verif Require Import Base MagsModel SextModel.
Import ListNotations.
Open Scope R_scope.

(** ** Spec *)
(** The flux in nanomaggies of a magnitude. *)
Definition flux (m : R) : R := Rpower 10 ((22.5 - m) / 2.5).
(** The same flux in every band. *)
Definition everywhere (bands : list string) (f : R) (b : nbright) : Prop := b = map (fun k => (k, Some f)) bands.
(** A star: the PSF fits better, and is bright enough. *)
Definition star (lim : R) (t : srow) (m : R) : Prop :=
  mag_psf t = Some m /\ m <= lim /\ exists a b, chi2_psf t = Some a /\ chi2_model t = Some b /\ a < b.
(** Half-light radius in arcseconds, axis ratio, angle: the columns are in
    degrees; a disk has its half-light radius at 1.68 scale lengths. *)
Definition bulge_shape (t : srow) : gshape := (3600 * spheroid_reff t, spheroid_aspect t, spheroid_theta t + 90).
Definition disk_shape (t : srow) : gshape := (3600 * (1.68 * disk_scale t), disk_aspect t, disk_theta t + 90).
(** What a row with known magnitudes stands for. *)
Inductive stands (lim : R) (bands : list string) (t : srow) : option source -> Prop :=
| st_star m b : star lim t m -> everywhere bands (flux m) b -> stands lim bands t (Some (PointS (ra t, dec t) b))
| st_faint e d : (forall m, ~ star lim t m) -> mag_disk t = Some e -> mag_spheroid t = Some d -> lim < e -> lim < d -> stands lim bands t None
| st_bulge e d b : (forall m, ~ star lim t m) -> mag_disk t = Some e -> mag_spheroid t = Some d -> lim < e -> d <= lim ->
    everywhere bands (flux d) b -> stands lim bands t (Some (DevS (alphamodel t, deltamodel t) b (bulge_shape t)))
| st_disk e d b : (forall m, ~ star lim t m) -> mag_disk t = Some e -> mag_spheroid t = Some d -> e <= lim -> lim < d ->
    everywhere bands (flux e) b -> stands lim bands t (Some (ExpS (alphamodel t, deltamodel t) b (disk_shape t)))
| st_both e d b f : (forall m, ~ star lim t m) -> mag_disk t = Some e -> mag_spheroid t = Some d -> e <= lim -> d <= lim ->
    everywhere bands (flux d + flux e) b -> f * (flux d + flux e) = flux d -> (1 - f) * (flux d + flux e) = flux e ->
    stands lim bands t (Some (CompS (alphamodel t, deltamodel t) b (Some f) (disk_shape t) (bulge_shape t))).
Definition known (t : srow) : Prop := mag_disk t <> None /\ mag_spheroid t <> None.
Definition usable (bands : list string) : Prop := NoDup bands /\ ~ In "order"%string bands.

(** ** Lemmas *)
Lemma flux_pos m : 0 < flux m. Proof. apply exp_pos. Qed.
Lemma flux_ok m : mag_to_nanomaggies m = flux m. Proof. unfold mag_to_nanomaggies, pow10, flux. f_equal. lra. Qed.
Lemma lt_some x y : lt (Some x) (Some y) = true <-> x < y. Proof. cbn. destruct (Rlt_dec x y); split; intros; auto; try discriminate; lra. Qed.
Lemma le_some x y : le (Some x) (Some y) = true <-> x <= y. Proof. cbn. destruct (Rle_dec x y); split; intros; auto; try discriminate; lra. Qed.
Lemma lt_false x y : lt (Some x) (Some y) = false <-> y <= x. Proof. cbn. destruct (Rlt_dec x y); split; intros; auto; try discriminate; lra. Qed.
Lemma le_false x y : le (Some x) (Some y) = false <-> y < x. Proof. cbn. destruct (Rle_dec x y); split; intros; auto; try discriminate; lra. Qed.
Lemma memb_in k l : memb k l = true <-> In k l.
Proof. unfold memb. rewrite existsb_exists. split; [intros (x & I & E); apply String.eqb_eq in E; now subst|intro I; exists k; split; [exact I|apply String.eqb_refl]]. Qed.
Lemma same_ok bands nm : usable bands -> same_in_all bands nm = Ok (map (fun k => (k, nm)) bands).
Proof.
  intros [N O]. unfold same_in_all. destruct (memb "order" bands) eqn:E; [apply memb_in in E; contradiction|].
  assert (R : repeats bands = false); [|now rewrite R]. clear E O. induction N as [|k l I N IH]; [reflexivity|]. cbn. rewrite IH, orb_false_r.
  destruct (memb k l) eqn:E; [apply memb_in in E; contradiction|reflexivity].
Qed.
Lemma star_dec lim t : (exists m, star lim t m /\ lt (chi2_psf t) (chi2_model t) && le (mag_psf t) (Some lim) = true) \/
  ((forall m, ~ star lim t m) /\ lt (chi2_psf t) (chi2_model t) && le (mag_psf t) (Some lim) = false).
Proof.
  destruct (lt (chi2_psf t) (chi2_model t) && le (mag_psf t) (Some lim)) eqn:E; [left|right].
  - apply andb_true_iff in E as [A B]. destruct (chi2_psf t) as [a|] eqn:E1; [|discriminate]. destruct (chi2_model t) as [b|] eqn:E2; [|discriminate].
    destruct (mag_psf t) as [m|] eqn:E3; [|discriminate]. apply lt_some in A. apply le_some in B. exists m. split; [|reflexivity].
    split; [exact E3|]. split; [exact B|]. exists a, b. auto.
  - split; [|reflexivity]. intros m (M & L & a & b & E1 & E2 & AB). rewrite E1, E2, M in E. apply andb_false_iff in E as [E|E]; [apply lt_false in E|apply le_false in E]; lra.
Qed.
Lemma one_ok lim bands t v : usable bands -> known t -> exists v' o, one_row (Some lim) bands t v = Ok (v', o) /\ stands lim bands t o.
Proof.
  intros U [KE KD]. destruct (mag_disk t) as [e|] eqn:EE; [|now destruct KE]. destruct (mag_spheroid t) as [d|] eqn:ED; [|now destruct KD]. clear KE KD.
  unfold one_row. destruct (star_dec lim t) as [(m & S & ->)|(S & ->)].
  - rewrite same_ok by exact U. cbn [bind]. do 2 eexists. split; [reflexivity|]. assert (M : mag_psf t = Some m) by apply S. rewrite M. cbn [nmap option_map].
    eapply st_star; [exact S|]. unfold everywhere. rewrite flux_ok. reflexivity.
  - rewrite EE, ED, !same_ok by exact U. cbn [nmap option_map nop bind]. cbv zeta.
    destruct (Rlt_dec lim e) as [LE|LE], (Rlt_dec lim d) as [LD|LD].
    + rewrite (proj2 (lt_some lim e) LE), (proj2 (lt_some lim d) LD). cbn [andb]. do 2 eexists. split; [reflexivity|]. eapply st_faint; eauto.
    + rewrite (proj2 (lt_some lim e) LE), (proj2 (lt_false lim d)), (proj2 (le_some d lim)) by lra. cbn [andb unbound bind]. do 2 eexists. split; [reflexivity|].
      replace (spheroid_reff t * 3600) with (3600 * spheroid_reff t) by ring. rewrite flux_ok. eapply st_bulge; eauto; [lra|reflexivity].
    + rewrite (proj2 (lt_some lim d) LD), (proj2 (lt_false lim e)), (proj2 (le_some e lim)) by lra. cbn [andb unbound bind]. do 2 eexists. split; [reflexivity|].
      replace (disk_scale t * 1.68 * 3600) with (3600 * (1.68 * disk_scale t)) by ring. rewrite flux_ok. eapply st_disk; eauto; [lra|reflexivity].
    + rewrite (proj2 (lt_false lim e)), (proj2 (le_some e lim)), (proj2 (lt_false lim d)), (proj2 (le_some d lim)) by lra. cbn [andb unbound bind]. do 2 eexists. split; [reflexivity|].
      replace (disk_scale t * 1.68 * 3600) with (3600 * (1.68 * disk_scale t)) by ring. replace (spheroid_reff t * 3600) with (3600 * spheroid_reff t) by ring.
      rewrite !flux_ok. pose proof (flux_pos e). pose proof (flux_pos d). eapply (st_both _ _ _ e d); eauto; [lra|lra|reflexivity|field; lra|field; lra].
Qed.

(** ** Theorems *)
(** A row stands for one thing only. *)
Theorem C105_one lim bands t o o' : stands lim bands t o -> stands lim bands t o' -> o = o'.
Proof.
  intros A B. destruct A as [m b S E|e d S EE ED LE LD|e d b S EE ED LE LD E|e d b S EE ED LE LD E|e d b f S EE ED LE LD E F1 F2];
    destruct B as [m' b' S' E'|e' d' S' EE' ED' LE' LD'|e' d' b' S' EE' ED' LE' LD' E'|e' d' b' S' EE' ED' LE' LD' E'|e' d' b' f' S' EE' ED' LE' LD' E' F1' F2'];
    try (exfalso; eapply S; eassumption); try (exfalso; eapply S'; eassumption);
    try (rewrite EE in EE'; injection EE' as <-; rewrite ED in ED'; injection ED' as <-); try (exfalso; lra); unfold everywhere in *; subst.
  - destruct S as (M & _), S' as (M' & _). rewrite M in M'. injection M' as <-. reflexivity.
  - reflexivity.
  - reflexivity.
  - reflexivity.
  - assert (f = f') as <-; [|reflexivity]. pose proof (flux_pos e). pose proof (flux_pos d). apply (Rmult_eq_reg_r (flux d + flux e)); lra.
Qed.
(** Magnitudes that are all known: every source is what its row stands for,
    whatever the other rows are, and the rows without a source stand for none. *)
Theorem C105_catalogue : forall T lim bands, usable bands -> Forall known T -> exists s k,
  get_se_modelfit_cat T (Some lim) bands = Ok (s, k) /\ length s = length k /\ StronglySorted Nat.lt k /\
  (forall j i, nth_error k j = Some i -> exists t src, nth_error T i = Some t /\ nth_error s j = Some src /\ stands lim bands t (Some src)) /\
  (forall i t, nth_error T i = Some t -> ~ In i k -> stands lim bands t None).
Proof.
  intros T lim bands U K. unfold get_se_modelfit_cat.
  assert (G : forall T i v, Forall known T -> exists s k, rows_from (Some lim) bands i T v = Ok (s, k) /\ length s = length k /\ StronglySorted Nat.lt k /\
    Forall (fun n => (i <= n)%nat) k /\
    (forall j n, nth_error k j = Some n -> exists t src, nth_error T (n - i) = Some t /\ nth_error s j = Some src /\ stands lim bands t (Some src)) /\
    (forall n t, nth_error T n = Some t -> ~ In (i + n)%nat k -> stands lim bands t None)).
  { clear T K. induction T as [|t T IH]; intros i v K.
    - exists [], []. split; [reflexivity|]. split; [reflexivity|]. split; [constructor|]. split; [constructor|]. split; [intros [|] ? E; discriminate|]. intros [|] ? E; discriminate.
    - inversion K as [|? ? K1 K2]; subst. cbn [rows_from]. destruct (one_ok lim bands t v U K1) as (v' & o & E & ST). rewrite E. cbn [bind].
      destruct (IH (S i) v' K2) as (s & k & E' & L & SS & F & P & Q). rewrite E'. cbn [bind].
      assert (P' : forall j n, nth_error k j = Some n -> exists t0 src, nth_error (t :: T) (n - i) = Some t0 /\ nth_error s j = Some src /\ stands lim bands t0 (Some src)).
      { intros j n H. destruct (P j n H) as (t0 & src & A & B). exists t0, src. split; [|exact B].
        rewrite Forall_forall in F. assert (S i <= n)%nat by (apply F; eapply nth_error_In; eauto). replace (n - i)%nat with (S (n - S i)) by lia. exact A. }
      assert (Q' : forall n t0, nth_error T n = Some t0 -> ~ In (i + S n)%nat k -> stands lim bands t0 None)
        by (intros n t0 H N; apply (Q n t0 H); replace (S i + n)%nat with (i + S n)%nat by lia; exact N).
      assert (F' : Forall (fun n => (i <= n)%nat) k) by (eapply Forall_impl; [|exact F]; cbn; intros; lia).
      destruct o as [src|].
      + exists (src :: s), (i :: k). split; [reflexivity|]. split; [cbn; now rewrite L|]. split; [constructor; [exact SS|exact F]|]. split; [constructor; [lia|exact F']|]. split.
        * intros [|j] n H; [injection H as <-; exists t, src; rewrite Nat.sub_diag; auto|]. apply (P' j n H).
        * intros [|n] t0 H N; [exfalso; apply N; left; lia|]. apply (Q' n t0 H). intro I. apply N. right. exact I.
      + exists s, k. split; [reflexivity|]. split; [exact L|]. split; [exact SS|]. split; [exact F'|]. split; [exact P'|].
        intros [|n] t0 H N; [injection H as <-; exact ST|]. now apply (Q' n t0 H). }
  destruct (G T 0%nat (None, None) K) as (s & k & E & L & SS & _ & P & Q). exists s, k. split; [exact E|]. split; [exact L|]. split; [exact SS|]. split; [|exact Q].
  intros j i H. destruct (P j i H) as (t & src & A & B). rewrite Nat.sub_0_r in A. eauto.
Qed.
(** The radius of a disk: of an exponential surface brightness with scale length
    [h], the part of the light inside 1.68 h is one half within a thousandth. *)
Theorem C105_disk_radius : forall h, 0 < h -> exists inside,
  is_RInt (fun r => 2 * PI * r * exp (- r / h)) 0 (1.68 * h) inside /\
  is_lim (fun b => RInt (fun r => 2 * PI * r * exp (- r / h)) 0 b) p_infty (2 * PI * h ^ 2) /\
  0.5 <= inside / (2 * PI * h ^ 2) <= 0.501.
Proof.
  intros h H. pose proof PI_RGT_0 as P.
  set (F := fun r => - (2 * PI * h ^ 2) * ((1 + r / h) * exp (- r / h))).
  assert (I : forall b, is_RInt (fun r => 2 * PI * r * exp (- r / h)) 0 b (F b - F 0)).
  { intro b. apply (is_RInt_derive (V := R_CompleteNormedModule) F).
    - intros x _. unfold F. auto_derive; [lra|]. unfold Rdiv. field. lra.
    - intros x _. apply (ex_derive_continuous (V := R_NormedModule)). auto_derive. lra. }
  assert (F0 : F 0 = - (2 * PI * h ^ 2)) by (unfold F; unfold Rdiv; rewrite Ropp_0, !Rmult_0_l, exp_0; ring).
  exists (F (1.68 * h) - F 0). split; [apply I|]. split.
  - apply (is_lim_ext (fun b => F b - F 0)); [intro b; symmetry; apply is_RInt_unique, I|]. rewrite F0.
    assert (L : is_lim (fun b => (1 + b / h) * exp (- b / h)) p_infty 0).
    { assert (LX : is_lim (fun b => b / h) p_infty p_infty).
      { apply (is_lim_ext (fun b => / h * b)); [intro; unfold Rdiv; ring|]. assert (E : Rbar_mult (/ h) p_infty = p_infty).
        { assert (0 < / h) by now apply Rinv_0_lt_compat. cbn. destruct (Rle_dec 0 (/ h)) as [Q|Q]; [|lra]. destruct (Rle_lt_or_eq_dec 0 (/ h) Q); [reflexivity|lra]. }
        rewrite <- E at 2. apply is_lim_scal_l, is_lim_id. }
      assert (E1 : is_lim (fun x => (1 + x) * exp (- x)) p_infty 0).
      { apply (is_lim_ext_loc (fun x => exp (- x) + / (exp x / x))).
        - exists 1. intros x X. rewrite exp_Ropp. pose proof (exp_pos x). field. lra.
        - replace (Finite 0) with (Rbar_plus 0 0) by (cbn; f_equal; ring). apply is_lim_plus'.
          + apply (is_lim_comp exp (fun x => - x) p_infty 0 m_infty); [apply is_lim_exp_m| |].
            * change m_infty with (Rbar_opp p_infty). apply is_lim_opp, is_lim_id.
            * exists 0. intros; discriminate.
          + change (Finite 0) with (Rbar_inv p_infty). apply is_lim_inv; [apply is_lim_div_exp_p|discriminate]. }
      apply (is_lim_ext (fun b => (fun x => (1 + x) * exp (- x)) (b / h))); [intro b; cbv beta; f_equal; f_equal; unfold Rdiv; ring|].
      apply (is_lim_comp (fun x => (1 + x) * exp (- x)) (fun b => b / h) p_infty 0 p_infty); [exact E1|exact LX|]. exists 0. intros; discriminate. }
    assert (L2 : is_lim (fun b => F b) p_infty 0).
    { unfold F. replace (Finite 0) with (Rbar_mult (- (2 * PI * h ^ 2)) 0) by apply Rbar_mult_0_r. apply is_lim_scal_l, L. }
    assert (L3 : is_lim (fun b => F b - - (2 * PI * h ^ 2)) p_infty (Finite (0 - - (2 * PI * h ^ 2)))) by (apply is_lim_minus'; [exact L2|apply is_lim_const]).
    replace (0 - - (2 * PI * h ^ 2)) with (2 * PI * h ^ 2) in L3 by ring. exact L3.
  - assert (G : forall c, (F (c * h) - F 0) / (2 * PI * h ^ 2) = 1 - (1 + c) * exp (- c)).
    { intro c. rewrite F0. unfold F. replace (c * h / h) with c by (field; lra). replace (- (c * h) / h) with (- c) by (field; lra). field. split; lra. }
    rewrite G. split; interval.
Qed.

(** ** Where the claim fails *)
(** A disk that is bright enough with a spheroid whose magnitude is not known:
    no catalogue at all, or, after a row with a spheroid, a source with the shape
    of that other spheroid and without a flux. *)
Theorem C105_unknown_refuted : forall lim bands t e, usable bands -> (forall m, ~ star lim t m) -> mag_spheroid t = None -> mag_disk t = Some e -> e <= lim ->
  get_se_modelfit_cat [t] (Some lim) bands = Err UnboundLocalError /\
  forall t0 e0 d0, (forall m, ~ star lim t0 m) -> mag_disk t0 = Some e0 -> mag_spheroid t0 = Some d0 -> d0 <= lim ->
    exists s0, get_se_modelfit_cat [t0; t] (Some lim) bands =
      Ok ([s0; CompS (alphamodel t, deltamodel t) (map (fun k => (k, None)) bands) None (disk_shape t) (bulge_shape t0)], [0; 1]%nat).
Proof.
  intros lim bands t e U S ED EE LE. unfold get_se_modelfit_cat. destruct (star_dec lim t) as [(m & S' & _)|(_ & NS)]; [now apply S in S'|].
  assert (O : forall v, one_row (Some lim) bands t v = match fst v with None => Err UnboundLocalError | Some d => Ok ((Some d, Some (disk_shape t)),
      Some (CompS (alphamodel t, deltamodel t) (map (fun k => (k, None)) bands) None (disk_shape t) d)) end).
  { intro v. unfold one_row. rewrite NS, EE, ED, !same_ok by exact U. cbn [lt le nmap option_map nop bind]. cbv zeta.
    change (if Rlt_dec lim e then true else false) with (lt (Some lim) (Some e)). change (if Rle_dec e lim then true else false) with (le (Some e) (Some lim)).
    rewrite (proj2 (lt_false lim e)), (proj2 (le_some e lim)) by lra. cbn [andb unbound bind].
    replace (disk_scale t * 1.68 * 3600) with (3600 * (1.68 * disk_scale t)) by ring. destruct (fst v); reflexivity. }
  split; [cbn [rows_from]; rewrite O; reflexivity|].
  intros t0 e0 d0 S0 E0 D0 L0. cbn [rows_from].
  assert (O0 : exists s0 x, one_row (Some lim) bands t0 (None, None) = Ok ((Some (bulge_shape t0), x), Some s0)).
  { destruct (star_dec lim t0) as [(m & S' & _)|(_ & NS0)]; [now apply S0 in S'|].
    unfold one_row. rewrite NS0, E0, D0, !same_ok by exact U. cbn [nmap option_map nop bind]. cbv zeta.
    rewrite (proj2 (lt_false lim d0)), (proj2 (le_some d0 lim)) by lra. rewrite andb_false_r. cbn [andb unbound bind fst snd].
    replace (spheroid_reff t0 * 3600) with (3600 * spheroid_reff t0) by ring. fold (bulge_shape t0).
    destruct (Rlt_dec lim e0).
    - rewrite (proj2 (lt_some lim e0)), (proj2 (le_false e0 lim)) by lra. cbn [andb bind]. eauto.
    - rewrite (proj2 (lt_false lim e0)), (proj2 (le_some e0 lim)) by lra. cbn [andb bind unbound]. eauto. }
  destruct O0 as (s0 & x & ->). cbn [bind]. rewrite O. cbn [fst bind]. exists s0. reflexivity.
Qed.
(** A star too faint to be one may still become a galaxy. *)
Theorem C105_faint_star_refuted : exists t b, (exists m, mag_psf t = Some m /\ 25 < m) /\ chi2_psf t = Some 1 /\ chi2_model t = Some 2 /\
  get_se_modelfit_cat [t] (Some 25) ["r"%string] = Ok ([ExpS (10, 20) b (3600 * (1.68 * (1 / 3600)), 1, 90)], [0%nat]).
Proof.
  set (t := mkRow (Some 1) (Some 2) (Some 26) (Some 24) (Some 99) 10 20 10 20 1 1 0 (1 / 3600) 1 0).
  destruct (C105_catalogue [t] 25 ["r"%string]) as (s & k & E & L & _ & P & Q).
  - split; [repeat constructor; intros []|intros [H|[]]; discriminate].
  - constructor; [split; discriminate|constructor].
  - assert (ST : stands 25 ["r"%string] t (Some (ExpS (10, 20) (map (fun k => (k, Some (flux 24))) ["r"%string]) (disk_shape t)))).
    { apply (st_disk _ _ t 24 99); [|reflexivity|reflexivity|lra|lra|reflexivity]. intros m (M & ? & _). injection M as <-. lra. }
    destruct k as [|i k].
    + exfalso. assert (N : stands 25 ["r"%string] t None) by (apply (Q 0%nat t eq_refl); intros []). pose proof (C105_one _ _ _ _ _ ST N). discriminate.
    + destruct (P 0%nat i eq_refl) as (t' & src & A & B & C). destruct i as [|[|]]; try discriminate. injection A as <-.
      pose proof (C105_one _ _ _ _ _ ST C) as EQ. injection EQ as <-.
      destruct k as [|i k]; [|destruct (P 1%nat i eq_refl) as (t2 & ? & A2 & _); destruct i as [|[|]]; try discriminate].
      * destruct s as [|? [|]]; try discriminate. injection B as ->. exists t. eexists. split; [exists 26; split; [reflexivity|lra]|]. split; [reflexivity|]. split; [reflexivity|].
        rewrite E. unfold disk_shape, t. cbn [disk_scale disk_aspect disk_theta]. rewrite Rplus_0_l. reflexivity.
      * exfalso. cbn in E. destruct (one_row _ _ _ _) as [[v [o|]]|] in E; cbn in E; try discriminate; injection E as _ E; discriminate.
Qed.
(** DR7 magnitudes: only for no band at all, or for the extra band "b". *)
Theorem C105_dr7_refuted : forall names counts bands extra,
  ((exists i, (i < length counts)%nat /\ In (names i) bands) -> dr7_brightness names counts bands extra = Err NameError) /\
  ((exists b, dr7_brightness names counts bands extra = Ok b) -> extra = [] \/ extra = ["b"%string]).
Proof.
  intros names counts bands extra. unfold dr7_brightness. split.
  - intros (i & L & I). assert (G : forall l j, (j <= i < j + length l)%nat -> dr7_loop names j l bands = Err NameError).
    { induction l as [|c l IH]; intros j B; [cbn in B; lia|]. cbn [dr7_loop]. destruct (memb (names j) bands) eqn:E; [reflexivity|].
      apply IH. assert (i <> j); [intros ->; apply memb_in in I; congruence|]. cbn [length] in B. lia. }
    rewrite G by lia. reflexivity.
  - destruct (dr7_loop _ _ _ _) as [u|]; [|intros (? & ?); discriminate]. cbn [bind]. destruct extra as [|a [|b r]]; [auto| |intros (? & ?); discriminate].
    cbn [length Nat.eqb negb map fst forallb]. destruct (memb a ["b"%string]) eqn:E; [|intros (q & H); rewrite andb_false_r in H; discriminate].
    apply memb_in in E as [<-|[]]. auto.
Qed.

(** ** A case *)
Example C105_ex : exists b1 b2 f, get_se_modelfit_cat
    [mkRow (Some 5) (Some 3) (Some 20) (Some 30) (Some 30) 1 2 3 4 1 1 0 1 1 0;
     mkRow (Some 2) (Some 3) (Some 20) (Some 30) (Some 30) 5 6 7 8 1 1 0 1 1 0;
     mkRow None (Some 3) None (Some 20) (Some 20) 5 6 7 8 (2 / 3600) 1 0 (1 / 3600) (1 / 2) 10] (Some 25) ["g"; "r"]%string =
  Ok ([PointS (5, 6) b1; CompS (7, 8) b2 (Some f) (3600 * (1.68 * (1 / 3600)), 1 / 2, 10 + 90) (3600 * (2 / 3600), 1, 0 + 90)], [1; 2]%nat).
Proof.
  set (r1 := mkRow _ _ _ _ _ 1 2 _ _ _ _ _ _ _ _). set (r2 := mkRow (Some 2) _ _ _ _ _ _ _ _ _ _ _ _ _ _). set (r3 := mkRow None _ _ _ _ _ _ _ _ _ _ _ _ _ _).
  unfold get_se_modelfit_cat. cbn [rows_from].
  assert (U : usable ["g"; "r"]%string) by (split; [repeat constructor; cbn; intuition discriminate|cbn; intuition discriminate]).
  assert (K : forall r, In r [r1; r2; r3] -> known r) by (intros r [<-|[<-|[<-|[]]]]; split; discriminate).
  destruct (one_ok 25 _ r1 (None, None) U) as (v1 & o1 & -> & S1); [apply K; cbn; auto|]. cbn [bind].
  destruct (one_ok 25 _ r2 v1 U) as (v2 & o2 & -> & S2); [apply K; cbn; auto|]. cbn [bind].
  destruct (one_ok 25 _ r3 v2 U) as (v3 & o3 & -> & S3); [apply K; cbn; auto|]. cbn [bind].
  assert (N1 : stands 25 ["g"; "r"]%string r1 None).
  { apply (st_faint _ _ r1 30 30); try reflexivity; try lra. intros m (_ & _ & a & b & A & B & AB). injection A as <-. injection B as <-. lra. }
  assert (N2 : exists b1, stands 25 ["g"; "r"]%string r2 (Some (PointS (5, 6) b1))).
  { eexists. apply (st_star _ _ r2 20); [|reflexivity]. split; [reflexivity|]. split; [lra|]. exists 2, 3. repeat split; lra. }
  assert (N3 : exists b2 f, stands 25 ["g"; "r"]%string r3 (Some (CompS (7, 8) b2 (Some f) (disk_shape r3) (bulge_shape r3)))).
  { do 2 eexists. apply (st_both _ _ r3 20 20 _ (1 / 2)); try reflexivity; try lra. intros m (M & _). discriminate. }
  destruct N2 as (b1 & N2). destruct N3 as (b2 & f & N3).
  rewrite (C105_one _ _ _ _ _ S1 N1), (C105_one _ _ _ _ _ S2 N2), (C105_one _ _ _ _ _ S3 N3). cbn [bind]. exists b1, b2, f. reflexivity.
Qed.

Print Assumptions C105_one.
Print Assumptions C105_catalogue.
Print Assumptions C105_disk_radius.
Print Assumptions C105_unknown_refuted.
Print Assumptions C105_faint_star_refuted.
Print Assumptions C105_dr7_refuted.
