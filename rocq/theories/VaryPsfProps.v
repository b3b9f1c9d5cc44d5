(** C80 and C81: spatially varying mixture-of-Gaussians PSFs. *)
From Coq Require Import String Ascii.
From Coq Require Import List ZArith Bool Reals Lia Lra.
From Verif Require Import Base CacheModel VaryPsfModel.
Import ListNotations.
Open Scope R_scope.

(** ** Specification *)

(** The grid point (i, j). *)
Definition gx {img psf} (v : vpsf img psf) (i : nat) : R := INR i * v_W v / INR (v_nx v - 1).
Definition gy {img psf} (v : vpsf img psf) (j : nat) : R := INR j * v_H v / INR (v_ny v - 1).

(** Where the fit of column i in row j starts: nowhere at the first point, at
    the result of the point to the left, and in the first column at the result of
    the start of the row before. *)
Definition start_of {psf} (params : psf -> list R) (psfs : nat -> nat -> psf) (j i : nat) : option (list R) :=
  match i, j with
  | S i', _ => Some (params (psfs j i'))
  | O, S j' => Some (params (psfs j' O))
  | O, O => None
  end.

Definition increasing (l : list R) : Prop :=
  forall i, (S i < length l)%nat -> nth i l 0 < nth (S i) l 0.

(** What is asked of RectBivariateSpline: through the points on grids of four or
    more points in either direction. *)
Definition interpolates (spl : spliner) : Prop :=
  forall XX YY d, (3 < length XX)%nat -> (3 < length YY)%nat -> increasing XX -> increasing YY ->
  exists f, spl XX YY d = Ok f /\
    forall ix iy, (ix < length XX)%nat -> (iy < length YY)%nat -> f (nth ix XX 0) (nth iy YY 0) = d ix iy.

(** ** Lemmas: the grid *)

Lemma linspace_length a n : length (linspace a n) = n.
Proof. unfold linspace. rewrite map_length, seq_length. reflexivity. Qed.

Lemma linspace_nth a n i : (i < n)%nat -> (1 < n)%nat -> nth i (linspace a n) 0 = INR i * a / INR (n - 1).
Proof.
  intros H1 H2. unfold linspace.
  rewrite (nth_indep _ 0 ((fun i => if (n =? 1)%nat then 0%R else (INR i * (a / INR (n - 1)))%R) O))
    by (rewrite map_length, seq_length; lia).
  rewrite (map_nth (fun i => if (n =? 1)%nat then 0%R else (INR i * (a / INR (n - 1)))%R)), seq_nth by lia.
  destruct (n =? 1)%nat eqn:E; [apply Nat.eqb_eq in E; lia|].
  replace (0 + i)%nat with i by lia. unfold Rdiv. ring.
Qed.

Lemma linspace_increasing a n : 0 < a -> (1 < n)%nat -> increasing (linspace a n).
Proof.
  intros Ha Hn i Hi. rewrite linspace_length in Hi. rewrite !linspace_nth by lia.
  rewrite S_INR. unfold Rdiv.
  assert (0 < a * / INR (n - 1)).
  { apply Rmult_lt_0_compat; auto. apply Rinv_0_lt_compat, lt_0_INR. lia. }
  rewrite !Rmult_assoc. nra.
Qed.

Section L.
Context {img psf : Type}.
Implicit Types v : vpsf img psf.

Lemma bind_ok_inv {A B} (m : res A) (k : A -> res B) b : bind m k = Ok b -> exists a, m = Ok a /\ k a = Ok b.
Proof. destruct m; simpl; intros H; [eauto|discriminate]. Qed.

Lemma Ok_inj {A} (a b : A) : Ok a = Ok b -> b = a.
Proof. congruence. Qed.

Lemma seqr_nth {A} (l : list (res A)) t : seqr l = Ok t ->
  length t = length l /\ forall i x, nth_error l i = Some x -> exists a, x = Ok a /\ nth_error t i = Some a.
Proof.
  revert t. induction l as [|x l IH]; cbn [seqr]; intros t H.
  - inversion H; subst. split; auto. intros [|i] y E; discriminate.
  - apply bind_ok_inv in H. destruct H as (a & -> & H). apply bind_ok_inv in H.
    destruct H as (t' & E & H). inversion H; subst t. destruct (IH _ E) as [L G].
    split; [simpl; congruence|]. intros [|i] y Ei; simpl in *.
    + inversion Ei; subst. eauto.
    + eauto.
Qed.

Lemma seqr_all {A} (l : list (res A)) (ts : list A) : l = map (@Ok A) ts -> seqr l = Ok ts.
Proof. intros ->. induction ts as [|a ts IH]; simpl; auto. rewrite IH. reflexivity. Qed.

Definition fitted_at v (x y : R) (p0 : option (list R)) (p : psf) : Prop :=
  exists im, v_at v x y = Ok im /\ from_stamp (v_class v) (v_K v) im p0 = Ok p.

Lemma row_ok v y : forall xs p0 px0 first row px, fit_row v y xs p0 px0 first = Ok (row, px) ->
  exists ps, row = map (all_params (v_class v)) ps /\ length ps = length xs /\
    (forall i p, nth_error ps i = Some p ->
       fitted_at v (nth i xs 0) y
         (match i with O => p0 | S i' => option_map (get_params (v_class v)) (nth_error ps i') end) p) /\
    px = match ps with p :: _ => if first then Some (get_params (v_class v) p) else px0 | [] => px0 end.
Proof.
  induction xs as [|x xs IH]; cbn [fit_row]; intros p0 px0 first row px H.
  - inversion H; subst. exists []. repeat split; auto. intros [|i] p E; discriminate.
  - apply bind_ok_inv in H. destruct H as (im & Eim & H).
    apply bind_ok_inv in H. destruct H as (p & Ep & H).
    apply bind_ok_inv in H. destruct H as ((row', px') & Er & H). inversion H; subst. clear H.
    destruct (IH _ _ _ _ _ Er) as (ps & -> & L & F & P).
    exists (p :: ps). repeat split.
    + simpl. congruence.
    + intros [|i] q E; simpl in E.
      * inversion E; subst. exists im. auto.
      * specialize (F i q E). destruct i as [|i]; simpl in *; auto.
    + subst px. destruct ps; reflexivity.
Qed.

Lemma rows_ok v xs : xs <> [] -> forall ys px0 pp, fit_rows v ys xs px0 = Ok pp ->
  exists pss, pp = map (map (all_params (v_class v))) pss /\ length pss = length ys /\
    (forall ps, In ps pss -> length ps = length xs) /\
    forall j ps, nth_error pss j = Some ps -> forall i p, nth_error ps i = Some p ->
       fitted_at v (nth i xs 0) (nth j ys 0)
         (match i with
          | S i' => option_map (get_params (v_class v)) (nth_error ps i')
          | O => match j with
                 | O => px0
                 | S j' => match nth_error pss j' with
                           | Some ps' => option_map (get_params (v_class v)) (nth_error ps' 0)
                           | None => None end
                 end
          end) p.
Proof.
  intros NE. induction ys as [|y ys IH]; cbn [fit_rows]; intros px0 pp H.
  - inversion H; subst. exists []. repeat split; auto; [intros ? []|]. intros [|j] ps E; discriminate.
  - apply bind_ok_inv in H. destruct H as ((row & px) & Er & H).
    apply bind_ok_inv in H. destruct H as (rows & Es & H). inversion H; subst. clear H.
    destruct (row_ok _ _ _ _ _ _ _ _ Er) as (ps & -> & L & F & P).
    destruct (IH _ _ Es) as (pss & -> & L2 & L3 & G).
    exists (ps :: pss). repeat split.
    + simpl. congruence.
    + intros q [<-|Hq]; auto.
    + intros [|j] q E i p Ei; simpl in E.
      * inversion E; subst. specialize (F i p Ei). destruct i; auto.
      * specialize (G j q E i p Ei). simpl nth. destruct i as [|i]; auto.
        destruct j as [|j]; auto. simpl. rewrite P in G.
        destruct ps as [|p1 ps]; simpl in *; auto. exfalso. destruct xs; auto; discriminate.
Qed.

Lemma rect_of pp n : rectangular pp n = true ->
  forall iy ix, (iy < length pp)%nat -> (ix < length (nth iy pp []))%nat ->
  length (nth ix (nth iy pp []) []) = n.
Proof.
  unfold rectangular. rewrite forallb_forall. intros H iy ix H1 H2.
  specialize (H (nth iy pp []) (nth_In _ _ H1)). rewrite forallb_forall in H.
  specialize (H _ (nth_In _ [] H2)). apply Nat.eqb_eq in H. auto.
Qed.

(** The splines after a fit go through the data. *)
Lemma fit_saved_ok spl v pp XX YY v' : interpolates spl ->
  (3 < length XX)%nat -> (3 < length YY)%nat -> increasing XX -> increasing YY ->
  length pp = length YY -> (forall row, In row pp -> length row = length XX) ->
  fit_saved spl v (pp, XX, YY) = Ok v' ->
  exists s, v' = with_splines v s /\
    forall ix iy, (ix < length XX)%nat -> (iy < length YY)%nat ->
      map (fun f => f (nth ix XX 0) (nth iy YY 0)) s = nth ix (nth iy pp []) [].
Proof.
  intros HI HX HY IX IY L1 L2 H. unfold fit_saved in H.
  destruct pp as [|[|p row0] rows]; try discriminate.
  destruct (rectangular _ _) eqn:ER; [|discriminate].
  apply bind_ok_inv in H. destruct H as (s & Es & H). inversion H; subst. clear H.
  exists s. split; auto. intros ix iy Hx Hy.
  set (pp := (p :: row0) :: rows) in *.
  apply seqr_nth in Es. destruct Es as [Ls Gs]. rewrite map_length, seq_length in Ls.
  assert (Liy : (ix < length (nth iy pp []))%nat).
  { rewrite (L2 (nth iy pp [])); auto. apply nth_In. lia. }
  apply nth_ext with (d := 0) (d' := 0).
  - rewrite map_length, Ls. symmetry. apply (rect_of _ _ ER); auto. lia.
  - intros i Hi. rewrite map_length, Ls in Hi.
    assert (N : nth_error (map (fun i => spl XX YY (fun ix iy => pentry pp iy ix i)) (seq 0 (length p))) i
                = Some (spl XX YY (fun ix iy => pentry pp iy ix i))).
    { rewrite nth_error_map. rewrite (nth_error_nth' _ 0%nat) by (rewrite seq_length; auto).
      rewrite seq_nth by auto. reflexivity. }
    destruct (Gs _ _ N) as (f & Ef & Nf).
    destruct (HI XX YY (fun ix iy => pentry pp iy ix i) HX HY IX IY) as (g & Eg & Gg).
    rewrite Ef in Eg. inversion Eg; subst g.
    assert (M : nth_error (map (fun f => f (nth ix XX 0) (nth iy YY 0)) s) i = Some (f (nth ix XX 0) (nth iy YY 0))).
    { rewrite nth_error_map, Nf. reflexivity. }
    rewrite (nth_error_nth _ _ 0 M). rewrite Gg by auto. reflexivity.
Qed.

Lemma ensure_again spl v v' : ensure_fit spl v = Ok v' ->
  ensure_fit spl v' = Ok v' /\ v_class v' = v_class v /\ (exists s, v_splines v' = Some s).
Proof.
  unfold ensure_fit. destruct (v_splines v) as [s|] eqn:E.
  - intros H. inversion H; subst. rewrite E. eauto.
  - unfold fit_grid. intros H. apply bind_ok_inv in H. destruct H as (pp & _ & H).
    apply bind_ok_inv in H. destruct H as (w & Ew & H).
    assert (exists s, w = with_splines v s) as [s ->].
    { unfold fit_saved in Ew. destruct pp as [|[|p row0] rows]; try discriminate.
      destruct (rectangular _ _); [|discriminate].
      apply bind_ok_inv in Ew. destruct Ew as (s & _ & Ew). inversion Ew. eauto. }
    destruct (v_save v); inversion H; subst v'; simpl; eauto.
Qed.

Lemma psf_at_again spl v x y x' y' :
  snd (psf_at spl (fst (psf_at spl v x' y')) x y) = snd (psf_at spl v x y).
Proof.
  unfold psf_at, params_at. destruct (ensure_fit spl v) as [w|e] eqn:E; simpl.
  - destruct (ensure_again _ _ _ E) as (E2 & C & _). rewrite E2. simpl. rewrite C. reflexivity.
  - rewrite E. reflexivity.
Qed.
End L.

(** ** C80 *)

(** After the first call the parameters at a point of the grid are those of a PSF
    fitted to the image of the PSF at that point, and each fit starts at the
    result of its neighbour. *)
Theorem C80_grid : forall (img psf : Type) spl (v v' : vpsf img psf) x y vals,
  interpolates spl -> (3 < v_nx v)%nat -> (3 < v_ny v)%nat -> 0 < v_W v -> 0 < v_H v ->
  v_splines v = None -> params_at spl v x y = (v', Ok vals) ->
  exists psfs : nat -> nat -> psf, forall i j, (i < v_nx v)%nat -> (j < v_ny v)%nat ->
    (exists im, v_at v (gx v i) (gy v j) = Ok im /\
       from_stamp (v_class v) (v_K v) im (start_of (get_params (v_class v)) psfs j i) = Ok (psfs j i)) /\
    params_at spl v' (gx v i) (gy v j) = (v', Ok (all_params (v_class v) (psfs j i))).
Proof.
  intros img psf spl v v' x y vals HI Hx Hy HW HH HS H.
  unfold params_at in H. destruct (ensure_fit spl v) as [w|e] eqn:EF; [|discriminate].
  inversion H; subst w. clear H. destruct (ensure_again _ _ _ EF) as (EA & _ & _).
  unfold ensure_fit in EF. rewrite HS in EF. unfold fit_grid in EF.
  apply bind_ok_inv in EF. destruct EF as (pp & Epp & EF).
  apply bind_ok_inv in EF. destruct EF as (w & Ew & EF).
  set (XX := linspace (v_W v) (v_nx v)) in *. set (YY := linspace (v_H v) (v_ny v)) in *.
  assert (LX : length XX = v_nx v) by apply linspace_length.
  assert (LY : length YY = v_ny v) by apply linspace_length.
  destruct (rows_ok v XX) with (ys := YY) (px0 := @None (list R)) (pp := pp) as (pss & Epss & L1 & L2 & F); auto.
  { intros E. rewrite E in LX. simpl in LX. lia. }
  assert (exists p : psf, True) as [p0 _].
  { destruct pss as [|[|p ps] pss]; [simpl in L1; lia| |eauto].
    specialize (L2 [] (or_introl eq_refl)). simpl in L2. lia. }
  destruct (fit_saved_ok spl v pp XX YY w) as (s & -> & G); auto; try lia.
  { apply linspace_increasing; auto. lia. }
  { apply linspace_increasing; auto. lia. }
  { rewrite Epss, map_length. lia. }
  { intros row Hr. rewrite Epss in Hr. apply in_map_iff in Hr. destruct Hr as (ps & <- & Hp).
    rewrite map_length. auto. }
  exists (fun j i => nth i (nth j pss []) p0). intros i j Hi Hj.
  assert (Nj : nth_error pss j = Some (nth j pss [])) by (apply nth_error_nth'; lia).
  assert (LR : forall k, (k < v_ny v)%nat -> length (nth k pss []) = v_nx v).
  { intros k Hk. rewrite <- LX. apply L2. apply nth_In. lia. }
  assert (NE : forall k n, (k < v_ny v)%nat -> (n < v_nx v)%nat ->
     nth_error (nth k pss []) n = Some (nth n (nth k pss []) p0)).
  { intros k n Hk Hn. apply nth_error_nth'. rewrite LR; auto. }
  assert (EX : nth i XX 0 = gx v i) by (apply linspace_nth; lia).
  assert (EY : nth j YY 0 = gy v j) by (apply linspace_nth; lia).
  split.
  - specialize (F j _ Nj i _ (NE j i Hj Hi)). rewrite EX, EY in F.
    destruct i as [|i]; simpl.
    + destruct j as [|j]; auto.
      rewrite (nth_error_nth' pss []) in F by lia. rewrite NE in F by lia. exact F.
    + rewrite NE in F by lia. exact F.
  - unfold params_at. rewrite EA. do 2 f_equal.
    assert (ES : v_splines v' = Some s) by (destruct (v_save v); inversion EF; reflexivity).
    rewrite ES. rewrite <- EX, <- EY, G by lia.
    rewrite Epss. rewrite (nth_indep _ [] (map (all_params (v_class v)) []))
      by (rewrite map_length; lia). rewrite map_nth.
    rewrite (nth_indep _ [] (all_params (v_class v) p0)) by (rewrite map_length, LR; lia).
    rewrite map_nth. reflexivity.
Qed.

(** Where every fit works and has n parameters, so does the call. *)
Theorem C80_total : forall (img psf : Type) spl (v : vpsf img psf) n x y,
  interpolates spl -> (3 < v_nx v)%nat -> (3 < v_ny v)%nat -> 0 < v_W v -> 0 < v_H v ->
  (forall a b, exists im, v_at v a b = Ok im) ->
  (forall im p0, exists p, from_stamp (v_class v) (v_K v) im p0 = Ok p /\ length (all_params (v_class v) p) = n) ->
  v_splines v = None ->
  exists v' vals, params_at spl v x y = (v', Ok vals) /\ length vals = n.
Proof.
  intros img psf spl v n x y HI Hx Hy HW HH HA HF HS.
  assert (ROW : forall yy xs p0 px0 first, exists row px, fit_row v yy xs p0 px0 first = Ok (row, px) /\
     length row = length xs /\ Forall (fun p => length p = n) row).
  { intros yy. induction xs as [|a xs IH]; intros p0 px0 first; cbn [fit_row].
    - exists [], px0. auto.
    - destruct (HA a yy) as (im & ->). cbn [bind]. destruct (HF im p0) as (p & -> & Lp). cbn [bind].
      destruct (IH (Some (get_params (v_class v) p)) (if first then Some (get_params (v_class v) p) else px0) false)
        as (row & px & -> & L & F). cbn [bind].
      do 2 eexists. split; [reflexivity|]. simpl. split; [congruence|]. constructor; auto. }
  assert (ROWS : forall xs ys px0, exists pp, fit_rows v ys xs px0 = Ok pp /\ length pp = length ys /\
     Forall (fun row => length row = length xs /\ Forall (fun p => length p = n) row) pp).
  { intros xs. induction ys as [|b ys IH]; intros px0; cbn [fit_rows].
    - exists []. auto.
    - destruct (ROW b xs px0 px0 true) as (row & px & -> & L & F). cbn [bind].
      destruct (IH px) as (pp & -> & L2 & F2). cbn [bind].
      eexists. split; [reflexivity|]. simpl. split; [congruence|]. constructor; auto. }
  unfold params_at, ensure_fit. rewrite HS. unfold fit_grid.
  set (XX := linspace (v_W v) (v_nx v)) in *. set (YY := linspace (v_H v) (v_ny v)) in *.
  assert (LX : length XX = v_nx v) by apply linspace_length.
  assert (LY : length YY = v_ny v) by apply linspace_length.
  destruct (ROWS XX YY None) as (pp & -> & Lpp & Fpp). cbn [bind].
  unfold fit_saved. destruct pp as [|row0 rows]; [simpl in Lpp; lia|].
  inversion Fpp as [|? ? [Lr Fr] Fpp']; subst.
  destruct row0 as [|p row0]; [simpl in Lr; lia|].
  inversion Fr as [|? ? Lp _]; subst.
  assert (RT : rectangular ((p :: row0) :: rows) (length p) = true).
  { unfold rectangular. apply forallb_forall. intros r Hr. apply forallb_forall. intros q Hq.
    rewrite Forall_forall in Fpp. destruct (Fpp r Hr) as [_ Fq]. rewrite Forall_forall in Fq.
    apply Nat.eqb_eq. auto. }
  rewrite RT.
  assert (SP : forall d, exists f, spl XX YY d = Ok f).
  { intros d. destruct (HI XX YY d) as (f & E & _); eauto; try lia; apply linspace_increasing; auto; lia. }
  assert (SQ : forall l, exists s, seqr (map (fun i => spl XX YY (fun ix iy => pentry ((p :: row0) :: rows) iy ix i)) l) = Ok s
     /\ length s = length l).
  { induction l as [|i l IH]; cbn [map seqr]; [exists []; auto|].
    destruct (SP (fun ix iy => pentry ((p :: row0) :: rows) iy ix i)) as (f & ->). cbn [bind].
    destruct IH as (s & -> & L). cbn [bind]. exists (f :: s). simpl. split; congruence. }
  destruct (SQ (seq 0 (length p))) as (s & -> & Ls). cbn [bind]. rewrite seq_length in Ls.
  destruct (v_save v); do 2 eexists; (split; [reflexivity|]); simpl; rewrite map_length; auto.
Qed.

(** What was asked before does not matter. *)
Theorem C80_history : forall (img psf : Type) spl (v : vpsf img psf) qs,
  snd (psf_run spl v qs) = map (fun q => snd (psf_at spl v (fst q) (snd q))) qs.
Proof.
  intros img psf spl v qs.
  assert (G : forall qs (w : vpsf img psf), (forall a b, snd (psf_at spl w a b) = snd (psf_at spl v a b)) ->
    snd (psf_run spl w qs) = map (fun q => snd (psf_at spl v (fst q) (snd q))) qs).
  { clear qs. induction qs as [|[x y] qs IH]; intros w Hw; cbn [psf_run]; [reflexivity|].
    specialize (IH (fst (psf_at spl w x y))).
    pose proof (Hw x y) as E1.
    assert (Hw2 : forall a b, snd (psf_at spl (fst (psf_at spl w x y)) a b) = snd (psf_at spl v a b)).
    { intros a b. rewrite psf_at_again. apply Hw. }
    specialize (IH Hw2). destruct (psf_at spl w x y) as [w' a]. simpl in E1, IH.
    destruct (psf_run spl w' qs) as [w'' l]. simpl in *. congruence. }
  apply G. reflexivity.
Qed.

(** With the default class, GaussianMixturePSF, the fit raises ValueError at the
    second point: fromStamp takes P0 as three arrays and gets the list of 6 K
    parameters. *)
Theorem C80_default_class_refuted : forall (img : Type) spl (em : nat -> img -> res (list R)) inst W H nx ny K save x y,
  (2 <= nx)%nat -> (1 <= ny)%nat ->
  (forall a b, exists im, inst a b = Ok im) ->
  (forall im, exists p, em K im = Ok p /\ length p = (6 * K)%nat) ->
  let v := mkV (gm_class em) inst W H nx ny K save None None in
  params_at spl v x y = (v, Err ValueError).
Proof.
  intros img spl em inst W H nx ny K save x y Hx Hy HA HE v.
  unfold params_at, ensure_fit. cbn [v_splines v]. unfold fit_grid. subst v.
  cbn [v_W v_H v_nx v_ny v_save].
  pose proof (linspace_length H ny) as LY. pose proof (linspace_length W nx) as LX.
  destruct (linspace H ny) as [|y0 YY]; [simpl in LY; lia|].
  destruct (linspace W nx) as [|x0 [|x1 XX]]; try (simpl in LX; lia).
  cbn [fit_rows fit_row v_at].
  destruct (HA x0 y0) as (im & ->). cbn [bind v_class v_K]. unfold gm_class at 1. cbn [from_stamp gm_from_stamp].
  destruct (HE im) as (p & -> & Lp). cbn [bind].
  destruct (HA x1 y0) as (im1 & ->). cbn [bind]. unfold gm_class at 1. cbn [from_stamp].
  unfold gm_class at 1. cbn [get_params]. unfold gm_from_stamp. rewrite Lp.
  destruct ((6 * K =? 3)%nat) eqn:E3; [apply Nat.eqb_eq in E3; lia|]. reflexivity.
Qed.

(** ** The cache *)

Lemma od_set_in {K V} keq (k : K) (v : V) d e : In e (od_set keq k v d) -> In e d \/ e = (k, v).
Proof.
  induction d as [|[k' v'] d IH]; simpl; [intros [<-|[]]; auto|].
  destruct (keq k k') as [->|]; simpl; [|tauto]. intros [<-|?]; auto.
Qed.
Lemma od_remove_in {K V} keq (k : K) (d : list (K * V)) e : In e (od_remove keq k d) -> In e d.
Proof. induction d as [|[k' v'] d IH]; simpl; auto. destruct (keq k k'); simpl; tauto. Qed.
Lemma od_find_in {K V} (keq : forall a b : K, {a = b} + {a <> b}) (k : K) (d : list (K * V)) v :
  od_find keq k d = Some v -> In (k, v) d.
Proof.
  induction d as [|[k' v'] d IH]; simpl; [discriminate|]. destruct (keq k k') as [->|]; auto.
  intros E; inversion E; auto.
Qed.

Lemma caching_transparent : forall (img psf : Type) spl r (v : vpsf img psf) n qs, (1 <= n)%Z ->
  caching_run spl r (v, cache_new n) qs
  = map (fun q => snd (psf_at spl v (IZR (cell r (fst q))) (IZR (cell r (snd q))))) qs.
Proof.
  intros img psf spl r v n qs Hn.
  set (good := fun e : (Z * Z) * psf => snd (psf_at spl v (IZR (fst (fst e))) (IZR (snd (fst e)))) = Ok (snd e)).
  assert (G : forall qs (w : vpsf img psf) c, (1 <= cmax c)%Z -> Forall good (cdict c) ->
    (forall a b, snd (psf_at spl w a b) = snd (psf_at spl v a b)) ->
    caching_run spl r (w, c) qs
    = map (fun q => snd (psf_at spl v (IZR (cell r (fst q))) (IZR (cell r (snd q))))) qs).
  { clear qs. induction qs as [|[x y] qs IH]; intros w c Hc F Hw; cbn [caching_run]; [reflexivity|].
    unfold caching_at, cache_getitem. cbn [map fst snd].
    set (k := (cell r x, cell r y)).
    destruct (od_find zz_dec k (cdict c)) as [m|] eqn:E.
    - assert (Gm : good (k, m)).
      { rewrite Forall_forall in F. apply F. apply (od_find_in _ _ _ _ E). }
      unfold good in Gm. simpl in Gm. rewrite Gm. f_equal. apply IH; simpl; auto.
      rewrite Forall_forall in *. intros e He. apply od_set_in in He. destruct He as [He| ->]; auto.
      apply F. eapply od_remove_in; eauto.
    - pose proof (Hw (IZR (cell r x)) (IZR (cell r y))) as E1.
      pose proof (fun a b => psf_at_again spl w a b (IZR (cell r x)) (IZR (cell r y))) as E2.
      destruct (psf_at spl w (IZR (cell r x)) (IZR (cell r y))) as [w' [m|e]]; cbn [fst snd] in *.
      + unfold cache_put. cbn [cdict cmax].
        set (d := if (Z.of_nat (length (cdict c)) >=? cmax c)%Z then _ else _).
        assert (exists d', d = Ok d' /\ forall e, In e d' -> In e (cdict c)) as (d' & -> & Sub).
        { subst d. destruct (Z.geb_spec (Z.of_nat (length (cdict c))) (cmax c)); [|eauto].
          destruct (cdict c) as [|e0 d0]; [simpl in *; lia|]. eexists; split; [reflexivity|]. simpl; auto. }
        cbn [bind]. rewrite <- E1. f_equal. apply IH; simpl; auto.
        * rewrite Forall_forall in *. intros e He. apply od_set_in in He. destruct He as [He| ->]; auto.
          unfold good. simpl. symmetry. exact E1.
        * intros a b. rewrite E2. apply Hw.
      + rewrite <- E1. f_equal. apply IH; simpl; auto. intros a b. rewrite E2. apply Hw. }
  apply G; simpl; auto.
Qed.

(** In any series of calls a caching PSF gives the PSF in the middle of the
    cell, as if there were no cache. *)
Theorem C80_caching : forall (img psf : Type) spl r (v : vpsf img psf) qs,
  caching_run spl r (v, cache_new 100) qs
  = map (fun q => snd (psf_at spl v (IZR (cell r (fst q))) (IZR (cell r (snd q))))) qs.
Proof. intros. apply caching_transparent. lia. Qed.

(** fromPsfEx of a PSF that has been fitted gives the same PSFs, in the middle
    of the cells. *)
Theorem C80_from_fitted : forall (img psf : Type) spl r (v : vpsf img psf) s rad qs,
  v_splines v = Some s ->
  caching_run spl r (fst (from_psfex v rad)) qs
  = map (fun q => snd (psf_at spl v (IZR (cell r (fst q))) (IZR (cell r (snd q))))) qs.
Proof.
  intros img psf spl r v s rad qs HS. cbn [from_psfex fst]. rewrite C80_caching.
  apply map_ext. intros q. unfold psf_at, params_at, ensure_fit. cbn [v_splines]. rewrite HS.
  cbn [v_splines v_class snd]. rewrite HS. reflexivity.
Qed.

(** Of a PSF that has not been fitted, it raises AttributeError when used. *)
Theorem C80_from_unfitted_refuted : forall (img psf : Type) spl r (v : vpsf img psf) rad x y,
  v_splines v = None -> (1 <= v_nx v)%nat -> (1 <= v_ny v)%nat ->
  caching_run spl r (fst (from_psfex v rad)) [(x, y)] = [Err AttributeError].
Proof.
  intros img psf spl r v rad x y HS Hx Hy. cbn [from_psfex fst]. rewrite C80_caching. cbn [map].
  f_equal. unfold psf_at, params_at, ensure_fit. cbn [v_splines]. rewrite HS. unfold fit_grid.
  cbn [v_W v_H v_nx v_ny].
  pose proof (linspace_length (v_H v) (v_ny v)) as LY. pose proof (linspace_length (v_W v) (v_nx v)) as LX.
  destruct (linspace (v_H v) (v_ny v)); [simpl in LY; lia|].
  destruct (linspace (v_W v) (v_nx v)); [simpl in LX; lia|]. reflexivity.
Qed.

(** And its radius is None, where that of the original is 25. *)
Theorem C80_from_radius_refuted : forall (img psf : Type) (v : vpsf img psf),
  get_radius None = Some 25 /\ get_radius (snd (from_psfex v None)) = None.
Proof. intros. split; reflexivity. Qed.

Lemma Int_part_bounds x : IZR (Int_part x) <= x < IZR (Int_part x) + 1.
Proof. destruct (base_Int_part x). lra. Qed.

Lemma half_bounds r : (0 < r)%Z -> IZR r / 2 - 1 / 2 <= IZR (r / 2) <= IZR r / 2.
Proof.
  intros Hr. pose proof (Z.div_mod r 2 ltac:(lia)) as D. pose proof (Z.mod_pos_bound r 2 ltac:(lia)) as M.
  assert (L : (2 * (r / 2) <= r)%Z) by lia. assert (U : (r <= 2 * (r / 2) + 1)%Z) by lia.
  apply IZR_le in L. apply IZR_le in U. rewrite plus_IZR in U. rewrite mult_IZR in L, U. lra.
Qed.

(** Positions from 0 on are at most half a cell from the middle of their cell
    (half a pixel more if the cell has odd size). *)
Theorem C80_cell : forall r x, (0 < r)%Z -> 0 <= x ->
  Rabs (x - IZR (cell r x)) <= (IZR r + 1) / 2 /\
  (Z.even r = true -> Rabs (x - IZR (cell r x)) <= IZR r / 2).
Proof.
  intros r x Hr Hx. unfold cell, rtrunc.
  assert (R0 : 0 < IZR r) by (apply IZR_lt; auto).
  destruct (Rle_dec 0 (x / IZR r)) as [_|N].
  2:{ exfalso. apply N. unfold Rdiv. apply Rmult_le_pos; auto. apply Rlt_le, Rinv_0_lt_compat; auto. }
  pose proof (Int_part_bounds (x / IZR r)) as [B1 B2].
  set (n := Int_part (x / IZR r)) in *.
  assert (E : x = x / IZR r * IZR r) by (field; lra).
  rewrite plus_IZR, mult_IZR. pose proof (half_bounds r Hr) as [H1 H2].
  assert (L1 : IZR n * IZR r <= x) by (rewrite E at 1; apply Rmult_le_compat_r; lra).
  assert (L2 : x <= (IZR n + 1) * IZR r) by (rewrite E at 1; apply Rmult_le_compat_r; lra).
  split.
  - apply Rabs_le. lra.
  - intros Ev. apply Z.even_spec in Ev. destruct Ev as [h ->].
    replace (2 * h / 2)%Z with h in * by (rewrite Z.mul_comm, Z.div_mul; lia).
    rewrite mult_IZR in *. apply Rabs_le. lra.
Qed.

(** Positions just below 0 are put in the cell above 0: farther than half a cell
    from its middle. *)
Theorem C80_cell_negative_refuted : forall r x, (0 < r)%Z -> - IZR r < x < 0 ->
  cell r x = (r / 2)%Z /\ Rabs (x - IZR (cell r x)) = IZR (r / 2) - x /\
  (Z.even r = true -> IZR r / 2 < Rabs (x - IZR (cell r x))).
Proof.
  intros r x Hr [H1 H2].
  assert (R0 : 0 < IZR r) by (apply IZR_lt; auto).
  assert (Q : -1 < x / IZR r < 0).
  { split.
    - apply Rmult_lt_reg_r with (IZR r); auto. unfold Rdiv. rewrite Rmult_assoc, Rinv_l by lra. lra.
    - unfold Rdiv. assert (0 < / IZR r) by (apply Rinv_0_lt_compat; auto). nra. }
  assert (C : cell r x = (r / 2)%Z).
  { unfold cell, rtrunc. destruct (Rle_dec 0 (x / IZR r)); [lra|].
    pose proof (Int_part_bounds (- (x / IZR r))) as [B1 B2].
    assert (Int_part (- (x / IZR r)) = 0)%Z.
    { set (m := Int_part (- (x / IZR r))) in *.
      assert (IZR m < 1) by lra. assert (-1 < IZR m) by lra.
      apply lt_IZR in H. apply lt_IZR in H0. lia. }
    rewrite H. lia. }
  rewrite C. pose proof (half_bounds r Hr).
  assert (0 <= IZR (r / 2)) by (apply IZR_le; apply Z.div_pos; lia).
  assert (A : Rabs (x - IZR (r / 2)) = IZR (r / 2) - x).
  { rewrite Rabs_left1 by lra. ring. }
  repeat split; auto. intros Ev. rewrite A.
  apply Z.even_spec in Ev. destruct Ev as [h ->].
  replace (2 * h / 2)%Z with h in * by (rewrite Z.mul_comm, Z.div_mul; lia).
  rewrite mult_IZR. lra.
Qed.

(** ** C81: FITS files *)

(** The names of parameters are told apart, and are not those of the columns
    of the grid. *)
Definition names_ok (names : list (list ascii)) : Prop :=
  NoDup names /\ ~ In (chars "xx") names /\ ~ In (chars "yy") names.

(** Without the digit, they are neither those of the grid nor whole names. *)
Definition stems_ok (names : list (list ascii)) : Prop :=
  forall nm, In nm names ->
    ~ In nm (map (@removelast ascii) names) /\ removelast nm <> chars "xx" /\ removelast nm <> chars "yy".

Lemma name_eqb_spec a b : reflect (a = b) (name_eqb a b).
Proof. unfold name_eqb. destruct (list_eq_dec ascii_dec a b); constructor; auto. Qed.
Lemma name_eqb_refl a : name_eqb a a = true.
Proof. destruct (name_eqb_spec a a); auto. Qed.

Lemma get_set nm nm' c l : get_col nm (set_col nm' c l) = if name_eqb nm nm' then Some c else get_col nm l.
Proof.
  induction l as [|[n c'] l IH]; simpl; [reflexivity|].
  destruct (name_eqb_spec nm' n) as [->|N]; simpl.
  - destruct (name_eqb nm n); reflexivity.
  - rewrite IH. destruct (name_eqb_spec nm n) as [->|]; auto.
    destruct (name_eqb_spec n nm'); [congruence|reflexivity].
Qed.

Definition set_all (cs : list (list ascii * column)) T := fold_left (fun t nc => set_col (fst nc) (snd nc) t) cs T.

Lemma get_set_all_out nm cs : forall T, ~ In nm (map fst cs) -> get_col nm (set_all cs T) = get_col nm T.
Proof.
  induction cs as [|[n c] cs IH]; intros T H; simpl; auto. unfold set_all in *. simpl.
  rewrite IH by (simpl in H; tauto). rewrite get_set. destruct (name_eqb_spec nm n); auto.
  subst. exfalso. apply H. simpl; auto.
Qed.

Lemma get_set_all_in nm c cs : forall T, NoDup (map fst cs) -> In (nm, c) cs -> get_col nm (set_all cs T) = Some c.
Proof.
  induction cs as [|[n c'] cs IH]; intros T ND H; [destruct H|].
  unfold set_all. simpl. fold (set_all cs (set_col n c' T)).
  simpl in ND. inversion ND as [|? ? NI ND']; subst. destruct H as [H|H].
  - inversion H; subst. rewrite get_set_all_out by auto. rewrite get_set, name_eqb_refl. reflexivity.
  - apply IH; auto.
Qed.

Lemma fold_left_map {A B C} (f : C -> B -> C) (g : A -> B) l : forall c,
  fold_left f (map g l) c = fold_left (fun c a => f c (g a)) l c.
Proof. induction l; intros c; simpl; auto. Qed.

Lemma uniq_in a l : In a (uniq l) <-> In a l.
Proof.
  induction l as [|b l IH]; simpl; [tauto|].
  destruct (existsb (name_eqb b) l) eqn:E; simpl; rewrite IH; [|tauto].
  split; auto. intros [<-|H]; auto. apply existsb_exists in E. destruct E as (x & Hx & Ex).
  destruct (name_eqb_spec b x); [subst; auto|discriminate].
Qed.

Lemma uniq_nodup l : NoDup (uniq l).
Proof.
  induction l as [|b l IH]; simpl; [constructor|].
  destruct (existsb (name_eqb b) l) eqn:E; auto. constructor; auto.
  rewrite uniq_in. intros H. assert (existsb (name_eqb b) l = true); [|congruence].
  apply existsb_exists. exists b. split; auto. apply name_eqb_refl.
Qed.

Lemma name_index_out nm l : forall i, ~ In nm l -> name_index nm l i = None.
Proof.
  induction l as [|n l IH]; intros i H; simpl; auto. rewrite IH by (simpl in H; tauto).
  destruct (name_eqb_spec nm n); auto. subst. exfalso; apply H; simpl; auto.
Qed.

Lemma name_index_nth nm l : NoDup l -> forall i j, nth_error l i = Some nm -> name_index nm l j = Some (j + i)%nat.
Proof.
  induction l as [|n l IH]; intros ND i j H; [destruct i; discriminate|].
  inversion ND as [|? ? NI ND']; subst. destruct i as [|i]; simpl in *.
  - inversion H; subst. rewrite name_index_out by auto. rewrite name_eqb_refl. f_equal. lia.
  - rewrite (IH ND' i (S j) H). f_equal. lia.
Qed.

Lemma digits_back K c : in_digits K c = true -> digit (nat_of_ascii c - 48) = c /\ (nat_of_ascii c - 48 < K)%nat.
Proof.
  unfold in_digits. intros H. apply andb_true_iff in H. destruct H as [H1 H2].
  apply Nat.leb_le in H1. apply Nat.ltb_lt in H2. split; [|lia].
  unfold digit. replace (48 + (nat_of_ascii c - 48))%nat with (nat_of_ascii c) by lia.
  apply ascii_nat_embedding.
Qed.

Lemma shape2_plane (pp : pgrid) i ny nx : length pp = ny -> forallb (fun row => (length row =? nx)%nat) pp = true ->
  shape2 (plane pp i) ny nx = true.
Proof.
  intros L F. unfold shape2, plane. rewrite map_length, L, Nat.eqb_refl. simpl.
  rewrite forallb_forall in *. intros r Hr. apply in_map_iff in Hr. destruct Hr as (row & <- & H).
  rewrite map_length. auto.
Qed.

Lemma planes_back (pp : pgrid) nx n : forallb (fun row => (length row =? nx)%nat) pp = true ->
  (forall row p, In row pp -> In p row -> length p = n) ->
  map (fun iy => map (fun ix => map (fun a => nth ix (nth iy a []) 0) (map (plane pp) (seq 0 n)))
                     (seq 0 nx)) (seq 0 (length pp)) = pp.
Proof.
  intros F L. rewrite forallb_forall in F.
  apply nth_ext with (d := []) (d' := []); [rewrite map_length, seq_length; reflexivity|].
  intros iy Hy. rewrite map_length, seq_length in Hy.
  set (g := fun iy => map (fun ix => map (fun a => nth ix (nth iy a []) 0) (map (plane pp) (seq 0 n))) (seq 0 nx)).
  rewrite (nth_indep _ [] (g O)) by (rewrite map_length, seq_length; auto).
  rewrite (map_nth g), seq_nth by auto. subst g. cbn beta. simpl (0 + iy)%nat.
  assert (Hrow : In (nth iy pp []) pp) by (apply nth_In; auto).
  assert (Lr : length (nth iy pp []) = nx) by (apply Nat.eqb_eq, F, Hrow).
  apply nth_ext with (d := []) (d' := []); [rewrite map_length, seq_length; auto|].
  intros ix Hx. rewrite map_length, seq_length in Hx.
  set (g := fun ix => map (fun a => nth ix (nth iy a []) 0) (map (plane pp) (seq 0 n))).
  rewrite (nth_indep _ [] (g O)) by (rewrite map_length, seq_length; auto).
  rewrite (map_nth g), seq_nth by auto. subst g. cbn beta. simpl (0 + ix)%nat.
  rewrite map_map.
  assert (Hp : In (nth ix (nth iy pp []) []) (nth iy pp [])) by (apply nth_In; lia).
  assert (Lp : length (nth ix (nth iy pp []) []) = n) by (eapply L; eauto).
  apply nth_ext with (d := 0) (d' := 0); [rewrite map_length, seq_length; auto|].
  intros i Hi. rewrite map_length, seq_length in Hi.
  set (g := fun i => nth ix (nth iy (plane pp i) []) 0).
  rewrite (nth_indep _ 0 (g O)) by (rewrite map_length, seq_length; auto).
  rewrite (map_nth g), seq_nth by auto. subst g. cbn beta. simpl (0 + i)%nat.
  unfold plane.
  rewrite (nth_indep _ [] (map (fun p => nth i p 0) [])) by (rewrite map_length; auto).
  rewrite (map_nth (fun row => map (fun p => nth i p 0) row)).
  rewrite (nth_indep _ 0 ((fun p => nth i p 0) [])) by (rewrite map_length; lia).
  rewrite (map_nth (fun p => nth i p 0)). reflexivity.
Qed.

Lemma combine_seq_nth {A} (l : list A) : forall s i a, nth_error l i = Some a -> In ((s + i)%nat, a) (combine (seq s (length l)) l).
Proof.
  induction l as [|b l IH]; intros s i a H; [destruct i; discriminate|]. simpl.
  destruct i as [|i]; simpl in H.
  - inversion H; subst. left. f_equal. lia.
  - right. replace (s + S i)%nat with (S s + i)%nat by lia. apply IH; auto.
Qed.

Lemma combine_snd {A} (l : list A) : forall s, map snd (combine (seq s (length l)) l) = l.
Proof. induction l; intros s; simpl; congruence. Qed.

(** What toFits writes, the part of fromFits that reads the numbers gives back. *)
Theorem C81_data : forall (img psf : Type) ptype (v : vpsf img psf) data merge f pp XX YY,
  to_fits ptype v data merge = Ok f ->
  match data with Some d => Some d | None => v_data v end = Some (pp, XX, YY) ->
  (forall row p, In row pp -> In p row -> length p = length (h_names f)) ->
  names_ok (h_names f) -> (merge = true -> stems_ok (h_names f)) ->
  read_data f = Ok (pp, XX, YY) /\
  (h_W f, h_H f, h_K f, h_nx f, h_ny f, h_psf f) = (v_W v, v_H v, v_K v, v_nx v, v_ny v, ptype).
Proof.
  intros img psf ptype v data merge f pp XX YY H HD HL HN HM.
  unfold to_fits in H. apply bind_ok_inv in H. destruct H as (((pp' & XX') & YY') & ED & H).
  assert (pp' = pp /\ XX' = XX /\ YY' = YY) as (-> & -> & ->).
  { destruct data as [d|]; [inversion ED; subst; inversion HD; auto|].
    rewrite HD in ED. inversion ED; auto. }
  clear ED HD.
  destruct (length pp =? v_ny v)%nat eqn:E1; [|discriminate]. apply Nat.eqb_eq in E1.
  destruct (forallb (fun row => (length row =? v_nx v)%nat) pp) eqn:E2; [|discriminate].
  destruct pp as [|[|p row0] rows]; try discriminate.
  set (pp := (p :: row0) :: rows) in *.
  apply bind_ok_inv in H. destruct H as (X & EX & H).
  apply bind_ok_inv in H. destruct H as (cols & EC & H). inversion H; subst f. clear H.
  cbn [h_names h_W h_H h_K h_nx h_ny h_psf] in *. split; [|reflexivity].
  set (names := names_of (v_class v) X) in *. destruct HN as (ND & Nx & Ny).
  set (f := mkFits _ _ _ _ _ _ _ _ _).
  assert (READ : (forall i nm, nth_error names i = Some nm -> read_param f nm = Ok (plane pp i)) /\
                 get_col (chars "xx") cols = Some (ColXY XX) /\ get_col (chars "yy") cols = Some (ColXY YY)).
  { destruct merge.
    - specialize (HM eq_refl). apply bind_ok_inv in EC. destruct EC as (pn & EP & EC).
      unfold pnames_of in EP. destruct (v_K v <? 10)%nat eqn:EK; [|discriminate].
      apply Nat.ltb_lt in EK.
      apply bind_ok_inv in EP. destruct EP as (u & EU & EP).
      destruct (length (uniq (map (@removelast ascii) names)) * v_K v =? length p)%nat; [|discriminate].
      inversion EP; subst pn. clear EP.
      apply bind_ok_inv in EC. destruct EC as (cs & ES & EC). inversion EC; subst cols. clear EC.
      fold (set_all cs [(chars "xx", ColXY XX); (chars "yy", ColXY YY)]) in *.
      apply seqr_nth in ES. destruct ES as [LS GS]. rewrite map_length in LS.
      assert (FS : map fst cs = uniq (map (@removelast ascii) names)).
      { apply nth_ext with (d := []) (d' := []); [rewrite map_length; auto|].
        intros i Hi. rewrite map_length in Hi.
        assert (N : nth_error (uniq (map (@removelast ascii) names)) i
                    = Some (nth i (uniq (map (@removelast ascii) names)) [])) by (apply nth_error_nth'; lia).
        specialize (GS i _ (map_nth_error _ _ _ N)). destruct GS as ((n0 & c0) & E0 & N0).
        apply bind_ok_inv in E0. destruct E0 as (c1 & _ & E0). inversion E0; subst.
        rewrite (nth_error_nth (map fst cs) i [] (map_nth_error fst _ _ N0)). reflexivity. }
      assert (OUT : forall nm, ~ In nm (map (@removelast ascii) names) ->
         get_col nm (set_all cs [(chars "xx", ColXY XX); (chars "yy", ColXY YY)])
         = get_col nm [(chars "xx", ColXY XX); (chars "yy", ColXY YY)]).
      { intros nm Hn. apply get_set_all_out. rewrite FS, uniq_in. auto. }
      assert (NXY : ~ In (chars "xx") (map (@removelast ascii) names) /\ ~ In (chars "yy") (map (@removelast ascii) names)).
      { split; intros Hi; apply in_map_iff in Hi; destruct Hi as (nm & En & Hn);
          destruct (HM nm Hn) as (_ & A & B); auto. }
      split; [|split; rewrite OUT by tauto; reflexivity].
      intros i nm Hi. assert (Hin : In nm names) by (eapply nth_error_In; eauto).
      destruct (HM nm Hin) as (A1 & A2 & A3).
      unfold read_param. subst f. cbn [f_cols h_K h_nx h_ny]. rewrite OUT by auto.
      assert (G0 : get_col nm [(chars "xx", ColXY XX); (chars "yy", ColXY YY)] = None).
      { cbn [get_col]. destruct (name_eqb_spec nm (chars "xx")); [congruence|].
        destruct (name_eqb_spec nm (chars "yy")); [congruence|reflexivity]. }
      rewrite G0.
      apply seqr_nth in EU. destruct EU as [_ GU].
      specialize (GU i _ (map_nth_error _ _ _ Hi)). destruct GU as (u0 & EU & _).
      apply bind_ok_inv in EU. destruct EU as (c & Ec & EU). rewrite Ec. cbn [bind].
      destruct (in_digits (v_K v) c) eqn:ED; [|discriminate].
      destruct (digits_back _ _ ED) as [DB DL].
      assert (Hst : In (removelast nm) (uniq (map (@removelast ascii) names))).
      { rewrite uniq_in. apply in_map. auto. }
      apply In_nth_error in Hst. destruct Hst as (k & Hk).
      specialize (GS k _ (map_nth_error _ _ _ Hk)). destruct GS as ((n0 & c0) & E0 & N0).
      apply bind_ok_inv in E0. destruct E0 as (c1 & E1' & E0). inversion E0; subst n0 c0. clear E0.
      rewrite (get_set_all_in (removelast nm) c1) by (rewrite ?FS; auto using uniq_nodup; eapply nth_error_In; eauto).
      unfold merged_col in E1'. apply bind_ok_inv in E1'. destruct E1' as (a & Ea & E1').
      inversion E1'; subst c1. clear E1'.
      apply seqr_nth in Ea. destruct Ea as [La Ga]. rewrite map_length, seq_length in La.
      rewrite La, Nat.eqb_refl. simpl andb.
      assert (FA : forallb (fun q => shape2 q (v_ny v) (v_nx v)) a = true).
      { apply forallb_forall. intros q Hq. apply In_nth_error in Hq. destruct Hq as (m & Hm).
        assert (Lm : (m < v_K v)%nat) by (rewrite <- La; apply nth_error_Some; congruence).
        assert (Nm : nth_error (seq 0 (v_K v)) m = Some m).
        { rewrite (nth_error_nth' _ 0%nat) by (rewrite seq_length; auto). rewrite seq_nth; auto. }
        destruct (Ga m _ (map_nth_error _ _ _ Nm)) as (q' & Eq & Nq). rewrite Hm in Nq. inversion Nq; subst q'.
        destruct (name_index (removelast nm ++ [digit m]) names 0); [|discriminate].
        replace q with (plane pp n) by congruence. apply shape2_plane; auto. }
      rewrite FA.
      assert (Nm : nth_error (seq 0 (v_K v)) (nat_of_ascii c - 48) = Some (nat_of_ascii c - 48)%nat).
      { rewrite (nth_error_nth' _ 0%nat) by (rewrite seq_length; auto). rewrite seq_nth; auto. }
      destruct (Ga _ _ (map_nth_error _ _ _ Nm)) as (q & Eq & Nq). rewrite Nq.
      rewrite DB in Eq.
      assert (EN : removelast nm ++ [c] = nm).
      { unfold last_char in Ec. destruct nm as [|c0 nm0]; [discriminate|].
        replace c with (last (c0 :: nm0) "000"%char) by congruence.
        symmetry. apply app_removelast_last. discriminate. }
      rewrite EN in Eq. rewrite (name_index_nth nm names ND i 0 Hi) in Eq. cbn [Nat.add] in Eq. congruence.
    - destruct (length names <=? length p)%nat; [|discriminate].
      apply Ok_inj in EC. subst cols.
      set (cs := map (fun inm : nat * list ascii => (snd inm, ColOne (plane pp (fst inm))))
                     (combine (seq 0 (length names)) names)) in *.
      assert (EF : fold_left (fun t (inm : nat * list ascii) => set_col (snd inm) (ColOne (plane pp (fst inm))) t)
                     (combine (seq 0 (length names)) names) [(chars "xx", ColXY XX); (chars "yy", ColXY YY)]
                   = set_all cs [(chars "xx", ColXY XX); (chars "yy", ColXY YY)]).
      { unfold set_all, cs. rewrite fold_left_map. reflexivity. }
      subst f. rewrite EF.
      assert (FS : map fst cs = names).
      { unfold cs. rewrite map_map. cbn [fst]. apply combine_snd. }
      split; [|split; rewrite get_set_all_out by (rewrite FS; auto); reflexivity].
      intros i nm Hi. unfold read_param. cbn [f_cols h_ny h_nx].
      rewrite (get_set_all_in nm (ColOne (plane pp i))).
      + rewrite shape2_plane; auto.
      + rewrite FS. auto.
      + unfold cs. apply in_map_iff. exists (i, nm). split; auto.
        apply (combine_seq_nth names 0 i nm Hi). }
  destruct READ as (RP & RX & RY). unfold read_data.
  assert (SQ : seqr (map (read_param f) (h_names f)) = Ok (map (plane pp) (seq 0 (length names)))).
  { apply seqr_all. subst f. cbn [h_names]. rewrite map_map.
    apply nth_ext with (d := Err KeyError) (d' := Err KeyError); [rewrite !map_length, seq_length; auto|].
    intros i Hi. rewrite map_length in Hi.
    assert (N : nth_error names i = Some (nth i names [])) by (apply nth_error_nth'; auto).
    rewrite (nth_error_nth _ i (Err KeyError) (map_nth_error _ _ _ N)).
    assert (N2 : nth_error (seq 0 (length names)) i = Some i).
    { rewrite (nth_error_nth' _ 0%nat) by (rewrite seq_length; auto). rewrite seq_nth; auto. }
    rewrite (nth_error_nth _ i (Err KeyError) (map_nth_error _ _ _ N2)). apply RP; auto. }
  rewrite SQ. cbn [bind]. subst f. cbn [f_cols h_nx h_ny]. rewrite RX, RY.
  rewrite <- E1. rewrite (planes_back pp (v_nx v) (length names)); auto.
Qed.

(** The names of a mixture of up to nine Gaussians are fit for that. *)
Definition nodup_b (l : list (list ascii)) : bool := if list_eq_dec (list_eq_dec ascii_dec) (uniq l) l then true else false.
Lemma nodup_b_ok l : nodup_b l = true -> NoDup l.
Proof.
  unfold nodup_b. destruct (list_eq_dec _ (uniq l) l) as [E|]; [|discriminate]. intros _. rewrite <- E.
  apply uniq_nodup.
Qed.
Definition in_b (a : list ascii) (l : list (list ascii)) : bool := existsb (name_eqb a) l.
Lemma in_b_not a l : in_b a l = false -> ~ In a l.
Proof.
  intros E H. assert (in_b a l = true); [|congruence]. apply existsb_exists. exists a. split; auto.
  apply name_eqb_refl.
Qed.
Lemma in_b_in a l : in_b a l = true -> In a l.
Proof.
  intros E. apply existsb_exists in E. destruct E as (x & Hx & Ex). destruct (name_eqb_spec a x); [subst; auto|discriminate].
Qed.

Lemma gm_names_fit K : (1 <= K < 10)%nat ->
  names_ok (gm_names K) /\ stems_ok (gm_names K) /\ length (gm_names K) = (6 * K)%nat /\
  exists pn, pnames_of K (6 * K) (gm_names K) = Ok pn /\
    forall s k, In s pn -> (k < K)%nat -> In (s ++ [digit k]) (gm_names K).
Proof.
  intros [H1 H2].
  assert (D : nodup_b (gm_names K) && negb (in_b (chars "xx") (gm_names K)) && negb (in_b (chars "yy") (gm_names K))
    && forallb (fun nm => negb (in_b nm (map (@removelast ascii) (gm_names K)))
                          && negb (name_eqb (removelast nm) (chars "xx")) && negb (name_eqb (removelast nm) (chars "yy")))
               (gm_names K)
    && (length (gm_names K) =? 6 * K)%nat
    && match pnames_of K (6 * K) (gm_names K) with
       | Ok pn => forallb (fun s => forallb (fun k => in_b (s ++ [digit k]) (gm_names K)) (seq 0 K)) pn
       | Err _ => false
       end = true).
  { do 10 (destruct K as [|K]; [try (exfalso; lia); vm_compute; reflexivity|]). exfalso; lia. }
  rewrite !andb_true_iff, !negb_true_iff in D. destruct D as (((((D1 & D2) & D3) & D4) & D5) & D6).
  split; [|split; [|split]].
  - split; [apply nodup_b_ok; auto|]. split; apply in_b_not; auto.
  - intros nm Hn. rewrite forallb_forall in D4. specialize (D4 nm Hn).
    rewrite !andb_true_iff, !negb_true_iff in D4. destruct D4 as ((A & B) & C).
    split; [apply in_b_not; auto|].
    split; intros E; [rewrite E, name_eqb_refl in B|rewrite E, name_eqb_refl in C]; discriminate.
  - apply Nat.eqb_eq; auto.
  - destruct (pnames_of K (6 * K) (gm_names K)) as [pn|]; [|discriminate]. exists pn. split; auto.
    intros s k Hs Hk. rewrite forallb_forall in D6. specialize (D6 s Hs). rewrite forallb_forall in D6.
    apply in_b_in. apply D6. apply in_seq. lia.
Qed.

(** A grid of mixtures of up to nine Gaussians can be written, merged or not,
    and its numbers come back. *)
Theorem C81_mixture : forall (img : Type) (em : nat -> img -> res (list R)) ptype inst W H nx ny K save s pp XX YY merge,
  (1 <= K < 10)%nat -> (1 <= nx)%nat -> (1 <= ny)%nat -> length pp = ny ->
  (forall row, In row pp -> length row = nx) ->
  (forall row p, In row pp -> In p row -> length p = (6 * K)%nat) ->
  exists f, to_fits ptype (mkV (gm_class em) inst W H nx ny K save s (Some (pp, XX, YY))) None merge = Ok f /\
    read_data f = Ok (pp, XX, YY) /\ (h_W f, h_H f, h_K f, h_nx f, h_ny f) = (W, H, K, nx, ny).
Proof.
  intros img em ptype inst W H nx ny K save s pp XX YY merge HK Hx Hy L1 L2 L3.
  destruct (gm_names_fit K HK) as (NO & SO & LN & pn & EP & HP).
  set (v := mkV (gm_class em) inst W H nx ny K save s (Some (pp, XX, YY))).
  assert (exists f, to_fits ptype v None merge = Ok f /\ h_names f = gm_names K) as (f & Ef & Nf).
  { unfold to_fits. subst v. cbn [v_data bind v_ny v_nx v_class v_K].
    rewrite (proj2 (Nat.eqb_eq _ _) L1).
    assert (F : forallb (fun row => (length row =? nx)%nat) pp = true).
    { apply forallb_forall. intros row Hr. apply Nat.eqb_eq. auto. }
    rewrite F. destruct pp as [|[|p row0] rows]; [simpl in L1; lia| |].
    { specialize (L2 [] (or_introl eq_refl)). simpl in L2. lia. }
    assert (Lp : length p = (6 * K)%nat) by (apply (L3 (p :: row0) p); simpl; auto).
    cbn [gm_class make names_of]. rewrite Lp.
    replace (6 * K)%nat with (K * 6)%nat by lia.
    rewrite Nat.mod_mul by lia. simpl (0 =? 0)%nat. cbn [bind]. rewrite Lp.
    replace (6 * K)%nat with (K * 6)%nat by lia. rewrite Nat.div_mul by lia.
    replace (K * 6)%nat with (6 * K)%nat by lia.
    destruct merge.
    - rewrite EP. cbn [bind].
      assert (SQ : forall l, (forall x, In x l -> In x pn) -> exists cs,
        seqr (map (fun nm => c <- merged_col K (gm_names K) ((p :: row0) :: rows) nm ;; Ok (nm, c)) l) = Ok cs).
      { induction l as [|a l IH]; intros Hl; cbn [map seqr]; [eauto|].
        assert (MC : exists c, merged_col K (gm_names K) ((p :: row0) :: rows) a = Ok c).
        { unfold merged_col.
          assert (SK : forall l, (forall x, In x l -> (x < K)%nat) -> exists cs,
            seqr (map (fun k => match name_index (a ++ [digit k]) (gm_names K) 0 with
                           | Some i => Ok (plane ((p :: row0) :: rows) i)
                           | None => Err KeyError
                           end) l) = Ok cs).
          { induction l0 as [|k l0 IH0]; intros Hk; cbn [map seqr]; [eauto|].
            assert (Hin : In (a ++ [digit k]) (gm_names K)) by (apply HP; [apply Hl|apply Hk]; simpl; auto).
            apply In_nth_error in Hin. destruct Hin as (i & Hi).
            rewrite (name_index_nth _ _ (proj1 NO) i 0 Hi). cbn [bind].
            destruct IH0 as (cs & ->); [intros; apply Hk; simpl; auto|]. cbn [bind]. eauto. }
          destruct (SK (seq 0 K)) as (cs & ->); [intros x Hx'; apply in_seq in Hx'; lia|]. cbn [bind]. eauto. }
        destruct MC as (c & ->). cbn [bind].
        destruct IH as (cs & ->); [intros; apply Hl; simpl; auto|]. cbn [bind]. eauto. }
      destruct (SQ pn) as (cs & ->); auto. cbn [bind]. eexists. split; reflexivity.
    - rewrite LN, Nat.leb_refl. cbn [bind]. eexists. split; reflexivity. }
  exists f. split; auto.
  destruct (C81_data img (list R) ptype v None merge f pp XX YY Ef eq_refl) as [E1 E2].
  - rewrite Nf, LN. auto.
  - rewrite Nf. auto.
  - rewrite Nf. auto.
  - split; auto. inversion E2. reflexivity.
Qed.

(** fromFits refuses every file that toFits writes: the class has been renamed. *)
Theorem C81_type_refuted : forall (img psf : Type) ptype (v : vpsf img psf) data merge f imported
    (known : string -> option (pclass img psf)),
  to_fits ptype v data merge = Ok f -> from_fits imported known f = Err AssertionError.
Proof.
  intros img psf ptype v data merge f imported known H.
  assert (E : h_type f = "tractor.psfex.VaryingGaussianPsfEx"%string).
  { unfold to_fits in H. apply bind_ok_inv in H. destruct H as (((pp & XX) & YY) & _ & H).
    destruct (_ =? _)%nat; [|discriminate]. destruct (forallb _ _); [|discriminate].
    destruct pp as [|[|p row0] rows]; try discriminate.
    apply bind_ok_inv in H. destruct H as (X & _ & H).
    apply bind_ok_inv in H. destruct H as (cols & _ & H). inversion H. reflexivity. }
  unfold from_fits. rewrite E. reflexivity.
Qed.

(** And an older file too: the module does not import GaussianMixtureEllipsePSF. *)
Theorem C81_import_refuted : forall (img psf : Type) (known : string -> option (pclass img psf)) f v,
  from_fits false known f <> Ok v.
Proof. intros img psf known f v. unfold from_fits. destruct (_ =? _)%string; discriminate. Qed.

(** With the type as it was before and the import in place, the PSF that is read
    gives the parameters of the one that was written if ensureSplines is called,
    and raises AttributeError if it is not. *)
Definition with_old_type (f : fits) : fits :=
  mkFits "tractor.psfex.PsfEx" (h_psf f) (h_W f) (h_H f) (h_K f) (h_nx f) (h_ny f) (h_names f) (f_cols f).

Theorem C81_loaded : forall (img psf : Type) spl ptype (v u w : vpsf img psf) data merge f pp XX YY known x y,
  to_fits ptype v data merge = Ok f ->
  match data with Some d => Some d | None => v_data v end = Some (pp, XX, YY) ->
  (forall row p, In row pp -> In p row -> length p = length (h_names f)) ->
  names_ok (h_names f) -> (merge = true -> stems_ok (h_names f)) ->
  fit_saved spl v (pp, XX, YY) = Ok u ->
  from_fits true known (with_old_type f) = Ok w ->
  exists w', ensure_splines spl w = Ok w' /\
    snd (params_at spl w' x y) = snd (params_at spl u x y).
Proof.
  intros img psf spl ptype v u w data merge f pp XX YY known x y H HD HL HN HM HU HW.
  destruct (C81_data img psf ptype v data merge f pp XX YY H HD HL HN HM) as [RD _].
  unfold from_fits in HW. cbn [with_old_type h_type] in HW. rewrite String.eqb_refl in HW.
  destruct (known _) as [cls|]; [|discriminate].
  apply bind_ok_inv in HW. destruct HW as (d & Ed & HW).
  assert (ED : read_data (with_old_type f) = read_data f) by reflexivity.
  rewrite ED, RD in Ed. inversion Ed; subst d. clear Ed.
  inversion HW; subst w. clear HW.
  unfold ensure_splines. cbn [v_splines v_data].
  unfold fit_saved in *. destruct pp as [|[|p row0] rows]; try discriminate.
  destruct (rectangular _ _); [|discriminate].
  apply bind_ok_inv in HU. destruct HU as (s & -> & HU). inversion HU; subst u.
  cbn [bind]. eexists. split; [reflexivity|]. reflexivity.
Qed.

Theorem C81_loaded_lazy_refuted : forall (img psf : Type) spl (known : string -> option (pclass img psf)) f w x y,
  (1 <= h_nx f)%nat -> (1 <= h_ny f)%nat -> from_fits true known f = Ok w ->
  params_at spl w x y = (w, Err AttributeError).
Proof.
  intros img psf spl known f w x y Hx Hy HW.
  unfold from_fits in HW. destruct (_ =? _)%string; [|discriminate].
  destruct (known _) as [cls|]; [|discriminate].
  apply bind_ok_inv in HW. destruct HW as (d & _ & HW). inversion HW; subst w. clear HW.
  unfold params_at, ensure_fit. cbn [v_splines]. unfold fit_grid. cbn [v_W v_H v_nx v_ny].
  pose proof (linspace_length (h_H f) (h_ny f)) as LY. pose proof (linspace_length (h_W f) (h_nx f)) as LX.
  destruct (linspace (h_H f) (h_ny f)); [simpl in LY; lia|].
  destruct (linspace (h_W f) (h_nx f)); [simpl in LX; lia|]. reflexivity.
Qed.

(** ** PsfExModel *)

(** A model that was read from a file can be written, and what is read then is
    the same model. *)
Theorem C81_model : forall f m, px_read f = Ok m -> exists f', px_write m = Ok f' /\ px_read f' = Ok m.
Proof.
  intros f m H. unfold px_read in H.
  destruct ((x_ngrp f =? 0)%Z || (x_ngrp f =? 1)%Z); [|discriminate].
  apply bind_ok_inv in H. destruct H as (((((degree & x0) & y0) & xs) & ys) & _ & H).
  destruct ((x_axis3 f =? nterms degree)%nat && (length (x_mask f) =? nterms degree)%nat) eqn:E; [|discriminate].
  destruct (x_mask f) as [|b rest]; [discriminate|]. inversion H; subst m. clear H.
  apply andb_true_iff in E. destruct E as [_ E].
  cbn [px_write p_fwhm p_degree p_x0 p_y0 p_xscale p_yscale p_samp p_bases].
  eexists. split; [reflexivity|].
  unfold px_read. cbn [x_ngrp x_name1 x_name2 x_grp1 x_grp2 x_axis3 x_mask x_deg1 x_zero1 x_zero2 x_scal1 x_scal2 x_samp x_fwhm].
  cbn [Z.eqb Pos.eqb orb String.eqb Ascii.eqb Bool.eqb andb bind].
  rewrite Nat.eqb_refl, E. reflexivity.
Qed.

(** A copy has no FWHM and cannot be written. *)
Theorem C81_copy_refuted : forall m dx dy,
  px_write (px_copy m) = Err AttributeError /\ px_write (px_shifted m dx dy) = Err AttributeError.
Proof. intros. split; reflexivity. Qed.

(** ** Examples *)

(** A "spline" that only knows the points of the grid: the hypothesis can be met. *)
Definition pick (l : list R) (x : R) : nat :=
  (fix go (l : list R) (k : nat) := match l with [] => O | a :: r => if Req_EM_T x a then k else go r (S k) end) l O.
Definition pick_spline : spliner := fun XX YY d => Ok (fun x y => d (pick XX x) (pick YY y)).

Lemma increasing_lt l : increasing l -> forall i j, (i < j < length l)%nat -> nth i l 0 < nth j l 0.
Proof.
  intros H i j [Hij Hj]. induction j as [|j IH]; [lia|].
  destruct (Nat.eq_dec i j) as [->|]; [apply H; auto|].
  apply Rlt_trans with (nth j l 0); [apply IH; lia|apply H; auto].
Qed.

Lemma pick_nth l : increasing l -> forall i, (i < length l)%nat -> pick l (nth i l 0) = i.
Proof.
  intros H i Hi. unfold pick.
  assert (G : forall r k, (k + length r = length l)%nat -> (forall j, (j < length r)%nat -> nth j r 0 = nth (k + j) l 0) ->
     (k <= i)%nat ->
     (fix go (q : list R) (k : nat) := match q with [] => O | a :: r => if Req_EM_T (nth i l 0) a then k else go r (S k) end) r k = i).
  { induction r as [|a r IH]; intros k L E K; [simpl in L; lia|].
    assert (Ea : a = nth k l 0) by (specialize (E O ltac:(simpl; lia)); simpl in E; rewrite E; f_equal; lia).
    destruct (Req_EM_T (nth i l 0) a) as [Q|Q].
    - destruct (Nat.eq_dec k i); auto. exfalso. assert (k < i < length l)%nat by lia.
      pose proof (increasing_lt l H k i H0). lra.
    - apply IH.
      + simpl in L. lia.
      + intros j Hj. specialize (E (S j) ltac:(simpl; lia)). simpl in E. rewrite E. f_equal. lia.
      + assert (k <> i) by (intros ->; congruence). lia. }
  apply G; auto. lia.
Qed.

Example interpolating_exists : interpolates pick_spline.
Proof.
  intros XX YY d HX HY IX IY. eexists. split; [reflexivity|]. cbn beta.
  intros ix iy Hx Hy. rewrite !pick_nth; auto.
Qed.

(** A PSF whose one parameter is read off the stamp, on a grid of 4 by 5. *)
Definition toy_class : pclass R (list R) :=
  mkClass (fun _ im _ => Ok [im]) (fun p => p) (fun p => p) (fun p => Ok p) (fun _ => [chars "sigma0"]).
Definition toy : vpsf R (list R) := mkV toy_class (fun x y => Ok (10 * x + y)) 3 8 4 5 1 true None None.

Example toy_grid : exists v' vals, params_at pick_spline toy 0 0 = (v', Ok vals) /\
  params_at pick_spline v' 2 6 = (v', Ok [26]).
Proof.
  destruct (C80_total R (list R) pick_spline toy 1 0 0) as (v' & vals & E & _);
    try exact interpolating_exists; simpl; try lia; try lra; eauto.
  exists v', vals. split; auto.
  destruct (C80_grid R (list R) pick_spline toy v' 0 0 vals interpolating_exists) as (psfs & G);
    simpl; try lia; try lra; auto.
  destruct (G 2%nat 3%nat) as [(im & E1 & E2) E3]; simpl; try lia.
  unfold gx, gy in *. simpl in *.
  replace ((1 + 1) * 3 / (1 + 1 + 1)) with 2 in * by lra.
  replace ((1 + 1 + 1) * 8 / (1 + 1 + 1 + 1)) with 6 in * by lra.
  rewrite E3. do 2 f_equal. inversion E1; subst im. inversion E2. f_equal. lra.
Qed.

(** With Gaussian mixtures the same grid fails. *)
Example toy_default : forall x y,
  let v := mkV (gm_class (fun N (im : R) => Ok (repeat im (6 * N)))) (fun x y => Ok (x + y)) 3 8 4 5 2 false None None in
  params_at pick_spline v x y = (v, Err ValueError).
Proof.
  intros x y. apply C80_default_class_refuted; try lia; eauto using repeat_length.
Qed.

(** Cells of 100 pixels: 250 is in the middle of its own, -99 is put at 50. *)
Example cells : Rabs (230 - IZR (cell 100 230)) <= 50 /\ cell 100 (-99) = 50%Z.
Proof.
  split.
  - destruct (C80_cell 100 230) as [_ H]; try lra; try lia. specialize (H eq_refl). lra.
  - apply (C80_cell_negative_refuted 100 (-99)); [lia|lra].
Qed.

(** Two Gaussians on a grid of 1 by 2, written as merged columns. *)
Example two_gaussians : exists f,
  to_fits "tractor.psf.GaussianMixturePSF"
    (mkV (gm_class (fun N (im : R) => Ok (repeat im (6 * N)))) (fun x y => Ok (x + y)) 3 8 2 1 2 false None
       (Some ([[[1; 2; 3; 4; 5; 6; 7; 8; 9; 10; 11; 12]; [13; 14; 15; 16; 17; 18; 19; 20; 21; 22; 23; 24]]], [0; 3], [0])))
    None true = Ok f /\
  read_data f = Ok ([[[1; 2; 3; 4; 5; 6; 7; 8; 9; 10; 11; 12]; [13; 14; 15; 16; 17; 18; 19; 20; 21; 22; 23; 24]]], [0; 3], [0]) /\
  get_col (chars "meanx") (f_cols f) = Some (ColMany [[[3; 15]]; [[5; 17]]]).
Proof. eexists. split; [reflexivity|]. split; reflexivity. Qed.

(** A constant model (POLNGRP 0) is read, written, and read again. *)
Example constant_model : exists m f', px_read (mkPxFile 0 "" "" 0 0 1 7 8 9 10 3 (1/2) 4 [[[1; 2]; [3; 4]; [5; 6]]]) = Ok m /\
  p_degree m = 0%nat /\ p_radius m = 2 /\ px_write m = Ok f' /\ px_read f' = Ok m.
Proof.
  eexists. eexists. split; [reflexivity|]. split; [reflexivity|]. split; [simpl; lra|]. split; reflexivity.
Qed.

Print Assumptions C80_grid.
Print Assumptions C80_total.
Print Assumptions C80_history.
Print Assumptions C80_default_class_refuted.
Print Assumptions C80_caching.
Print Assumptions C80_from_fitted.
Print Assumptions C80_from_unfitted_refuted.
Print Assumptions C80_from_radius_refuted.
Print Assumptions C80_cell.
Print Assumptions C80_cell_negative_refuted.
Print Assumptions C81_data.
Print Assumptions C81_mixture.
Print Assumptions C81_type_refuted.
Print Assumptions C81_import_refuted.
Print Assumptions C81_loaded.
Print Assumptions C81_loaded_lazy_refuted.
Print Assumptions C81_model.
Print Assumptions C81_copy_refuted.
