(** C83: images keep their pixels, errors and calibrations when copied and when
    written to and read from FITS files. *)
From Coq Require Import String List Bool Arith ZArith Reals Lra Lia.
From Verif Require Import Base MogModel MogProps ShiftModel ImageModel.
Import ListNotations.
Local Open Scope R_scope.
Local Open Scope list_scope.

(** *** Errors *)
(** The inverse variances of an image are the ones it was made with; a negative
    one becomes NaN. *)
Definition kept_iv (v : px) : px :=
  match v with Some v => if Rlt_dec v 0 then None else Some v | None => None end.
Lemma sq_sqrt v : np_sq (np_sqrt v) = kept_iv v.
Proof.
  destruct v as [v|]; [|reflexivity]. cbn. destruct (Rlt_dec v 0); [reflexivity|]. cbn. f_equal. apply sqrt_sqrt. lra.
Qed.
Lemma gmap_gmap {A B C} (f : A -> B) (g : B -> C) (x : grid A) : gmap g (gmap f x) = gmap (fun v => g (f v)) x.
Proof. unfold gmap. cbn. rewrite map_map. reflexivity. Qed.
Lemma gmap_ext {A B} (f g : A -> B) (x : grid A) : (forall v, In v (gv x) -> f v = g v) -> gmap f x = gmap g x.
Proof. intros H. unfold gmap. f_equal. apply map_ext_in. exact H. Qed.
Lemma gmap_id {A} (f : A -> A) (x : grid A) : (forall v, In v (gv x) -> f v = v) -> gmap f x = x.
Proof.
  intros H. unfold gmap. destruct x as [h w l]. cbn in *. f_equal. rewrite <- (map_id l) at 2. apply map_ext_in. exact H.
Qed.
Theorem C83_invvar : forall data iv psf wcs sky pho name time zr,
  let im := new_image data (Some iv) None psf wcs sky pho name time zr in
  get_invvar im = Ok (gmap kept_iv iv) /\
  (forall im', get_invvar (set_invvar im' iv) = Ok (gmap kept_iv iv)) /\
  (forall e, get_inverr im = Ok e -> gh e = gh iv /\ gw e = gw iv /\
     forall k v, nth_error (gv iv) k = Some (Some v) -> 0 <= v ->
       exists r, nth_error (gv e) k = Some (Some r) /\ 0 <= r /\ r * r = v).
Proof.
  intros. cbn. unfold get_invvar, get_inverr. cbn. repeat split.
  - rewrite gmap_gmap. f_equal. apply gmap_ext. intros v _. apply sq_sqrt.
  - intros im'. cbn. rewrite gmap_gmap. f_equal. apply gmap_ext. intros v _. apply sq_sqrt.
  - injection H as <-. reflexivity.
  - injection H as <-. reflexivity.
  - intros k v E V0. injection H as <-. exists (sqrt v). cbn. rewrite nth_error_map, E. cbn.
    destruct (Rlt_dec v 0); [lra|]. repeat split; [apply sqrt_pos|apply sqrt_sqrt; auto].
Qed.
(** Inverse errors take precedence; with neither there are no errors, and
    asking for them raises an error; the other arguments are kept, and those
    not given are the identity calibrations. *)
Theorem C83_precedence : forall data iv e psf wcs sky pho name time zr,
  let im := new_image data iv e psf wcs sky pho name time zr in
  (forall e', e = Some e' -> get_inverr im = Ok e' /\ get_invvar im = Ok (gmap np_sq e')) /\
  (e = None -> iv = None -> get_inverr im = Err AttributeError /\ get_invvar im = Err AttributeError) /\
  im_data im = data /\ im_psf im = psf /\ im_name im = name /\ im_time im = time /\ im_zr im = zr /\
  im_wcs im = match wcs with Some w => w | None => Wcs (NullWCS 1 0 0) end /\
  im_sky im = match sky with Some s => s | None => SkyNull end /\
  im_pho im = match pho with Some c => c | None => PhoNull end /\
  im_liquid im = [true; true; true; true].
Proof.
  intros. unfold im, new_image, get_invvar, get_inverr. cbn. repeat split; intros; subst; try reflexivity.
Qed.
Example C83_invvar_ex : get_invvar (new_image None (Some (mkGrid 1 3 [Some 4; Some (-1); None])) None None None None None None None None) =
  Ok (mkGrid 1 3 [Some 4; None; None]).
Proof.
  etransitivity; [exact (proj1 (C83_invvar None (mkGrid 1 3 [Some 4; Some (-1); None]) None None None None None None None))|].
  unfold gmap. cbn. destruct (Rlt_dec 4 0); [lra|]. destruct (Rlt_dec (-1) 0); [reflexivity|lra].
Qed.

(** *** Copies *)
(** Calibrations that a copy reproduces. *)
Definition copies (c : cal) : Prop :=
  match c with
  | PsfMix m liq r => shaped m /\ symmetric m /\ r = 25
  | PsfPix g s l => Nat.odd (gh g) = true /\ Nat.odd (gw g) = true /\ s = 1 /\ l = 3%nat
  | PsfCirc s w liq => length s = length w /\ liq = repeat true (length s + length w)
  | Wcs (NullWCS ps dx dy) => ps = 1 /\ dx = 0 /\ dy = 0
  | Wcs (FitsWcs _ _ _) => True
  | Wcs _ => False
  | PhoMags _ _ liq => liq = true
  | SkyNull | SkyConst _ | PhoNull | PhoLinear _ _ | PhoFluxes _ => True
  end.
Lemma half_sum_same a : half_sum a a = a.
Proof. unfold half_sum. lra. Qed.

Lemma copy_ok c : copies c -> cal_copy c = Ok c.
Proof.
  destruct c as [m liq r|g s l|s w liq|w| |v| |s b|b zp liq|b]; cbn; try reflexivity.
  - intros (H & Y & ->). rewrite (C51_copy half_sum half_sum_same m H Y). reflexivity.
  - intros (H & W & -> & ->). rewrite H, W. reflexivity.
  - intros (L & ->). rewrite L; rewrite Nat.eqb_refl. reflexivity.
  - destruct w; cbn; try tauto. intros (-> & -> & ->). reflexivity.
  - intros ->. reflexivity.
Qed.
(** A copy has the pixels, errors, calibrations, name and time of the image. *)
Theorem C83_copy : forall im d e p,
  im_data im = Some d -> im_inverr im = Some e -> im_psf im = Some p ->
  copies p -> copies (im_wcs im) -> copies (im_pho im) -> copies (im_sky im) ->
  exists im', image_copy im = Ok im' /\
    im_data im' = im_data im /\ im_inverr im' = im_inverr im /\ im_psf im' = im_psf im /\ im_wcs im' = im_wcs im /\
    im_pho im' = im_pho im /\ im_sky im' = im_sky im /\ im_name im' = im_name im /\ im_time im' = im_time im /\
    (im_liquid im = [true; true; true; true] -> im_zr im = None -> im_minval im = 0 -> im' = im).
Proof.
  intros im d e p D E P Cp Cw Cc Cs. unfold image_copy.
  rewrite D, E, P. cbn [attr bind]. rewrite (copy_ok _ Cw). cbn [bind]. rewrite (copy_ok _ Cp). cbn [bind].
  rewrite (copy_ok _ Cs). cbn [bind]. rewrite (copy_ok _ Cc). cbn [bind].
  eexists. split; [reflexivity|]. unfold new_image. cbn. repeat split.
  intros L Z M. destruct im; cbn in *; subst; reflexivity.
Qed.
Definition ex_mog : @mog R := mkMog [1; 2] [(0, 0); (1, 1)] [(4, 1, 1, 5); (9, 0, 0, 9)].
Definition ex_fits : fits := mkFits (fun p => p) (fun p => p) ((1, 0), (0, 1)).
Example C83_copy_ex : let im := new_image (Some (mkGrid 1 2 [Some 1; None])) None (Some (mkGrid 1 2 [Some 2; Some 0]))
    (Some (PsfMix ex_mog (repeat false 12) 25)) (Some (Wcs (FitsWcs ex_fits 3 4))) (Some (SkyConst 7)) (Some (PhoLinear 3 (Some "r"%string)))
    (Some "im"%string) (Some 5) None in
  image_copy im = Ok im.
Proof.
  intros im. destruct (C83_copy im (mkGrid 1 2 [Some 1; None]) (mkGrid 1 2 [Some 2; Some 0]) (PsfMix ex_mog (repeat false 12) 25))
    as (im' & E & _ & _ & _ & _ & _ & _ & _ & _ & H); try reflexivity.
  - cbn. repeat split. repeat constructor.
  - rewrite E. f_equal. apply H; reflexivity.
Qed.
(** Refutations.  Whatever the image, its copy has all calibrations thawed and
    no plotting range nor minimum value; the copy of an image with shifted
    NullWCS puts positions elsewhere; oversampled PSFs become sampled as the
    pixels; an image without PSF or errors has no copy. *)
Theorem C83_copy_refuted :
  (forall im im', image_copy im = Ok im' -> im_liquid im' = [true; true; true; true] /\ im_zr im' = None /\ im_minval im' = 0) /\
  (forall im im' ps dx dy, image_copy im = Ok im' -> im_wcs im = Wcs (NullWCS ps dx dy) -> (dx <> 0 \/ dy <> 0) ->
     exists w', im_wcs im' = Wcs w' /\ forall q, position_to_pixel w' q <> position_to_pixel (NullWCS ps dx dy) q) /\
  (forall im im' g s l, image_copy im = Ok im' -> im_psf im = Some (PsfPix g s l) -> im_psf im' = Some (PsfPix g 1 3)) /\
  (forall im, im_psf im = None \/ im_inverr im = None -> forall im', image_copy im <> Ok im').
Proof.
  assert (INV : forall im im', image_copy im = Ok im' -> exists d e w p0 p s c,
    im_psf im = Some p0 /\ im_inverr im = Some e /\ cal_copy p0 = Ok p /\ cal_copy (im_wcs im) = Ok w /\
    im' = new_image (Some d) None (Some e) (Some p) (Some w) (Some s) (Some c) (im_name im) (im_time im) None).
  { intros im im' H. unfold image_copy in H. destruct (im_data im) as [d|]; [|discriminate]. cbn [attr bind] in H.
    destruct (im_inverr im) as [e|]; [|discriminate]. cbn [attr bind] in H.
    destruct (cal_copy (im_wcs im)) as [w|] eqn:EW; [|discriminate]. cbn [bind] in H.
    destruct (im_psf im) as [p0|]; [|discriminate]. cbn [attr bind] in H.
    destruct (cal_copy p0) as [p|] eqn:EP; [|discriminate]. cbn [bind] in H.
    destruct (cal_copy (im_sky im)) as [s|]; [|discriminate]. cbn [bind] in H.
    destruct (cal_copy (im_pho im)) as [c|]; [|discriminate]. cbn [bind] in H.
    injection H as <-. exists d, e, w, p0, p, s, c. auto. }
  repeat split.
  1-3: destruct (INV _ _ H) as (d & e & w & p0 & p & s & c & _ & _ & _ & _ & ->); reflexivity.
  - intros im im' ps dx dy H HW NZ. destruct (INV _ _ H) as (d & e & w & p0 & p & s & c & _ & _ & _ & EW & ->).
    rewrite HW in EW. cbn in EW. injection EW as <-. cbn. eexists. split; [reflexivity|].
    intros [x y]. cbn. intros K. injection K as K1 K2. lra.
  - intros im im' g s l H HP. destruct (INV _ _ H) as (d & e & w & p0 & p & s0 & c & EP & _ & CP & _ & ->).
    rewrite HP in EP. injection EP as <-. cbn in CP. destruct (_ && _); [|discriminate]. injection CP as <-. reflexivity.
  - intros im [N|N] im' H; destruct (INV _ _ H) as (d & e & w & p0 & p & s & c & EP & EE & _); congruence.
Qed.
Example C83_copy_refuted_ex : let im := new_image (Some (mkGrid 1 1 [Some 1])) None (Some (mkGrid 1 1 [Some 2]))
    (Some (PsfPix (mkGrid 1 1 [Some 1]) (/ 2) 5)) (Some (Wcs (NullWCS 1 10 0))) None None None None (Some (0, 1)) in
  exists im', image_copy im = Ok im' /\ im_wcs im' = Wcs (NullWCS 1 0 0) /\ im_psf im' = Some (PsfPix (mkGrid 1 1 [Some 1]) 1 3) /\ im_zr im' = None.
Proof. cbn. eexists. repeat split. Qed.

(** *** FITS files *)
Lemma sapp_assoc (a b c : string) : ((a ++ b) ++ c = a ++ (b ++ c))%string.
Proof. induction a as [|x a IH]; [reflexivity|]. cbn. f_equal. exact IH. Qed.
Lemma sapp_inj (a b c : string) : (a ++ b = a ++ c)%string -> b = c.
Proof. induction a as [|x a IH]; cbn; [auto|]. intros H. injection H. exact IH. Qed.

Lemma get_put_same k v l : get_class k (put_class k v l) = Ok v.
Proof.
  induction l as [|e r IH]; unfold get_class in *; cbn.
  - rewrite String.eqb_refl. reflexivity.
  - destruct (String.eqb (fst e) k) eqn:E; cbn; [rewrite String.eqb_refl; reflexivity|]. rewrite E. exact IH.
Qed.
Lemma get_put_other k k' v l : k <> k' -> get_class k (put_class k' v l) = get_class k l.
Proof.
  intros NE. induction l as [|e r IH]; unfold get_class in *; cbn.
  - destruct (String.eqb_spec k' k); [congruence|reflexivity].
  - destruct (String.eqb_spec (fst e) k') as [E|E]; cbn.
    + rewrite E. destruct (String.eqb_spec k' k); [congruence|reflexivity].
    + destruct (String.eqb (fst e) k); [reflexivity|exact IH].
Qed.

Lemma put_par_new pre i v l : Forall (fun e : prec => fst (fst e) <> pre \/ (snd (fst e) < i)%nat) l ->
  put_par pre i v l = l ++ [(pre, i, (v, tt))].
Proof.
  induction 1 as [|e r HE HR IH]; [reflexivity|]. cbn. destruct (String.eqb_spec (fst (fst e)) pre) as [E|E]; cbn.
  - destruct (Nat.eqb_spec (snd (fst e)) i); [exfalso; destruct HE; [contradiction|lia]|]. rewrite IH. reflexivity.
  - rewrite IH. reflexivity.
Qed.
Lemma put_pars_new pre : forall vs i l, Forall (fun e : prec => fst (fst e) <> pre \/ (snd (fst e) < i)%nat) l ->
  put_pars pre i vs l = l ++ map (fun e => (pre, fst e, (snd (snd e), fst (snd e)))) (combine (seq i (length vs)) (combine (repeat tt (length vs)) vs)).
Proof.
  induction vs as [|v vs IH]; intros i l F; cbn; [rewrite app_nil_r; reflexivity|].
  rewrite IH.
  - rewrite put_par_new by auto. rewrite <- app_assoc. reflexivity.
  - rewrite put_par_new by auto. apply Forall_app. split.
    + eapply Forall_impl; [|exact F]. cbn. intros e [HE|HE]; [auto|right; lia].
    + constructor; [|constructor]. right. cbn. lia.
Qed.
Definition written (c : cal) : list R := firstn (n_names c) (all_params c).
Lemma cal_to_header_eq pre c l : no_prefix pre l ->
  cal_to_header pre c l = to_header pre (repeat tt (length (written c))) (written c) l.
Proof.
  intros H. unfold cal_to_header. rewrite put_pars_new.
  - unfold to_header. rewrite repeat_length. reflexivity.
  - eapply Forall_impl; [|exact H]. cbn. auto.
Qed.
Lemma to_header_no_prefix pre pre' names vs (l : @header R unit) : pre <> pre' -> no_prefix pre l -> no_prefix pre (to_header pre' names vs l).
Proof.
  intros NE H. unfold to_header, no_prefix. apply Forall_app. split; [exact H|]. apply Forall_forall. intros e HI.
  apply in_map_iff in HI. destruct HI as (x & <- & _). cbn. congruence.
Qed.
Lemma to_header_app pre names vs (l : @header R unit) : exists t, to_header pre names vs l = l ++ t /\ Forall (fun e => fst (fst e) = pre) t.
Proof.
  unfold to_header. eexists. split; [reflexivity|]. apply Forall_forall. intros e HI. apply in_map_iff in HI. destruct HI as (x & <- & _). reflexivity.
Qed.

(** Calibrations that come back from a file: mixtures of at most 16 Gaussians
    with nothing frozen, constant or no sky, the identity. *)
Definition survives (c : cal) : Prop :=
  match c with
  | PsfMix m liq r => shaped m /\ symmetric m /\ (1 <= mog_K m <= 16)%nat /\ liq = repeat true (6 * mog_K m) /\ r = 25
  | Wcs (NullWCS ps dx dy) => ps = 1 /\ dx = 0 /\ dy = 0
  | SkyNull | SkyConst _ | PhoNull => True
  | _ => False
  end.
Lemma count_true_repeat n : count_true (repeat true n) = n.
Proof. induction n as [|n IH]; [reflexivity|]. cbn [repeat]. rewrite count_true_cons, IH. reflexivity. Qed.
Lemma get_things_length (m : @mog R) : shaped m -> length (get_things m) = (6 * mog_K m)%nat.
Proof.
  intros [H1 H2]. rewrite get_things_eq, !app_length, flat2_length, flat3_length, map_length. unfold mog_K in *. lia.
Qed.
Lemma from_ok c pre h1 h2 : survives c -> no_prefix pre h1 -> no_prefix pre h2 ->
  from_class (class_name c) pre (cal_to_header pre c h1 ++ h2) = Ok c.
Proof.
  intros SV N1 N2. rewrite cal_to_header_eq by auto.
  assert (RD := C56_read pre (repeat tt (length (written c))) (written c) h1 h2 N1 N2).
  destruct c as [m liq r|g s l|s w liq|w| |v| |s b|b zp liq|b]; cbn [survives] in SV; try contradiction.
  - destruct SV as (H & Y & K & -> & ->). unfold from_class. cbn [class_name]. rewrite String.eqb_refl.
    assert (W : written (PsfMix m (repeat true (6 * mog_K m)) 25) = get_things m).
    { unfold written, n_names, all_params. rewrite count_true_repeat, <- (get_things_length m H). apply firstn_all. }
    rewrite W. rewrite (C56_mixture half_sum 0 pre _ m h1 h2 N1 N2 H Y); [reflexivity| |lia|lia].
    rewrite repeat_length. apply get_things_length. exact H.
  - destruct w; try contradiction. destruct SV as (-> & -> & ->). unfold from_class. cbn in RD |- *. rewrite RD. reflexivity.
  - unfold from_class. cbn in RD |- *. rewrite RD. reflexivity.
  - unfold from_class. cbn in RD |- *. rewrite RD. reflexivity.
  - unfold from_class. cbn in RD |- *. rewrite RD. reflexivity.
Qed.

(** The header given has no records of parameters under these names. *)
Definition fresh (pre : string) (h : fhdr) : Prop :=
  forall k, In k ["PSF_"; "WCS_"; "SKY_"; "PHO_"]%string -> no_prefix (pre ++ k) (h_par h).
Definition np_abs (v : px) : px := match v with Some v => Some (Rabs v) | None => None end.
Lemma sqrt_sq v : np_sqrt (np_sq v) = np_abs v.
Proof.
  destruct v as [v|]; [|reflexivity]. cbn. pose proof (Rle_0_sqr v) as SQ. unfold Rsqr in SQ. destruct (Rlt_dec (v * v) 0); [lra|].
  f_equal. apply sqrt_Rsqr_abs.
Qed.
Ltac ne := let H := fresh in intros H; apply sapp_inj in H; discriminate H.
Lemma classes_found pre im p h0 h : im_psf im = Some p -> fits_header h0 pre im = Ok h ->
  get_class (pre ++ "PSF") (h_class h) = Ok (class_name p) /\
  get_class (pre ++ "WCS") (h_class h) = Ok (class_name (im_wcs im)) /\
  get_class (pre ++ "SKY") (h_class h) = Ok (class_name (im_sky im)) /\
  get_class (pre ++ "PHO") (h_class h) = Ok (class_name (im_pho im)).
Proof.
  intros P H. unfold fits_header in H. rewrite P in H. cbn [attr bind] in H. injection H as <-. cbn [h_class].
  repeat split; repeat (rewrite get_put_other by ne); apply get_put_same.
Qed.
Theorem C83_fits : forall h0 pre im d e p,
  im_data im = Some d -> im_inverr im = Some e -> gh d = gh e -> gw d = gw e -> im_psf im = Some p ->
  survives p -> survives (im_wcs im) -> survives (im_pho im) -> survives (im_sky im) -> fresh pre h0 ->
  exists f im', to_fits h0 pre im = Ok f /\ read_fits pre f = Ok im' /\
    im_data im' = im_data im /\ im_psf im' = im_psf im /\ im_wcs im' = im_wcs im /\ im_pho im' = im_pho im /\ im_sky im' = im_sky im /\
    im_inverr im' = Some (gmap np_abs e) /\
    (Forall (fun v => forall r, v = Some r -> 0 <= r) (gv e) -> im_inverr im' = im_inverr im).
Proof.
  intros h0 pre im d e p D E GH GW P Sp Sw Sc Ss FR.
  unfold to_fits, get_invvar.
  destruct (fits_header h0 pre im) as [h|x] eqn:EH; [|unfold fits_header in EH; rewrite P in EH; discriminate].
  destruct (classes_found pre im p h0 h P EH) as (C1 & C2 & C3 & C4).
  rewrite E, D. cbn [bind attr]. eexists. eexists. split; [reflexivity|]. unfold read_fits. cbn [attr bind].
  unfold gmap at 1 2. cbn [gh gw]. rewrite GH, GW, !Nat.eqb_refl. cbn [andb negb].
  unfold read_object. rewrite C1, C2, C3, C4. cbn [bind]. rewrite !sapp_assoc.
  change ("PSF" ++ "_")%string with "PSF_"%string. change ("WCS" ++ "_")%string with "WCS_"%string.
  change ("SKY" ++ "_")%string with "SKY_"%string. change ("PHO" ++ "_")%string with "PHO_"%string.
  assert (F1 := FR "PSF_"%string ltac:(cbn; tauto)). assert (F2 := FR "WCS_"%string ltac:(cbn; tauto)).
  assert (F3 := FR "SKY_"%string ltac:(cbn; tauto)). assert (F4 := FR "PHO_"%string ltac:(cbn; tauto)). clear FR.
  unfold fits_header in EH. rewrite P in EH. cbn [attr bind] in EH. injection EH as <-. cbn [h_par].
  set (l0 := h_par h0) in *. clear C1 C2 C3 C4.
  set (l1 := cal_to_header (pre ++ "PSF_") p l0).
  assert (A1 : exists t, l1 = l0 ++ t /\ Forall (fun e => fst (fst e) = (pre ++ "PSF_")%string) t).
  { unfold l1. rewrite cal_to_header_eq by auto. apply to_header_app. }
  assert (P1 : forall q, In q ["WCS_"; "SKY_"; "PHO_"]%string -> no_prefix (pre ++ q) l1).
  { intros q HQ. unfold l1. rewrite cal_to_header_eq by auto. apply to_header_no_prefix.
    - intros K. apply sapp_inj in K. subst. cbn in HQ. intuition discriminate.
    - cbn in HQ. intuition (subst; auto). }
  set (l2 := cal_to_header (pre ++ "WCS_") (im_wcs im) l1).
  assert (A2 : exists t, l2 = l1 ++ t /\ Forall (fun e => fst (fst e) = (pre ++ "WCS_")%string) t).
  { unfold l2. rewrite cal_to_header_eq by (apply P1; cbn; tauto). apply to_header_app. }
  assert (P2 : forall q, In q ["SKY_"; "PHO_"]%string -> no_prefix (pre ++ q) l2).
  { intros q HQ. unfold l2. rewrite cal_to_header_eq by (apply P1; cbn; tauto). apply to_header_no_prefix.
    - intros K. apply sapp_inj in K. subst. cbn in HQ. intuition discriminate.
    - apply P1. cbn in *. tauto. }
  set (l3 := cal_to_header (pre ++ "SKY_") (im_sky im) l2).
  assert (A3 : exists t, l3 = l2 ++ t /\ Forall (fun e => fst (fst e) = (pre ++ "SKY_")%string) t).
  { unfold l3. rewrite cal_to_header_eq by (apply P2; cbn; tauto). apply to_header_app. }
  assert (P3 : no_prefix (pre ++ "PHO_") l3).
  { unfold l3. rewrite cal_to_header_eq by (apply P2; cbn; tauto). apply to_header_no_prefix; [ne|]. apply P2. cbn. tauto. }
  set (l4 := cal_to_header (pre ++ "PHO_") (im_pho im) l3).
  assert (A4 : exists t, l4 = l3 ++ t /\ Forall (fun e => fst (fst e) = (pre ++ "PHO_")%string) t).
  { unfold l4. rewrite cal_to_header_eq by auto. apply to_header_app. }
  destruct A1 as (t1 & A1 & T1), A2 as (t2 & A2 & T2), A3 as (t3 & A3 & T3), A4 as (t4 & A4 & T4).
  assert (NP : forall q q' (t : @header R unit), q <> q' -> Forall (fun e => fst (fst e) = (pre ++ q')%string) t -> no_prefix (pre ++ q) t).
  { intros q q' t NE F. eapply Forall_impl; [|exact F]. cbn. intros a Ha K. rewrite Ha in K. apply sapp_inj in K. congruence. }
  replace (from_class (class_name p) (pre ++ "PSF_") l4) with (Ok p).
  2:{ replace l4 with (l1 ++ (t2 ++ t3 ++ t4)) by (rewrite A4, A3, A2, <- !app_assoc; reflexivity).
      symmetry. unfold l1. apply from_ok; auto. repeat (apply Forall_app; split); eapply NP; try eassumption; discriminate. }
  replace (from_class (class_name (im_wcs im)) (pre ++ "WCS_") l4) with (Ok (im_wcs im)).
  2:{ replace l4 with (l2 ++ (t3 ++ t4)) by (rewrite A4, A3, <- !app_assoc; reflexivity).
      symmetry. unfold l2. apply from_ok; [auto|apply P1; cbn; tauto|]. repeat (apply Forall_app; split); eapply NP; try eassumption; discriminate. }
  replace (from_class (class_name (im_sky im)) (pre ++ "SKY_") l4) with (Ok (im_sky im)).
  2:{ rewrite A4. symmetry. unfold l3. apply from_ok; [auto|apply P2; cbn; tauto|]. eapply NP; try eassumption; discriminate. }
  replace (from_class (class_name (im_pho im)) (pre ++ "PHO_") l4) with (Ok (im_pho im)).
  2:{ rewrite <- (app_nil_r l4). symmetry. unfold l4. apply from_ok; [auto|exact P3|constructor]. }
  cbn [bind]. split; [reflexivity|].
  assert (AB : gmap np_sqrt (gmap np_sq e) = gmap np_abs e). { rewrite gmap_gmap. apply gmap_ext. intros v _. apply sqrt_sq. }
  cbn. repeat split; auto.
  - fold (gmap np_sqrt (gmap np_sq e)). rewrite <- AB. reflexivity.
  - intros NN. f_equal. etransitivity; [exact AB|]. apply gmap_id. intros v HV. rewrite Forall_forall in NN. specialize (NN v HV).
    destruct v as [v|]; [|reflexivity]. cbn. f_equal. apply Rabs_right. apply Rle_ge. apply NN. reflexivity.
Qed.
Definition ex_image : image := new_image (Some (mkGrid 1 2 [Some 1; None])) None (Some (mkGrid 1 2 [Some 2; Some (-3)]))
  (Some (PsfMix ex_mog (repeat true 12) 25)) None (Some (SkyConst 7)) None (Some "im"%string) None None.
Example C83_fits_ex : exists f im', to_fits (mkHdr [] []) "T" ex_image = Ok f /\ read_fits "T" f = Ok im' /\
  im_psf im' = Some (PsfMix ex_mog (repeat true 12) 25) /\ im_sky im' = SkyConst 7 /\ im_inverr im' = Some (mkGrid 1 2 [Some 2; Some 3]) /\
  im_name im' = None.
Proof.
  destruct (C83_fits (mkHdr [] []) "T" ex_image (mkGrid 1 2 [Some 1; None]) (mkGrid 1 2 [Some 2; Some (-3)]) (PsfMix ex_mog (repeat true 12) 25))
    as (f & im' & W & RD & _ & Hp & _ & _ & Hs & He & _); try reflexivity.
  - cbn. repeat split; repeat constructor.
  - cbn. auto.
  - intros k _. constructor.
  - exists f, im'. rewrite Hp, Hs, He. repeat split; auto.
    + unfold gmap. cbn. rewrite (Rabs_right 2) by lra. rewrite (Rabs_left (-3)) by lra. repeat f_equal. lra.
    + unfold read_fits in RD. destruct f as [[h q] iv]. destruct q as [q|]; [|discriminate RD]. cbn [attr bind] in RD.
      destruct (negb _) in RD; [discriminate RD|].
      destruct (read_object h ("T" ++ "PSF")) in RD; [|discriminate RD]. cbn [bind] in RD.
      destruct (read_object h ("T" ++ "WCS")) in RD; [|discriminate RD]. cbn [bind] in RD.
      destruct (read_object h ("T" ++ "SKY")) in RD; [|discriminate RD]. cbn [bind] in RD.
      destruct (read_object h ("T" ++ "PHO")) in RD; [|discriminate RD]. cbn [bind] in RD.
      injection RD as <-. reflexivity.
Qed.

Lemma read_inv pre f im' : read_fits pre f = Ok im' -> exists h d iv p w s c, f = (h, Some d, iv) /\
  read_object h (pre ++ "PSF") = Ok p /\ read_object h (pre ++ "WCS") = Ok w /\ read_object h (pre ++ "SKY") = Ok s /\ read_object h (pre ++ "PHO") = Ok c /\
  im' = new_image (Some d) (Some iv) None (Some p) (Some w) (Some s) (Some c) None None None.
Proof.
  intros RD. unfold read_fits in RD. destruct f as [[h q] iv]. destruct q as [d|]; [|discriminate RD]. cbn [attr bind] in RD.
  destruct (negb _) in RD; [discriminate RD|].
  destruct (read_object h (pre ++ "PSF")) as [p|] eqn:E1; [|discriminate RD]. cbn [bind] in RD.
  destruct (read_object h (pre ++ "WCS")) as [w|] eqn:E2; [|discriminate RD]. cbn [bind] in RD.
  destruct (read_object h (pre ++ "SKY")) as [s|] eqn:E3; [|discriminate RD]. cbn [bind] in RD.
  destruct (read_object h (pre ++ "PHO")) as [c|] eqn:E4; [|discriminate RD]. cbn [bind] in RD.
  injection RD as <-. exists h, d, iv, p, w, s, c. auto 8.
Qed.
Lemma write_inv h0 pre im f : to_fits h0 pre im = Ok f -> exists h p e, im_psf im = Some p /\ im_inverr im = Some e /\
  fits_header h0 pre im = Ok h /\ f = (h, im_data im, gmap np_sq e).
Proof.
  intros W. unfold to_fits, get_invvar in W. destruct (fits_header h0 pre im) as [h|] eqn:EH; [|discriminate W]. cbn [bind] in W.
  destruct (im_inverr im) as [e|] eqn:E; [|discriminate W]. cbn [attr bind] in W. injection W as <-.
  assert (EH' := EH). unfold fits_header in EH. destruct (im_psf im) as [p|]; [|discriminate EH]. exists h, p, e. auto.
Qed.
(** Refutations.  Names, times, plotting ranges, minimum values and which
    calibrations are frozen never come back. *)
Theorem C83_fits_loses_refuted : forall pre f im', read_fits pre f = Ok im' ->
  im_name im' = None /\ im_time im' = None /\ im_zr im' = None /\ im_minval im' = 0 /\ im_liquid im' = [true; true; true; true].
Proof. intros pre f im' H. destruct (read_inv _ _ _ H) as (h & d & iv & p & w & s & c & _ & _ & _ & _ & _ & ->). repeat split. Qed.
(** A NullWCS always comes back as the identity: with an offset, positions are
    put elsewhere and no error is raised. *)
Theorem C83_null_wcs_refuted : forall h0 pre im f im' ps dx dy,
  im_wcs im = Wcs (NullWCS ps dx dy) -> to_fits h0 pre im = Ok f -> read_fits pre f = Ok im' ->
  im_wcs im' = Wcs (NullWCS 1 0 0) /\
  (dx <> 0 \/ dy <> 0 -> forall q, position_to_pixel (NullWCS 1 0 0) q <> position_to_pixel (NullWCS ps dx dy) q).
Proof.
  intros h0 pre im f im' ps dx dy HW W RD.
  destruct (write_inv _ _ _ _ W) as (h & p & e & P & _ & EH & ->).
  destruct (read_inv _ _ _ RD) as (h' & d & iv & p' & w & s & c & EF & _ & RW & _ & _ & ->). injection EF as <- _ _.
  destruct (classes_found pre im p h0 h P EH) as (_ & C2 & _). split.
  - unfold read_object in RW. rewrite C2, HW in RW. cbn [bind class_name] in RW. unfold from_class in RW. cbn in RW.
    destruct (_ =? 0)%nat in RW; [|discriminate RW]. injection RW as <-. reflexivity.
  - intros NZ [x y]. cbn. intros K. injection K as K1 K2. lra.
Qed.
(** Classes whose constructors need arguments are written but cannot be read:
    all photometric calibrations but the identity, all WCSs but NullWCS, and
    pixelized and circular PSFs. *)
Definition needs_args (c : cal) : Prop :=
  match c with
  | PsfPix _ _ _ | PsfCirc _ _ _ | PhoLinear _ _ | PhoMags _ _ _ | PhoFluxes _ => True
  | Wcs (NullWCS _ _ _) => False
  | Wcs _ => True
  | _ => False
  end.
Theorem C83_required_args_refuted : forall h0 pre im d e p,
  im_data im = Some d -> im_inverr im = Some e -> gh d = gh e -> gw d = gw e -> im_psf im = Some p ->
  needs_args p \/ needs_args (im_wcs im) \/ needs_args (im_sky im) \/ needs_args (im_pho im) ->
  exists f, to_fits h0 pre im = Ok f /\ (forall im', read_fits pre f <> Ok im') /\
    (needs_args p -> read_fits pre f = Err TypeError).
Proof.
  intros h0 pre im d e p D E GH GW P NA.
  assert (TE : forall c pre l, needs_args c -> from_class (class_name c) pre l = Err TypeError).
  { intros c pr l H. destruct c as [| | |w| | | | | |]; cbn in H; try contradiction; try reflexivity. destruct w; try contradiction; reflexivity. }
  destruct (fits_header h0 pre im) as [h|x] eqn:EH; [|unfold fits_header in EH; rewrite P in EH; discriminate].
  destruct (classes_found pre im p h0 h P EH) as (C1 & C2 & C3 & C4).
  exists (h, Some d, gmap np_sq e). split; [|split].
  - unfold to_fits, get_invvar. rewrite EH, E, D. reflexivity.
  - intros im' RD. destruct (read_inv _ _ _ RD) as (h' & d' & iv & p' & w & s & c & EF & R1 & R2 & R3 & R4 & _). injection EF as <- _ _.
    unfold read_object in *. rewrite C1 in R1. rewrite C2 in R2. rewrite C3 in R3. rewrite C4 in R4. cbn [bind] in *.
    destruct NA as [N|[N|[N|N]]]; rewrite TE in * by exact N; discriminate.
  - intros N. unfold read_fits. cbn [attr bind]. unfold gmap. cbn [gh gw]. rewrite GH, GW, !Nat.eqb_refl. cbn [andb negb].
    unfold read_object at 1. rewrite C1. cbn [bind]. rewrite TE by exact N. reflexivity.
Qed.
Example C83_required_args_ex : exists f, to_fits (mkHdr [] []) "" (new_image (Some (mkGrid 0 0 [])) None (Some (mkGrid 0 0 []))
  (Some (PsfMix ex_mog (repeat true 12) 25)) None None (Some (PhoLinear 2 None)) None None None) = Ok f /\
  forall im', read_fits "" f <> Ok im'.
Proof.
  edestruct (C83_required_args_refuted (mkHdr [] []) "" (new_image (Some (mkGrid 0 0 [])) None (Some (mkGrid 0 0 []))
    (Some (PsfMix ex_mog (repeat true 12) 25)) None None (Some (PhoLinear 2 None)) None None None)) as (f & W & N & _); try reflexivity.
  - right. right. right. exact I.
  - exists f. auto.
Qed.
(** toFits changes the header it is given, so a header used for two images
    still has the records of the first: the PSF of the second image comes back
    with two components where it has one. *)
Definition ex_one : image := new_image (Some (mkGrid 0 0 [])) None (Some (mkGrid 0 0 []))
  (Some (PsfMix (mkMog [1] [(0, 0)] [(4, 1, 1, 5)]) (repeat true 6) 25)) None (Some (SkyConst 3)) None None None None.
Theorem C83_reused_header_refuted : exists h h' im' m,
  fits_header (mkHdr [] []) "" ex_image = Ok h /\ fits_header h "" ex_one = Ok h' /\
  read_fits "" (h', Some (mkGrid 0 0 []), mkGrid 0 0 []) = Ok im' /\
  im_psf im' = Some (PsfMix m (repeat true 12) 25) /\ length (mean m) = 2%nat.
Proof.
  eexists. eexists. eexists. eexists. split; [reflexivity|]. split; [reflexivity|].
  cbv -[IZR half_sum Rlt_dec sqrt Rmult]. split; [reflexivity|]. split; reflexivity.
Qed.

Print Assumptions C83_invvar.
Print Assumptions C83_precedence.
Print Assumptions C83_copy.
Print Assumptions C83_copy_refuted.
Print Assumptions C83_fits.
Print Assumptions C83_fits_loses_refuted.
Print Assumptions C83_null_wcs_refuted.
Print Assumptions C83_required_args_refuted.
Print Assumptions C83_reused_header_refuted.
