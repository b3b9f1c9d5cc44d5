(** C125: a hybrid PSF behaves as its pixelized PSF with Gaussians added; what shifted
    and copied hybrids share with their original. *)
From Coq Require Import String List ZArith QArith Qround Bool Lia.
From Verif Require Import Base HybridModel.
Import ListNotations.
Open Scope string_scope.

(** ** What is claimed *)
Section Spec.
Context {G : Type}.
Notation heap := (list (obj G)).
(** At [a] is a hybrid of the Gaussians [g] and the PSF at [p]. *)
Definition hybrid (h : heap) (a : nat) (g : val) (p : nat) : Prop := nth_error h a = Some (OHyb (Some g) (Some (VRef p))).
Definition pixel (h : heap) (p : nat) : Prop := exists norm d, nth_error h p = Some (OPix norm d).
(** [h'] has all objects of [h] as they were. *)
Definition kept (h h' : heap) : Prop := forall c, (c < List.length h)%nat -> nth_error h' c = nth_error h c.
Definition is_new (h : heap) (a : nat) : Prop := (List.length h <= a)%nat.
(** Reading [n'] does not read the attribute [n]. *)
Definition unrelated (n n' : string) : Prop := n' <> n /\ (n' = "shape" -> n <> "H" /\ n <> "W").
End Spec.
(** Names that a hybrid does not pass on. *)
Definition own : list string := ["gauss"; "pix"; "copy"; "getMixtureOfGaussians"; "getShifted"; "constantPsfAt"].

(** ** Proofs *)
Lemma nth_upd {A} (x : A) a l b : nth_error (upd a x l) b = if (a =? b)%nat then match nth_error l b with Some _ => Some x | None => None end else nth_error l b.
Proof. revert a b. induction l as [|y l IH]; intros [|a] [|b]; cbn; auto. destruct (a =? b)%nat; auto. Qed.
Lemma dget_same n v d : dget n (dset n v d) = Some v.
Proof. induction d as [|[k w] d IH]; cbn; [rewrite String.eqb_refl; auto|]. destruct (k =? n) eqn:E; cbn; rewrite E; auto. Qed.
Lemma dget_other n m v d : m <> n -> dget m (dset n v d) = dget m d.
Proof.
  intros N. assert (F : (n =? m) = false) by (apply String.eqb_neq; congruence).
  induction d as [|[k w] d IH]; cbn; [rewrite F; auto|]. destruct (k =? n) eqn:E; cbn.
  - apply String.eqb_eq in E. subst. rewrite F. auto.
  - destruct (k =? m); auto.
Qed.
Lemma mem_in n l : mem n l = true <-> In n l.
Proof. unfold mem. rewrite existsb_exists. split; [intros (x & I & E); apply String.eqb_eq in E; subst; auto|]. intros I. exists n. rewrite String.eqb_refl. auto. Qed.
Lemma not_own n : ~ In n own -> (n =? "gauss") = false /\ (n =? "pix") = false /\ mem n hyb_methods = false.
Proof.
  intros N. repeat split.
  - apply String.eqb_neq. intros ->. apply N. cbn; auto.
  - apply String.eqb_neq. intros ->. apply N. cbn; auto.
  - destruct (mem n hyb_methods) eqn:E; auto. apply mem_in in E. exfalso. apply N. cbn in *. tauto.
Qed.
Lemma pix_get_other nm d n v n' : unrelated n n' -> pix_get nm (dset n v d) n' = pix_get nm d n'.
Proof.
  intros (N & S). unfold pix_get. destruct (n' =? "shape") eqn:E.
  - apply String.eqb_eq in E. destruct (S E). rewrite !dget_other by congruence. reflexivity.
  - rewrite dget_other by auto. reflexivity.
Qed.

Section Proofs.
Context {G : Type}.
Implicit Types h : list (obj G).
Lemma get_pass lim h a g p nm d n : hybrid h a g p -> nth_error h p = Some (OPix nm d) -> ~ In n own ->
  getattr (S (S lim)) h a n = pix_get nm d n.
Proof.
  intros Ha Hp N. destruct (not_own n N) as (N1 & N2 & N3). unfold hybrid in Ha. cbn [getattr]. rewrite Ha, N1, N2, N3. cbn. rewrite Hp. reflexivity.
Qed.
Lemma frame_name lim h p nm d n v b n' : nth_error h p = Some (OPix nm d) -> unrelated n n' -> n <> "pix" -> n <> "gauss" ->
  getattr lim (upd p (OPix nm (dset n v d)) h) b n' = getattr lim h b n'.
Proof.
  intros Hp U NP NG. revert b n' U. induction lim as [|lim IH]; intros b n' U; [reflexivity|]. cbn [getattr]. rewrite nth_upd.
  destruct (Nat.eqb_spec p b) as [<-|Nb].
  - rewrite Hp. apply pix_get_other. auto.
  - destruct (nth_error h b) as [[| | | |g q]|]; auto. destruct (if n' =? "gauss" then _ else _); auto. destruct (mem n' hyb_methods); auto.
    rewrite IH by (split; [congruence|discriminate]). destruct (getattr lim h b "pix") as [[]|]; cbn; auto.
Qed.

(** Every attribute not its own is read from and written to the pixelized PSF: a
    value written is read back, also from the PSF and from every other hybrid of it;
    all other attributes and all Gaussians keep their values, and PSFs not involved
    keep theirs of this name too. *)
Theorem C125_set_get : forall lim h a g p n v, hybrid h a g p -> pixel h p -> ~ In n own -> n <> "shape" ->
  getattr (S (S lim)) h a n = getattr (S (S lim)) h p n /\
  exists h', setattr (S (S lim)) h a n v = Ok h' /\ setattr (S (S lim)) h p n v = Ok h' /\
    (forall b, b = p \/ (exists g', hybrid h b g' p) -> getattr (S (S lim)) h' b n = Ok v) /\
    (forall b n' lim', unrelated n n' -> getattr lim' h' b n' = getattr lim' h b n') /\
    (forall b q n', pixel h q -> q <> p -> b = q \/ (exists g', hybrid h b g' q) -> getattr (S (S lim)) h' b n' = getattr (S (S lim)) h b n') /\
    (forall b lim', hyb_gaussians lim' h' b = hyb_gaussians lim' h b).
Proof.
  intros lim h a g p n v Ha (nm & d & Hp) N NS. destruct (not_own n N) as (N1 & N2 & N3).
  apply String.eqb_neq in N1 as M1. apply String.eqb_neq in N2 as M2. apply String.eqb_neq in NS as NS'.
  split; [rewrite (get_pass _ _ _ _ _ _ _ _ Ha Hp N); cbn [getattr]; rewrite Hp; reflexivity|].
  set (h' := upd p (OPix nm (dset n v d)) h). exists h'.
  assert (Hp' : nth_error h' p = Some (OPix nm (dset n v d))) by (unfold h'; rewrite nth_upd, Nat.eqb_refl, Hp; auto).
  assert (KO : forall c, c <> p -> nth_error h' c = nth_error h c) by (intros c C; unfold h'; rewrite nth_upd; destruct (Nat.eqb_spec p c); congruence).
  assert (HY : forall c g' q, hybrid h c g' q -> hybrid h' c g' q) by (unfold hybrid; intros c g' q H; rewrite KO; auto; congruence).
  assert (PV : pix_get nm (dset n v d) n = Ok v) by (unfold pix_get; rewrite NS', dget_same; auto).
  split; [unfold hybrid in Ha; cbn [setattr]; rewrite Ha, N1, N2; rewrite Hp, NS'; reflexivity|].
  split; [cbn [setattr]; rewrite Hp, NS'; reflexivity|]. split; [|split; [|split]].
  - intros b [->|(g' & Hb)]; [cbn [getattr]; rewrite Hp'; auto|]. rewrite (get_pass _ _ _ _ _ _ _ _ (HY _ _ _ Hb) Hp' N). auto.
  - intros b n' lim' U. apply frame_name; auto.
  - intros b q n' (nm' & d' & Hq) Q B. assert (Hq' : nth_error h' q = Some (OPix nm' d')) by (rewrite KO; auto).
    destruct B as [->|(g' & Hb)]; [cbn [getattr]; rewrite Hq, Hq'; auto|]. pose proof (HY _ _ _ Hb) as Hb'. unfold hybrid in Hb, Hb'.
    cbn [getattr]. rewrite Hb, Hb'. destruct (if n' =? "gauss" then _ else _); auto. destruct (mem n' hyb_methods); auto. cbn. rewrite Hq, Hq'. auto.
  - intros b lim'. unfold hyb_gaussians. unfold h' at 1. rewrite (frame_name lim' h p nm d n v b "gauss" Hp) by first [assumption | split; [congruence|discriminate]].
    destruct (getattr lim' h b "gauss") as [[]|]; cbn; auto. destruct (Nat.eq_dec a0 p) as [->|]; [rewrite Hp, Hp'; auto|rewrite KO; auto].
Qed.
(** A name that is a function of the hybrid's class is written to the pixelized PSF
    but still read as this function from the hybrid; the shape cannot be set. *)
Theorem C125_own_refuted : forall lim h a g p n v, hybrid h a g p -> pixel h p ->
  (In n hyb_methods -> exists h', setattr (S (S lim)) h a n v = Ok h' /\
     getattr (S (S lim)) h' p n = Ok v /\ getattr (S (S lim)) h' a n = Ok (VMethod "HybridPixelizedPSF" n)) /\
  setattr (S (S lim)) h a "shape" v = Err AttributeError.
Proof.
  intros lim h a g p n v Ha (nm & d & Hp). assert (NE : p <> a) by (unfold hybrid in Ha; congruence). unfold hybrid in Ha. split.
  - intros I. assert (E : (n =? "gauss") = false /\ (n =? "pix") = false /\ (n =? "shape") = false) by (cbn in I; decompose [or] I; subst; cbn; auto; contradiction).
    destruct E as (N1 & N2 & N3). exists (upd p (OPix nm (dset n v d)) h). apply mem_in in I.
    split; [cbn [setattr]; rewrite Ha, N1, N2, Hp, N3; reflexivity|]. cbn [getattr]. rewrite !nth_upd, Nat.eqb_refl, Hp.
    split; [unfold pix_get; rewrite N3, dget_same; auto|]. destruct (Nat.eqb_spec p a); [congruence|]. rewrite Ha, N1, N2, I. auto.
  - cbn [setattr]. rewrite Ha. cbn. rewrite Hp. reflexivity.
Qed.

Lemma nth_new h (o : obj G) : nth_error (h ++ [o])%list (List.length h) = Some o.
Proof. rewrite nth_error_app2, Nat.sub_diag; auto. Qed.
Lemma kept_app h l : kept h (h ++ l)%list.
Proof. intros c C. apply nth_error_app1. auto. Qed.
Lemma kept_trans h h1 h2 : (List.length h <= List.length h1)%nat -> kept h h1 -> kept h1 h2 -> kept h h2.
Proof. intros L A B c C. rewrite B by lia. auto. Qed.
Lemma kept_nth h h1 c o : kept h h1 -> nth_error h c = Some o -> nth_error h1 c = Some o.
Proof. intros K E. rewrite K; auto. apply nth_error_Some. congruence. Qed.
Lemma hyb_new_ok lim h p g : hyb_new (S lim) h p g = Ok ((h ++ [OHyb (Some g) (Some p)])%list, List.length h).
Proof.
  assert (U : forall l (x y : obj G), upd (List.length l) y (l ++ [x])%list = (l ++ [y])%list) by (induction l; cbn; intros; f_equal; auto).
  unfold hyb_new, alloc. cbn [setattr]. rewrite nth_new. cbn. rewrite U. rewrite nth_new. cbn. rewrite U. reflexivity.
Qed.

(** A shifted hybrid (or one of constantPsfAt) is a new object of the same Gaussians
    and the same pixelized PSF; all its attributes read as those of the original. *)
Theorem C125_shifted : forall lim h a g p, hybrid h a g p -> pixel h p ->
  exists h' b, hyb_shifted (S (S lim)) h a = Ok (h', b) /\ is_new h b /\ kept h h' /\ hybrid h' a g p /\ hybrid h' b g p /\ pixel h' p /\
    (forall n, getattr (S (S lim)) h' b n = getattr (S (S lim)) h a n) /\ hyb_gaussians (S (S lim)) h' b = hyb_gaussians (S (S lim)) h' a.
Proof.
  intros lim h a g p Ha (nm & d & Hp). pose proof Ha as Ha'. unfold hybrid in Ha'.
  exists (h ++ [OHyb (Some g) (Some (VRef p))])%list, (List.length h).
  split; [unfold hyb_shifted; cbn [getattr]; rewrite Ha'; cbn [String.eqb Ascii.eqb Bool.eqb bind]; rewrite Hp; apply hyb_new_ok|].
  split; [unfold is_new; lia|]. pose proof (kept_app h [OHyb (Some g) (Some (VRef p))]) as K. split; [exact K|].
  split; [apply (kept_nth _ _ _ _ K Ha')|]. split; [apply nth_new|]. split; [exists nm, d; apply (kept_nth _ _ _ _ K Hp)|].
  split.
  - intros n. cbn [getattr]. rewrite nth_new, Ha'. destruct (if n =? "gauss" then _ else _); auto. destruct (mem n hyb_methods); auto. cbn.
    rewrite (kept_nth _ _ _ _ K Hp), Hp. reflexivity.
  - unfold hyb_gaussians. cbn [getattr]. rewrite nth_new, (kept_nth _ _ _ _ K Ha'). reflexivity.
Qed.
(** So what is written to a shifted hybrid is read from the original. *)
Theorem C125_shifted_refuted : forall lim h a g p n v, hybrid h a g p -> pixel h p -> ~ In n own -> n <> "shape" ->
  exists h' b h'', hyb_shifted (S (S lim)) h a = Ok (h', b) /\ a <> b /\ setattr (S (S lim)) h' b n v = Ok h'' /\ getattr (S (S lim)) h'' a n = Ok v.
Proof.
  intros lim h a g p n v Ha Hp N NS. destruct (C125_shifted lim h a g p Ha Hp) as (h' & b & E & F & K & Ha' & Hb & Hp' & _).
  destruct (C125_set_get lim h' b g p n v Hb Hp' N NS) as (_ & h'' & S1 & _ & R & _). exists h', b, h''. split; [auto|]. split; [|split; [auto|]].
  - assert (a < List.length h)%nat by (apply nth_error_Some; unfold hybrid in Ha; congruence). unfold is_new in F. lia.
  - apply R. right. exists g. auto.
Qed.

(** A pickled (or shallowly copied) hybrid has the same Gaussians and PSF; before its
    state is set, every attribute but its functions ends in endless recursion, and
    none but gauss and pix can be written. *)
Theorem C125_pickle : forall lim h a g p, hybrid h a g p ->
  exists h' b, shallow_copy (S lim) h a = Ok (h', b) /\ is_new h b /\ kept h h' /\ hybrid h' b g p.
Proof.
  intros lim h a g p Ha. unfold hybrid in Ha. exists (h ++ [OHyb (Some g) (Some (VRef p))])%list, (List.length h).
  assert (U : forall l (x y : obj G), upd (List.length l) y (l ++ [x])%list = (l ++ [y])%list) by (induction l; cbn; intros; f_equal; auto).
  split; [|split; [unfold is_new; lia|split; [apply kept_app|apply nth_new]]].
  unfold shallow_copy, getstate, setstate, alloc. cbn [getattr]. rewrite Ha. cbn [String.eqb]. cbn. rewrite nth_new. cbn. rewrite U, nth_new. cbn. rewrite U. reflexivity.
Qed.
Theorem C125_unset : forall lim h a n v, nth_error h a = Some (OHyb None None) ->
  (~ In n hyb_methods -> getattr lim h a n = Err RuntimeError) /\
  (n <> "gauss" -> n <> "pix" -> setattr (S lim) h a n v = Err KeyError).
Proof.
  intros lim h a n v Ha. split.
  - revert n. induction lim as [|lim IH]; intros n N; [reflexivity|]. cbn [getattr]. rewrite Ha.
    assert (E : (if n =? "gauss" then None else if n =? "pix" then None else None) = @None val) by (destruct (n =? "gauss"), (n =? "pix"); auto). rewrite E.
    destruct (mem n hyb_methods) eqn:M; [apply mem_in in M; contradiction|]. rewrite IH; [reflexivity|]. cbn. intros H. decompose [or] H; discriminate || contradiction.
  - intros N1 N2. cbn [setattr]. apply String.eqb_neq in N1, N2. rewrite Ha, N1, N2. reflexivity.
Qed.

Lemma pix_new_ok f32 nm h j H W px s lo : nth_error h j = Some (OArr H W px) -> (H mod 2 = 1)%Z -> (W mod 2 = 1)%Z ->
  exists d, pix_new f32 nm h j s lo = Ok ((h ++ [OArr H W (map f32 px); ODict []; OPix nm d])%list, S (S (List.length h))) /\
    dget "img" d = Some (VRef (List.length h)) /\ dget "fftcache" d = Some (VRef (S (List.length h))) /\
    dget "sampling" d = Some (VNum s) /\ dget "Lorder" d = Some (VNum (inject_Z lo)) /\
    d = ([("img", VRef (List.length h)); ("radius", VHypot H W); ("H", VNum (inject_Z H)); ("W", VNum (inject_Z W)); ("Lorder", VNum (inject_Z lo));
            ("fftcache", VRef (S (List.length h))); ("sampling", VNum s)] ++
           (if Qeq_bool s 1 then []
            else [("nativeW", VNum (inject_Z (Qceiling (inject_Z W * s)))); ("nativeH", VNum (inject_Z (Qceiling (inject_Z H * s))))]))%list.
Proof.
  intros E OH OW. eexists. refine (conj _ (conj _ (conj _ (conj _ (conj _ eq_refl))))); try reflexivity.
  unfold pix_new. rewrite E, OH, OW. cbn [Z.eqb Pos.eqb andb negb alloc]. unfold alloc. rewrite <- !app_assoc. cbn [app]. rewrite !app_length. cbn [List.length Nat.add].
  rewrite Nat.add_1_r. replace (List.length h + 2)%nat with (S (S (List.length h))) by lia. reflexivity.
Qed.
(** A copy has its own pixelized PSF, array and Gaussians: nothing written to its
    attributes changes an object of the original.  Its array is the rounded array of
    the original; its sampling and Lanczos order are the defaults, whatever those of
    the original. *)
Theorem C125_copy : forall f32 gcopy lim h a g p nm d i H W px x y,
  hybrid h a (VRef g) p -> nth_error h p = Some (OPix nm d) -> dget "img" d = Some (VRef i) -> nth_error h i = Some (OArr H W px) ->
  (H mod 2 = 1)%Z -> (W mod 2 = 1)%Z -> nth_error h g = Some (OGauss x) -> gcopy x = Ok y ->
  exists h' b p' i', hyb_copy f32 gcopy (S (S lim)) h a = Ok (h', b) /\ kept h h' /\ is_new h b /\ is_new h p' /\ is_new h i' /\
    (exists g', is_new h g' /\ hybrid h' b (VRef g') p') /\ pixel h' p' /\
    hyb_gaussians (S (S lim)) h' b = Ok y /\
    getattr (S (S lim)) h' b "img" = Ok (VRef i') /\ nth_error h' i' = Some (OArr H W (map f32 px)) /\
    getattr (S (S lim)) h' b "sampling" = Ok (VNum 1) /\ getattr (S (S lim)) h' b "Lorder" = Ok (VNum 3) /\
    (forall n v h'', setattr (S (S lim)) h' b n v = Ok h'' -> kept h h'').
Proof.
  intros f32 gcopy lim h a g p nm d i H W px x y Ha Hp Hi Ei OH OW Eg Ey.
  set (h1 := (h ++ [OArr H W px])%list). assert (E1 : nth_error h1 (List.length h) = Some (OArr H W px)) by apply nth_new.
  destruct (pix_new_ok f32 nm h1 _ H W px 1 3 E1 OH OW) as (d' & N & D1 & D2 & D3 & D4 & _).
  set (h2 := (h1 ++ [OArr H W (map f32 px); ODict []; OPix nm d'])%list) in *. set (p' := S (S (List.length h1))) in *.
  assert (L1 : List.length h1 = S (List.length h)) by (unfold h1; rewrite app_length; cbn; lia).
  assert (L2 : List.length h2 = S (S (S (List.length h1)))) by (unfold h2; rewrite app_length; cbn; lia).
  assert (K2 : kept h h2) by (eapply kept_trans; [|apply kept_app|apply kept_app]; rewrite app_length; lia).
  set (h3 := (h2 ++ [OGauss y])%list). set (h4 := (h3 ++ [OHyb (Some (VRef (List.length h2))) (Some (VRef p'))])%list).
  assert (L3 : List.length h3 = S (List.length h2)) by (unfold h3; rewrite app_length; cbn; lia).
  assert (P2 : nth_error h2 p' = Some (OPix nm d')).
  { unfold h2, p'. rewrite nth_error_app2 by lia. replace (S (S (List.length h1)) - List.length h1)%nat with 2%nat by lia. reflexivity. }
  assert (I2 : nth_error h2 (List.length h1) = Some (OArr H W (map f32 px))) by (unfold h2; rewrite nth_error_app2, Nat.sub_diag by lia; reflexivity).
  assert (K3 : kept h2 h4) by (eapply kept_trans; [|apply kept_app|apply kept_app]; rewrite app_length; lia).
  assert (K4 : kept h h4) by (apply (kept_trans h h2); auto; lia).
  assert (P4 : nth_error h4 p' = Some (OPix nm d')) by (apply (kept_nth h2); auto).
  assert (B4 : hybrid h4 (List.length h3) (VRef (List.length h2)) p') by apply nth_new.
  exists h4, (List.length h3), p', (List.length h1).
  split.
  { pose proof Ha as Ha'. unfold hybrid in Ha'. unfold hyb_copy. cbn [getattr]. rewrite Ha'. cbn [String.eqb Ascii.eqb Bool.eqb bind].
    unfold pix_copy. rewrite Hp. cbn [getattr]. rewrite Hp. unfold pix_get at 1. cbn [String.eqb Ascii.eqb Bool.eqb]. rewrite Hi. cbn [bind]. rewrite Ei. unfold alloc at 1. fold h1. rewrite N. cbn [bind].
    fold h2. rewrite (kept_nth _ _ _ _ K2 Ha'). cbn [String.eqb Ascii.eqb Bool.eqb bind]. rewrite (kept_nth _ _ _ _ K2 Eg), Ey. cbn [bind]. unfold alloc. fold h3. apply hyb_new_ok. }
  split; [exact K4|]. unfold is_new. split; [lia|]. split; [unfold p'; lia|]. split; [lia|]. split; [exists (List.length h2); split; [lia|exact B4]|].
  split; [exists nm, d'; auto|].
  split.
  { unfold hyb_gaussians. cbn [getattr]. unfold hybrid in B4. rewrite B4. cbn. rewrite (kept_nth h3 h4 (List.length h2) (OGauss y)); [reflexivity|apply kept_app|apply nth_new]. }
  assert (O1 : forall n, In n ["img"; "sampling"; "Lorder"] -> ~ In n own) by (intros n I J; cbn in I, J; decompose [or] I; subst; decompose [or] J; discriminate || contradiction).
  split; [rewrite (get_pass _ _ _ _ _ _ _ _ B4 P4) by (apply O1; cbn; auto); unfold pix_get; cbn [String.eqb Ascii.eqb Bool.eqb]; rewrite D1; auto|].
  split; [apply (kept_nth h2); auto|].
  split; [rewrite (get_pass _ _ _ _ _ _ _ _ B4 P4) by (apply O1; cbn; auto); unfold pix_get; cbn [String.eqb Ascii.eqb Bool.eqb]; rewrite D3; auto|].
  split; [rewrite (get_pass _ _ _ _ _ _ _ _ B4 P4) by (apply O1; cbn; auto); unfold pix_get; cbn [String.eqb Ascii.eqb Bool.eqb]; rewrite D4; auto|].
  intros n v h'' SE c C. cbn [setattr] in SE. unfold hybrid in B4. rewrite B4 in SE.
  assert (G1 : forall q o, (List.length h <= q)%nat -> nth_error (upd q o h4) c = nth_error h c).
  { intros q o Q. rewrite nth_upd. destruct (Nat.eqb_spec q c); [lia|]. apply K4. auto. }
  destruct (n =? "gauss"); [injection SE as <-; apply G1; lia|]. destruct (n =? "pix"); [injection SE as <-; apply G1; lia|].
  rewrite P4 in SE. destruct (n =? "shape"); [discriminate|].
  assert (X : h'' = upd p' (OPix nm (dset n v d')) h4) by congruence. rewrite X. apply G1. unfold p'. lia.
Qed.
(** The copy of a PSF as it was constructed: the same image, and all other
    attributes but the addresses of array and cache if the sampling and the order
    were the defaults; the sampling is lost if it was another. *)
Theorem C125_pix_copy : forall f32 norm h0 j s lo h p lim, (forall q, f32 (f32 q) = f32 q) -> pix_new f32 norm h0 j s lo = Ok (h, p) ->
  exists h' p' i i' H W px, pix_copy f32 (S lim) h p = Ok (h', p') /\ kept h h' /\ is_new h p' /\ is_new h i' /\
    getattr (S lim) h p "img" = Ok (VRef i) /\ getattr (S lim) h' p' "img" = Ok (VRef i') /\
    nth_error h i = Some (OArr H W px) /\ nth_error h' i' = Some (OArr H W px) /\
    (s = 1%Q -> lo = 3%Z -> forall n, n <> "img" -> n <> "fftcache" -> getattr (S lim) h' p' n = getattr (S lim) h p n) /\
    (~ (s == 1)%Q -> getattr (S lim) h' p' "sampling" <> getattr (S lim) h p "sampling" /\
       getattr (S lim) h' p' "nativeW" = Err AttributeError /\ exists w, getattr (S lim) h p "nativeW" = Ok w).
Proof.
  intros f32 norm h0 j s lo h p lim F N.
  assert (X : exists H W px, nth_error h0 j = Some (OArr H W px) /\ (H mod 2 = 1)%Z /\ (W mod 2 = 1)%Z).
  { unfold pix_new in N. destruct (nth_error h0 j) as [[H W px| | | |]|]; try discriminate. exists H, W, px.
    destruct (Z.eqb_spec (H mod 2) 1); [|discriminate]. destruct (Z.eqb_spec (W mod 2) 1); [|discriminate]. auto. }
  destruct X as (H & W & px & E & OH & OW). destruct (pix_new_ok f32 norm h0 j H W px s lo E OH OW) as (d & N' & D1 & _ & D3 & _ & D). rewrite N' in N. injection N as <- <-. clear N'.
  set (h := (h0 ++ [OArr H W (map f32 px); ODict []; OPix norm d])%list).
  assert (P : nth_error h (S (S (List.length h0))) = Some (OPix norm d)).
  { unfold h. rewrite nth_error_app2 by lia. replace (S (S (List.length h0)) - List.length h0)%nat with 2%nat by lia. reflexivity. }
  assert (I : nth_error h (List.length h0) = Some (OArr H W (map f32 px))) by (unfold h; rewrite nth_error_app2, Nat.sub_diag by lia; reflexivity).
  set (h1 := (h ++ [OArr H W (map f32 px)])%list). assert (L1 : List.length h1 = S (List.length h)) by (unfold h1; rewrite app_length; cbn; lia).
  destruct (pix_new_ok f32 norm h1 _ H W (map f32 px) 1 3 (nth_new _ _) OH OW) as (d' & N & D1' & _ & D3' & _ & D').
  assert (MM : map f32 (map f32 px) = map f32 px) by (rewrite map_map; apply map_ext; auto). rewrite MM in N.
  set (h2 := (h1 ++ [OArr H W (map f32 px); ODict []; OPix norm d'])%list) in *.
  assert (P2 : nth_error h2 (S (S (List.length h1))) = Some (OPix norm d')).
  { unfold h2. rewrite nth_error_app2 by lia. replace (S (S (List.length h1)) - List.length h1)%nat with 2%nat by lia. reflexivity. }
  exists h2, (S (S (List.length h1))), (List.length h0), (List.length h1), H, W, (map f32 px).
  split.
  { unfold pix_copy. rewrite P. cbn [getattr]. rewrite P. unfold pix_get. cbn [String.eqb Ascii.eqb Bool.eqb]. rewrite D1. cbn [bind]. rewrite I. unfold alloc. fold h1. exact N. }
  split; [eapply kept_trans; [|apply kept_app|apply kept_app]; rewrite app_length; lia|].
  unfold is_new. split; [lia|]. split; [lia|]. cbn [getattr]. rewrite P, P2.
  split; [unfold pix_get; cbn [String.eqb Ascii.eqb Bool.eqb]; rewrite D1; auto|].
  split; [unfold pix_get; cbn [String.eqb Ascii.eqb Bool.eqb]; rewrite D1'; auto|].
  split; [exact I|]. split; [unfold h2; rewrite nth_error_app2, Nat.sub_diag by lia; reflexivity|]. split.
  - intros -> -> n N1 N2. apply not_eq_sym in N1, N2. apply String.eqb_neq in N1, N2.
    assert (DG : forall m, ("img" =? m) = false -> ("fftcache" =? m) = false -> dget m d' = dget m d).
    { intros m M1 M2. subst d d'. cbn [Qeq_bool app]. change (Qeq_bool 1 1) with true. cbn [app dget]. rewrite M1, M2. reflexivity. }
    unfold pix_get. rewrite !(DG "H"), !(DG "W"), DG by auto. reflexivity.
  - intros NS. split; [|split].
    + unfold pix_get. cbn [String.eqb Ascii.eqb Bool.eqb]. rewrite D3, D3'. intros Q. injection Q as <-. apply NS. reflexivity.
    + subst d'. reflexivity.
    + subst d. destruct (Qeq_bool s 1) eqn:Q; [apply Qeq_bool_iff in Q; contradiction|]. eexists. reflexivity.
Qed.
End Proofs.

(** ** A case: a hybrid of a 3 by 3 stamp sampled at half a pixel. *)
Section Case.
Let stamp : obj nat := OArr 3 3 [0; 1; 0; 1; 4; 1; 0; 1; 0].
Let made := pix_new (fun q => q) false [stamp; OGauss 7%nat] 0 (1 # 2) 3.
Let h0 : list (obj nat) := match made with Ok (h, p) => (h ++ [OHyb (Some (VRef 1)) (Some (VRef p))])%list | Err _ => [] end.
Example case_hybrid : hybrid h0 5 (VRef 1) 4 /\ pixel h0 4 /\ getattr 9 h0 5 "sampling" = Ok (VNum (1 # 2)) /\
  getattr 9 h0 5 "shape" = Ok (VTup (VNum 3) (VNum 3)) /\ getattr 9 h0 5 "nativeW" = Ok (VNum 2) /\ hyb_gaussians 9 h0 5 = Ok 7%nat.
Proof. split; [reflexivity|]. split; [eexists _, _; reflexivity|]. repeat split. Qed.
Example case_shifted : match hyb_shifted 9 h0 5 with
  | Ok (h, b) => b = 6%nat /\ match setattr 9 h b "Lorder" (VNum 5) with Ok h' => getattr 9 h' 5 "Lorder" = Ok (VNum 5) | Err _ => False end
  | Err _ => False end.
Proof. vm_compute. auto. Qed.
Example case_copy : match hyb_copy (fun q => q) Ok 9 h0 5 with
  | Ok (h, b) => getattr 9 h b "sampling" = Ok (VNum 1) /\ getattr 9 h b "nativeW" = Err AttributeError /\ getattr 9 h 5 "sampling" = Ok (VNum (1 # 2)) /\
      match setattr 9 h b "Lorder" (VNum 5) with Ok h' => getattr 9 h' b "Lorder" = Ok (VNum 5) /\ getattr 9 h' 5 "Lorder" = Ok (VNum 3) | Err _ => False end
  | Err _ => False end.
Proof. vm_compute. auto. Qed.
Example case_pickle : match shallow_copy 9 h0 5 with Ok (h, b) => getattr 9 h b "sampling" = Ok (VNum (1 # 2)) | Err _ => False end.
Proof. reflexivity. Qed.
Example case_own : match setattr 9 h0 5 "copy" (VNum 5) with Ok h => getattr 9 h 5 "copy" = Ok (VMethod "HybridPixelizedPSF" "copy") | Err _ => False end.
Proof. reflexivity. Qed.
End Case.

Print Assumptions C125_set_get.
Print Assumptions C125_own_refuted.
Print Assumptions C125_shifted.
Print Assumptions C125_shifted_refuted.
Print Assumptions C125_pickle.
Print Assumptions C125_unset.
Print Assumptions C125_copy.
Print Assumptions C125_pix_copy.
