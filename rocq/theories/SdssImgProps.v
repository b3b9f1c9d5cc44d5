(** C93: the image made from an SDSS frame shows the frame, masked and with its
    coordinates. *)
From Coq Require Import String List ZArith QArith Qround Qabs Reals Bool Lia Lra Lqa.
From Verif Require Import Base RoiModel RoiProps SdssImgModel.
Import ListNotations.
Local Open Scope Z_scope.
Local Open Scope list_scope.

(** Pixel in row [i], column [j]; images with [h] rows of [w] pixels. *)
Definition pix (a : arr) (i j : nat) : option R := match nth_error a i with Some r => nth_error r j | None => None end.
Definition shape (a : arr) (h w : nat) : Prop := length a = h /\ Forall (fun r => length r = w) a.

(** ** slices *)
Lemma nth_error_slice {A} : forall (l : list A) lo hi i, (hi <= length l)%nat -> (lo + i < hi)%nat -> nth_error (slice lo hi l) i = nth_error l (lo + i).
Proof.
  intros l lo hi i L H. unfold slice. rewrite <- (firstn_skipn lo l) at 2.
  rewrite nth_error_app2 by (rewrite firstn_length; lia). rewrite firstn_length. replace (lo + i - Nat.min lo (length l))%nat with i by lia.
  assert (I : (i < hi - lo)%nat) by lia. revert I. generalize (hi - lo)%nat as n. generalize (skipn lo l) as k. clear. intros k. revert i.
  induction k as [|a k IH]; intros i n I; [destruct n; destruct i; reflexivity|]. destruct n as [|n]; [lia|]. destruct i as [|i]; [reflexivity|]. cbn. apply IH. lia.
Qed.
Lemma zslice_in {A} lo hi (l : list A) : 0 <= lo -> 0 <= hi -> hi <= Z.of_nat (length l) -> lo <= Z.of_nat (length l) -> zslice lo hi l = slice (Z.to_nat lo) (Z.to_nat hi) l.
Proof.
  intros A1 A2 A3 A4. unfold zslice, clip. destruct (Z.ltb_spec lo 0); [lia|]. destruct (Z.ltb_spec hi 0); [lia|].
  f_equal; f_equal; lia.
Qed.
Lemma pix_slice2 : forall a h w x0 x1 y0 y1 i j, shape a h w -> 0 <= x0 <= x1 -> x1 <= Z.of_nat w -> 0 <= y0 <= y1 -> y1 <= Z.of_nat h ->
  (Z.of_nat i < y1 - y0) -> (Z.of_nat j < x1 - x0) -> pix (slice2 (x0, x1, y0, y1) a) i j = pix a (Z.to_nat y0 + i) (Z.to_nat x0 + j).
Proof.
  intros a h w x0 x1 y0 y1 i j (S1 & S2) X XW Y YH I J. unfold slice2, pix. rewrite zslice_in by lia.
  rewrite nth_error_map, nth_error_slice by lia. destruct (nth_error a (Z.to_nat y0 + i)) as [r|] eqn:E; cbn [option_map]; [|reflexivity].
  assert (L : length r = w). { rewrite Forall_forall in S2. apply S2. eapply nth_error_In, E. }
  rewrite zslice_in by lia. apply nth_error_slice; lia.
Qed.
Lemma Forall_slice {A} (Q : A -> Prop) lo hi l : Forall Q l -> Forall Q (slice lo hi l).
Proof. rewrite !Forall_forall. intros H x I. apply H. unfold slice in I. rewrite <- (firstn_skipn lo l). apply in_or_app. right.
  rewrite <- (firstn_skipn (hi - lo) (skipn lo l)). apply in_or_app. left. exact I. Qed.
Lemma shape_slice2 : forall a h w x0 x1 y0 y1, shape a h w -> 0 <= x0 <= x1 -> x1 <= Z.of_nat w -> 0 <= y0 <= y1 -> y1 <= Z.of_nat h ->
  shape (slice2 (x0, x1, y0, y1) a) (Z.to_nat (y1 - y0)) (Z.to_nat (x1 - x0)).
Proof.
  intros a h w x0 x1 y0 y1 (S1 & S2) X XW Y YH. unfold slice2. split.
  - rewrite map_length, zslice_in, slice_length by lia. lia.
  - apply Forall_forall. intros r I. apply in_map_iff in I. destruct I as (r' & <- & I). rewrite zslice_in in I by lia.
    assert (L : length r' = w). { eapply Forall_forall in I; [|apply Forall_slice, S2]. exact I. }
    rewrite zslice_in, slice_length by lia. lia.
Qed.
Lemma shape_width a h w : shape a h w -> (0 < h)%nat -> width a = Z.of_nat w /\ height a = Z.of_nat h.
Proof. intros (S1 & S2) H. unfold width, height. destruct a as [|r a]; cbn in S1; [lia|]. inversion S2. subst. split; cbn [length]; try reflexivity; lia. Qed.

(** ** masks *)
Lemma nth_error_imap {A} (g : Z -> A -> A) : forall l k i, nth_error (imap g k l) i = option_map (g (k + Z.of_nat i)) (nth_error l i).
Proof.
  induction l as [|a l IH]; intros k i; destruct i; cbn; auto.
  - f_equal. f_equal. lia.
  - rewrite IH. f_equal. f_equal. lia.
Qed.
Lemma imap_length {A} (g : Z -> A -> A) : forall l k, length (imap g k l) = length l.
Proof. induction l; intros; cbn; auto. Qed.
Lemma shape_imap2 g a h w : shape a h w -> shape (imap (fun i => imap (g i) 0) 0 a) h w.
Proof.
  intros (S1 & S2). split; [rewrite imap_length; exact S1|]. rewrite Forall_forall in *. intros r I. apply In_nth_error in I. destruct I as (n & E).
  rewrite nth_error_imap in E. destruct (nth_error a n) as [r'|] eqn:E'; [|discriminate]. injection E as <-. rewrite imap_length. apply S2. eapply nth_error_In, E'.
Qed.
Lemma pix_imap2 g a i j : pix (imap (fun i => imap (g i) 0) 0 a) i j = option_map (g (Z.of_nat i) (Z.of_nat j)) (pix a i j).
Proof. unfold pix. rewrite nth_error_imap. destruct (nth_error a i) as [r|]; cbn; [|reflexivity]. rewrite nth_error_imap. reflexivity. Qed.
Lemma set_planes_map : forall m x0 x1 y0 y1 planes a, exists b, set_planes m (x0, x1, y0, y1) planes (Map a) = Ok (Map b) /\
  (forall h w, shape a h w -> shape b h w) /\
  forall i j, (Z.of_nat i < y1 - y0) -> (Z.of_nat j < x1 - x0) ->
  pix b i j = if existsb (fun p => m p (y0 + Z.of_nat i) (x0 + Z.of_nat j)) planes then option_map (fun _ => 0%R) (pix a i j) else pix a i j.
Proof.
  intros m x0 x1 y0 y1. induction planes as [|p planes IH]; intros a; [exists a; split; [reflexivity|]; split; [auto|reflexivity]|].
  cbn [set_planes set_masked bind].
  set (g := fun i j (v : R) => if (i <? y1 - y0) && (j <? x1 - x0) && m p (y0 + i) (x0 + j) then 0%R else v).
  destruct (IH (imap (fun i => imap (g i) 0) 0 a)) as (b & E & SH & PX). exists b. split; [exact E|]. split; [intros h w S; apply SH, shape_imap2, S|].
  intros i j I J. rewrite PX by assumption. rewrite pix_imap2. unfold g.
  replace (Z.of_nat i <? y1 - y0) with true by lia. replace (Z.of_nat j <? x1 - x0) with true by lia. cbn [andb existsb].
  destruct (m p (y0 + Z.of_nat i) (x0 + Z.of_nat j)); cbn [orb]; [|destruct (pix a i j); reflexivity].
  destruct (existsb _ planes); destruct (pix a i j); reflexivity.
Qed.

(** ** the pixelized PSF *)
Definition all_zero (a : arr) : Prop := forall i j v, pix a i j = Some v -> v = 0%R.
(** [b] is [a] without [k] pixels on all sides *)
Definition central (k : nat) (a b : arr) (h w : nat) : Prop :=
  shape b (h - 2 * k) (w - 2 * k) /\ (2 * k < h)%nat /\ (2 * k < w)%nat /\
  (forall i j, (i < h - 2 * k)%nat -> (j < w - 2 * k)%nat -> pix b i j = pix a (i + k) (j + k)) /\
  forall i j v, pix a i j = Some v -> v <> 0%R -> (k <= i < h - k)%nat /\ (k <= j < w - k)%nat.
Lemma pix_some a h w : shape a h w -> forall i j, (exists v, pix a i j = Some v) <-> (i < h)%nat /\ (j < w)%nat.
Proof.
  intros (S1 & S2) i j. unfold pix. split.
  - intros (v & E). destruct (nth_error a i) as [r|] eqn:N; [|discriminate]. rewrite Forall_forall in S2. assert (L := S2 r (nth_error_In _ _ N)).
    split; [rewrite <- S1; apply nth_error_Some; congruence|rewrite <- L; apply nth_error_Some; congruence].
  - intros (I & J). destruct (nth_error a i) as [r|] eqn:N; [|apply nth_error_None in N; lia]. rewrite Forall_forall in S2. assert (L := S2 r (nth_error_In _ _ N)).
    destruct (nth_error r j) as [v|] eqn:N2; [eauto|apply nth_error_None in N2; lia].
Qed.
Lemma pix_in a h w i j v : shape a h w -> pix a i j = Some v -> (i < h)%nat /\ (j < w)%nat.
Proof. intros S E. apply (pix_some a h w S). exists v. exact E. Qed.
Lemma zeros_spec l : zeros l = true <-> forall j v, nth_error l j = Some v -> v = 0%R.
Proof.
  unfold zeros. rewrite forallb_forall. split.
  - intros H j v E. specialize (H v (nth_error_In _ _ E)). destruct (Req_EM_T v 0); [assumption|discriminate].
  - intros H v I. apply In_nth_error in I. destruct I as (n & E). rewrite (H n v E). destruct (Req_EM_T 0 0); [reflexivity|contradiction].
Qed.
(** [border_zero] decides whether the outermost pixels are all zero *)
Definition on_border (h w i j : nat) : Prop := (i = 0 \/ j = 0 \/ S i = h \/ S j = w)%nat.
Lemma column_spec a h w (j : Z) jj : shape a h w -> (0 < h)%nat -> (jj < w)%nat -> Z.of_nat jj = (if j <? 0 then j + Z.of_nat w else j) ->
  exists c, column j a = Ok c /\ (zeros c = true <-> forall i v, pix a i jj = Some v -> v = 0%R).
Proof.
  intros S H J E. assert (WH := shape_width a h w S H). unfold column. destruct WH as (-> & _). destruct (Z.eqb_spec (Z.of_nat w) 0); [lia|].
  rewrite <- E, Nat2Z.id. eexists. split; [reflexivity|]. rewrite zeros_spec. destruct S as (S1 & S2). rewrite Forall_forall in S2. split.
  - intros Z i v P. unfold pix in P. destruct (nth_error a i) as [r|] eqn:N; [|discriminate]. apply (Z i). rewrite nth_error_map, N. cbn. f_equal. apply nth_error_nth. exact P.
  - intros Z i v P. rewrite nth_error_map in P. destruct (nth_error a i) as [r|] eqn:N; [|discriminate]. injection P as <-. apply (Z i). unfold pix. rewrite N.
    apply nth_error_nth'. rewrite (S2 r (nth_error_In _ _ N)). exact J.
Qed.
Lemma last_nth {A} : forall (l : list A) d, last l d = nth (length l - 1) l d.
Proof. induction l as [|a [|b l] IH]; intros d; try reflexivity. change (last (b :: l) d = nth (length (a :: b :: l) - 1) (a :: b :: l) d). rewrite IH. cbn. rewrite Nat.sub_0_r. reflexivity. Qed.
Lemma border_zero_spec a h w : shape a h w -> (0 < h)%nat -> (0 < w)%nat -> exists b, border_zero a = Ok b /\
  (b = true <-> forall i j v, pix a i j = Some v -> on_border h w i j -> v = 0%R).
Proof.
  intros S H W. assert (S' := S). destruct S' as (S1 & S2).
  destruct (column_spec a h w 0 0 S H W) as (c0 & C0 & Z0); [reflexivity|].
  destruct (column_spec a h w (-1) (w - 1) S H) as (c1 & C1 & Z1); [lia|cbn [Z.ltb]; change (-1 <? 0) with true; cbn [Z.ltb]; lia|].
  assert (R0 : forall r a', a = r :: a' -> (zeros r = true <-> forall j v, pix a 0 j = Some v -> v = 0%R)). { intros r a' ->. rewrite zeros_spec. reflexivity. }
  assert (R1 : zeros (last a []) = true <-> forall j v, pix a (h - 1) j = Some v -> v = 0%R).
  { rewrite zeros_spec, last_nth, S1. unfold pix. assert (N : nth_error a (h - 1) = Some (nth (h - 1) a [])) by (apply nth_error_nth'; lia). rewrite N. reflexivity. }
  unfold border_zero. destruct a as [|r a'] eqn:EA; [cbn in S1; lia|]. rewrite <- EA in *. specialize (R0 r a' EA).
  assert (PS : forall i j v, pix a i j = Some v -> (i < h)%nat /\ (j < w)%nat). { intros i j v E. apply (pix_some a h w S). eauto. }
  destruct (zeros r) eqn:ZR.
  - rewrite C0. cbn [bind]. destruct (zeros c0) eqn:ZC.
    + destruct (zeros (last a [])) eqn:ZL.
      * rewrite C1. cbn [bind]. eexists. split; [reflexivity|]. split.
        -- intros E i j v P B. destruct B as [-> | [-> | [B | B]]].
           ++ eapply (proj1 R0); eauto.
           ++ eapply (proj1 Z0); eauto.
           ++ replace i with (h - 1)%nat in P by lia. eapply (proj1 R1); eauto.
           ++ replace j with (w - 1)%nat in P by lia. eapply (proj1 Z1); eauto.
        -- intros E. apply Z1. intros i v P. apply (E _ _ _ P). right. right. right. lia.
      * eexists. split; [reflexivity|]. split; [discriminate|]. intros E. exfalso. assert (F : false = true); [|discriminate]. apply R1. intros j v P. apply (E _ _ _ P). right. right. left. lia.
    + eexists. split; [reflexivity|]. split; [discriminate|]. intros E. exfalso. assert (F : false = true); [|discriminate]. apply Z0. intros i v P. apply (E _ _ _ P). right. left. lia.
  - eexists. split; [reflexivity|]. split; [discriminate|]. intros E. exfalso. assert (F : false = true); [|discriminate]. apply R0. intros j v P. apply (E _ _ _ P). left. lia.
Qed.
Lemma inner_slice {A} (l : list A) : (2 <= length l)%nat -> inner l = slice 1 (length l - 1) l.
Proof. intros L. unfold inner, zslice, clip. cbv zeta. change (1 <? 0) with false. change (-1 <? 0) with true. cbv beta iota. f_equal; lia. Qed.
Lemma inner_short {A} (l : list A) : (length l <= 2)%nat -> inner l = [].
Proof. intros L. destruct l as [|a [|b [|c l]]]; try reflexivity. cbn in L. lia. Qed.
Lemma shape_inner a h w : shape a h w -> shape (map inner (inner a)) (h - 2) (w - 2).
Proof.
  intros (S1 & S2). assert (LI : forall A (l : list A), length (inner l) = (length l - 2)%nat).
  { intros A l. destruct (le_lt_dec (length l) 2); [rewrite inner_short by lia; cbn; lia|]. rewrite inner_slice, slice_length by lia. lia. }
  split; [rewrite map_length, LI; lia|]. apply Forall_forall. intros r I. apply in_map_iff in I. destruct I as (r' & <- & I). rewrite LI. f_equal.
  rewrite Forall_forall in S2. apply S2. destruct (le_lt_dec (length a) 2); [rewrite inner_short in I by lia; destruct I|]. rewrite inner_slice in I by lia.
  assert (F : Forall (fun x => In x a) a) by (apply Forall_forall; auto). apply (Forall_slice _ 1 (length a - 1)) in F. rewrite Forall_forall in F. apply F. exact I.
Qed.
Lemma pix_inner a h w i j : shape a h w -> (i < h - 2)%nat -> (j < w - 2)%nat -> pix (map inner (inner a)) i j = pix a (i + 1) (j + 1).
Proof.
  intros (S1 & S2) I J. unfold pix. rewrite nth_error_map, inner_slice by lia. rewrite nth_error_slice by lia. replace (1 + i)%nat with (i + 1)%nat by lia.
  destruct (nth_error a (i + 1)) as [r|] eqn:N; cbn [option_map]; [|reflexivity]. rewrite Forall_forall in S2. assert (L := S2 r (nth_error_In _ _ N)).
  rewrite inner_slice by lia. rewrite nth_error_slice by lia. f_equal. lia.
Qed.
Lemma trim_ok : forall fuel a h w, (h < fuel)%nat -> shape a h w -> ~ all_zero a -> exists k b, trim fuel a = Ok b /\ central k a b h w /\
  ~ (forall i j v, pix b i j = Some v -> on_border (h - 2 * k) (w - 2 * k) i j -> v = 0%R).
Proof.
  induction fuel as [|fuel IH]; intros a h w F S NZ; [lia|].
  assert (HW : (0 < h)%nat /\ (0 < w)%nat).
  { destruct h as [|h]; [exfalso; apply NZ; intros i j v E; apply (pix_in a _ _ _ _ _ S) in E; lia|].
    destruct w as [|w]; [exfalso; apply NZ; intros i j v E; apply (pix_in a _ _ _ _ _ S) in E; lia|]. lia. }
  destruct HW as (H & W). destruct (border_zero_spec a h w S H W) as (b & E & SP). cbn [trim]. rewrite E. cbn [bind]. destruct b.
  - assert (Z := proj1 SP eq_refl). clear SP.
    assert (IN : forall i j v, pix a i j = Some v -> v <> 0%R -> (1 <= i < h - 1)%nat /\ (1 <= j < w - 1)%nat).
    { intros i j v P NV. assert (B := pix_in _ _ _ _ _ _ S P).
      assert (NB : ~ on_border h w i j) by (intros OB; exact (NV (Z _ _ _ P OB))). unfold on_border in NB. lia. }
    destruct (IH (map inner (inner a)) (h - 2)%nat (w - 2)%nat) as (k & b & TR & (C1 & C2 & C3 & C4 & C5) & TI); [lia|apply shape_inner, S| |].
    { intros AZ. apply NZ. intros i j v P. destruct (Req_EM_T v 0) as [|NV]; [assumption|]. destruct (IN _ _ _ P NV). apply (AZ (i - 1)%nat (j - 1)%nat).
      rewrite (pix_inner a h w) by (assumption || lia). rewrite <- P. f_equal; lia. }
    exists (Datatypes.S k), b. split; [exact TR|].
    replace (h - 2 - 2 * k)%nat with (h - 2 * Datatypes.S k)%nat in * by lia. replace (w - 2 - 2 * k)%nat with (w - 2 * Datatypes.S k)%nat in * by lia. split; [|exact TI].
    split; [exact C1|]. split; [lia|]. split; [lia|]. split.
    + intros i j I J. rewrite C4 by assumption. rewrite (pix_inner a h w) by (assumption || lia). f_equal; lia.
    + intros i j v P NV. destruct (IN _ _ _ P NV). destruct (C5 (i - 1)%nat (j - 1)%nat v); [|assumption|lia].
      rewrite (pix_inner a h w) by (assumption || lia). rewrite <- P. f_equal; lia.
  - exists 0%nat, a. split; [reflexivity|]. replace (h - 2 * 0)%nat with h by lia. replace (w - 2 * 0)%nat with w by lia. split.
    + split; [replace (h - 2 * 0)%nat with h by lia; replace (w - 2 * 0)%nat with w by lia; exact S|]. split; [lia|]. split; [lia|]. split; [intros; f_equal; lia|].
      intros i j v P NV. assert (B := pix_in _ _ _ _ _ _ S P). lia.
    + intros Z. assert (X : false = true) by (apply SP; exact Z). discriminate.
Qed.
Lemma trim_zero : forall fuel a h w, (h < fuel)%nat -> shape a h w -> all_zero a -> trim fuel a = Err IndexError.
Proof.
  induction fuel as [|fuel IH]; intros a h w F S AZ; [lia|]. cbn [trim].
  destruct h as [|h]. { destruct a; [reflexivity|destruct S; discriminate]. }
  destruct w as [|w].
  { unfold border_zero. destruct S as (S1 & S2). destruct a as [|r a]; [discriminate|]. inversion S2 as [|? ? L2]. destruct r; [|discriminate]. reflexivity. }
  destruct (border_zero_spec a (Datatypes.S h) (Datatypes.S w) S) as (b & E & SP); [lia|lia|]. rewrite E. cbn [bind]. destruct b.
  - apply (IH _ (Datatypes.S h - 2)%nat (Datatypes.S w - 2)%nat); [lia|apply shape_inner, S|]. intros i j v P.
    assert (B := pix_in _ _ _ _ _ _ (shape_inner _ _ _ S) P). rewrite (pix_inner a (Datatypes.S h) (Datatypes.S w)) in P by (assumption || lia). exact (AZ _ _ _ P).
  - exfalso. assert (X : false = true); [|discriminate]. apply SP. intros i j v P _. exact (AZ _ _ _ P).
Qed.

(** The loop stops at the smallest centred stamp with all nonzero pixels;
    a stamp of zeros ends with an exception. *)
Theorem C93_trim : forall a h w, shape a h w ->
  (~ all_zero a -> exists k b, trim (S h) a = Ok b /\ central k a b h w /\
    ~ (forall i j v, pix b i j = Some v -> on_border (h - 2 * k) (w - 2 * k) i j -> v = 0%R)) /\
  (all_zero a -> trim (S h) a = Err IndexError).
Proof. intros a h w S. split; intros Z; [apply (trim_ok _ a h w); auto|apply (trim_zero _ a h w); auto]. Qed.

Section Load.
Context {G D P : Type}.
Notation frame := (frame G D P).
Notation loaded := (loaded G D P).

(** A frame with [h] rows and [w] columns. *)
Definition wf (f : frame) (h w : nat) : Prop :=
  shape (fimage f) h w /\ (forall b, shape (fivar f b) h w) /\ (0 < h)%nat /\ (0 < w)%nat.
Definition good_stamp (a : arr) : Prop := exists h w, shape a h w /\ Nat.odd h = true /\ Nat.odd w = true /\ ~ all_zero a.
(** The PSF names that work: pixelized ones need stamps of odd size that are
    not all zero. *)
Definition usable (f : frame) (name : string) : Prop :=
  In name ["dg"; "kl-gm"; "bright-dg"; "bright-kl-gm"]%string \/
  (In name ["kl-pix"; "bright-kl-pix"]%string /\ forall x y, good_stamp (psf_at f x y)).
Definition planes : list string := ["INTERP"; "SATUR"; "CR"; "GHOST"]%string.
Definition bad_pixel (f : frame) (row col : Z) : bool := existsb (fun p => masked f p row col) planes.
Definition inside (r : region) (h w : nat) : Prop :=
  let '(x0, x1, y0, y1) := r in 0 <= x0 < x1 /\ x1 <= Z.of_nat w /\ 0 <= y0 < y1 /\ y1 <= Z.of_nat h.

(** [l] shows the pixels of [f] in the region: same values at the same places
    on the sky, where pixel (x, y) of the frame has its centre at asTrans
    coordinates (x + 1/2, y + 1/2). *)
Definition shows (f : frame) (l : loaded) (r : region) : Prop :=
  let '(x0, x1, y0, y1) := r in
  shape (limage l) (Z.to_nat (y1 - y0)) (Z.to_nat (x1 - x0)) /\
  forall i j, (Z.of_nat i < y1 - y0) -> (Z.of_nat j < x1 - x0) ->
    pix (limage l) i j = pix (fimage f) (Z.to_nat y0 + i) (Z.to_nat x0 + j) /\
    (exists q, pixel_to_position f l (inject_Z (Z.of_nat j)) (inject_Z (Z.of_nat i)) = to_sky f q /\
      fst q == inject_Z (x0 + Z.of_nat j) + (1 # 2) /\ snd q == inject_Z (y0 + Z.of_nat i) + (1 # 2))%Q /\
    forall p, (fst (to_pix f p) == inject_Z (x0 + Z.of_nat j) + (1 # 2))%Q -> (snd (to_pix f p) == inject_Z (y0 + Z.of_nat i) + (1 # 2))%Q ->
      (fst (position_to_pixel f l p) == inject_Z (Z.of_nat j) /\ snd (position_to_pixel f l p) == inject_Z (Z.of_nat i))%Q.
(** The inverse variance image is that of the frame, zero at bad pixels. *)
Definition weighted (f : frame) (l : loaded) (r : region) (iv : nat -> nat -> option R) : Prop :=
  let '(x0, x1, y0, y1) := r in
  exists a, livar l = Map a /\ shape a (Z.to_nat (y1 - y0)) (Z.to_nat (x1 - x0)) /\
  forall i j, (Z.of_nat i < y1 - y0) -> (Z.of_nat j < x1 - x0) ->
    pix a i j = if bad_pixel f (y0 + Z.of_nat i) (x0 + Z.of_nat j) then Some 0%R else iv (Z.to_nat y0 + i)%nat (Z.to_nat x0 + j)%nat.

Lemma make_psf_pix (f : frame) x y : good_stamp (psf_at f x y) -> exists k b h w, make_psf f "kl-pix" x y = Ok (Pixelized b) /\ shape (psf_at f x y) h w /\ central k (psf_at f x y) b h w /\
    ~ (forall i j v, pix b i j = Some v -> on_border (h - 2 * k) (w - 2 * k) i j -> v = 0%R).
Proof.
  intros (h & w & S & O1 & O2 & NZ). unfold make_psf. change (("kl-pix" =? "kl-pix")%string) with true. cbv iota.
  destruct S as (S1 & S2). rewrite S1. destruct (proj1 (C93_trim (psf_at f x y) h w (conj S1 S2)) NZ) as (k & b & E & C & T). rewrite E. cbn [bind].
  destruct C as (C1 & C2 & C3 & C4). assert (SW := shape_width b _ _ C1 ltac:(lia)). destruct SW as (-> & ->).
  exists k, b, h, w. split; [|split; [split; assumption|split; [split; [exact C1|auto]|exact T]]].
  apply Nat.odd_spec in O1. destruct O1 as (m & ->). apply Nat.odd_spec in O2. destruct O2 as (m' & ->).
  replace (Z.odd (Z.of_nat (2 * m + 1 - 2 * k))) with true; [replace (Z.odd (Z.of_nat (2 * m' + 1 - 2 * k))) with true; [reflexivity|]|];
  symmetry; apply Z.odd_spec; [exists (Z.of_nat m' - Z.of_nat k)|exists (Z.of_nat m - Z.of_nat k)]; lia.
Qed.
Lemma strip_usable (f : frame) name : usable f name -> exists b n, strip_bright name = (b, n) /\ valid_psf n = true /\ forall x y, exists p, make_psf f n x y = Ok p.
Proof.
  assert (DG : forall x y, exists p, make_psf f "dg" x y = Ok p) by (intros; eexists; reflexivity).
  assert (GM : forall x y, exists p, make_psf f "kl-gm" x y = Ok p).
  { intros. unfold make_psf. change (("kl-gm" =? "kl-pix")%string) with false. change (("kl-gm" =? "kl-gm")%string) with true. cbv iota zeta. destruct (em_fit _ _ _ _); eexists; reflexivity. }
  intros [I|[I H]].
  - destruct I as [<-|[<-|[<-|[<-|[]]]]]; do 2 eexists; (split; [reflexivity|]); (split; [reflexivity|]); assumption.
  - assert (KP : forall x y, exists p, make_psf f "kl-pix" x y = Ok p). { intros x y. destruct (make_psf_pix f x y (H x y)) as (k & b & h & w & E & _). eauto. }
    destruct I as [<-|[<-|[]]]; do 2 eexists; (split; [reflexivity|]); (split; [reflexivity|]); assumption.
Qed.

Lemma shows_ok (f : frame) (l : loaded) h w x0 x1 y0 y1 : wf f h w -> inside (x0, x1, y0, y1) h w -> lx0 l = (inject_Z x0 + (1 # 2))%Q -> ly0 l = (inject_Z y0 + (1 # 2))%Q ->
  (limage l = slice2 (x0, x1, y0, y1) (fimage f) \/ (limage l = fimage f /\ (x0, x1, y0, y1) = (0, Z.of_nat w, 0, Z.of_nat h))) -> shows f l (x0, x1, y0, y1).
Proof.
  intros (W1 & W2 & W3 & W4) (I1 & I2 & I3 & I4) X Y IM. assert (PX : shape (limage l) (Z.to_nat (y1 - y0)) (Z.to_nat (x1 - x0)) /\
    forall i j, (Z.of_nat i < y1 - y0) -> (Z.of_nat j < x1 - x0) -> pix (limage l) i j = pix (fimage f) (Z.to_nat y0 + i) (Z.to_nat x0 + j)).
  { destruct IM as [-> | (-> & E)]; [split; [eapply shape_slice2; [exact W1|lia..]|intros i j I J; eapply pix_slice2; [exact W1|lia..]]|].
    injection E as -> -> -> ->. split; [replace (Z.to_nat (Z.of_nat h - 0)) with h by lia; replace (Z.to_nat (Z.of_nat w - 0)) with w by lia; exact W1|]. intros i j I J. reflexivity. }
  destruct PX as (SH & PX). split; [exact SH|]. intros i j I J. split; [apply PX; assumption|]. split.
  - unfold pixel_to_position. eexists. split; [reflexivity|]. rewrite X, Y. cbn [fst snd]. rewrite !inject_Z_plus. split; ring.
  - intros p E1 E2. unfold position_to_pixel. cbn [fst snd]. rewrite X, Y, E1, E2, !inject_Z_plus. split; ring.
Qed.
Lemma load_ok : forall (f : frame) h w name roi rs rb nano ign zr r has, wf f h w -> usable f name -> inside r h w ->
  interpret_roi (to_pix f) (Z.of_nat h) (Z.of_nat w) roi rs rb = Some (r, has) -> (has = false -> r = (0, Z.of_nat w, 0, Z.of_nat h)) ->
  exists l, load f name roi rs rb nano ign false false zr = Ok (Some l) /\ lroi l = r /\ shows f l r /\ weighted f l r (pix (fivar f ign)).
Proof.
  intros f h w name roi rs rb nano ign zr (((x0 & x1) & y0) & y1) has WF US IN IR HF. assert (WF' := WF). destruct WF' as (W1 & W2 & W3 & W4).
  destruct (strip_usable f name US) as (b & n & EB & EV & EP). unfold load. rewrite EB, EV. cbn [negb].
  destruct (shape_width _ _ _ W1 W3) as (WW & WH). rewrite WW, WH, IR. cbn [orb bind].
  destruct (shape_width _ _ _ (W2 ign) W3) as (VW & VH). rewrite VW, VH, !Z.eqb_refl. cbn [andb bind negb orb].
  set (iv := if has then Map (slice2 (x0, x1, y0, y1) (fivar f ign)) else Map (fivar f ign)).
  assert (IVP : exists a0, iv = Map a0 /\ shape a0 (Z.to_nat (y1 - y0)) (Z.to_nat (x1 - x0)) /\ forall i j, (Z.of_nat i < y1 - y0) -> (Z.of_nat j < x1 - x0) ->
      pix a0 i j = pix (fivar f ign) (Z.to_nat y0 + i)%nat (Z.to_nat x0 + j)%nat).
  { destruct IN as (I1 & I2 & I3 & I4). unfold iv. destruct has.
    - eexists. split; [reflexivity|]. split; [eapply shape_slice2; [exact (W2 ign)|lia..]|]. intros i j I J. eapply pix_slice2; [exact (W2 ign)|lia..].
    - specialize (HF eq_refl). injection HF as -> -> -> ->. eexists. split; [reflexivity|].
      split; [replace (Z.to_nat (Z.of_nat h - 0)) with h by lia; replace (Z.to_nat (Z.of_nat w - 0)) with w by lia; exact (W2 ign)|reflexivity]. }
  destruct IVP as (a0 & EIV & SIV & PIV). fold planes.
  destruct (set_planes_map (masked f) x0 x1 y0 y1 planes a0) as (a1 & E1 & S1 & P1).
  rewrite EIV. rewrite E1. cbn [bind].
  match goal with |- context [make_psf f n ?u ?v] => destruct (EP u v) as (p & ->) end. cbn [bind].
  eexists. split; [reflexivity|]. split; [reflexivity|]. split.
  - eapply shows_ok; [exact WF|exact IN|reflexivity|reflexivity|]. cbn [limage]. destruct has; [left; reflexivity|right; split; [reflexivity|apply HF; reflexivity]].
  - exists a1. split; [reflexivity|]. split; [apply S1, SIV|]. intros i j I J. rewrite P1 by assumption. fold (bad_pixel f (y0 + Z.of_nat i) (x0 + Z.of_nat j)).
    rewrite PIV by assumption. destruct (bad_pixel _ _ _); [|reflexivity].
    destruct (proj2 (pix_some (fivar f ign) h w (W2 ign) (Z.to_nat y0 + i) (Z.to_nat x0 + j))) as (v & ->); [destruct IN as (I1 & I2 & I3 & I4); lia|reflexivity].
Qed.

Lemma load_offset : forall (f : frame) h w name roi rs rb nano ign at_ ati zr x0 x1 y0 y1 has l, wf f h w ->
  interpret_roi (to_pix f) (Z.of_nat h) (Z.of_nat w) roi rs rb = Some ((x0, x1, y0, y1), has) -> load f name roi rs rb nano ign at_ ati zr = Ok (Some l) ->
  lx0 l = (inject_Z x0 + (1 # 2))%Q /\ ly0 l = (inject_Z y0 + (1 # 2))%Q.
Proof.
  intros f h w name roi rs rb nano ign at_ ati zr x0 x1 y0 y1 has l (W1 & W2 & W3 & W4) IR A.
  revert A. unfold load. destruct (strip_bright name) as (b, n). destruct (negb (valid_psf n)); [discriminate|].
  destruct (shape_width _ _ _ W1 W3) as (WW & WH). rewrite WW, WH, IR. intros A.
  apply bind_ok in A. destruct A as (iv & _ & A). cbv zeta in A. apply bind_ok in A. destruct A as (iv' & _ & A). apply bind_ok in A. destruct A as (p & _ & A).
  injection A as <-. split; reflexivity.
Qed.
Definition whole (h w : nat) : region := (0, Z.of_nat w, 0, Z.of_nat h).
Lemma interpret_explicit tp h w r : exists has, interpret_roi tp h w (Some r) None None = Some (r, has) /\ (has = false -> r = (0, w, 0, h)).
Proof.
  destruct r as (((x0 & x1) & y0) & y1). unfold interpret_roi. eexists. split; [reflexivity|].
  destruct (Z.eqb_spec x0 0), (Z.eqb_spec y0 0), (Z.eqb_spec x1 w), (Z.eqb_spec y1 h); cbn; intros; try discriminate. congruence.
Qed.
(** Any region of the frame, or the whole of it, is shown with the weights of the
    frame, except for bad pixels which get none. *)
Theorem C93_image : forall (f : frame) h w name r nano ign zr, wf f h w -> usable f name -> inside r h w ->
  exists l, load f name (Some r) None None nano ign false false zr = Ok (Some l) /\ shows f l r /\ weighted f l r (pix (fivar f ign)).
Proof.
  intros f h w name r nano ign zr WF US IN. destruct (interpret_explicit (to_pix f) (Z.of_nat h) (Z.of_nat w) r) as (has & E & HF).
  destruct (load_ok f h w name (Some r) None None nano ign zr r has WF US IN E HF) as (l & A & B & C & D'). eauto.
Qed.
Theorem C93_whole : forall (f : frame) h w name nano ign zr, wf f h w -> usable f name ->
  exists l, load f name None None None nano ign false false zr = Ok (Some l) /\ shows f l (whole h w) /\ weighted f l (whole h w) (pix (fivar f ign)).
Proof.
  intros f h w name nano ign zr WF US. assert (IN : inside (whole h w) h w) by (destruct WF as (_ & _ & W3 & W4); cbn; lia).
  assert (E : interpret_roi (to_pix f) (Z.of_nat h) (Z.of_nat w) None None None = Some (whole h w, false)) by (unfold interpret_roi; rewrite !Z.eqb_refl; reflexivity).
  destruct (load_ok f h w name None None None nano ign zr _ _ WF US IN E (fun _ => eq_refl)) as (l & A & B & C & D'). eauto.
Qed.

(** A region asked for by position and half-size: if it fits in the frame the
    position is in it, within one pixel of its centre. *)
Theorem C93_position : forall (f : frame) h w name ra dec sz roi nano ign zr, wf f h w -> usable f name -> 0 <= sz ->
  let c := to_pix f (ra, dec) in
  let xc := np_round (fst c) in let yc := np_round (snd c) in
  sz <= xc < Z.of_nat w - sz -> sz <= yc < Z.of_nat h - sz ->
  exists l, let r := (xc - sz, xc + sz + 1, yc - sz, yc + sz + 1) in
  load f name roi (Some (ra, dec, sz)) None nano ign false false zr = Ok (Some l) /\ shows f l r /\ weighted f l r (pix (fivar f ign)) /\
  (let xy := position_to_pixel f l (ra, dec) in
   inject_Z sz - 1 <= fst xy <= inject_Z sz /\ inject_Z sz - 1 <= snd xy <= inject_Z sz)%Q.
Proof.
  intros f h w name ra dec sz roi nano ign zr WF US SZ c xc yc HX HY. set (r := (xc - sz, xc + sz + 1, yc - sz, yc + sz + 1)).
  assert (IR : exists has, interpret_roi (to_pix f) (Z.of_nat h) (Z.of_nat w) roi (Some (ra, dec, sz)) None = Some (r, has) /\ (has = false -> r = (0, Z.of_nat w, 0, Z.of_nat h))).
  { assert (ES : size_roi (to_pix f) (Z.of_nat w) (Z.of_nat h) ra dec sz = r).
    { unfold size_roi. fold c xc yc. unfold clip, r. f_equal; [f_equal; [f_equal|]|]; lia. }
    unfold interpret_roi. rewrite ES. unfold r, empty. replace (xc - sz =? xc + sz + 1) with false by lia. replace (yc - sz =? yc + sz + 1) with false by lia. cbn [orb].
    eexists. split; [reflexivity|]. destruct (Z.eqb_spec (xc - sz) 0), (Z.eqb_spec (yc - sz) 0), (Z.eqb_spec (xc + sz + 1) (Z.of_nat w)), (Z.eqb_spec (yc + sz + 1) (Z.of_nat h)); cbn; intros; try discriminate. congruence. }
  destruct IR as (has & IR & HF).
  destruct (load_ok f h w name roi (Some (ra, dec, sz)) None nano ign zr r has WF US) as (l & A & B & C & D'); [unfold r, inside; lia|exact IR|exact HF|].
  exists l. cbv zeta. split; [exact A|]. split; [exact C|]. split; [exact D'|].
  assert (LX : lx0 l = (inject_Z (xc - sz) + (1 # 2))%Q /\ ly0 l = (inject_Z (yc - sz) + (1 # 2))%Q).
  { exact (load_offset _ _ _ _ _ _ _ _ _ _ _ _ _ _ _ _ _ _ WF IR A). }
  unfold position_to_pixel. fold c. destruct LX as (-> & ->). cbn [fst snd].
  assert (RX := np_round_nearest (fst c)). assert (RY := np_round_nearest (snd c)). fold xc in RX. fold yc in RY.
  apply Qabs_Qle_condition in RX. apply Qabs_Qle_condition in RY. unfold Zminus. rewrite !inject_Z_plus, !inject_Z_opp. split; split; lra.
Qed.

(** One constant inverse variance, taken at the central pixel. *)
Theorem C93_constant : forall (f : frame) h w name x0 x1 y0 y1 nano ign zr, wf f h w -> usable f name -> inside (x0, x1, y0, y1) h w ->
  exists l cx cy, load f name (Some (x0, x1, y0, y1)) None None nano ign true false zr = Ok (Some l) /\ shows f l (x0, x1, y0, y1) /\
  livar l = Scalar (fivar_at f ign cx cy) /\ x0 <= cx < x1 /\ y0 <= cy < y1 /\ Z.abs (2 * cx - (x0 + x1)) <= 1 /\ Z.abs (2 * cy - (y0 + y1)) <= 1.
Proof.
  intros f h w name x0 x1 y0 y1 nano ign zr WF US IN. assert (WF' := WF). destruct WF' as (W1 & W2 & W3 & W4).
  destruct (interpret_explicit (to_pix f) (Z.of_nat h) (Z.of_nat w) (x0, x1, y0, y1)) as (has & IR & HF).
  destruct (strip_usable f name US) as (b & n & EB & EV & EP). unfold load. rewrite EB, EV. cbn [negb].
  destruct (shape_width _ _ _ W1 W3) as (WW & WH). rewrite WW, WH. unfold region in *. rewrite IR. cbn [orb].
  assert (Q : forall u v, 0 <= u < v -> u <= Z.quot (u + v) 2 < v /\ Z.abs (2 * Z.quot (u + v) 2 - (u + v)) <= 1).
  { intros u v UV. rewrite Z.quot_div_nonneg by lia. assert (DM := Z.div_mod (u + v) 2 ltac:(lia)). assert (MB := Z.mod_pos_bound (u + v) 2 ltac:(lia)). lia. }
  assert (IN' := IN). destruct IN' as (I1 & I2 & I3 & I4). assert (QX := Q x0 x1 I1). assert (QY := Q y0 y1 I3).
  destruct has; cbn [bind negb orb].
  - match goal with |- context [make_psf f n ?u ?v] => destruct (EP u v) as (p & ->) end. cbn [bind].
    do 3 eexists. split; [reflexivity|]. split; [eapply shows_ok; [exact WF|exact IN|reflexivity|reflexivity|left; reflexivity]|]. split; [reflexivity|]. lia.
  - specialize (HF eq_refl). injection HF as -> -> -> ->.
    match goal with |- context [make_psf f n ?u ?v] => destruct (EP u v) as (p & ->) end. cbn [bind].
    do 3 eexists. split; [reflexivity|]. split; [eapply shows_ok; [exact WF|exact IN|reflexivity|reflexivity|right; split; reflexivity]|]. split; [reflexivity|]. cbn [Z.add] in QX, QY. lia.
Qed.
(** ... as an image, with no weight for bad pixels, if a region smaller than the
    frame was asked for. *)
Theorem C93_constant_image : forall (f : frame) h w name x0 x1 y0 y1 nano ign at_ zr, wf f h w -> usable f name -> inside (x0, x1, y0, y1) h w ->
  (x0, x1, y0, y1) <> whole h w ->
  exists l cx cy, load f name (Some (x0, x1, y0, y1)) None None nano ign at_ true zr = Ok (Some l) /\ shows f l (x0, x1, y0, y1) /\
  weighted f l (x0, x1, y0, y1) (fun _ _ => Some (fivar_at f ign cx cy)) /\ x0 <= cx < x1 /\ y0 <= cy < y1.
Proof.
  intros f h w name x0 x1 y0 y1 nano ign at_ zr WF US IN NW. assert (WF' := WF). destruct WF' as (W1 & W2 & W3 & W4).
  destruct (interpret_explicit (to_pix f) (Z.of_nat h) (Z.of_nat w) (x0, x1, y0, y1)) as (has & IR & HF).
  destruct has; [clear HF|exfalso; apply NW, HF; reflexivity].
  destruct (strip_usable f name US) as (b & n & EB & EV & EP). unfold load. rewrite EB, EV. cbn [negb].
  destruct (shape_width _ _ _ W1 W3) as (WW & WH). rewrite WW, WH. unfold region in *. rewrite IR. rewrite orb_true_r. cbn [bind negb orb]. fold planes.
  set (c := fivar_at f ign (Z.quot (x0 + x1) 2) (Z.quot (y0 + y1) 2)). set (im := slice2 (x0, x1, y0, y1) (fimage f)).
  assert (IN' := IN). destruct IN' as (I1 & I2 & I3 & I4).
  assert (SI : shape im (Z.to_nat (y1 - y0)) (Z.to_nat (x1 - x0))) by (eapply shape_slice2; [exact W1|lia..]).
  destruct (set_planes_map (masked f) x0 x1 y0 y1 planes (map (map (fun _ => c + 0)%R) im)) as (a1 & E1 & S1 & P1). rewrite E1. cbn [bind].
  match goal with |- context [make_psf f n ?u ?v] => destruct (EP u v) as (p & ->) end. cbn [bind].
  eexists. exists (Z.quot (x0 + x1) 2), (Z.quot (y0 + y1) 2). split; [reflexivity|].
  split; [eapply shows_ok; [exact WF|exact IN|reflexivity|reflexivity|left; reflexivity]|]. fold c. split.
  - exists a1. split; [reflexivity|]. split.
    + apply S1. destruct SI as (SI1 & SI2). split; [rewrite map_length; exact SI1|]. rewrite Forall_forall in *. intros r I. apply in_map_iff in I. destruct I as (r' & <- & I). rewrite map_length. apply SI2, I.
    + intros i j I J. rewrite P1 by assumption. fold (bad_pixel f (y0 + Z.of_nat i) (x0 + Z.of_nat j)).
      assert (PC : pix (map (map (fun _ => c + 0)%R) im) i j = Some c).
      { destruct (proj2 (pix_some im _ _ SI i j)) as (v & EV'); [lia|]. unfold pix in *. rewrite nth_error_map. destruct (nth_error im i) as [r|]; [|discriminate]. cbn. rewrite nth_error_map, EV'. cbn. f_equal. apply Rplus_0_r. }
      rewrite PC. destruct (bad_pixel _ _ _); reflexivity.
  - assert (Q : forall u v, 0 <= u < v -> u <= Z.quot (u + v) 2 < v).
    { intros u v UV. rewrite Z.quot_div_nonneg by lia. assert (DM := Z.div_mod (u + v) 2 ltac:(lia)). assert (MB := Z.mod_pos_bound (u + v) 2 ltac:(lia)). lia. }
    split; apply Q; assumption.
Qed.
(** Of a whole frame, no image is made: with any bad pixel an exception is
    raised, otherwise the weight remains one number. *)
Lemma any_masked_spec m x0 x1 y0 y1 : any_masked m (x0, x1, y0, y1) = true <-> exists y x, y0 <= y < y1 /\ x0 <= x < x1 /\ m y x = true.
Proof.
  unfold any_masked. rewrite existsb_exists. split.
  - intros (i & I & E). rewrite existsb_exists in E. destruct E as (j & J & E). rewrite in_seq in I, J. exists (y0 + Z.of_nat i), (x0 + Z.of_nat j). split; [lia|]. split; [lia|]. exact E.
  - intros (y & x & Y & X & E). exists (Z.to_nat (y - y0)). split; [apply in_seq; lia|]. rewrite existsb_exists. exists (Z.to_nat (x - x0)). split; [apply in_seq; lia|].
    rewrite <- E. f_equal; lia.
Qed.
Theorem C93_constant_image_refuted : forall (f : frame) h w name nano ign at_ zr, wf f h w -> usable f name ->
  ((exists y x, 0 <= y < Z.of_nat h /\ 0 <= x < Z.of_nat w /\ bad_pixel f y x = true) ->
    load f name None None None nano ign at_ true zr = Err TypeError) /\
  ((forall y x, 0 <= y < Z.of_nat h -> 0 <= x < Z.of_nat w -> bad_pixel f y x = false) ->
    exists l v, load f name None None None nano ign at_ true zr = Ok (Some l) /\ livar l = Scalar v).
Proof.
  intros f h w name nano ign at_ zr WF US. assert (WF' := WF). destruct WF' as (W1 & W2 & W3 & W4).
  destruct (strip_usable f name US) as (b & n & EB & EV & EP).
  assert (IR : interpret_roi (to_pix f) (Z.of_nat h) (Z.of_nat w) None None None = Some (whole h w, false)) by (unfold interpret_roi; rewrite !Z.eqb_refl; reflexivity).
  unfold load. rewrite EB, EV. cbn [negb].
  destruct (shape_width _ _ _ W1 W3) as (WW & WH). rewrite WW, WH. unfold region in *. rewrite IR. rewrite orb_true_r. unfold whole. cbn [bind negb orb]. fold planes.
  set (c := fivar_at f ign (Z.quot (Z.of_nat w) 2) (Z.quot (Z.of_nat h) 2)).
  assert (SP : forall l, set_planes (masked f) (0, Z.of_nat w, 0, Z.of_nat h) l (Scalar c) = if existsb (fun p => any_masked (masked f p) (0, Z.of_nat w, 0, Z.of_nat h)) l then Err TypeError else Ok (Scalar c)).
  { induction l as [|q l IH]; [reflexivity|]. cbn [set_planes set_masked existsb]. destruct (any_masked (masked f q) _); [reflexivity|]. cbn [bind orb]. exact IH. }
  rewrite SP. split.
  - intros (y & x & Y & X & E). replace (existsb _ planes) with true; [reflexivity|]. symmetry. unfold bad_pixel in E. rewrite existsb_exists in *. destruct E as (q & IQ & E).
    exists q. split; [exact IQ|]. apply any_masked_spec. eauto.
  - intros NB. replace (existsb _ planes) with false.
    + cbn [bind]. match goal with |- context [make_psf f n ?u ?v] => destruct (EP u v) as (p & ->) end. cbn [bind]. do 2 eexists. split; reflexivity.
    + symmetry. apply not_true_is_false. intros E. rewrite existsb_exists in E. destruct E as (q & IQ & E). apply any_masked_spec in E. destruct E as (y & x & Y & X & E).
      specialize (NB y x Y X). unfold bad_pixel in NB. assert (T : existsb (fun p => masked f p y x) planes = true) by (apply existsb_exists; eauto). congruence.
Qed.

(** A region asked for by ranges of positions: the corners are in it or at most
    half a pixel outside. *)
Theorem C93_box : forall (f : frame) h w name ra0 ra1 dec0 dec1 roi nano ign zr, wf f h w -> usable f name ->
  let corners := [(ra0, dec0); (ra1, dec0); (ra0, dec1); (ra1, dec1)] in
  (forall c, In c corners -> 0 <= np_round (fst (to_pix f c)) < Z.of_nat w /\ 0 <= np_round (snd (to_pix f c)) < Z.of_nat h) ->
  exists l r, load f name roi None (Some (ra0, ra1, dec0, dec1)) nano ign false false zr = Ok (Some l) /\ inside r h w /\ shows f l r /\
  weighted f l r (pix (fivar f ign)) /\
  forall c, In c corners -> (let xy := position_to_pixel f l c in
    - (1) <= fst xy <= inject_Z (width (limage l)) - 1 /\ - (1) <= snd xy <= inject_Z (height (limage l)) - 1)%Q.
Proof.
  intros f h w name ra0 ra1 dec0 dec1 roi nano ign zr WF US corners HC. assert (WF' := WF). destruct WF' as (W1 & W2 & W3 & W4).
  set (px r d := np_round (fst (to_pix f (r, d)))). set (py r d := np_round (snd (to_pix f (r, d)))).
  set (x0 := min4 (px ra0 dec0) (px ra1 dec0) (px ra0 dec1) (px ra1 dec1)). set (x1 := max4 (px ra0 dec0) (px ra1 dec0) (px ra0 dec1) (px ra1 dec1)).
  set (y0 := min4 (py ra0 dec0) (py ra1 dec0) (py ra0 dec1) (py ra1 dec1)). set (y1 := max4 (py ra0 dec0) (py ra1 dec0) (py ra0 dec1) (py ra1 dec1)).
  assert (C1 := HC (ra0, dec0) (or_introl eq_refl)). assert (C2 := HC (ra1, dec0) (or_intror (or_introl eq_refl))).
  assert (C3 := HC (ra0, dec1) (or_intror (or_intror (or_introl eq_refl)))). assert (C4 := HC (ra1, dec1) (or_intror (or_intror (or_intror (or_introl eq_refl))))).
  fold (px ra0 dec0) (py ra0 dec0) in C1. fold (px ra1 dec0) (py ra1 dec0) in C2. fold (px ra0 dec1) (py ra0 dec1) in C3. fold (px ra1 dec1) (py ra1 dec1) in C4.
  set (r := (x0, x1 + 1, y0, y1 + 1)).
  assert (IN : inside r h w). { unfold r, inside, x0, x1, y0, y1, min4, max4. lia. }
  assert (IR : exists has, interpret_roi (to_pix f) (Z.of_nat h) (Z.of_nat w) roi None (Some (ra0, ra1, dec0, dec1)) = Some (r, has) /\ (has = false -> r = (0, Z.of_nat w, 0, Z.of_nat h))).
  { assert (ES : box_roi (to_pix f) (Z.of_nat w) (Z.of_nat h) ra0 ra1 dec0 dec1 = r).
    { change (box_roi (to_pix f) (Z.of_nat w) (Z.of_nat h) ra0 ra1 dec0 dec1) with (clip x0 0 (Z.of_nat w), clip (x1 + 1) 0 (Z.of_nat w), clip y0 0 (Z.of_nat h), clip (y1 + 1) 0 (Z.of_nat h)). unfold clip, r. unfold r, inside in IN. f_equal; [f_equal; [f_equal|]|]; lia. }
    unfold interpret_roi. rewrite ES. unfold r, empty. unfold r, inside in IN. replace (x0 =? x1 + 1) with false by lia. replace (y0 =? y1 + 1) with false by lia. cbn [orb].
    eexists. split; [reflexivity|]. destruct (Z.eqb_spec x0 0), (Z.eqb_spec y0 0), (Z.eqb_spec (x1 + 1) (Z.of_nat w)), (Z.eqb_spec (y1 + 1) (Z.of_nat h)); cbn; intros; try discriminate. congruence. }
  destruct IR as (has & IR & HF).
  destruct (load_ok f h w name roi None (Some (ra0, ra1, dec0, dec1)) nano ign zr r has WF US IN IR HF) as (l & A & B & C & D').
  exists l, r. split; [exact A|]. split; [exact IN|]. split; [exact C|]. split; [exact D'|].
  assert (LX : lx0 l = (inject_Z x0 + (1 # 2))%Q /\ ly0 l = (inject_Z y0 + (1 # 2))%Q).
  { exact (load_offset _ _ _ _ _ _ _ _ _ _ _ _ _ _ _ _ _ _ WF IR A). }
  destruct LX as (LX & LY). destruct C as (SH & _). unfold r, inside in IN. destruct (shape_width _ _ _ SH ltac:(lia)) as (-> & ->).
  rewrite !Z2Nat.id by lia.
  assert (BND : forall c, In c corners -> x0 <= np_round (fst (to_pix f c)) <= x1 /\ y0 <= np_round (snd (to_pix f c)) <= y1).
  { intros c I. unfold x0, x1, y0, y1, min4, max4. destruct I as [<-|[<-|[<-|[<-|[]]]]].
    - fold (px ra0 dec0) (py ra0 dec0). lia.
    - fold (px ra1 dec0) (py ra1 dec0). lia.
    - fold (px ra0 dec1) (py ra0 dec1). lia.
    - fold (px ra1 dec1) (py ra1 dec1). lia. }
  intros c I. destruct (BND c I) as (BX & BY). cbv zeta. unfold position_to_pixel. rewrite LX, LY. cbn [fst snd].
  assert (RX := np_round_nearest (fst (to_pix f c))). assert (RY := np_round_nearest (snd (to_pix f c))).
  apply Qabs_Qle_condition in RX. apply Qabs_Qle_condition in RY. destruct BX as (BX1 & BX2). destruct BY as (BY1 & BY2). rewrite Zle_Qle in BX1, BX2, BY1, BY2.
  unfold Zminus. rewrite !inject_Z_plus, !inject_Z_opp. change (inject_Z 1) with 1%Q. split; split; lra.
Qed.

(** The PSF is that of the centre of the region.  [normalised]: the image that
    is fitted by a mixture, centred at the origin. *)
Definition normalised (a b : arr) : Prop :=
  length b = length a /\ forall i j, pix b i j = option_map (fun v => Rmax (v / total a) 0) (pix a i j).
Theorem C93_psf : forall (f : frame) h w x0 x1 y0 y1 nano ign zr base (bright : bool) l, wf f h w -> inside (x0, x1, y0, y1) h w ->
  load f (if bright then "bright-" ++ base else base)%string (Some (x0, x1, y0, y1)) None None nano ign false false zr = Ok (Some l) ->
  prefix "bright-" base = false ->
  exists cx cy p, (cx == (inject_Z x0 + inject_Z x1) / 2)%Q /\ (cy == (inject_Z y0 + inject_Z y1) / 2)%Q /\
  lpsf l = (if bright then Bright p (power_law f) else p) /\
  let a := psf_at f cx cy in
  (base = "dg"%string -> p = Double (double_gauss f)) /\
  (base = "kl-gm"%string -> exists b s, normalised a b /\ s = height a / 2 /\
     (forall g, em_fit f b (- s) (- s) = Some g -> p = Mixture g) /\ (em_fit f b (- s) (- s) = None -> p = Double (double_gauss f))) /\
  (base = "kl-pix"%string -> good_stamp a -> exists k b hh ww, p = Pixelized b /\ shape a hh ww /\ central k a b hh ww) /\
  (base = "dg" \/ base = "kl-gm" \/ base = "kl-pix")%string.
Proof.
  intros f h w x0 x1 y0 y1 nano ign zr base bright l WF IN LD NP. assert (WF' := WF). destruct WF' as (W1 & W2 & W3 & W4).
  assert (ST : strip_bright (if bright then "bright-" ++ base else base)%string = (bright, base)).
  { unfold strip_bright. destruct bright; [|rewrite NP; reflexivity].
    assert (PF : prefix "bright-" ("bright-" ++ base) = true) by (clear; destruct base; reflexivity). rewrite PF. f_equal.
    change (substring 7 (String.length ("bright-" ++ base) - 7) ("bright-" ++ base)) with (substring 0 (String.length base - 0) base).
    rewrite Nat.sub_0_r. clear. induction base as [|c s IH]; [reflexivity|]. cbn. f_equal. exact IH. }
  unfold load in LD. rewrite ST in LD. destruct (valid_psf base) eqn:VB; [|discriminate]. cbn [negb] in LD.
  destruct (interpret_explicit (to_pix f) (Z.of_nat h) (Z.of_nat w) (x0, x1, y0, y1)) as (has & IR & HF).
  destruct (shape_width _ _ _ W1 W3) as (WW & WH). rewrite WW, WH in LD. unfold region in *. rewrite IR in LD. cbn [orb] in LD.
  apply bind_ok in LD. destruct LD as (iv & _ & LD). cbv zeta in LD. apply bind_ok in LD. destruct LD as (iv' & _ & LD). apply bind_ok in LD. destruct LD as (p & EP & LD).
  destruct IN as (I1 & I2 & I3 & I4).
  assert (WI : width (if has then slice2 (x0, x1, y0, y1) (fimage f) else fimage f) = x1 - x0 /\ height (if has then slice2 (x0, x1, y0, y1) (fimage f) else fimage f) = y1 - y0).
  { destruct has.
    - assert (SS : shape (slice2 (x0, x1, y0, y1) (fimage f)) (Z.to_nat (y1 - y0)) (Z.to_nat (x1 - x0))) by (eapply shape_slice2; [exact W1|lia..]).
      destruct (shape_width _ _ _ SS ltac:(lia)) as (-> & ->). lia.
    - specialize (HF eq_refl). injection HF as -> -> -> ->. rewrite WW, WH. lia. }
  destruct WI as (-> & ->) in EP.
  exists (inject_Z x0 + inject_Z (x1 - x0) / 2)%Q, (inject_Z y0 + inject_Z (y1 - y0) / 2)%Q, p. injection LD as <-. cbn [lpsf].
  split; [unfold Zminus; rewrite inject_Z_plus, inject_Z_opp; field|]. split; [unfold Zminus; rewrite inject_Z_plus, inject_Z_opp; field|]. split; [reflexivity|].
  cbv zeta. split; [intros ->; injection EP as <-; reflexivity|]. split; [|split].
  - intros ->. set (a := psf_at f _ _) in *. exists (em_image a), (height a / 2). split; [|split; [reflexivity|]].
    + split; [apply map_length|]. intros i j. unfold em_image, pix. rewrite nth_error_map. destruct (nth_error a i) as [r|]; cbn [option_map]; [apply nth_error_map|reflexivity].
    + unfold make_psf in EP. change (("kl-gm" =? "kl-pix")%string) with false in EP. change (("kl-gm" =? "kl-gm")%string) with true in EP. cbv iota zeta in EP. fold a in EP.
      split; [intros g E|intros E]; rewrite E in EP; injection EP as <-; reflexivity.
  - intros -> GS. destruct (make_psf_pix _ _ _ GS) as (k & b & hh & ww & E & S & C & _). rewrite E in EP. injection EP as <-. exists k, b, hh, ww. auto.
  - unfold valid_psf in VB. rewrite existsb_exists in VB. destruct VB as (s & IS & E). apply String.eqb_eq in E. subst s. destruct IS as [<-|[<-|[<-|[]]]]; auto.
Qed.
(** Brightnesses are turned into the counts of the frame, which are nanomaggies:
    a flux in nanomaggies is itself, a magnitude m is 10^((22.5 - m) / 2.5).
    The sky has been subtracted.  The range of values shown is in units of the
    noise of the sky, of variance (sky / gain + dark variance) in electrons,
    converted to nanomaggies. *)
Definition counts (c : photocal) (b : R) : R :=
  match c with Linear s => b * s | Mags z => Rpower 10 ((z - b) / (5 / 2)) end%R.
Theorem C93_calibration : forall (f : frame) name roi rs rb nano ign at_ ati zr l,
  load f name roi rs rb nano ign at_ ati zr = Ok (Some l) ->
  (nano = true -> forall b, counts (lphoto l) b = b) /\
  (nano = false -> forall b, counts (lphoto l) b = Rpower 10 ((225 / 10 - b) / (25 / 10)))%R /\
  lsky l = 0%R /\
  (exists sigma, lzr l = map (Rmult sigma) zr /\
    (0 <= meansky f -> 0 < gain f -> 0 <= darkvar f -> 0 <= meancalib f ->
     0 <= sigma /\ sigma ^ 2 = (meansky f / gain f + darkvar f) * meancalib f ^ 2))%R.
Proof.
  intros f name roi rs rb nano ign at_ ati zr l A. revert A. unfold load. destruct (strip_bright name) as (b, n). destruct (negb (valid_psf n)); [discriminate|].
  destruct (interpret_roi _ _ _ _ _ _) as [((((x0, x1), y0), y1), has)|]; [|discriminate]. intros A.
  apply bind_ok in A. destruct A as (iv & _ & A). cbv zeta in A. apply bind_ok in A. destruct A as (iv' & _ & A). apply bind_ok in A. destruct A as (p & _ & A).
  injection A as <-. cbn [lphoto lsky lzr]. split; [intros ->; intro q; cbn; apply Rmult_1_r|].
  split; [intros ->; intro q; cbn; f_equal; unfold Rdiv; rewrite Rinv_mult, Rinv_inv, (Rinv_mult 25), Rinv_inv; Lra.lra|]. split; [reflexivity|].
  eexists. split; [apply map_ext; intro z; rewrite Rplus_0_r; apply Rmult_comm|]. intros HS HG HD HC.
  assert (Q : (0 <= meansky f / gain f + darkvar f)%R).
  { apply Rplus_le_le_0_compat; [|exact HD]. unfold Rdiv. apply Rmult_le_pos; [exact HS|]. left. apply Rinv_0_lt_compat. exact HG. }
  split; [apply Rmult_le_pos; [apply sqrt_pos|exact HC]|]. rewrite Rpow_mult_distr, pow2_sqrt by exact Q. reflexivity.
Qed.
End Load.

(** ** Where the region is off *)
Definition flat (n : nat) : frame unit unit unit :=
  mkFrame unit unit unit (repeat (repeat 1%R n) n) (fun _ => repeat (repeat 1%R n) n) (fun _ _ _ => 1%R) (fun _ y x => (y =? 3) && (x =? 4))
    (fun p => p) (fun p => p) (fun _ _ => [[1%R]]) (fun _ _ _ => None) tt tt 1%R 1%R 1%R 1%R.
Lemma flat_wf n : (0 < n)%nat -> wf (flat n) n n.
Proof.
  intros H. assert (S : shape (repeat (repeat 1%R n) n) n n). { split; [apply repeat_length|]. apply Forall_forall. intros r I. apply repeat_spec in I. subst r. apply repeat_length. }
  split; [exact S|]. split; [intros b; exact S|]. lia.
Qed.

Lemma flat_round : np_round (109 # 10) = 11. Proof. reflexivity. Qed.
(** A region "around" a position may not contain it: the one pixel that is
    loaded (covering -1/2 to 1/2) is the next one. *)
Theorem C93_position_refuted : exists (f : frame unit unit unit) ra dec l,
  wf f 20 20 /\ load f "dg" None (Some (ra, dec, 0)) None true false false false [] = Ok (Some l) /\
  shape (limage l) 1 1 /\ (fst (position_to_pixel f l (ra, dec)) < - (1 # 2))%Q /\ (snd (position_to_pixel f l (ra, dec)) < - (1 # 2))%Q.
Proof.
  assert (WF := flat_wf 20 ltac:(lia)).
  destruct (C93_position (flat 20) 20 20 "dg" (109 # 10) (109 # 10) 0 None true false [] WF) as (l & LD & SH & _); [left; left; reflexivity|lia|cbn; lia|cbn; lia|].
  exists (flat 20), (109 # 10)%Q, (109 # 10)%Q, l. split; [exact WF|]. split; [exact LD|]. cbn [flat to_pix fst snd] in SH. rewrite flat_round in SH. split; [apply SH|].
  assert (IR : interpret_roi (to_pix (flat 20)) (Z.of_nat 20) (Z.of_nat 20) None (Some ((109 # 10)%Q, (109 # 10)%Q, 0)) None = Some ((11, 12, 11, 12), true)) by reflexivity.
  destruct (load_offset _ _ _ _ _ _ _ _ _ _ _ _ _ _ _ _ _ _ WF IR LD) as (EX & EY). unfold position_to_pixel. rewrite EX, EY. split; reflexivity.
Qed.
(** A region "containing" ranges of positions may not contain the corner with
    the smallest coordinates. *)
Theorem C93_box_refuted : exists (f : frame unit unit unit) ra0 ra1 dec0 dec1 l,
  wf f 20 20 /\ load f "dg" None None (Some (ra0, ra1, dec0, dec1)) true false false false [] = Ok (Some l) /\
  (fst (position_to_pixel f l (ra0, dec0)) < - (1 # 2))%Q.
Proof.
  assert (WF := flat_wf 20 ltac:(lia)).
  destruct (C93_box (flat 20) 20 20 "dg" (109 # 10) (141 # 10) (109 # 10) (141 # 10) None true false [] WF) as (l & r & LD & _);
    [left; left; reflexivity|intros c [<-|[<-|[<-|[<-|[]]]]]; cbn; lia|].
  exists (flat 20), (109 # 10)%Q, (141 # 10)%Q, (109 # 10)%Q, (141 # 10)%Q, l. split; [exact WF|]. split; [exact LD|].
  assert (IR : interpret_roi (to_pix (flat 20)) (Z.of_nat 20) (Z.of_nat 20) None None (Some (109 # 10, 141 # 10, 109 # 10, 141 # 10)%Q) = Some ((11, 15, 11, 15), true)) by reflexivity.
  destruct (load_offset _ _ _ _ _ _ _ _ _ _ _ _ _ _ _ _ _ _ WF IR LD) as (EX & EY). unfold position_to_pixel. rewrite EX. reflexivity.
Qed.

(** ** Trying again *)
(** A frame that can be read is not fetched again; otherwise all files are
    fetched and the frame is read once more. *)
Theorem C93_retry : forall (S A : Type) (attempt : S -> res A) retrieve s,
  (forall n retry a, attempt s = Ok a -> with_retry attempt retrieve n retry s = Ok a) /\
  (forall e s1 s2 s3, attempt s = Err e -> retrieve "psField"%string s = Ok s1 -> retrieve "fpM"%string s1 = Ok s2 -> retrieve "frame"%string s2 = Ok s3 ->
     with_retry attempt retrieve 4 true s = attempt s3) /\
  (forall n, with_retry attempt retrieve n false s = attempt s).
Proof.
  intros S A attempt retrieve s. unfold with_retry. repeat split.
  - intros n retry a E. destruct retry; rewrite E; reflexivity.
  - intros e s1 s2 s3 E E1 E2 E3. rewrite E, E1. cbn. rewrite E2. cbn. rewrite E3. reflexivity.
Qed.
(** With a fifth positional argument (the SDSS reader), files are not fetched
    again and the reason of the failure is replaced by another one. *)
Theorem C93_retry_refuted : forall (S A : Type) (attempt : S -> res A) retrieve s e n, attempt s = Err e -> n <> 4%nat ->
  with_retry attempt retrieve n true s = Err ValueError.
Proof. intros S A attempt retrieve s e n E N. unfold with_retry. rewrite E. destruct (Nat.eqb_spec n 4); [contradiction|reflexivity]. Qed.

(** ** Examples *)
(** A 3 x 2 region of a frame of 20 x 20 pixels with the bad pixel (4, 3). *)
Example C93_ex : exists l, load (flat 20) "bright-kl-pix" (Some (3, 6, 2, 4)) None None false true false false [2%R] = Ok (Some l) /\
  shows (flat 20) l (3, 6, 2, 4) /\ lpsf l = Bright (Pixelized [[1%R]]) tt /\ exists a, livar l = Map a /\ shape a 2 3 /\ pix a 1 1 = Some 0%R /\ pix a 1 2 = Some 1%R.
Proof.
  assert (WF := flat_wf 20 ltac:(lia)).
  assert (NZ : ~ all_zero [[1%R]]) by (intros Z; apply R1_neq_R0, (Z 0%nat 0%nat); reflexivity).
  destruct (C93_image (flat 20) 20 20 "bright-kl-pix" (3, 6, 2, 4) false true [2%R] WF) as (l & LD & SH & WT).
  - right. split; [right; left; reflexivity|]. intros x y. exists 1%nat, 1%nat. split; [split; [reflexivity|repeat constructor]|]. split; [reflexivity|]. split; [reflexivity|exact NZ].
  - cbn. lia.
  - exists l. split; [exact LD|]. split; [exact SH|]. split.
    + destruct (C93_psf (flat 20) 20 20 3 6 2 4 false true [2%R] "kl-pix" true l WF) as (cx & cy & p & _ & _ & EP & _ & _ & KP & _); [cbn; lia|exact LD|reflexivity|].
      destruct KP as (k & b & hh & ww & -> & (S1 & S2) & (C1 & C2 & C3 & C4 & _)); [reflexivity|exists 1%nat, 1%nat; split; [split; [reflexivity|repeat constructor]|auto]|].
      cbn [flat psf_at length] in S1. subst hh. assert (k = 0)%nat by lia. subst k. inversion S2 as [|? ? L _]. cbn [length] in L. subst ww.
      rewrite EP. f_equal. f_equal. destruct C1 as (L1 & L2). destruct b as [|r [|]]; try discriminate. inversion L2 as [|? ? L3 _]. destruct r as [|v [|]]; try discriminate.
      specialize (C4 0%nat 0%nat ltac:(lia) ltac:(lia)). injection C4 as ->. reflexivity.
    + destruct WT as (a & EA & SA & PA). exists a. split; [exact EA|]. split; [exact SA|]. rewrite !PA by lia. split; reflexivity.
Qed.
(** A stamp of 5 x 5 with zeros around it loses them. *)
Example C93_trim_ex : exists k b, trim 6 (repeat 0%R 5 :: repeat [0; 0; 7; 0; 0]%R 3 ++ [repeat 0%R 5]) = Ok b /\
  central k (repeat 0%R 5 :: repeat [0; 0; 7; 0; 0]%R 3 ++ [repeat 0%R 5]) b 5 5.
Proof.
  destruct (proj1 (C93_trim (repeat 0%R 5 :: repeat [0; 0; 7; 0; 0]%R 3 ++ [repeat 0%R 5]) 5 5 ltac:(split; [reflexivity|repeat constructor]))) as (k & b & E & C & _).
  - intros Z. specialize (Z 1%nat 2%nat 7%R eq_refl). apply (IZR_neq 7 0); [lia|exact Z].
  - exists k, b. split; assumption.
Qed.

Print Assumptions C93_trim.
Print Assumptions C93_image.
Print Assumptions C93_whole.
Print Assumptions C93_position.
Print Assumptions C93_constant.
Print Assumptions C93_constant_image.
Print Assumptions C93_constant_image_refuted.
Print Assumptions C93_box.
Print Assumptions C93_psf.
Print Assumptions C93_calibration.
Print Assumptions C93_position_refuted.
Print Assumptions C93_box_refuted.
Print Assumptions C93_retry.
Print Assumptions C93_retry_refuted.
