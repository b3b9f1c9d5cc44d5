(** C34, C48: computing derivatives leaves every parameter alone and yields
    one derivative per thawed parameter, in parameter order. *)
From Coq Require Import String List ZArith Bool Lia.
From Verif Require Import Base ParamsModel ParamsSpec ParamsProofs ParamsProofs2 ParamsProps
  DerivModel DerivSpec DerivProofs.
Import ListNotations.

Section Props.
Context {V : Type} (one two : V) (vadd vsub vmul vdiv : V -> V -> V) (vneg : V -> V).
Context (veqb vgtb : V -> V -> bool) (zero : V).
Context {P : Type} (psub padd : P -> P -> P) (pscale : P -> V -> P) {PX : Type}.
Context (counts : ptree V -> V) (minval_of : V -> option V).
Context (pixel : ptree V -> ptree V -> PX) (cdi : ptree V -> ptree V -> nat -> V * V).
Context (grad_x grad_y : P -> P).

Notation ptree := (ptree V).
Notation renderer := (renderer V P PX).
Notation bump := (bump one vadd).
Notation galaxy_derivs := (galaxy_derivs V one vadd vsub vdiv veqb zero P psub padd pscale PX
  counts minval_of pixel cdi grad_x grad_y).
Notation galaxy_entry := (galaxy_entry vsub vdiv veqb zero psub padd pscale counts minval_of
  pixel cdi grad_x grad_y).
Notation bright_entry := (bright_entry vsub vdiv veqb pscale).
Notation bright_body := (bright_body V vadd vsub vdiv veqb P pscale counts).

Lemma pos_loop_ok pos src c dx dy : forall liq i, i + length liq <= 2 ->
  exists ds, pos_derivs_loop V P padd pscale cdi pos src c dx dy i liq = Ok ds /\
    length ds = count_true liq /\
    forall k, k < count_true liq ->
      nth_error ds k = Some (Some (let e := cdi pos src (nth k (keep liq (seq i (length liq))) 0) in
         pscale (padd (pscale dx (fst e)) (pscale dy (snd e))) c)).
Proof.
  induction liq as [|b ls IH]; intros i HL; simpl in *.
  - exists []. split; [reflexivity|]. split; [reflexivity|]. intros k HK. unfold count_true in HK; simpl in HK; lia.
  - destruct (IH (S i)) as (ds & E & L & H); [lia|]. rewrite count_true_cons. destruct b.
    + destruct (Nat.ltb_spec i 2); [|lia]. rewrite E. simpl. eexists. split; [reflexivity|]. simpl.
      split; [lia|]. intros [|k] HK; simpl; auto. apply H. lia.
    + exists ds. auto.
Qed.

Lemma bright_loop nm subs liq br p c0 :
  wf (PMulti nm subs liq) -> nth_error subs 1 = Some br -> br <> PNone ->
  exists ds, step_loop V (bright_body 1 c0 p) 0 (get_step_sizes one br) (get_params br) (PMulti nm subs liq)
      = Ok (ds, PMulti nm subs liq) /\ length ds = number_of_params br /\
    forall i st s', bump br i st s' ->
      nth_error ds i = Some (bright_entry c0 (counts (member (PMulti nm (upd 1 s' subs) liq) 1)) st p).
Proof.
  intros W E NN.
  destruct (member_loop one vadd nm subs liq 1 br (bright_body 1 c0 p)
    (fun st t' => bright_entry c0 (counts (member t' 1)) st p) W E NN) as (ds & E1 & E2 & E3).
  - intros i st v s' HB EV.
    assert (HI : i < number_of_params br).
    { rewrite <- (params_len one) by (eapply wf_sub; eauto). apply nth_error_Some; congruence. }
    unfold DerivModel.bright_body.
    destruct (stepped_ok nm subs liq 1 br i (vadd v st) (fun t' => b <- sub V t' 1 ;; Ok (counts b)) W E NN HI)
      as (s2 & old & F1 & F2 & F3 & ->).
    destruct HB as (v' & G1 & G2 & G3). rewrite EV in G1. injection G1 as <-. rewrite G3 in F1. injection F1 as -> ->.
    assert (HK : 1 < length subs) by (apply nth_error_Some; congruence).
    unfold sub, py_get. rewrite nth_error_upd_same by auto. simpl.
    rewrite (nth_error_nth _ _ _ (nth_error_upd_same 1 s2 subs HK)). reflexivity.
  - exists ds. auto.
Qed.

(** The galaxy code on any source that starts with pos, brightness, shape. *)
Lemma galaxy_gen (R : renderer) (g : bool) nm pos br sh rest lp lb ls lr :
  let t := PMulti nm (pos :: br :: sh :: rest) (lp :: lb :: ls :: lr) in
  wf t -> pos <> PNone -> br <> PNone -> sh <> PNone -> planar pos ->
  let lead p := if g then [p] else [] in
  match unit0 _ _ _ R (pixel pos t) (minval_of (counts br)) t with
  | None => galaxy_derivs R g t = Ok (lead None ++ nones P (number_of_params t), t)
  | Some p => exists ds, galaxy_derivs R g t = Ok (lead (Some p) ++ ds, t) /\
      length ds = before t 3 /\
      forall k st t', k < before t 3 -> bump t k st t' -> nth_error ds k = Some (galaxy_entry R t t' k st)
  end.
Proof.
  intros t W N0 N1 N2 HP lead.
  unfold DerivModel.galaxy_derivs. fold t.
  change (sub V t 0) with (@Ok ptree pos). change (sub V t 1) with (@Ok ptree br).
  change (sub V t 2) with (@Ok ptree sh). cbn [bind].
  unfold DerivSpec.galaxy_entry. change (member t 1) with br. change (member t 0) with pos.
  destruct (unit0 V P PX R (pixel pos t) (minval_of (counts br)) t) as [p|] eqn:EU.
  2: reflexivity.
  assert (B1 : before t 1 = if lp then number_of_params pos else 0).
  { unfold t. rewrite before_S. simpl. destruct pos; simpl; destruct lp; simpl; try congruence; lia. }
  assert (B2 : before t 2 = before t 1 + if lb then number_of_params br else 0).
  { rewrite B1. unfold t. rewrite before_S. simpl. replace (is_none pos) with false by (destruct pos; simpl; congruence).
    replace (is_none br) with false by (destruct br; simpl; congruence).
    destruct lp, lb; simpl; lia. }
  assert (B3 : before t 3 = before t 2 + if ls then number_of_params sh else 0).
  { rewrite B2, B1. unfold t. rewrite before_S. simpl. replace (is_none pos) with false by (destruct pos; simpl; congruence).
    replace (is_none br) with false by (destruct br; simpl; congruence).
    replace (is_none sh) with false by (destruct sh; simpl; congruence).
    destruct lp, lb, ls; simpl; lia. }
  assert (W0 : wf pos) by (apply (wf_sub _ _ _ 0 pos W); auto).
  assert (W2 : wf sh) by (apply (wf_sub _ _ _ 2 sh W); auto).
  (* position *)
  assert (exists d1, (if negb (is_frozen V t 0) && negb (number_of_params pos =? 0)
      then if veqb (counts br) zero then Ok (nones P (length (get_params pos)))
           else pixel_derivs_to_position_derivs V P padd pscale cdi pos t (counts br) (grad_x p) (grad_y p)
      else Ok []) = Ok d1 /\ length d1 = before t 1 /\
      forall k, k < before t 1 -> nth_error d1 k = Some (if veqb (counts br) zero then None
        else let c := cdi pos t (thawed_at pos k) in
             Some (pscale (padd (pscale (grad_x p) (fst c)) (pscale (grad_y p) (snd c))) (counts br))))
    as (d1 & -> & L1 & H1).
  { rewrite B1. simpl is_frozen. rewrite negb_involutive.
    destruct lp; simpl.
    - destruct (Nat.eqb_spec (number_of_params pos) 0) as [EZ|NZ]; simpl.
      + rewrite EZ. exists []. repeat split; auto. lia.
      + destruct (veqb (counts br) zero) eqn:EC.
        * exists (nones P (length (get_params pos))). unfold nones. rewrite repeat_length.
          rewrite (params_len one) by auto. repeat split; auto. intros k HK. apply nth_error_repeat. auto.
        * unfold pixel_derivs_to_position_derivs. destruct pos; simpl in HP; try contradiction.
          destruct (pos_loop_ok (PList l) t (counts br) (grad_x p) (grad_y p) (l_liquid l) 0) as (ds & -> & L & H); [lia|].
          exists ds. repeat split; auto.
    - exists []. repeat split; auto. lia. }
  cbn [bind]. change (is_frozen V t 1) with (negb lb).
  (* brightness *)
  assert (exists d2, (if negb lb then Ok ([], t) else step_loop V (bright_body 1 (counts br) p) 0
       (get_step_sizes one br) (get_params br) t) = Ok (d2, t) /\
      length d2 = (if lb then number_of_params br else 0) /\
      (lb = true -> forall i st s', bump br i st s' ->
        nth_error d2 i = Some (bright_entry (counts br)
            (counts (member (PMulti nm (upd 1 s' (pos :: br :: sh :: rest)) (lp :: lb :: ls :: lr)) 1)) st p)))
    as (d2 & -> & L2 & H2).
  { destruct lb; simpl.
    - destruct (bright_loop nm (pos :: br :: sh :: rest) (lp :: true :: ls :: lr) br p (counts br) W eq_refl N1) as (ds & E1 & E2 & E3).
      exists ds. repeat split; auto.
    - exists []. repeat split; auto. discriminate. }
  cbn [bind snd fst]. change (sub V t 2) with (@Ok ptree sh). cbn [bind]. change (is_frozen V t 2) with (negb ls).
  (* shape *)
  assert (exists d3, (if negb ls then Ok ([], t) else
       if veqb (counts br) zero then Ok (nones P (length (get_params sh)), t)
         else step_loop V (shape_body V vadd vdiv P psub pscale PX R (pixel pos t) (minval_of (counts br)) (counts br) p) 0
            (get_step_sizes one sh) (get_params sh) t) = Ok (d3, t) /\
      length d3 = (if ls then number_of_params sh else 0) /\
      (ls = true -> forall i st s', bump sh i st s' ->
        nth_error d3 i = Some (if veqb (counts br) zero then None else
          match unit1 V P PX R p (pixel pos t) (minval_of (counts br))
                 (PMulti nm (upd 2 s' (pos :: br :: sh :: rest)) (lp :: lb :: ls :: lr)) with
          | None => None | Some q => Some (pscale (psub q p) (vdiv (counts br) st)) end)))
    as (d3 & -> & L3 & H3).
  { destruct ls; simpl negb; cbv iota.
    2:{ exists []. repeat split; auto. discriminate. }
    destruct (veqb (counts br) zero) eqn:EC.
    - exists (nones P (length (get_params sh))). unfold nones. rewrite repeat_length.
      rewrite (params_len one) by auto. repeat split; auto. intros _ i st s' (v & E1 & _).
      apply nth_error_repeat. rewrite <- (params_len one) by auto. apply nth_error_Some; congruence.
    - destruct (member_loop one vadd nm (pos :: br :: sh :: rest) (lp :: lb :: true :: lr) 2 sh
        (shape_body V vadd vdiv P psub pscale PX R (pixel pos t) (minval_of (counts br)) (counts br) p)
        (fun st t' => match unit1 V P PX R p (pixel pos t) (minval_of (counts br)) t' with
          | None => None | Some q => Some (pscale (psub q p) (vdiv (counts br) st)) end) W eq_refl N2) as (ds & E1 & E2 & E3).
      + intros i st v s' HB EV.
        assert (HI : i < number_of_params sh).
        { rewrite <- (params_len one) by auto. apply nth_error_Some; congruence. }
        unfold shape_body.
        destruct (stepped_ok nm (pos :: br :: sh :: rest) (lp :: lb :: true :: lr) 2 sh i (vadd v st)
          (fun t' => Ok (unit1 V P PX R p (pixel pos t) (minval_of (counts br)) t')) W eq_refl N2 HI)
          as (s2 & old & F1 & F2 & F3 & ->).
        destruct HB as (v' & G1 & G2 & G3). rewrite EV in G1. injection G1 as <-. rewrite G3 in F1. injection F1 as -> ->.
        reflexivity.
      + exists ds. repeat split; auto. }
  cbn [bind snd fst].
  exists (d1 ++ d2 ++ d3). split; [reflexivity|].
  split. { rewrite !app_length, L1, L2, L3. lia. }
  intros k st t' HK HB.
  destruct (Nat.ltb_spec k (before t 1)) as [K1|K1].
  { rewrite nth_error_app1 by lia. apply H1. auto. }
  rewrite nth_error_app2 by lia.
  destruct (Nat.ltb_spec k (before t 2)) as [K2|K2].
  - destruct lb; [|lia].
    rewrite nth_error_app1 by lia.
    replace k with (before t 1 + (k - before t 1)) in HB by lia.
    apply (bump_member one vadd nm (pos :: br :: sh :: rest) (lp :: true :: ls :: lr) 1 br) in HB; auto; [|lia].
    destruct HB as (s' & HS & ->). rewrite L1. rewrite (H2 eq_refl _ _ _ HS). reflexivity.
  - rewrite nth_error_app2 by lia. destruct ls; [|lia].
    replace k with (before t 2 + (k - before t 2)) in HB by lia.
    apply (bump_member one vadd nm (pos :: br :: sh :: rest) (lp :: lb :: true :: lr) 2 sh) in HB; auto; [|lia].
    destruct HB as (s' & HS & ->). rewrite L1, L2.
    replace (k - before t 1 - (if lb then number_of_params br else 0)) with (k - before t 2) by lia.
    rewrite (H3 eq_refl _ _ _ HS). reflexivity.
Qed.

Lemma bump_lt (t : ptree) k st t' : wf t -> bump t k st t' -> k < number_of_params t.
Proof. intros W (v & E & _). rewrite <- (params_len one) by auto. apply nth_error_Some. congruence. Qed.

Lemma is_none_false (t : ptree) : t <> PNone -> is_none t = false.
Proof. destruct t; simpl; congruence. Qed.

Lemma before_all nm (subs : list ptree) liq m : length subs <= m -> length liq = length subs ->
  before (PMulti nm subs liq) m = number_of_params (PMulti nm subs liq).
Proof. intros. unfold before. rewrite !firstn_all2 by lia. reflexivity. Qed.

(** *** C48, galaxies.  One derivative per thawed parameter, entry k being the
    derivative along parameter k, for every frozen combination and whatever
    the renderer returns; and (C34) the parameters are as before. *)
Theorem C48_galaxy : forall (R : renderer) nm pos br sh liq,
  let t := PMulti nm [pos; br; sh] liq in
  wf t -> pos <> PNone -> br <> PNone -> sh <> PNone -> planar pos ->
  exists ds, galaxy_derivs R false t = Ok (ds, t) /\
    length ds = number_of_params t /\
    forall k st t', bump t k st t' -> nth_error ds k = Some (galaxy_entry R t t' k st).
Proof.
  intros R nm pos br sh liq t W N0 N1 N2 HP.
  assert (W' := W). destruct W' as [HL _]. simpl in HL.
  destruct liq as [|lp [|lb [|ls [|? ?]]]]; simpl in HL; try lia.
  assert (G := galaxy_gen R false nm pos br sh [] lp lb ls [] W N0 N1 N2 HP). cbv zeta in G. fold t in G.
  assert (B3 : before t 3 = number_of_params t) by (apply before_all; simpl; lia).
  unfold DerivSpec.galaxy_entry in *. change (member t 1) with br in *. change (member t 0) with pos in *.
  destruct (unit0 V P PX R (pixel pos t) (minval_of (counts br)) t) as [p|].
  - destruct G as (ds & E & L & H). exists ds. split; [exact E|]. rewrite <- B3. split; auto.
    intros k st t' HB. apply H; auto. rewrite B3. eapply bump_lt; eauto.
  - exists (nones P (number_of_params t)). split; [exact G|]. unfold nones. rewrite repeat_length. split; auto.
    intros k st t' HB. apply nth_error_repeat. eapply bump_lt; eauto.
Qed.

(** *** Composites *)
Notation add_patches := (add_patches P padd).
Lemma add_loop_ok : forall n a b, n <= length a -> n <= length b ->
  exists ds, add_loop P padd n a b = Ok ds /\ length ds = n /\
    forall k x y, k < n -> nth_error a k = Some x -> nth_error b k = Some y -> nth_error ds k = Some (add_patches x y).
Proof.
  induction n; intros a b HA HB; simpl.
  - exists []. repeat split; auto. lia.
  - destruct a as [|x a]; destruct b as [|y b]; simpl in *; try lia.
    destruct (IHn a b) as (ds & -> & L & H); [lia|lia|]. simpl. eexists. split; [reflexivity|]. simpl.
    split; [lia|]. intros [|k] x0 y0 HK E1 E2; simpl in *; [congruence|]. apply H; auto. lia.
Qed.

Lemma nth_error_skipn {A} n (l : list A) k : nth_error (skipn n l) k = nth_error l (n + k).
Proof. revert l; induction n; simpl; auto. intros [|? l]; auto. destruct k; auto. Qed.

Lemma merge_ok (fr : bool) np (a b : list (option P)) na nb :
  length a = (if fr then 0 else np) + na -> length b = (if fr then 0 else np) + nb ->
  let m := if fr then 0 else np in
  exists ds, merge P padd fr np a b = Ok ds /\ length ds = m + na + nb /\
    forall k,
      (k < m -> forall x y, nth_error a k = Some x -> nth_error b k = Some y -> nth_error ds k = Some (add_patches x y)) /\
      (m <= k < m + na -> nth_error ds k = nth_error a k) /\
      (m + na <= k -> nth_error ds k = nth_error b (k - na)).
Proof.
  intros HA HB m. unfold merge. destruct fr; simpl in *; subst m.
  - eexists. split; [reflexivity|]. rewrite app_length. split; [lia|]. intros k. split; [lia|]. split; intros.
    + rewrite nth_error_app1; auto; lia.
    + rewrite nth_error_app2 by lia. f_equal. lia.
  - destruct (add_loop_ok np a b) as (ds & -> & L & H); [lia|lia|]. simpl.
    eexists. split; [reflexivity|]. rewrite !app_length, !skipn_length. split; [lia|]. intros k. split; [|split]; intros.
    + rewrite nth_error_app1 by lia. auto.
    + rewrite nth_error_app2 by lia. rewrite nth_error_app1 by (rewrite skipn_length; lia).
      rewrite nth_error_skipn. f_equal. lia.
    + rewrite nth_error_app2 by lia. rewrite nth_error_app2 by (rewrite skipn_length; lia).
      rewrite skipn_length, nth_error_skipn. f_equal. lia.
Qed.

(** [bump] on a member of the temporary galaxy. *)
Lemma bump_sub (t : ptree) nm subs liq m s k st t' i :
  t = PMulti nm subs liq -> wf t -> nth_error subs m = Some s -> nth m liq false = true -> s <> PNone ->
  i < number_of_params s -> k = before t m + i -> bump t k st t' ->
  exists s', bump s i st s' /\ t' = PMulti nm (upd m s' subs) liq.
Proof. intros -> W E1 E2 NN HI -> HB. apply (bump_member one vadd nm subs liq m s i st t') in HB; auto. Qed.

Lemma sub_bump (e : ptree) nm subs liq m s k st i s' :
  e = PMulti nm subs liq -> wf e -> nth_error subs m = Some s -> nth m liq false = true -> s <> PNone ->
  i < number_of_params s -> k = before e m + i -> bump s i st s' ->
  bump e k st (PMulti nm (upd m s' subs) liq).
Proof. intros -> W E1 E2 NN HI -> HB. apply (bump_member one vadd nm subs liq m s i st _); eauto. Qed.

Definition width (l : bool) (x : ptree) : nat := if l then number_of_params x else 0.

Lemma before5 nm (a b c d e : ptree) la lb lc ld le :
  a <> PNone -> b <> PNone -> c <> PNone -> d <> PNone -> e <> PNone ->
  let t := PMulti nm [a; b; c; d; e] [la; lb; lc; ld; le] in
  before t 1 = width la a /\ before t 2 = width la a + width lb b /\ before t 3 = width la a + width lb b + width lc c /\
  before t 4 = width la a + width lb b + width lc c + width ld d /\
  number_of_params t = width la a + width lb b + width lc c + width ld d + width le e.
Proof.
  intros Ha Hb Hc Hd He t. unfold t, before, width. simpl.
  rewrite !is_none_false by auto. destruct la, lb, lc, ld, le; simpl; repeat split; lia.
Qed.
Lemma before4 nm (a b c d : ptree) la lb lc ld :
  a <> PNone -> b <> PNone -> c <> PNone -> d <> PNone ->
  let t := PMulti nm [a; b; c; d] [la; lb; lc; ld] in
  before t 1 = width la a /\ before t 2 = width la a + width lb b /\ before t 3 = width la a + width lb b + width lc c /\
  number_of_params t = width la a + width lb b + width lc c + width ld d.
Proof.
  intros Ha Hb Hc Hd t. unfold t, before, width. simpl.
  rewrite !is_none_false by auto. destruct la, lb, lc, ld; simpl; repeat split; lia.
Qed.
Lemma before3 nm (a b c : ptree) la lb lc :
  a <> PNone -> b <> PNone -> c <> PNone ->
  let t := PMulti nm [a; b; c] [la; lb; lc] in
  before t 1 = width la a /\ before t 2 = width la a + width lb b /\
  number_of_params t = width la a + width lb b + width lc c.
Proof.
  intros Ha Hb Hc t. unfold t, before, width. simpl.
  rewrite !is_none_false by auto. destruct la, lb, lc; simpl; repeat split; lia.
Qed.
Lemma before2 nm (a b : ptree) la lb :
  a <> PNone -> b <> PNone ->
  let t := PMulti nm [a; b] [la; lb] in
  before t 1 = width la a /\ number_of_params t = width la a + width lb b.
Proof.
  intros Ha Hb t. unfold t, before, width. simpl.
  rewrite !is_none_false by auto. destruct la, lb; simpl; repeat split; lia.
Qed.

Notation composite_derivs := (composite_derivs V one vadd vsub vdiv veqb zero P psub padd pscale PX
  counts minval_of pixel cdi grad_x grad_y).
Notation composite_entry := (composite_entry vsub vdiv veqb zero psub padd pscale counts minval_of
  pixel cdi grad_x grad_y).

Theorem C48_composite : forall (Re Rd : renderer) nm pos be se bd sd liq,
  let t := PMulti nm [pos; be; se; bd; sd] liq in
  wf t -> pos <> PNone -> be <> PNone -> se <> PNone -> bd <> PNone -> sd <> PNone -> planar pos ->
  exists ds, composite_derivs Re Rd t = Ok (ds, t) /\
    length ds = number_of_params t /\
    forall k st t', bump t k st t' -> nth_error ds k = Some (composite_entry Re Rd t t' k st).
Proof.
  intros Re Rd nm pos be se bd sd liq t W N0 N1 N2 N3 N4 HP.
  assert (W' := W). destruct W' as [HL HW]. simpl in HL.
  destruct liq as [|lp [|lbe [|lse [|lbd [|lsd [|? ?]]]]]]; simpl in HL; try lia.
  simpl in HW. destruct HW as (W0 & W1 & W2 & W3 & W4 & _).
  set (e := PMulti gal_names [pos; be; se] [lp; lbe; lse]).
  set (d := PMulti gal_names [pos; bd; sd] [lp; lbd; lsd]).
  assert (We : wf e) by (simpl; auto 10). assert (Wd : wf d) by (simpl; auto 10).
  destruct (C48_galaxy Re gal_names pos be se [lp; lbe; lse] We N0 N1 N2 HP) as (de & Ee & Le & He).
  destruct (C48_galaxy Rd gal_names pos bd sd [lp; lbd; lsd] Wd N0 N3 N4 HP) as (dd & Ed & Ld & Hd).
  fold e in Ee, Le, He. fold d in Ed, Ld, Hd.
  destruct (before5 nm pos be se bd sd lp lbe lse lbd lsd N0 N1 N2 N3 N4) as (B1 & B2 & B3 & B4 & B5). fold t in B1, B2, B3, B4, B5.
  destruct (before3 gal_names pos be se lp lbe lse N0 N1 N2) as (Be1 & Be2 & Be3). fold e in Be1, Be2, Be3.
  destruct (before3 gal_names pos bd sd lp lbd lsd N0 N3 N4) as (Bd1 & Bd2 & Bd3). fold d in Bd1, Bd2, Bd3.
  unfold DerivModel.composite_derivs.
  change (part V t [0; 1; 2]) with (@Ok ptree e). cbn [bind]. rewrite Ee. cbn [bind snd fst].
  change (write_back V [0; 1; 2] e t) with t.
  change (part V t [0; 3; 4]) with (@Ok ptree d). cbn [bind]. rewrite Ed. cbn [bind snd fst].
  change (write_back V [0; 3; 4] d t) with t.
  change (sub V t 0) with (@Ok ptree pos). cbn [bind].
  change (is_frozen V t 0) with (negb lp). rewrite (steps_len one) by auto.
  assert (Hw : (if negb lp then 0 else number_of_params pos) = width lp pos) by (destruct lp; reflexivity).
  destruct (merge_ok (negb lp) (number_of_params pos) de dd (width lbe be + width lse se) (width lbd bd + width lsd sd)) as (ds & Em & Lm & Hm);
    [rewrite Hw; lia|rewrite Hw; lia|].
  rewrite Em. cbn [bind]. exists ds. split; [reflexivity|]. split; [rewrite Hw in Lm; lia|].
  rewrite Hw in Hm. intros k st t' HB. assert (HK := bump_lt _ _ _ _ W HB).
  destruct (Hm k) as (M1 & M2 & M3). clear Hm.
  unfold DerivSpec.composite_entry.
  change (piece t [0; 1; 2]) with e. change (piece t [0; 3; 4]) with d.
  assert (HO : exists m i s, nth_error [pos; be; se; bd; sd] m = Some s /\ nth m [lp; lbe; lse; lbd; lsd] false = true /\ s <> PNone /\
    i < number_of_params s /\ k = before t m + i) by (apply owner; auto).
  destruct HO as (m & i & s & O1 & O2 & O3 & O4 & O5).
  destruct (bump_sub t nm _ _ m s k st t' i eq_refl W O1 O2 O3 O4 O5 HB) as (s' & HS & ->).
  assert (B0 : before t 0 = 0) by reflexivity. assert (Be0 : before e 0 = 0) by reflexivity. assert (Bd0 : before d 0 = 0) by reflexivity.
  destruct m as [|[|[|[|[|m]]]]]; simpl in O1, O2; try discriminate.
  6: { destruct m; discriminate. }
  all: injection O1 as <-; subst.
  - (* position *)
    unfold width in *. assert (HBe : bump e (before t 0 + i) st (PMulti gal_names [s'; be; se] [true; lbe; lse])).
    { apply (sub_bump e gal_names [pos; be; se] [true; lbe; lse] 0 pos _ st i s'); auto; lia. }
    assert (HBd : bump d (before t 0 + i) st (PMulti gal_names [s'; bd; sd] [true; lbd; lsd])).
    { apply (sub_bump d gal_names [pos; bd; sd] [true; lbd; lsd] 0 pos _ st i s'); auto; lia. }
    destruct (Nat.ltb_spec (before t 0 + i) (before t 1)); [|lia].
    apply M1; [lia| |]; [apply He|apply Hd]; auto.
  - unfold width in *. destruct (Nat.ltb_spec (before t 1 + i) (before t 1)); [lia|].
    destruct (Nat.ltb_spec (before t 1 + i) (before t 3)); [|destruct lse; lia].
    rewrite M2 by (destruct lse; lia). apply He.
    apply (sub_bump e gal_names [pos; be; se] [lp; true; lse] 1 be _ st i s'); auto; lia.
  - unfold width in *. destruct (Nat.ltb_spec (before t 2 + i) (before t 1)); [lia|].
    destruct (Nat.ltb_spec (before t 2 + i) (before t 3)); [|lia].
    rewrite M2 by lia. apply He.
    apply (sub_bump e gal_names [pos; be; se] [lp; lbe; true] 2 se _ st i s'); auto; lia.
  - unfold width in *. destruct (Nat.ltb_spec (before t 3 + i) (before t 1)); [lia|].
    destruct (Nat.ltb_spec (before t 3 + i) (before t 3)); [lia|].
    rewrite M3 by lia. replace (before t 3 - before t 1) with ((if lbe then number_of_params be else 0) + (if lse then number_of_params se else 0)) by lia.
    apply Hd.
    apply (sub_bump d gal_names [pos; bd; sd] [lp; true; lsd] 1 bd _ st i s'); auto; lia.
  - unfold width in *. destruct (Nat.ltb_spec (before t 4 + i) (before t 1)); [lia|].
    destruct (Nat.ltb_spec (before t 4 + i) (before t 3)); [lia|].
    rewrite M3 by lia. replace (before t 3 - before t 1) with ((if lbe then number_of_params be else 0) + (if lse then number_of_params se else 0)) by lia.
    apply Hd.
    apply (sub_bump d gal_names [pos; bd; sd] [lp; lbd; true] 2 sd _ st i s'); auto; lia.
Qed.
End Props.
