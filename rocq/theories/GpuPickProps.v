(** C94: with the GPU optimizers a Tractor is optimized as with their parent
    class unless it is one source (with or without a background) on frozen
    images; then the images with a model mask of the source are used. *)
From Coq Require Import String List ZArith QArith Bool Lia.
From Verif Require Import Base Ext EngineModel OptimModel GpuPickModel.
Import ListNotations.
Local Open Scope list_scope.

(** ** Spec *)
(** One galaxy or star, perhaps with a background, or a background without a
    source. *)
Inductive single : list entry -> nat -> Prop :=
| s_galaxy i : single [Galaxy i] i
| s_point i : single [Point i] i
| s_galaxy_glow i b : single [Galaxy i; Glow b] i
| s_point_glow i b : single [Point i; Glow b] i
| s_glow b : single [NoSource; Glow b] b.

Section P.
Context {Mask : Type}.
Implicit Types (v : scene Mask) (t : tractor Mask).

(** The mask that was set for a source at an image's place in the list. *)
Definition mask_at t (k src : nat) : option Mask :=
  match t_masks t with
  | None => None
  | Some l => match nth_error l k with Some d => lookup src d | None => None end
  end.

Lemma star_cases e : is_star e = true -> (exists i, e = Galaxy i) \/ (exists i, e = Point i).
Proof. destruct e; cbn; try discriminate; eauto. Qed.

Theorem C94_eligible v : eligible v = true <-> v_frozen v = true /\ exists src, single (v_cat v) src.
Proof.
  unfold eligible. split.
  - intro H. apply andb_true_iff in H as [-> H]. split; [reflexivity|].
    destruct (v_cat v) as [|a [|b [|c r]]]; try discriminate.
    + destruct (star_cases _ H) as [[i ->]|[i ->]]; exists i; constructor.
    + apply andb_true_iff in H as [A B]. destruct b; try discriminate B.
      apply orb_true_iff in A as [A|A].
      * destruct (star_cases _ A) as [[i ->]|[i ->]]; exists i; constructor.
      * destruct a; try discriminate A. eexists. constructor.
  - intros [-> [s H]]. inversion H; reflexivity.
Qed.

Lemma index_of_nodup l : NoDup l -> forall k i, nth_error l k = Some i -> index_of i l = Some k.
Proof.
  induction 1 as [|x l N D IH]; intros k i H; [destruct k; discriminate|].
  destruct k; cbn in *.
  - injection H as ->. now rewrite Nat.eqb_refl.
  - destruct (i =? x)%nat eqn:E.
    + apply Nat.eqb_eq in E. subst. now apply nth_error_In in H.
    + now rewrite (IH _ _ H).
Qed.

(** The masks were accepted by setModelMasks. *)
Definition accepted t : Prop :=
  match t_masks t with None => True | Some l => length l = length (t_images t) end.

Lemma mask_for t src k i : NoDup (t_images t) -> accepted t -> nth_error (t_images t) k = Some i ->
  get_model_mask_for t i src = Ok (mask_at t k src).
Proof.
  unfold get_model_mask_for, mask_at, accepted. intros D A H. destruct (t_masks t) as [l|]; [|reflexivity].
  rewrite (index_of_nodup _ D _ _ H). unfold py_get.
  assert (k < length l)%nat by (rewrite A; apply nth_error_Some; congruence).
  destruct (nth_error l k) eqn:E; [reflexivity|]. apply nth_error_None in E. lia.
Qed.

Lemma mask_list_ok t src : NoDup (t_images t) -> accepted t -> forall l s,
  (forall k, nth_error l k = nth_error (t_images t) (s + k)) ->
  mask_list t src l = Ok (map (fun k => mask_at t k src) (seq s (length l))).
Proof.
  intros D A. induction l as [|i l IH]; intros s H; [reflexivity|].
  cbn [mask_list length seq map].
  rewrite (mask_for t src s i D A) by (rewrite <- (Nat.add_0_r s), <- H; reflexivity). cbn [bind].
  rewrite (IH (S s)); [reflexivity|].
  intro k. replace (S s + k)%nat with (s + S k)%nat by lia. now rewrite <- H.
Qed.

(** The images with masks, in order. *)
Definition masked t src : list (nat * Mask) :=
  flat_map (fun k => match nth_error (t_images t) k, mask_at t k src with
                     | Some i, Some m => [(i, m)] | _, _ => [] end) (seq 0 (length (t_images t))).

Lemma good_spec t src : forall l s, (forall k, nth_error l k = nth_error (t_images t) (s + k)) ->
  good l (map (fun k => mask_at t k src) (seq s (length l))) =
  flat_map (fun k => match nth_error (t_images t) k, mask_at t k src with
                     | Some i, Some m => [(i, m)] | _, _ => [] end) (seq s (length l)).
Proof.
  induction l as [|i l IH]; intros s H; [reflexivity|].
  cbn [length seq map flat_map].
  pose proof (H 0%nat) as H0. rewrite Nat.add_0_r in H0. cbn in H0. rewrite <- H0.
  assert (E : forall k, nth_error l k = nth_error (t_images t) (S s + k))
    by (intro k; replace (S s + k)%nat with (s + S k)%nat by lia; now rewrite <- H).
  cbn [good]. destruct (mask_at t s src); cbn [app]; now rewrite (IH (S s) E).
Qed.

Lemma all_masked t src : forall l s,
  existsb missing (map (fun k => mask_at t k src) (seq s (length (A:=nat) l))) = false ->
  (forall k, nth_error l k = nth_error (t_images t) (s + k)) ->
  forall i, In i l -> exists m, In (i, m) (good l (map (fun k => mask_at t k src) (seq s (length l)))).
Proof.
  induction l as [|j l IH]; intros s H E i I; [destruct I|].
  cbn [length seq map existsb good] in *. destruct (mask_at t s src) as [m|]; [|discriminate].
  cbn [missing orb] in H. destruct I as [->|I]; [exists m; now left|].
  destruct (IH (S s) H (fun k => eq_trans (E (S k)) (f_equal _ (Nat.add_succ_r s k))) i I) as [m' J].
  exists m'. now right.
Qed.

(** On a single source the checks pass, and the images used are those with a
    mask of the source (of the background if there is no source). *)
Theorem C94_images v src : single (v_cat v) src -> NoDup (t_images (v_t v)) -> accepted (v_t v) ->
  gpu_checks v =
    Ok (match t_images (v_t v), masked (v_t v) src with
        | [], _ => Some []
        | _, [] => None
        | _, l => Some l
        end)
  /\ (forall i m, In (i, m) (masked (v_t v) src) <->
        exists k, nth_error (t_images (v_t v)) k = Some i /\ mask_at (v_t v) k src = Some m).
Proof.
  intros G D A. split.
  - assert (E : gpu_checks v =
      (masks <- mask_list (v_t v) src (t_images (v_t v)) ;;
       if existsb missing masks then
         match good (t_images (v_t v)) masks with [] => Ok None | l => Ok (Some l) end
       else Ok (Some (good (t_images (v_t v)) masks)))).
    { unfold gpu_checks. destruct G; reflexivity. }
    rewrite E. clear E. set (t := v_t v) in *.
    rewrite (mask_list_ok t src D A (t_images t) 0) by reflexivity. cbn [bind].
    pose proof (all_masked t src (t_images t) 0) as AM.
    rewrite (good_spec t src (t_images t) 0) in * by reflexivity. fold (masked t src) in *.
    destruct (t_images t) as [|i0 l0] eqn:EI.
    + unfold masked. rewrite EI. reflexivity.
    + rewrite <- EI in *. destruct (existsb missing _) eqn:EX.
      * destruct (masked t src); reflexivity.
      * destruct (masked t src) eqn:EM; [|reflexivity].
        destruct (AM eq_refl (fun k => eq_refl) i0) as [m []]. rewrite EI. now left.
  - intros i m. unfold masked. rewrite in_flat_map. split.
    + intros [k [_ H]]. exists k.
      destruct (nth_error (t_images (v_t v)) k); [|destruct H]. destruct (mask_at (v_t v) k src); [|destruct H].
      destruct H as [[= -> ->]|[]]. split; reflexivity.
    + intros [k [H1 H2]]. exists k. split.
      * apply in_seq. split; [lia|]. apply nth_error_Some. congruence.
      * rewrite H1, H2. now left.
Qed.

(** Those are the images where the CPU code has derivatives for the source. *)
Theorem C94_same_images v src derivs nparams : single (v_cat v) src -> NoDup (t_images (v_t v)) -> accepted (v_t v) ->
  t_expect (v_t v) = true ->
  forall k i, nth_error (t_images (v_t v)) k = Some i ->
  (forall m, In (i, m) (masked (v_t v) src) -> get_source_derivatives (V:=Q) derivs nparams (v_t v) src i = Ok (derivs src i (Some m)))
  /\ ((forall m, ~ In (i, m) (masked (v_t v) src)) ->
       get_source_derivatives derivs nparams (v_t v) src i = Ok (repeat None (nparams src))).
Proof.
  intros G D A X k i H. unfold get_source_derivatives. rewrite (mask_for _ src k i D A H), X. cbn [bind andb].
  destruct (C94_images v src G D A) as [_ M]. split.
  - intros m I. apply M in I as [k' [H1 H2]].
    assert (k' = k) as ->.
    { pose proof (index_of_nodup _ D _ _ H) as P1. pose proof (index_of_nodup _ D _ _ H1) as P2. congruence. }
    rewrite H2. reflexivity.
  - intro N. destruct (mask_at (v_t v) k src) as [m|] eqn:E; [|reflexivity].
    exfalso. apply (N m). apply M. eauto.
Qed.

Variable solve : scene Mask -> list Q -> bool -> bool -> res dir.
Variable search : scene Mask -> list Q -> list Q -> res tried.
Variable gsolve : scene Mask -> list (nat * Mask) -> list Q -> bool -> res dir.
Variable gsearch : scene Mask -> list (nat * Mask) -> list Q -> list Q -> res tried.

Lemma optimize_ext (z1 z2 : optimizer Mask) v p o just :
  z_dir z1 v p o false = z_dir z2 v p o false -> (forall x, z_try z1 v p x = z_try z2 v p x) ->
  optimize z1 v p o just = optimize z2 v p o just.
Proof.
  intros E1 E2. unfold optimize. rewrite E1. destruct (z_dir z2 v p o false) as [x|]; [|reflexivity].
  cbn [bind]. destruct x as [|x|x var]; [reflexivity| |].
  - destruct (o_variance o); [reflexivity|]. destruct x; [reflexivity|]. now rewrite E2.
  - destruct (o_variance o); [|reflexivity]. destruct just; [reflexivity|]. destruct x; [reflexivity|]. now rewrite E2.
Qed.

(** GpuFriendlyOptimizer is its parent class. *)
Theorem C94_friendly v p o just : optimize (friendly solve search) v p o just = optimize (smarter solve search) v p o just.
Proof.
  apply optimize_ext; cbn; [destruct (eligible v); reflexivity|]. intro x. destruct (eligible v); reflexivity.
Qed.

(** GpuOptimizer is its parent class unless the images are frozen and there is a
    single source. *)
Theorem C94_fallback v p o just : v_frozen v = false \/ (forall src, ~ single (v_cat v) src) ->
  optimize (gpu solve search gsolve gsearch) v p o just = optimize (smarter solve search) v p o just.
Proof.
  intro N. assert (E : eligible v = false).
  { destruct (eligible v) eqn:E; [|reflexivity]. apply C94_eligible in E as [F [s G]].
    destruct N as [N|N]; [congruence|]. now apply N in G. }
  apply optimize_ext; cbn; rewrite E; reflexivity.
Qed.

(** The checks let nothing else pass. *)
Theorem C94_checks v l : gpu_checks v = Ok l -> exists src, single (v_cat v) src.
Proof.
  unfold gpu_checks. destruct (v_cat v) as [|a [|b [|c r]]]; cbn [length Nat.eqb orb negb]; try discriminate; cbn [py_get nth_error bind].
  - destruct a as [i|i| |i|i]; cbn; try discriminate; intros _; exists i; constructor.
  - destruct a as [i|i| |i|i]; cbn [is_star is_none orb negb]; try discriminate; destruct b as [j|j| |j|j]; cbn; try discriminate; intros _; eexists; constructor.
Qed.
(** The parent class: options are passed on as they are; the direction found is
    searched and reported, together with the gain and the step. *)
Theorem C94_parent v p o just : (o_damp o <= 0)%Q -> o_shared o = false -> o_variance o = false ->
  optimize (smarter solve search) v p o just =
    (x <- solve v p (o_priors o) (o_scale o) ;;
     match x with
     | DNone => Ok (Three p (Fin 0) DNone None)
     | DVec [] => Ok (Three p (Fin 0) x None)
     | DVec y => '(q, d, a) <- search v p y ;; Ok (Three q d x a)
     | DVar _ _ => Err TypeError
     end).
Proof.
  intros D S V. unfold optimize, smarter. cbn [z_dir z_try]. apply Qle_bool_iff in D. rewrite D, S, V. cbn [orb negb].
  destruct (solve v p (o_priors o) (o_scale o)) as [[|[|]|]|]; reflexivity.
Qed.
(** An optimizer that gives variances when asked: they are returned, alone or
    with the result of the search. *)
Theorem C94_variances (z : optimizer Mask) v p o x var : z_dir z v p o false = Ok (DVar x var) -> o_variance o = true -> x <> [] ->
  optimize z v p o true = Ok (JustVar p var) /\
  optimize z v p o false = ('(q, d, a) <- z_try z v p x ;; Ok (Four q d (DVec x) a (Some var))).
Proof. intros E V N. unfold optimize. rewrite E, V. cbn [bind]. destruct x as [|a x]; [now destruct N|]. split; reflexivity. Qed.
(** A line search on its own uses the masked images; without any, it stays where
    it is. *)
Theorem C94_search v src p x : v_frozen v = true -> single (v_cat v) src ->
  NoDup (t_images (v_t v)) -> accepted (v_t v) -> t_images (v_t v) <> [] ->
  z_try (gpu solve search gsolve gsearch) v p x =
    match masked (v_t v) src with [] => Ok (p, Fin 0, None) | l => gsearch v l p x end.
Proof.
  intros F G D A NE. assert (E : eligible v = true) by (apply C94_eligible; eauto).
  destruct (C94_images v src G D A) as [C _]. cbn [gpu z_try]. rewrite E. cbn [negb]. unfold gpu_try. rewrite C. cbn [bind].
  destruct (t_images (v_t v)) eqn:EI; [now destruct NE|]. destruct (masked (v_t v) src); reflexivity.
Qed.
(** Otherwise it solves and searches with the masked images; without any, it
    changes nothing. *)
Theorem C94_single v src p o just : v_frozen v = true -> single (v_cat v) src ->
  NoDup (t_images (v_t v)) -> accepted (v_t v) -> o_variance o = false ->
  optimize (gpu solve search gsolve gsearch) v p o just =
    match masked (v_t v) src with
    | [] => Ok (Three p (Fin 0) DNone None)
    | l => x <- gsolve v l p (o_priors o) ;;
           match x with
           | DNone => Ok (Three p (Fin 0) DNone None)
           | DVec [] => Ok (Three p (Fin 0) x None)
           | DVec y => '(q, d, a) <- gsearch v l p y ;; Ok (Three q d x a)
           | DVar _ _ => Err TypeError
           end
    end.
Proof.
  intros F G D A V. assert (E : eligible v = true) by (apply C94_eligible; eauto).
  destruct (C94_images v src G D A) as [C _].
  unfold optimize. cbn [gpu z_dir z_try]. rewrite E. cbn [negb].
  unfold gpu_update, gpu_try. rewrite C, V. cbn [bind].
  destruct (masked (v_t v) src) as [|im l] eqn:EM; [destruct (t_images (v_t v)); reflexivity|].
  destruct (t_images (v_t v)) eqn:EI; [unfold masked in EM; rewrite EI in EM; discriminate|].
  destruct (gsolve v (im :: l) p (o_priors o)) as [x|]; [|reflexivity]. cbn [bind].
  destruct x as [|y|]; [reflexivity| |reflexivity]. destruct y; reflexivity.
Qed.
End P.

(** ** Where the claim fails *)
Section R.
Let V := scene Z.
(** A star on one image; masks never set. *)
Definition bare : V := mkScene true [Point 7] (mkTractor [1%nat] None false).
Definition up (p x : list Q) : tried := (OptimModel.move Qplus Qmult 1%Q p x, Fin 1, Some 1%Q).
Definition usolve : V -> list Q -> bool -> bool -> res dir := fun _ p _ _ => Ok (DVec (map (fun _ => 1%Q) p)).
Definition usearch : V -> list Q -> list Q -> res tried := fun _ p x => Ok (up p x).
Definition ugsolve : V -> list (nat * Z) -> list Q -> bool -> res dir := fun _ _ p _ => Ok (DVec (map (fun _ => 1%Q) p)).
Definition ugsearch : V -> list (nat * Z) -> list Q -> list Q -> res tried := fun _ _ p x => Ok (up p x).
Definition plain : opts := mkOpts 0 true true false false.

(** Without model masks nothing is fitted on the GPU, whatever its solvers are;
    the parent class fits the same Tractor. *)
Theorem C94_no_masks_refuted : 
  (forall (v : V) src p o just solve search gsolve gsearch, v_frozen v = true -> single (v_cat v) src -> NoDup (t_images (v_t v)) ->
     t_masks (v_t v) = None -> o_variance o = false ->
     optimize (gpu solve search gsolve gsearch) v p o just = Ok (Three p (Fin 0) DNone None))
  /\ optimize (smarter usolve usearch) bare [0%Q] plain false = Ok (Three [1%Q] (Fin 1) (DVec [1%Q]) (Some 1%Q)).
Proof.
  split; [|vm_compute; reflexivity].
  intros v src p o just solve search gsolve gsearch F G D N V'.
  rewrite (C94_single solve search gsolve gsearch v src p o just F G D) by (trivial; unfold accepted; now rewrite N).
  assert (E : masked (v_t v) src = []); [|now rewrite E].
  unfold masked. induction (seq 0 (length (t_images (v_t v)))); [reflexivity|].
  cbn [flat_map]. rewrite IHl. unfold mask_at. rewrite N. destruct (nth_error _ _); reflexivity.
Qed.

(** A star on one image with a mask. *)
Definition star : V := mkScene true [Point 7] (mkTractor [1%nat] (Some [[(7%nat, 5%Z)]]) true).
(** The other options: damp and scale_columns are ignored on the GPU and
    shared_params too, where the parent class refuses; variance fails in a
    way that depends on the number of parameters, or gives one number. *)
Theorem C94_options_refuted :
  (forall (v : V) src p o o' icov solve search gsolve gsearch, v_frozen v = true -> single (v_cat v) src -> o_priors o = o_priors o' ->
     z_dir (gpu solve search gsolve gsearch) v p o icov = z_dir (gpu solve search gsolve gsearch) v p o' icov)
  /\ (forall (v : V) p o just solve search, (0 < o_damp o)%Q \/ o_shared o = true \/ o_variance o = true ->
        optimize (smarter solve search) v p o just = Err RuntimeError)
  /\ optimize (gpu usolve usearch ugsolve ugsearch) star [0%Q] (mkOpts 1 true true true false) false =
       Ok (Three [1%Q] (Fin 1) (DVec [1%Q]) (Some 1%Q))
  /\ optimize (gpu usolve usearch ugsolve ugsearch) star [0%Q] (mkOpts 0 true true false true) false = Err ValueError
  /\ optimize (gpu usolve usearch ugsolve ugsearch) star [0%Q; 0%Q] (mkOpts 0 true true false true) false = Err TypeError
  /\ optimize (gpu usolve usearch ugsolve ugsearch) star [0%Q; 0%Q] (mkOpts 0 true true false true) true = Ok (JustNumber [0%Q; 0%Q] 1%Q).
Proof.
  split; [|split; [|repeat split; vm_compute; reflexivity]].
  - intros v src p o o' icov solve search gsolve gsearch F G P. cbn [gpu z_dir].
    assert (E : eligible v = true) by (apply C94_eligible; eauto). rewrite E, P. reflexivity.
  - intros v p o just solve search H. unfold optimize. cbn [smarter z_dir].
    assert (o_shared o || negb (Qle_bool (o_damp o) 0) || o_variance o = true) as ->; [|reflexivity].
    destruct H as [H|[->| ->]]; [|reflexivity|apply orb_true_r].
    assert (Qle_bool (o_damp o) 0 = false) as ->; [|now rewrite orb_true_r].
    destruct (Qle_bool (o_damp o) 0) eqn:E; [|reflexivity]. apply Qle_bool_iff in E.
    exfalso. revert H. apply Qle_not_lt. exact E.
Qed.

(** An image listed twice: both places are given the mask of the first. *)
Theorem C94_twice_refuted : exists v : V, single (v_cat v) 7 /\ accepted (v_t v) /\
  t_masks (v_t v) = Some [[(7%nat, 5%Z)]; []] /\ gpu_checks v = Ok (Some [(1%nat, 5%Z); (1%nat, 5%Z)]).
Proof.
  exists (mkScene true [Galaxy 7] (mkTractor [1%nat; 1%nat] (Some [[(7%nat, 5%Z)]; []]) true)).
  repeat split; constructor.
Qed.

(** With a background, its own mask plays no role: it may be missing or larger. *)
Theorem C94_background_refuted : forall m m' : Z,
  gpu_checks (mkScene true [Point 7; Glow 8] (mkTractor [1%nat] (Some [[(7%nat, m); (8%nat, m')]]) true)) = Ok (Some [(1%nat, m)])
  /\ gpu_checks (mkScene true [Point 7; Glow 8] (mkTractor [1%nat] (Some [[(8%nat, m')]]) true)) = Ok None
  /\ get_model_mask_for (mkTractor [1%nat] (Some [[(8%nat, m')]]) true) 1 8 = Ok (Some m').
Proof. intros. repeat split. Qed.
End R.

(** ** The array module *)
Definition fresh (w : process) : Prop := forall m, w_get w m = false.

(** An optimizer made with a name works, here and in any process where the
    module can be imported, and brings its frames along. *)
Theorem C94_pickle {F} (w w' : process) name (w1 : process) (g : gopt F) :
  (name = "cupy" \/ name = "numpy")%string -> new_gopt w (CName name) = Ok (w1, g) ->
  (exists m, use w1 g = Ok m) /\
  (forall (fr : option F) m, (if String.eqb name "cupy" then w_cupy w' else Ok (w_numpy w')) = Ok m ->
     exists w2 (g2 : gopt F), undump w' (dump (mkGopt (g_orig g) (g_cp g) fr)) = Ok (w2, g2) /\
       use w2 g2 = Ok m /\ g_frames g2 = fr).
Proof.
  unfold new_gopt, set_cp. intros [-> | ->] H.
  - destruct (w_cupy w) as [m|] eqn:E; [|discriminate]. cbn [bind] in H. injection H as <- <-.
    split; [exists m; cbn; now rewrite Nat.eqb_refl|].
    intros fr m' H. cbn [String.eqb Ascii.eqb Bool.eqb] in H. unfold undump, dump, set_cp. cbn [fst snd g_orig g_frames].
    change (if String.eqb "cupy" "cupy" then w_cupy w' else Ok (w_numpy w')) with (w_cupy w') in H.
    rewrite H. cbn [bind]. eexists _, _. split; [reflexivity|]. split; [|reflexivity]. cbn. now rewrite Nat.eqb_refl.
  - injection H as <- <-. split; [eexists; cbn; now rewrite Nat.eqb_refl|].
    intros fr m' H. change (if String.eqb "numpy" "cupy" then w_cupy w' else Ok (w_numpy w')) with (Ok (w_numpy w')) in H.
    injection H as <-. eexists _, _. split; [reflexivity|]. split; [|reflexivity]. cbn. now rewrite Nat.eqb_refl.
Qed.

(** Made with the module itself, it fails unless some optimizer was made by
    name before, and always after pickling. *)
Theorem C94_module_refuted {F} : forall m w, exists (g : gopt F), new_gopt w (CModule m) = Ok (w, g) /\
  (fresh w -> use w g = Err AttributeError) /\
  (w_numpy w = m -> forall w1 (g' : gopt F), new_gopt w (CName "numpy") = Ok (w1, g') -> use w1 g = Ok m) /\
  (forall w', exists g2 : gopt F, undump w' (dump g) = Ok (w', g2) /\ use w' g2 = Err AttributeError).
Proof.
  intros m w. eexists. split; [reflexivity|]. split; [|split].
  - intro H. unfold use. cbn. now rewrite H.
  - intros E w1 g' H. injection H as <- <-. unfold use. cbn. now rewrite E, Nat.eqb_refl.
  - intro w'. eexists. split; reflexivity.
Qed.

(** ** Which parameter gets which number *)
Lemma step_to_nth alpha : forall p x k pk xk, nth_error p k = Some pk -> nth_error x k = Some xk ->
  nth_error (step_to p x alpha) k = Some (pk + alpha * xk)%Q.
Proof.
  unfold step_to. induction p as [|a p IH]; intros x k pk xk H1 H2; [destruct k; discriminate|].
  destruct x as [|b x]; [destruct k; discriminate|]. destruct k; cbn in *.
  - injection H1 as ->. injection H2 as ->. reflexivity.
  - now apply IH.
Qed.

(** With everything thawed, every parameter moves by its own number. *)
Theorem C94_own_step ps pb us ub alpha k pk : length us = length ps -> length ub = length pb ->
  (nth_error ps k = Some pk -> exists u, nth_error us k = Some u /\
     nth_error (step_to (tractor_params true true ps pb) (update_vector us ub) alpha) k = Some (pk + alpha * u)%Q)
  /\ (nth_error pb k = Some pk -> exists u, nth_error ub k = Some u /\
     nth_error (step_to (tractor_params true true ps pb) (update_vector us ub) alpha) (length ps + k) = Some (pk + alpha * u)%Q).
Proof.
  intros L1 L2. unfold tractor_params, update_vector. split; intro H.
  - assert (K : (k < length ps)%nat) by (apply nth_error_Some; congruence).
    destruct (nth_error us k) as [u|] eqn:E; [|apply nth_error_None in E; lia].
    exists u. split; [reflexivity|]. apply step_to_nth; rewrite nth_error_app1 by lia; assumption.
  - assert (K : (k < length pb)%nat) by (apply nth_error_Some; congruence).
    destruct (nth_error ub k) as [u|] eqn:E; [|apply nth_error_None in E; lia].
    exists u. split; [reflexivity|].
    apply step_to_nth; rewrite nth_error_app2 by lia; [|rewrite L1];
      replace (length ps + k - length ps)%nat with k by lia; assumption.
Qed.

(** With the source frozen in the catalogue, the background moves by numbers
    meant for the source. *)
Theorem C94_frozen_source_refuted : exists ps pb us ub,
  length us = length ps /\ length ub = length pb /\
  tractor_params false true ps pb = pb /\
  Forall (fun u => u == 0)%Q ub /\ ~ (nth 0 (step_to (tractor_params false true ps pb) (update_vector us ub) 1) 0 == nth 0 pb 0)%Q.
Proof.
  exists [10%Q; 20%Q], [3%Q], [5%Q; 6%Q], [0%Q]. repeat split.
  - repeat constructor.
  - vm_compute. discriminate.
Qed.

(** ** A case: a galaxy with a background on three images, two of them with masks *)
Definition trio : scene Z :=
  mkScene true [Galaxy 4; Glow 9]
    (mkTractor [11%nat; 12%nat; 13%nat] (Some [[(4%nat, 70%Z)]; [(9%nat, 71%Z)]; [(9%nat, 72%Z); (4%nat, 73%Z)]]) true).
Example C94_ex : single (v_cat trio) 4 /\ eligible trio = true /\ NoDup (t_images (v_t trio)) /\ accepted (v_t trio) /\
  gpu_checks trio = Ok (Some [(11%nat, 70%Z); (13%nat, 73%Z)]) /\
  optimize (gpu usolve usearch ugsolve ugsearch) trio [2%Q; 3%Q] plain false = Ok (Three [3%Q; 4%Q] (Fin 1) (DVec [1%Q; 1%Q]) (Some 1%Q)).
Proof.
  split; [constructor|]. split; [reflexivity|].
  split; [repeat constructor; cbn; intuition discriminate|].
  repeat split; vm_compute; reflexivity.
Qed.
Example C94_pickle_ex : let w := mkProcess (Err RuntimeError) 3 (fun _ => false) in
  exists w1 g, new_gopt (F:=Z) w (CName "numpy") = Ok (w1, g) /\ use w1 g = Ok 3%nat /\ g_orig g = Some "numpy"%string.
Proof. cbv zeta. eexists _, _. split; [reflexivity|]. split; reflexivity. Qed.

Print Assumptions C94_eligible.
Print Assumptions C94_images.
Print Assumptions C94_same_images.
Print Assumptions C94_friendly.
Print Assumptions C94_fallback.
Print Assumptions C94_checks.
Print Assumptions C94_parent.
Print Assumptions C94_variances.
Print Assumptions C94_search.
Print Assumptions C94_single.
Print Assumptions C94_no_masks_refuted.
Print Assumptions C94_options_refuted.
Print Assumptions C94_twice_refuted.
Print Assumptions C94_background_refuted.
Print Assumptions C94_pickle.
Print Assumptions C94_module_refuted.
Print Assumptions C94_own_step.
Print Assumptions C94_frozen_source_refuted.
