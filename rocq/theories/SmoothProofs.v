(** Proofs about the smoother models. *)
From Coquelicot Require Import Coquelicot.
From Coq Require Import String Bool Reals Lra Lia List Arith Permutation.
From Verif Require Import Base XR SampleModel SampleSpec SampleProofs PAModel WeightSpec WeightProofs
  FilterModel TrajModel FilterSpec FilterProofs TrajProofs FilterTotal Prop_Weights FilterSem
  Prop_Live Prop_Cond SmoothModel SmoothSpec.
Import ListNotations.
Open Scope R_scope.

(** ** Random draws *)
Lemma draws_spec {W} (g : rng W) n : forall s, draws g n s = Ok (stream g n s).
Proof.
  induction n as [|n IH]; intros s; simpl; [reflexivity|].
  unfold bind, draw. destruct (rand g s) as [r s1]. rewrite IH.
  destruct (stream g n s1) as [l s2]. reflexivity.
Qed.

Lemma stream_length {W} (g : rng W) n : forall s, length (fst (stream g n s)) = n.
Proof.
  induction n as [|n IH]; intros s; simpl; auto.
  destruct (rand g s) as [r s1]. specialize (IH s1). destruct (stream g n s1) as [l s2]. simpl in *. auto.
Qed.

Lemma stream_unit {W} (g : rng W) n : rng_ok g -> forall s, Forall unit_draw (fst (stream g n s)).
Proof.
  intros [Hg _]. induction n as [|n IH]; intros s; simpl; auto.
  specialize (Hg s). destruct (rand g s) as [r s1]. specialize (IH s1).
  destruct (stream g n s1) as [l s2]. simpl in *. constructor; auto.
Qed.

Lemma sampleM_rand {W} (g : rng W) w n s l s' : sampleM g w n s = Ok (l, s') ->
  exists r, rand g s = (r, s') /\ np_sample w n r = Ok l.
Proof.
  intros H. unfold sampleM in H. minv H. unfold draw in Hm. destruct (rand g s) as [r s2].
  inversion Hm; subst. inversion H; subst. exists a. auto.
Qed.

(** ** Masks *)
Lemma mask_length {A} (x : list A) m : length x = length m -> exists r, mask x m = Ok r.
Proof.
  revert m; induction x as [|a x IH]; intros [|c m] H; simpl in *; try discriminate; eauto.
  destruct (IH m) as [r Hr]; [lia|]. rewrite Hr. simpl. eauto.
Qed.
Lemma mask_Forall {A} (Q : A -> Prop) x : forall m r, mask x m = Ok r -> Forall Q x -> Forall Q r.
Proof.
  induction x as [|a x IH]; intros [|c m] r H F; simpl in H; try discriminate.
  - inversion H; auto.
  - destruct (mask x m) as [r'|] eqn:E; simpl in H; [|discriminate]. inversion H; subst.
    inversion F; subst. destruct c; eauto.
Qed.
Lemma mask_set_ok {A} (x : list A) m y : length x = length m -> length y = length m ->
  exists r, mask_set x m y = Ok r.
Proof.
  revert m y; induction x as [|a x IH]; intros [|c m] [|b y] H1 H2; simpl in *; try discriminate; eauto.
  destruct (IH m y) as [r Hr]; [lia|lia|]. rewrite Hr. simpl. eauto.
Qed.
Lemma mask_set_spec {A} (x : list A) : forall m y r, mask_set x m y = Ok r ->
  length r = length x /\ length m = length x /\ length y = length x /\
  forall k a b c, nth_error x k = Some a -> nth_error y k = Some b -> nth_error m k = Some c ->
    nth_error r k = Some (if c : bool then b else a).
Proof.
  induction x as [|a x IH]; intros [|c m] [|b y] r H; simpl in H; try discriminate.
  - inversion H; subst. repeat split; auto. intros [|k] a b c Hk; discriminate.
  - destruct (mask_set x m y) as [r'|] eqn:E; simpl in H; [|discriminate]. inversion H; subst.
    destruct (IH _ _ _ E) as (L1 & L2 & L3 & Hn). simpl. repeat split; auto.
    intros [|k] a' b' c' Ha Hb Hc; simpl in *; [inversion Ha; inversion Hb; inversion Hc; subst; auto|]. eauto.
Qed.

Lemma permute_spec {W A} (g : rng W) (x r : list A) s s' : rng_ok g -> permute g x s = Ok (r, s') ->
  Permutation r x.
Proof.
  intros [_ Hp] H. unfold permute in H. apply bind_ok in H. destruct H as (p & s1 & Hm & H).
  specialize (Hp (length x) s). destruct (permutation g (length x) s) as [p' s2]. simpl in Hp.
  inversion Hm; subst. apply lift_ok in H. destruct H as (r' & Hr & E). inversion E; subst.
  assert (T : forall a b : list nat, Permutation a b -> forall ra rb, take x a = Ok ra -> take x b = Ok rb -> Permutation ra rb).
  { clear. induction 1; intros ra rb Ha Hb; simpl in *.
    - inversion Ha; inversion Hb; auto.
    - destruct (idx x x0); simpl in *; [|discriminate].
      destruct (take x l) eqn:E1; simpl in *; [|discriminate].
      destruct (take x l') eqn:E2; simpl in *; [|discriminate]. inversion Ha; inversion Hb; subst. auto.
    - destruct (idx x x0); destruct (idx x y); simpl in *; try discriminate.
      destruct (take x l) eqn:E1; simpl in *; [|discriminate]. inversion Ha; inversion Hb; subst. constructor.
    - assert (F : Forall (fun i => (i < length x)%nat) l')
        by (eapply Permutation_Forall; [exact H|]; eapply take_ok_inv; eauto).
      destruct (take_ok x l' F) as [rm E]. apply Permutation_trans with rm; [apply IHPermutation1; auto|apply IHPermutation2; auto]. }
  eapply T; [exact Hp|exact Hr|]. apply take_all.
Qed.

Lemma permute_ok {W A} (g : rng W) (x : list A) s : rng_ok g -> exists r s', permute g x s = Ok (r, s').
Proof.
  intros [_ Hp]. unfold permute, bind, lift. specialize (Hp (length x) s).
  destruct (permutation g (length x) s) as [p s1]. simpl in Hp.
  destruct (take_ok x p) as [r Hr].
  { eapply Permutation_Forall; [apply Permutation_sym; exact Hp|]. apply Forall_forall. intros i Hi. apply in_seq in Hi. lia. }
  rewrite Hr. eauto.
Qed.

(** ** Normalised weights *)
Lemma norm_weights_ok w : w <> [] -> exists wn, norm_weights w = Ok wn /\ length wn = length w.
Proof.
  intros H. unfold norm_weights. destruct (xmax_ok w H) as [m ->]. simpl. eexists. split; [reflexivity|].
  unfold exp_norm. rewrite !map_length. auto.
Qed.

Lemma norm_weights_length w wn : norm_weights w = Ok wn -> length wn = length w /\ w <> [].
Proof.
  intros H. destruct w as [|a w]; [discriminate|]. destruct (norm_weights_ok (a :: w)) as (wn' & E & L); [discriminate|].
  rewrite E in H. inversion H; subst. split; [auto|discriminate].
Qed.

Lemma norm_weights_fin w wn : live w -> norm_weights w = Ok wn ->
  exists c, 0 < c /\ wn = map Fin (map (Rmult c) (map lin w)).
Proof.
  intros L H. unfold norm_weights in H. destruct (live_max _ L) as (m & Em & _). rewrite Em in H. simpl in H.
  inversion H; subst; clear H.
  assert (Lsh : live (map (fun x => xsub x (Fin m)) w)).
  { replace (map (fun x => xsub x (Fin m)) w) with (map (fun x => xadd x (Fin (- m))) w) by reflexivity.
    apply live_shift; auto. }
  destruct (exp_norm_fin _ Lsh) as (c & Hc & E). rewrite E.
  replace (map lin (map (fun x => xsub x (Fin m)) w)) with (map (Rmult (exp (- m))) (map lin w))
    by (symmetry; apply (lin_shift (- m)); apply L).
  exists (c * exp (- m)). split; [apply Rmult_lt_0_compat; auto using exp_pos|].
  f_equal. rewrite (map_map (Rmult (exp (- m)))). apply map_ext. intros x. ring.
Qed.

Lemma sample_norm {W} (g : rng W) w wn n s l s' : live w -> norm_weights w = Ok wn ->
  sampleM g wn n s = Ok (l, s') ->
  exists r, rand g s = (r, s') /\ np_sample (map Fin (map lin w)) n r = Ok l.
Proof.
  intros L H E. destruct (norm_weights_fin _ _ L H) as (c & Hc & ->).
  destruct (sampleM_rand _ _ _ _ _ _ E) as (r & Hr & Hs). exists r. split; auto.
  rewrite sample_scale in Hs; auto. apply weights_ok_lin; auto.
Qed.

(** ** Selection of particles by the backward passes *)
Section Select.
Context {P : Type}.

(** The steps [out] hold the particles of the steps [tr] selected by the index lists
    [inds]. *)
Definition selects (tr : list (tstep P)) (inds : list (list nat)) (out : list (tstep P)) : Prop :=
  length out = length tr /\ length inds = length tr /\
  forall k st ind st', nth_error tr k = Some st -> nth_error inds k = Some ind -> nth_error out k = Some st' ->
    take (part (st_pa st)) ind = Ok (part (st_pa st')).

(** Consecutive index lists are linked by the recorded ancestors. *)
Definition linked (tr : list (tstep P)) (inds : list (list nat)) : Prop :=
  forall k st ind ind', nth_error tr (S k) = Some st -> nth_error inds (S k) = Some ind ->
    nth_error inds k = Some ind' -> take (st_anc st) ind = Ok ind'.

Lemma pa_init_part (p : list P) o pa : pa_init p o = Ok pa -> part pa = p.
Proof.
  unfold pa_init. destruct o; [intros H; inversion H; auto|].
  destruct p; [discriminate|]. intros H; inversion H; auto.
Qed.
Lemma pa_init_uniform (p : list P) pa : pa_init p None = Ok pa ->
  part pa = p /\ lw pa = repeat (Fin (- ln (INR (length p)))) (length p).
Proof. unfold pa_init. destruct p; [discriminate|]. intros H; injection H as <-. auto. Qed.

Lemma firstn_S_nth (l : list (tstep P)) k a : nth_error l k = Some a -> firstn (S k) l = firstn k l ++ [a].
Proof.
  revert k; induction l as [|b l IH]; intros [|k] H; simpl in *; try discriminate.
  - inversion H; auto.
  - f_equal. apply IH; auto.
Qed.

(** Selecting one earlier step in front. *)
Lemma selects_cons (tr0 : list (tstep P)) st tr ind inds st' out :
  selects tr inds out -> take (part (st_pa st)) ind = Ok (part (st_pa st')) ->
  selects (st :: tr) (ind :: inds) (st' :: out).
Proof.
  intros (L1 & L2 & H) Hs. split; [simpl; auto|]. split; [simpl; auto|].
  intros [|k] a b c Ha Hb Hc; simpl in *; [congruence|]. eapply H; eauto.
Qed.
End Select.

Section Loops.
Context {W P U Y V : Type}.
Variable sm : smodel W P U Y V.
Variable g : rng W.
Hypothesis Hg : rng_ok g.
Hypothesis Hc : copying sm.

Lemma skipn_nth_cons {A} (l : list A) k a : nth_error l k = Some a -> skipn k l = a :: skipn (S k) l.
Proof.
  revert k; induction l as [|b l IH]; intros [|k] H; simpl in *; try discriminate.
  - inversion H; auto.
  - apply IH; auto.
Qed.

Lemma ancestors_loop_sel n : forall tr u y t find anc future w out w',
  ancestors_loop sm n tr u y t find anc future w = Ok (out, w') -> (n <= length tr)%nat ->
  forall inds, selects (skipn n tr) inds future -> linked (skipn n tr) inds ->
  (forall st ind, nth_error tr n = Some st -> nth_error inds 0 = Some ind -> take (st_anc st) ind = Ok anc) ->
  smooth_wf (length anc) future ->
  exists inds', selects tr (inds' ++ inds) out /\ linked tr (inds' ++ inds) /\
    length inds' = n /\ smooth_wf (length anc) out.
Proof.
  induction n as [|k IH]; intros tr u y t find anc future w out w' H Hn inds Hs Hl Ha Hwf.
  - simpl in H. apply ret_ok in H. inversion H; subst. exists []. simpl in *. auto.
  - cbn [ancestors_loop] in H. minv H. apply idx_ok in Hl0.
    pose proof (Hc _ _ _ _ _ _ _ _ _ _ _ _ Hm) as ->.
    pose proof (pa_init_uniform _ _ Hl3) as [Ep Ew].
    pose proof (take_length _ _ _ Hl1) as La. pose proof (take_length _ _ _ Hl2) as Lp.
    specialize (IH _ _ _ _ _ _ _ _ _ _ H ltac:(lia) (anc :: inds)).
    rewrite (skipn_nth_cons _ _ _ Hl0) in IH.
    destruct IH as (inds' & S1 & S2 & S3 & S4).
    + apply (selects_cons tr); auto. cbn [st_pa]. rewrite Ep. auto.
    + intros [|j] st ind ind' H1 H2 H3; simpl in H1, H2, H3.
      * inversion H3; subst. eapply Ha; [|exact H2].
        replace (nth_error tr (S k)) with (nth_error (skipn (S k) tr) 0); auto.
        rewrite <- (firstn_skipn (S k) tr) at 2. rewrite nth_error_app2; rewrite firstn_length; [|lia].
        f_equal. lia.
      * eapply Hl; eauto.
    + intros st ind H1 H2. rewrite Hl0 in H1. inversion H1; subst. simpl in H2. inversion H2; subst. auto.
    + intros [|j] st Hst; simpl in Hst.
      * injection Hst as <-. cbn [st_pa]. rewrite Ew, Ep, Lp, La. auto.
      * rewrite La. eapply Hwf; eauto.
    + exists (inds' ++ [anc]). rewrite <- app_assoc. simpl. rewrite app_length. simpl.
      rewrite <- La. repeat split; auto; try apply S1; try lia; try (eapply S4; eauto).
Qed.

Lemma skipn_last {A} (l : list A) a : idx_last l = Ok a -> skipn (length l - 1) l = [a] /\ (0 < length l)%nat.
Proof.
  intros H. pose proof (idx_last_nth _ _ H) as Hn.
  assert (0 < length l)%nat by (destruct l; [discriminate|simpl; lia]).
  split; auto. rewrite (skipn_nth_cons _ _ _ Hn). replace (S (length l - 1)) with (length l) by lia.
  rewrite skipn_all. auto.
Qed.

Lemma calculate_ancestors_sel tr u y t ind w out w' :
  calculate_ancestors sm tr u y t ind w = Ok (out, w') ->
  exists inds, selects tr inds out /\ linked tr inds /\ nth_error inds (length tr - 1) = Some ind /\
    smooth_wf (length ind) out.
Proof.
  unfold calculate_ancestors. intros H. minv H.
  pose proof (Hc _ _ _ _ _ _ _ _ _ _ _ _ Hm) as ->.
  destruct (pa_init_uniform _ _ Hl2) as [Ep Ew].
  pose proof (take_length _ _ _ Hl0) as La. pose proof (take_length _ _ _ Hl1) as Lp.
  destruct (skipn_last _ _ Hl) as [Es Lt]. pose proof (idx_last_nth _ _ Hl) as Hn.
  destruct (ancestors_loop_sel _ _ _ _ _ _ _ _ _ _ _ H ltac:(lia) [ind]) as (inds' & S1 & S2 & S3 & S4).
  - rewrite Es. split; [reflexivity|]. split; [reflexivity|].
    intros [|k] st i st' H1 H2 H3; simpl in *; [|destruct k; discriminate].
    injection H1 as <-; injection H2 as <-; injection H3 as <-. cbn [st_pa]. rewrite Ep. auto.
  - rewrite Es. intros k st i i' H1. destruct k; discriminate.
  - intros st i H1 H2. rewrite Hn in H1. inversion H1; subst. simpl in H2. inversion H2; subst. auto.
  - rewrite La. intros [|k] st Hst; simpl in Hst; [|destruct k; discriminate].
    injection Hst as <-. cbn [st_pa]. rewrite Ew, Ep, Lp. auto.
  - exists (inds' ++ [ind]). rewrite La in S4. repeat split; auto; try apply S1; try (eapply S4; eauto).
    rewrite nth_error_app2 by lia. rewrite S3, Nat.sub_diag. auto.
Qed.
End Loops.
