(** Congruence of the smoothers in the user's model: the result depends on the model
    only through the calls specified in ProtoSpec. *)
From Coq Require Import String Bool ZArith Reals List Arith Lia Permutation.
From Verif Require Import Base XR SampleSpec SampleModel PAModel WeightSpec WeightProofs FilterModel TrajModel
  FilterSpec SmoothModel SmoothProofs SmoothRs SmoothPath ProtoSpec.
Import ListNotations.
Open Scope R_scope.

Lemma bind_ext {W A B} (x x' : M W A) (f f' : A -> M W B) s :
  x s = x' s -> (forall a s', x s = Ok (a, s') -> f a s' = f' a s') -> bind x f s = bind x' f' s.
Proof.
  intros E H. unfold bind. rewrite <- E. destruct (x s) as [[a s']|] eqn:Ex; [|reflexivity]. apply H. reflexivity.
Qed.

(** Step over a computation that is the same on both sides. *)
Ltac same_bind := apply bind_ext; [reflexivity|].
Ltac same_lift x E := apply bind_ext; [reflexivity|
  let s1 := fresh "s" in intros x s1 E; apply lift_ok in E;
  let b := fresh "b" in let E1 := fresh "E" in let E2 := fresh "E" in
  destruct E as (b & E1 & E2); injection E2 as ? ?; subst b; subst s1; rename E1 into E].

Section Backward.
Context {W P U Y V : Type}.
Variables sm sm' : smodel W P U Y V.
Variable g : rng W.
Variable junk : nat -> nat.
Variable fuel : nat.
Hypothesis Hg : rng_ok g.

Section OneStep.
Variables (m : nat) (pa : papprox P) (ptr : list (tstep P)) (pind : list nat) (fut : list (tstep P))
  (u : list (cell U)) (y : list (cell Y)) (t : list nat) (k : nat).
(** The calls of a backward step. *)
Definition bcall (p : list P) (pi find : list nat) : Prop :=
  ((p = part pa /\ pi = pind) \/ exists ind, take (part pa) ind = Ok p /\ take pind ind = Ok pi) /\
  (length (part pa) = length (lw pa) -> length find = length p) /\ Forall (fun j => (j < m)%nat) find.
Hypothesis Hx : forall p pi find s, bcall p pi find ->
  s_xnext sm p ptr pi fut find u y t k s = s_xnext sm' p ptr pi fut find u y t k s.

Lemma bsi_one_ext fi s : (fi < m)%nat ->
  bsi_one sm g pa ptr pind fut fi u y t k s = bsi_one sm' g pa ptr pind fut fi u y t k s.
Proof.
  intros Hf. unfold bsi_one. apply bind_ext; [|reflexivity]. apply Hx. split; [left; auto|]. split.
  - intros ->. apply repeat_length.
  - apply Forall_forall. intros j Hj. apply repeat_spec in Hj. subst. auto.
Qed.

Lemma bsi_full_ext find : forall s, Forall (fun j => (j < m)%nat) find ->
  bsi_full sm g pa ptr pind fut find u y t k s = bsi_full sm' g pa ptr pind fut find u y t k s.
Proof.
  induction find as [|fi find IH]; intros s H; cbn [bsi_full]; [reflexivity|]. inversion H; subst.
  apply bind_ext; [apply bsi_one_ext; auto|]. intros i s1 _. apply bind_ext; [apply IH; auto|reflexivity].
Qed.

Lemma sampleM_permute_length w n s1 l s2 l' s3 : sampleM g w n s1 = Ok (l, s2) -> permute g l s2 = Ok (l', s3) ->
  length l' = n.
Proof.
  intros E1 E2. apply sampleM_range in E1; auto. apply permute_spec in E2; auto.
  rewrite (Permutation_length E2). tauto.
Qed.

Lemma rs_round_ext mp w todo result s : Forall (fun j => (j < m)%nat) todo ->
  rs_round sm g pa ptr pind fut u y t k mp w todo result s = rs_round sm' g pa ptr pind fut u y t k mp w todo result s.
Proof.
  intros H. unfold rs_round. same_bind. intros l s1 E1. same_bind. intros ind s2 E2.
  assert (L := sampleM_permute_length _ _ _ _ _ _ _ E1 E2).
  same_lift p E3. same_lift pi E4. apply bind_ext; [|reflexivity]. apply Hx. split; [right; eauto|]. split; [|auto].
  intros _. rewrite (take_length _ _ _ E3). auto.
Qed.

Lemma rs_round_todo mp w todo result s r td ak s1 : Forall (fun j => (j < m)%nat) todo ->
  rs_round sm g pa ptr pind fut u y t k mp w todo result s = Ok ((r, td, ak), s1) -> Forall (fun j => (j < m)%nat) td.
Proof. intros H E. unfold rs_round in E. minv E. eapply mask_Forall; eauto. Qed.

Lemma rs_loop_ext n mp w : forall todo result s, Forall (fun j => (j < m)%nat) todo ->
  rs_loop sm g n pa ptr pind fut u y t k mp w todo result s = rs_loop sm' g n pa ptr pind fut u y t k mp w todo result s.
Proof.
  induction n as [|n IH]; intros todo result s H; cbn [rs_loop].
  - apply bind_ext; [apply bsi_full_ext; auto|reflexivity].
  - apply bind_ext; [apply rs_round_ext; auto|]. intros [[r td] ak] s1 E. apply rs_round_todo in E; auto.
    destruct td; [reflexivity|]. apply IH. auto.
Qed.

Lemma rsas_loop_ext n mp sv sw stop w : forall pk Pk todo result s, Forall (fun j => (j < m)%nat) todo ->
  rsas_loop sm g n pa ptr pind fut u y t k mp sv sw stop w pk Pk todo result s =
  rsas_loop sm' g n pa ptr pind fut u y t k mp sv sw stop w pk Pk todo result s.
Proof.
  induction n as [|n IH]; intros pk Pk todo result s H; cbn [rsas_loop]; [reflexivity|].
  apply bind_ext; [apply rs_round_ext; auto|]. intros [[r td] ak] s1 E. apply rs_round_todo in E; auto.
  destruct td as [|j td]; [reflexivity|]. same_bind. intros [pk' Pk'] s2 _. destruct (Rltb pk' stop).
  - apply bind_ext; [apply bsi_full_ext; auto|reflexivity].
  - apply IH. auto.
Qed.

Lemma seq_lt n : Forall (fun j => (j < n)%nat) (seq 0 n).
Proof. apply Forall_forall. intros j Hj. apply in_seq in Hj. lia. Qed.

Lemma mcmc_loop_ext n w : forall ind pc s,
  mcmc_loop sm g n pa ptr pind fut (seq 0 m) u y t k w ind pc s =
  mcmc_loop sm' g n pa ptr pind fut (seq 0 m) u y t k w ind pc s.
Proof.
  induction n as [|n IH]; intros ind pc s; cbn [mcmc_loop]; [reflexivity|].
  apply bind_ext; [|intros; apply IH]. unfold mcmc_round. same_bind. intros l s1 E1. same_bind. intros pr s2 E2.
  assert (L := sampleM_permute_length _ _ _ _ _ _ _ E1 E2).
  same_lift p E3. same_lift pi E4. apply bind_ext; [|reflexivity]. apply Hx. split; [right; eauto|]. split; [|apply seq_lt].
  intros _. rewrite (take_length _ _ _ E3). auto.
Qed.

Lemma bsi_mcmc_ext R_ anc s : length anc = m ->
  bsi_mcmc sm g pa ptr pind fut (seq 0 m) u y t k R_ anc s = bsi_mcmc sm' g pa ptr pind fut (seq 0 m) u y t k R_ anc s.
Proof.
  intros La. unfold bsi_mcmc. same_bind. intros w s1 _. same_lift p E3. same_lift pi E4.
  apply bind_ext; [|intros; apply mcmc_loop_ext]. apply Hx. split; [right; eauto|]. split; [|apply seq_lt].
  intros _. rewrite seq_length, (take_length _ _ _ E3). auto.
Qed.
End OneStep.

Lemma bsi_select_ext kind o st k tr fut m u y t anc s : length anc = m ->
  (forall p pi find s, bcall m (st_pa st) (st_anc st) p pi find ->
     s_xnext sm p (firstn k tr) pi fut find u y t k s = s_xnext sm' p (firstn k tr) pi fut find u y t k s) ->
  bsi_select sm g junk fuel kind o st k tr fut (seq 0 m) u y t anc s =
  bsi_select sm' g junk fuel kind o st k tr fut (seq 0 m) u y t anc s.
Proof.
  intros La Hx. destruct kind; cbn [bsi_select].
  - eapply bsi_full_ext; eauto. apply seq_lt.
  - same_bind. intros r s1 _. same_bind. intros n s2 _. apply bsi_mcmc_ext; auto.
  - same_bind. intros mp s1 _. same_bind. intros mk s2 _. same_bind. intros r s3 _. unfold bsi_rs. same_bind.
    intros w s4 _. rewrite seq_length. eapply rs_loop_ext; eauto. apply seq_lt.
  - do 7 (same_bind; intros ? ? _). unfold bsi_rsas. same_bind.
    intros w s4 _. rewrite seq_length. eapply rsas_loop_ext; eauto. apply seq_lt.
Qed.

Section Run.
Variables (m : nat) (tr : list (tstep P)) (u : list (cell U)) (y : list (cell Y)) (t : list nat).
Hypothesis Hxn : forall p pind fut find k s, of_step tr k p pind -> at_step (length tr) k (firstn k tr) fut ->
  fut <> [] -> (Forall (fun st => length (part (st_pa st)) = length (lw (st_pa st))) tr -> length find = length p) ->
  Forall (fun j => (j < m)%nat) find ->
  s_xnext sm p (firstn k tr) pind fut find u y t k s = s_xnext sm' p (firstn k tr) pind fut find u y t k s.
Hypothesis Hsa : forall p pind fut find k s, of_step tr k p pind -> at_step (length tr) k (firstn k tr) fut ->
  length p = m -> find = match fut with [] => [] | _ => seq 0 m end ->
  s_sample sm p (firstn k tr) pind fut find u y t k s = s_sample sm' p (firstn k tr) pind fut find u y t k s.

Lemma bsi_loop_ext kind o n : forall anc fut s, length anc = m -> (n + length fut = length tr)%nat -> fut <> [] ->
  bsi_loop sm g junk fuel kind o m n tr u y t anc fut s = bsi_loop sm' g junk fuel kind o m n tr u y t anc fut s.
Proof.
  induction n as [|k IH]; intros anc fut s La Hn Hf; cbn [bsi_loop]; [reflexivity|].
  same_lift st Ek. apply idx_ok in Ek.
  assert (At : at_step (length tr) k (firstn k tr) fut).
  { split; [apply firstn_length_le; lia|lia]. }
  apply bind_ext.
  - apply bsi_select_ext; auto. intros p pi find s1 (Hp & Hl & Hfind). apply Hxn; auto.
    + exists st. auto.
    + intros F. apply Hl. rewrite Forall_forall in F. apply F. eapply nth_error_In; eauto.
  - intros ind s1 Ei. apply bsi_select_length in Ei; [|rewrite seq_length; auto]. rewrite seq_length in Ei.
    same_lift an Ea. same_lift p Ep. apply bind_ext.
    + apply Hsa; auto.
      * exists st. split; [auto|]. right. eauto.
      * rewrite (take_length _ _ _ Ep). auto.
      * destruct fut; [congruence|reflexivity].
    + intros p' s2 _. same_bind. intros pa s3 _. apply IH; [rewrite (take_length _ _ _ Ea); auto|simpl; lia|discriminate].
Qed.

Lemma last_ok {A} (l : list A) a : idx_last l = Ok a -> nth_error l (length l - 1) = Some a /\ removelast l = firstn (length l - 1) l /\ l <> [].
Proof.
  unfold idx_last. destruct (rev l) as [|b r] eqn:E; [discriminate|]. intros H. inversion H; subst.
  apply (f_equal (@rev A)) in E. rewrite rev_involutive in E. simpl in E. subst l.
  rewrite app_length, removelast_last. simpl. replace (length (rev r) + 1 - 1)%nat with (length (rev r)) by lia.
  rewrite nth_error_app2, Nat.sub_diag by lia. rewrite firstn_app, Nat.sub_diag, firstn_all, app_nil_r. repeat split; auto.
  destruct (rev r); discriminate.
Qed.

Lemma perform_bsi_ext kind o s :
  perform_bsi sm g junk fuel kind o tr u y t m s = perform_bsi sm' g junk fuel kind o tr u y t m s.
Proof.
  unfold perform_bsi. same_lift lst El. apply last_ok in El. destruct El as (El & Er & Hne). rewrite Er.
  assert (0 < length tr)%nat by (destruct tr; [congruence|simpl; lia]).
  same_bind. intros w s1 _. same_bind. intros ind s2 Ei. apply sampleM_range in Ei; auto. destruct Ei as [Li _].
  same_lift an Ea. same_lift p Ep. apply bind_ext.
  - apply Hsa; auto.
    + exists lst. split; [auto|]. right. eauto.
    + split; [apply firstn_length_le; lia|simpl; lia].
    + rewrite (take_length _ _ _ Ep). auto.
  - intros p' s3 _. same_bind. intros pa s4 _. same_bind. intros _ s5 _.
    apply bsi_loop_ext; [rewrite (take_length _ _ _ Ea); auto|simpl; lia|discriminate].
Qed.

Lemma ancestors_loop_ext n : forall anc fut s, length anc = m -> (n + length fut = length tr)%nat -> fut <> [] ->
  ancestors_loop sm n tr u y t (seq 0 m) anc fut s = ancestors_loop sm' n tr u y t (seq 0 m) anc fut s.
Proof.
  induction n as [|k IH]; intros anc fut s La Hn Hf; cbn [ancestors_loop]; [reflexivity|].
  same_lift st Ek. apply idx_ok in Ek. same_lift an Ea. same_lift p Ep. apply bind_ext.
  - apply Hsa.
    + exists st. split; [auto|]. right. eauto.
    + split; [apply firstn_length_le; lia|lia].
    + rewrite (take_length _ _ _ Ep). auto.
    + destruct fut; [congruence|reflexivity].
  - intros p' s3 _. same_bind. intros pa s4 _. apply IH; [rewrite (take_length _ _ _ Ea); auto|simpl; lia|discriminate].
Qed.

Lemma perform_ancestors_ext s :
  perform_ancestors_int sm g tr u y t m s = perform_ancestors_int sm' g tr u y t m s.
Proof.
  unfold perform_ancestors_int. same_bind. intros last s0 _. same_bind. intros w s1 _. same_bind. intros ind s2 Ei.
  apply sampleM_range in Ei; auto. destruct Ei as [Li _]. unfold calculate_ancestors.
  same_lift last' El. apply last_ok in El. destruct El as (El & Er & Hne). rewrite Er.
  assert (0 < length tr)%nat by (destruct tr; [congruence|simpl; lia]).
  same_lift an Ea. same_lift p Ep. apply bind_ext.
  - apply Hsa; auto.
    + exists last'. split; [auto|]. right. eauto.
    + split; [apply firstn_length_le; lia|simpl; lia].
    + rewrite (take_length _ _ _ Ep). auto.
  - intros p' s3 _. same_bind. intros pa s4 _. rewrite Li.
    apply ancestors_loop_ext; [rewrite (take_length _ _ _ Ea); auto|simpl; lia|discriminate].
Qed.
End Run.

Lemma hook_ext T m (tr : list (tstep P)) (u : list (cell U)) (y : list (cell Y)) t h h' s : length tr = T ->
  same_hook T m u y t h h' -> hook (W := W) h tr u y t m s = hook h' tr u y t m s.
Proof. intros HT. destruct h, h'; simpl; try tauto. auto. Qed.

(** Number of steps of the results. *)
Lemma bsi_loop_steps kind o m n : forall tr u y t anc fut s r s1,
  bsi_loop sm g junk fuel kind o m n tr u y t anc fut s = Ok (r, s1) -> length r = (n + length fut)%nat.
Proof.
  induction n as [|k IH]; intros tr u y t anc fut s r s1 H; cbn [bsi_loop] in H; minv H; [auto|].
  apply IH in H. rewrite H. simpl. lia.
Qed.
Lemma ancestors_loop_steps n : forall tr u y t find anc fut s r s1,
  ancestors_loop sm n tr u y t find anc fut s = Ok (r, s1) -> length r = (n + length fut)%nat.
Proof.
  induction n as [|k IH]; intros tr u y t find anc fut s r s1 H; cbn [ancestors_loop] in H; minv H; [auto|].
  apply IH in H. rewrite H. simpl. lia.
Qed.
Lemma perform_bsi_steps kind o tr u y t m s r s1 :
  perform_bsi sm g junk fuel kind o tr u y t m s = Ok (r, s1) -> length r = length tr.
Proof.
  intros H. unfold perform_bsi in H. minv H. apply last_ok in Hl. destruct Hl as (_ & _ & Hne).
  apply bsi_loop_steps in H. rewrite H. destruct tr; [congruence|simpl; lia].
Qed.
Lemma perform_ancestors_steps tr u y t m s r s1 :
  perform_ancestors_int sm g tr u y t m s = Ok (r, s1) -> length r = length tr.
Proof.
  intros H. unfold perform_ancestors_int, calculate_ancestors in H. minv H. apply last_ok in Hl. destruct Hl as (_ & _ & Hne).
  apply ancestors_loop_steps in H. rewrite H. destruct tr; [congruence|simpl; lia].
Qed.
End Backward.
