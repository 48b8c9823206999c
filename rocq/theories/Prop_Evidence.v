(** C80: the bootstrap filter's likelihood estimate is unbiased, for every history of calls, every number of particles, every resampling
    threshold and every state-space model with positive measurement densities. *)
From Coquelicot Require Import Coquelicot.
From Coq Require Import ZArith String Reals Lra Lia List Arith.
From Verif Require Import Base XR SampleModel SampleSpec PAModel WeightSpec FilterModel TrajModel FilterSpec EvidenceSpec Evidence.
Import ListNotations.
Open Scope R_scope.

Section C80.
Context {P U Y V : Type}.

(** Starting from any state that can be reached with the same model (any past draws [w0]), the estimate of the remaining calls averages to
    the exact conditional value of the remaining measurements given the current weighted particles. *)
Theorem C80_evidence_from_any_state : forall (m : ssm P U Y V) noise x0 dv thr o T s0 past s w0 w1 ops phi,
  average noise -> x0 <> [] -> pt_init (length x0) thr 0 "PF" o T = Ok s0 ->
  pt_run (full_of_basic (ssm_model m x0 dv)) call_rng s0 past w0 = Ok (s, w1) ->
  estimate m noise x0 dv ops s phi = current x0 s (future m noise (length (pt_traj s) - 1) ops phi).
Proof.
  intros m noise x0 dv thr o T s0 past s w0 w1 ops phi Ha Hn Hi Hr.
  assert (HN : (0 < length x0)%nat) by (destruct x0; [congruence|simpl; lia]).
  destruct (ready_init x0 _ _ _ _ Hi) as [R0 _]. pose proof (ready_run m x0 dv HN _ _ _ _ _ _ R0 Hr) as R1.
  apply (estimate_mean m noise x0 dv Ha HN thr phi ops s R1).
Qed.

(** The integrals in [estimate] exist, and no call fails (a failing call would count as zero). *)
Theorem C80_averages_exist : forall (m : ssm P U Y V) noise x0 dv thr o T s0 past s w0 w1,
  average noise -> x0 <> [] -> pt_init (length x0) thr 0 "PF" o T = Ok s0 ->
  pt_run (full_of_basic (ssm_model m x0 dv)) call_rng s0 past w0 = Ok (s, w1) ->
  (forall u y ops phi, ex_RInt (fwd_outcome m noise x0 dv s u y (fun s' resampled => fwd_factor s' resampled * estimate m noise x0 dv ops s' phi)) 0 1) /\
  (forall u y w, exists s' resampled w', pt_forward (full_of_basic (ssm_model m x0 dv)) call_rng s u y w = Ok ((s', resampled), w')) /\
  (forall y w, exists s' w', pt_measure (full_of_basic (ssm_model m x0 dv)) s y w = Ok (s', w')).
Proof.
  intros m noise x0 dv thr o T s0 past s w0 w1 Ha Hn Hi Hr.
  assert (HN : (0 < length x0)%nat) by (destruct x0; [congruence|simpl; lia]).
  destruct (ready_init x0 _ _ _ _ Hi) as [R0 _]. pose proof (ready_run m x0 dv HN _ _ _ _ _ _ R0 Hr) as R1.
  destruct (start_ex x0 _ _ R1) as (pre & old & Hst). split; [|split].
  - intros u y ops phi. eexists. apply (estimate_integrable m noise x0 dv Ha HN thr phi u y ops s R1).
  - intros u y [r vs]. destruct (fwd_call m x0 dv HN thr s pre old u y r vs R1 Hst) as (s' & fl & w' & parts & anc & E & _). eauto.
  - intros y w. destruct (meas_call m x0 dv HN thr s pre old y w R1 Hst) as (s' & E & _). eauto.
Qed.

(** From the constructor: the average over the resampling and process noise is the mean, over the initial particles, of the exact value. *)
Theorem C80_evidence_given_initial : forall (m : ssm P U Y V) noise x0 dv thr o T s0 ops phi,
  average noise -> x0 <> [] -> pt_init (length x0) thr 0 "PF" o T = Ok s0 ->
  estimate m noise x0 dv ops s0 phi = rsum (map (future m noise 0 ops phi) x0) / INR (length x0).
Proof.
  intros m noise x0 dv thr o T s0 ops phi Ha Hn Hi.
  pose proof (C80_evidence_from_any_state m noise x0 dv thr o T s0 [] s0 (0, []) (0, []) ops phi Ha Hn Hi eq_refl) as Q. rewrite Q.
  destruct (ready_init x0 _ _ _ _ Hi) as [_ E]. unfold current. rewrite E. reflexivity.
Qed.

(** Averaged over independent initial particles as well: exactly E[p(y's | path) phi(last state)]; with phi = 1 the likelihood of the
    measurements. *)
Theorem C80_evidence_unbiased : forall (m : ssm P U Y V) noise (start : (P -> R) -> R) n dv thr o T s0 ops phi,
  average noise -> average start -> (0 < n)%nat -> pt_init n thr 0 "PF" o T = Ok s0 ->
  iid start n (fun x0 => estimate m noise x0 dv ops s0 phi) = start (future m noise 0 ops phi).
Proof.
  intros m noise st n dv thr o T s0 ops phi Ha Hs Hn Hi.
  assert (Hlen : forall k F G, (forall l, length l = k -> F l = G l) -> iid st k F = iid st k G).
  { clear - Hs. induction k as [|k IH]; intros F G H; cbn [iid]; [apply H; reflexivity|].
    apply (av_ext st Hs). intros a. apply IH. intros l L. apply H. simpl. congruence. }
  rewrite (Hlen n _ (fun x0 => / INR n * rsum (map (future m noise 0 ops phi) x0))).
  2:{ intros x0 L. subst n. rewrite (C80_evidence_given_initial m noise x0 dv thr o T s0); auto.
      - unfold Rdiv. ring.
      - intros ->. simpl in Hn. lia. }
  rewrite (av_scale _ (iid_average st Hs n)).
  assert (E : forall k f, iid st k (fun x0 => rsum (map f x0)) = INR k * st f).
  { clear - Hs. induction k as [|k IH]; intros f; cbn [iid map]; [unfold rsum; simpl; lra|].
    transitivity (st (fun a => f a + INR k * st f)).
    - apply (av_ext st Hs). intros a. rewrite <- IH. pose proof (iid_average st Hs k) as HI.
      transitivity (iid st k (fun l => f a * 1 + rsum (map f l))); [apply (av_ext _ HI); intros l; rewrite Rmult_1_r; reflexivity|].
      rewrite (av_lin _ HI (f a) (fun _ => 1)), (av_one _ HI). ring.
    - rewrite (av_add st Hs), (av_const st Hs), S_INR. ring. }
  rewrite E. field. apply not_0_INR. lia.
Qed.
End C80.

(** Two particles at 0 and 1, noise 0 or 1 with probability one half, likelihood exp(-x), resampling at every step, a measurement of the
    initial state, then two steps: the estimate averages to the likelihood, computed by hand on the right. *)
Definition ex_ssm : ssm R unit unit R := mkSSM (fun x _ _ v => x + v) (fun x y _ => match y with CVal _ => - x | _ => 0 end).
Definition coin (F : R -> R) : R := (F 0 + F 1) / 2.
Lemma coin_average : average coin.
Proof. unfold coin. constructor; intros; [rewrite !H; reflexivity|lra|lra]. Qed.

Example C80_instance : exists s0, pt_init (P := R) (U := unit) (Y := unit) 2 2 0 "PF" FONone None = Ok s0 /\
  estimate ex_ssm coin [0; 1] 0 [Meas (Some tt); Fwd None (Some tt); Fwd None (Some tt)] s0 (fun _ => 1) =
  (1 + exp (-3)) / 2 * ((1 + exp (-2)) / 2) * ((1 + exp (-1)) / 2).
Proof.
  destruct (pt_init (P := R) (U := unit) (Y := unit) 2 2 0 "PF" FONone None) as [s0|e] eqn:E; [|discriminate]. exists s0. split; [reflexivity|].
  rewrite (C80_evidence_given_initial ex_ssm coin [0; 1] 0 2 FONone None s0); [|apply coin_average|discriminate|exact E].
  unfold rsum, future, coin, ex_ssm. cbn [map fold_right move ll cell_of length INR]. cbv zeta.
  repeat match goal with |- context [- (?a + ?b)] => replace (- (a + b)) with (- a + - b) by ring end. rewrite ?exp_plus, ?Ropp_0, ?exp_0.
  replace (-3) with (-1 + (-1 + -1)) by lra. replace (-2) with (-1 + -1) by lra. rewrite ?exp_plus.
  replace (exp (-1)) with (exp (- (1))) by (f_equal; lra). generalize (exp (- (1))). intros q. field.
Qed.

(** The hypotheses of the other theorems: a reachable state after a resampled step, and independent initial particles. *)
Example C80_instance_reached : exists s0 s w1, pt_init (P := R) (U := unit) (Y := unit) 2 2 0 "PF" FONone None = Ok s0 /\
  pt_run (full_of_basic (ssm_model ex_ssm [0; 1] 0)) call_rng s0 [Fwd None (Some tt)] (/2, [0; 1]) = Ok (s, w1) /\ length (pt_traj s) = 2%nat.
Proof.
  destruct (pt_init (P := R) (U := unit) (Y := unit) 2 2 0 "PF" FONone None) as [s0|e] eqn:E; [|discriminate]. exists s0.
  assert (HN : (0 < length [0; 1])%nat) by (simpl; lia).
  destruct (ready_init [0; 1] _ _ _ _ E) as [R0 E0]. destruct (start_ex [0; 1] _ _ R0) as (pre & old & Hst).
  destruct (fwd_call ex_ssm [0; 1] 0 HN 2 s0 pre old None (Some tt) (/2) [0; 1] R0 Hst) as (s' & fl & w' & parts & anc & H & R1 & Hn & _).
  exists s', w'. split; auto. cbn [pt_run pt_step]. unfold bind. rewrite H. split; [reflexivity|].
  rewrite <- (start_now [0; 1] HN _ _ _ Hst) in Hn. unfold now in Hn. rewrite E0 in Hn. simpl in Hn. lia.
Qed.

Example C80_instance_iid : exists s0, pt_init (P := R) (U := unit) (Y := unit) 3 (1 / 2) 0 "PF" FONone None = Ok s0 /\
  iid coin 3 (fun x0 => estimate ex_ssm coin x0 0 [Fwd None (Some tt)] s0 (fun _ => 1)) =
  (1 + exp (-1)) / 2 * ((1 + exp (-1)) / 2).
Proof.
  destruct (pt_init (P := R) (U := unit) (Y := unit) 3 (1 / 2) 0 "PF" FONone None) as [s0|e] eqn:E; [|discriminate]. exists s0. split; [reflexivity|].
  rewrite (C80_evidence_unbiased ex_ssm coin coin 3 0 (1 / 2) FONone None s0); [|apply coin_average|apply coin_average|lia|exact E].
  unfold future, coin, ex_ssm. cbn [move ll cell_of]. cbv zeta.
  repeat match goal with |- context [- (?a + ?b)] => replace (- (a + b)) with (- a + - b) by ring end. rewrite ?exp_plus, ?Ropp_0, ?exp_0.
  replace (exp (-1)) with (exp (- (1))) by (f_equal; lra). generalize (exp (- (1))). intros q. field.
Qed.

Print Assumptions C80_evidence_from_any_state.
Print Assumptions C80_averages_exist.
Print Assumptions C80_evidence_given_initial.
Print Assumptions C80_evidence_unbiased.
