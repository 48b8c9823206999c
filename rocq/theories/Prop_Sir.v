(** C83: the likelihood estimate of the 'SIR' filter (importance proposals) is unbiased, for every history of calls, every number of
    particles, every resampling threshold, every state-space model with positive densities and every proposal with a density. *)
From Coquelicot Require Import Coquelicot.
From Coq Require Import ZArith String Reals Lra Lia List Arith.
From Verif Require Import Base XR SampleModel SampleSpec PAModel WeightSpec FilterModel TrajModel FilterSpec EvidenceSpec Evidence Prop_Evidence
  SirSpec Sir.
Import ListNotations.
Open Scope R_scope.

Section C83.
Context {P U Y V Q : Type}.

(** Starting from any state that can be reached with the same model (any past draws [w0]), the estimate of the remaining calls averages to
    the exact conditional value of the remaining measurements given the current weighted particles: the proposal does not matter. *)
Theorem C83_sir_from_any_state : forall (m : ssm P U Y V) noise (d : proposal P U Y Q) qnoise mu x0 dq thr o T s0 past s w0 w1 ops phi,
  average qnoise -> proposal_ok m noise d qnoise mu -> x0 <> [] -> pt_init (length x0) thr 0 "SIR" o T = Ok s0 ->
  pt_run (full_of_basic (sir_model m d x0 dq)) call_rng s0 past w0 = Ok (s, w1) ->
  sir_estimate m d qnoise x0 dq ops s phi = current x0 s (future m noise (length (pt_traj s) - 1) ops phi).
Proof.
  intros m noise d qnoise mu x0 dq thr o T s0 past s w0 w1 ops phi Ha Hp Hn Hi Hr.
  assert (HN : (0 < length x0)%nat) by (destruct x0; [congruence|simpl; lia]).
  destruct (Sir.ready_init x0 _ _ _ _ Hi) as [R0 _]. pose proof (Sir.ready_run m d x0 dq HN _ _ _ _ _ _ R0 Hr) as R1.
  apply (Sir.estimate_mean m noise d qnoise mu x0 dq Ha Hp HN thr phi ops s R1).
Qed.

(** The integrals in [sir_estimate] exist, and no call fails (a failing call would count as zero). *)
Theorem C83_averages_exist : forall (m : ssm P U Y V) noise (d : proposal P U Y Q) qnoise mu x0 dq thr o T s0 past s w0 w1,
  average qnoise -> proposal_ok m noise d qnoise mu -> x0 <> [] -> pt_init (length x0) thr 0 "SIR" o T = Ok s0 ->
  pt_run (full_of_basic (sir_model m d x0 dq)) call_rng s0 past w0 = Ok (s, w1) ->
  (forall u y ops phi, ex_RInt (sir_outcome m d qnoise x0 dq s u y
     (fun s' resampled => fwd_factor s' resampled * sir_estimate m d qnoise x0 dq ops s' phi)) 0 1) /\
  (forall u y w, exists s' resampled w', pt_forward (full_of_basic (sir_model m d x0 dq)) call_rng s u y w = Ok ((s', resampled), w')) /\
  (forall y w, exists s' w', pt_measure (full_of_basic (sir_model m d x0 dq)) s y w = Ok (s', w')).
Proof.
  intros m noise d qnoise mu x0 dq thr o T s0 past s w0 w1 Ha Hp Hn Hi Hr.
  assert (HN : (0 < length x0)%nat) by (destruct x0; [congruence|simpl; lia]).
  destruct (Sir.ready_init x0 _ _ _ _ Hi) as [R0 _]. pose proof (Sir.ready_run m d x0 dq HN _ _ _ _ _ _ R0 Hr) as R1.
  destruct (Sir.start_ex x0 _ _ R1) as (pre & old & Hst). split; [|split].
  - intros u y ops phi. eexists. apply (Sir.estimate_integrable m noise d qnoise mu x0 dq Ha Hp HN thr phi u y ops s R1).
  - intros u y [r qs]. destruct (Sir.fwd_call m d x0 dq HN thr s pre old u y r qs R1 Hst) as (s' & fl & w' & parts & anc & E & _). eauto.
  - intros y w. destruct (Sir.meas_call m d x0 dq HN thr s pre old y w R1 Hst) as (s' & E & _). eauto.
Qed.

(** From the constructor, averaged over independent initial particles too: exactly E[p(y's | path) phi(last state)]; with phi = 1 the
    likelihood of the measurements. *)
Theorem C83_sir_unbiased : forall (m : ssm P U Y V) noise (d : proposal P U Y Q) qnoise mu (start : (P -> R) -> R) n dq thr o T s0 ops phi,
  average qnoise -> proposal_ok m noise d qnoise mu -> average start -> (0 < n)%nat -> pt_init n thr 0 "SIR" o T = Ok s0 ->
  iid start n (fun x0 => sir_estimate m d qnoise x0 dq ops s0 phi) = start (future m noise 0 ops phi).
Proof.
  intros m noise d qnoise mu st n dq thr o T s0 ops phi Ha Hp Hs Hn Hi.
  assert (Hlen : forall k F G, (forall l, length l = k -> F l = G l) -> iid st k F = iid st k G).
  { clear - Hs. induction k as [|k IH]; intros F G H; cbn [iid]; [apply H; reflexivity|].
    apply (av_ext st Hs). intros a. apply IH. intros l L. apply H. simpl. congruence. }
  rewrite (Hlen n _ (fun x0 => / INR n * rsum (map (future m noise 0 ops phi) x0))).
  2:{ intros x0 L. subst n.
      rewrite (C83_sir_from_any_state m noise d qnoise mu x0 dq thr o T s0 [] s0 (0, []) (0, []) ops phi); auto.
      - destruct (Sir.ready_init x0 _ _ _ _ Hi) as [_ E]. unfold current. rewrite E. simpl. unfold Rdiv. ring.
      - intros ->. simpl in Hn. lia. }
  rewrite (av_scale _ (iid_average st Hs n)).
  assert (E : forall k f, iid st k (fun x0 => rsum (map f x0)) = INR k * st f).
  { clear - Hs. induction k as [|k IH]; intros f; cbn [iid map]; [unfold rsum; simpl; lra|].
    transitivity (st (fun a => f a + INR k * st f)).
    - apply (av_ext st Hs). intros a. rewrite <- IH. pose proof (iid_average st Hs k) as HI.
      transitivity (iid st k (fun l => f a * 1 + rsum (map f l))); [apply (av_ext _ HI); intros l; rewrite Rmult_1_r; reflexivity|].
      rewrite (av_lin _ HI (f a) (fun _ => 1)), (av_one _ HI). ring.
    - rewrite (av_add st Hs), (av_const st Hs), S_INR. ring. }
  rewrite E. field. apply not_0_INR. lia.
Qed.

(** Hence the estimates of 'SIR' and of the bootstrap filter 'PF' have the same mean, whatever their thresholds. *)
Theorem C83_sir_agrees_with_bootstrap : forall (m : ssm P U Y V) noise (d : proposal P U Y Q) qnoise mu x0 dv dq thr thr' o o' T T' s0 s0' ops phi,
  average noise -> average qnoise -> proposal_ok m noise d qnoise mu -> x0 <> [] ->
  pt_init (length x0) thr 0 "PF" o T = Ok s0 -> pt_init (length x0) thr' 0 "SIR" o' T' = Ok s0' ->
  sir_estimate m d qnoise x0 dq ops s0' phi = estimate m noise x0 dv ops s0 phi.
Proof.
  intros m noise d qnoise mu x0 dv dq thr thr' o o' T T' s0 s0' ops phi Ha Hq Hp Hn Hi Hi'.
  rewrite (C83_sir_from_any_state m noise d qnoise mu x0 dq thr' o' T' s0' [] s0' (0, []) (0, []) ops phi Hq Hp Hn Hi' eq_refl).
  rewrite (C80_evidence_from_any_state m noise x0 dv thr o T s0 [] s0 (0, []) (0, []) ops phi Ha Hn Hi eq_refl).
  destruct (Sir.ready_init x0 _ _ _ _ Hi') as [_ E']. destruct (Evidence.ready_init x0 _ _ _ _ Hi) as [_ E].
  unfold current. rewrite E, E'. reflexivity.
Qed.
End C83.

(** A walk on two states, flipped with probability one half; the proposal moves to [true] with probability two thirds; the likelihood is 1
    in [false] and exp(-1) in [true]. *)
Definition flip_ssm : ssm bool unit unit bool := mkSSM (fun x _ _ v => xorb x v) (fun x y _ => match y with CVal _ => if x then -1 else 0 | _ => 0 end).
Definition flip_coin (F : bool -> R) : R := (F false + F true) / 2.
Definition third (F : bool -> R) : R := 1 / 3 * F false + 2 / 3 * F true.
Definition flip_proposal : proposal bool unit unit bool :=
  mkProposal (fun _ _ _ _ q => q) (fun _ (x' : bool) _ _ _ => if x' then ln (2 / 3) else ln (1 / 3)) (fun _ _ _ _ => ln (1 / 2)).
Definition both (F : bool -> R) : R := F false + F true.

Lemma third_average : average third.
Proof. unfold third. constructor; intros; [rewrite !H; reflexivity|lra|lra]. Qed.
Lemma flip_average : average flip_coin.
Proof. unfold flip_coin. constructor; intros; [rewrite !H; reflexivity|lra|lra]. Qed.
Lemma flip_ok : proposal_ok flip_ssm flip_coin flip_proposal third both.
Proof.
  constructor.
  - intros f h H. unfold both. rewrite !H. reflexivity.
  - intros x u t f. unfold flip_coin, both, flip_ssm, flip_proposal. cbn [move lp]. rewrite exp_ln by lra. destruct x; cbn [xorb]; lra.
  - intros x u y t f. unfold third, both, flip_proposal. cbn [draw lq]. rewrite !exp_ln by lra. reflexivity.
Qed.

Example C83_instance : exists s0, pt_init (P := bool) (U := unit) (Y := unit) 2 2 0 "SIR" FONone None = Ok s0 /\
  sir_estimate flip_ssm flip_proposal third [false; true] false [Meas (Some tt); Fwd None (Some tt); Fwd None (Some tt)] s0 (fun _ => 1) =
  (1 + exp (-1)) / 2 * ((1 + exp (-1)) / 2) * ((1 + exp (-1)) / 2).
Proof.
  destruct (pt_init (P := bool) (U := unit) (Y := unit) 2 2 0 "SIR" FONone None) as [s0|e] eqn:E; [|discriminate]. exists s0. split; [reflexivity|].
  rewrite (C83_sir_from_any_state flip_ssm flip_coin flip_proposal third both [false; true] false 2 FONone None s0 [] s0 (0, []) (0, []));
    [|apply third_average|apply flip_ok|discriminate|exact E|reflexivity].
  destruct (Sir.ready_init [false; true] _ _ _ _ E) as [_ E1]. unfold current. rewrite E1.
  unfold rsum, future, flip_coin, flip_ssm. cbn [length Nat.sub rev map fold_right move ll cell_of INR xorb]. cbv zeta. cbn [move ll]. rewrite ?exp_0.
  generalize (exp (-1)). intros q. field.
Qed.

(** A reachable state after a call, and independent initial particles with a threshold at which the filter sometimes resamples. *)
Example C83_instance_reached : exists s0 s w1, pt_init (P := bool) (U := unit) (Y := unit) 2 2 0 "SIR" FONone None = Ok s0 /\
  pt_run (full_of_basic (sir_model flip_ssm flip_proposal [false; true] false)) call_rng s0 [Fwd None (Some tt)] (/2, [true; false]) = Ok (s, w1) /\
  length (pt_traj s) = 2%nat.
Proof.
  destruct (pt_init (P := bool) (U := unit) (Y := unit) 2 2 0 "SIR" FONone None) as [s0|e] eqn:E; [|discriminate]. exists s0.
  assert (HN : (0 < length [false; true])%nat) by (simpl; lia).
  destruct (Sir.ready_init [false; true] _ _ _ _ E) as [R0 E0]. destruct (Sir.start_ex [false; true] _ _ R0) as (pre & old & Hst).
  destruct (Sir.fwd_call flip_ssm flip_proposal [false; true] false HN 2 s0 pre old None (Some tt) (/2) [true; false] R0 Hst)
    as (s' & fl & w' & parts & anc & H & R1 & Hn & _).
  exists s', w'. split; auto. cbn [pt_run pt_step]. unfold bind. rewrite H. split; [reflexivity|].
  rewrite <- (Sir.start_now [false; true] HN _ _ _ Hst) in Hn. unfold Sir.now in Hn. rewrite E0 in Hn. simpl in Hn. lia.
Qed.

Example C83_instance_iid : exists s0, pt_init (P := bool) (U := unit) (Y := unit) 3 (2 / 3) 0 "SIR" FONone None = Ok s0 /\
  iid flip_coin 3 (fun x0 => sir_estimate flip_ssm flip_proposal third x0 false [Fwd None (Some tt); Fwd None (Some tt)] s0 (fun _ => 1)) =
  (1 + exp (-1)) / 2 * ((1 + exp (-1)) / 2).
Proof.
  destruct (pt_init (P := bool) (U := unit) (Y := unit) 3 (2 / 3) 0 "SIR" FONone None) as [s0|e] eqn:E; [|discriminate]. exists s0. split; [reflexivity|].
  rewrite (C83_sir_unbiased flip_ssm flip_coin flip_proposal third both flip_coin 3 false (2 / 3) FONone None s0);
    [|apply third_average|apply flip_ok|apply flip_average|lia|exact E].
  unfold future, flip_coin, flip_ssm. cbn [move ll cell_of xorb]. cbv zeta. cbn [move ll]. rewrite ?exp_0. generalize (exp (-1)). intros q. field.
Qed.

Print Assumptions C83_sir_from_any_state.
Print Assumptions C83_averages_exist.
Print Assumptions C83_sir_unbiased.
Print Assumptions C83_sir_agrees_with_bootstrap.
