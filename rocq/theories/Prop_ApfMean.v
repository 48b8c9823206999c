(** C87: the auxiliary particle filter is properly weighted, for every first stage weight, every history of calls, every number of
    particles, every resampling threshold and every state-space model with positive measurement densities. *)
From Coquelicot Require Import Coquelicot.
From Coq Require Import ZArith String Reals Lra Lia List Arith.
From Verif Require Import Base XR SampleModel SampleSpec PAModel WeightSpec FilterModel TrajModel FilterSpec EvidenceSpec Evidence ApfSpec Apf Prop_Evidence.
Import ListNotations.
Open Scope R_scope.

Section C87.
Context {P U Y V : Type}.

(** Starting from any state reached with the same model (any past draws [w0]), the corrected weighted mean after the calls [ops] averages
    to the exact conditional value of the measurements in [ops] and the last state, given the current weighted particles.  The right-hand
    side does not depend on [l1]. *)
Theorem C87_from_any_state : forall (m : ssm P U Y V) l1 noise x0 dv thr o T s0 past s w0 w1 ops phi,
  average noise -> x0 <> [] -> measured ops -> pt_init (length x0) thr 0 "APF" o T = Ok s0 ->
  pt_run (full_of_basic (apf_model m l1 x0 dv)) call_rng s0 past w0 = Ok (s, w1) ->
  apf_estimate m l1 noise x0 dv ops s phi = current x0 s (future m noise (length (pt_traj s) - 1) ops phi).
Proof.
  intros m l1 noise x0 dv thr o T s0 past s w0 w1 ops phi Ha Hn Hm Hi Hr.
  assert (HN : (0 < length x0)%nat) by (destruct x0; [congruence|simpl; lia]).
  destruct (ready_init x0 _ _ _ _ Hi) as [R0 _]. pose proof (ready_run m l1 x0 dv HN _ _ _ _ _ _ R0 Hr) as R1.
  apply (estimate_mean m l1 noise x0 dv Ha HN thr phi ops Hm s R1).
Qed.

(** The integrals in [apf_estimate] exist, and no call with a measurement fails (a failing call would count as zero). *)
Theorem C87_averages_exist : forall (m : ssm P U Y V) l1 noise x0 dv thr o T s0 past s w0 w1,
  average noise -> x0 <> [] -> pt_init (length x0) thr 0 "APF" o T = Ok s0 ->
  pt_run (full_of_basic (apf_model m l1 x0 dv)) call_rng s0 past w0 = Ok (s, w1) ->
  (forall u y ops phi, measured ops ->
     ex_RInt (apf_outcome m l1 noise x0 dv s u (Some y) (fun s' resampled => apf_factor m l1 u (Some y) s' resampled * apf_estimate m l1 noise x0 dv ops s' phi)) 0 1) /\
  (forall u y w, exists s' resampled w', pt_forward (full_of_basic (apf_model m l1 x0 dv)) call_rng s u (Some y) w = Ok ((s', resampled), w')) /\
  (forall y w, exists s' w', pt_measure (full_of_basic (apf_model m l1 x0 dv)) s y w = Ok (s', w')).
Proof.
  intros m l1 noise x0 dv thr o T s0 past s w0 w1 Ha Hn Hi Hr.
  assert (HN : (0 < length x0)%nat) by (destruct x0; [congruence|simpl; lia]).
  destruct (ready_init x0 _ _ _ _ Hi) as [R0 _]. pose proof (ready_run m l1 x0 dv HN _ _ _ _ _ _ R0 Hr) as R1.
  destruct (start_ex x0 _ _ R1) as (pre & old & Hst). split; [|split].
  - intros u y ops phi Hm. eexists. apply (estimate_integrable m l1 noise x0 dv Ha HN thr phi u y ops s Hm R1).
  - intros u y [r vs]. destruct (fwd_call m l1 x0 dv HN thr s pre old u y r vs R1 Hst) as (s' & fl & w' & parts & anc & E & _). eauto.
  - intros y w. destruct (meas_call m l1 x0 dv HN thr s pre old y w R1 Hst) as (s' & E & _). eauto.
Qed.

(** One call: whichever way the resampling test goes, corrected factor times weighted mean is one sum over the particles, in which the
    first stage weight of a particle's parent has cancelled out of the coefficient when nothing was resampled. The test compares the
    effective sample size of old weight times first stage weight with the threshold. *)
Theorem C87_one_call : forall (m : ssm P U Y V) l1 x0 dv thr o T s0 past s w0 w1 u y r vs,
  x0 <> [] -> pt_init (length x0) thr 0 "APF" o T = Ok s0 ->
  pt_run (full_of_basic (apf_model m l1 x0 dv)) call_rng s0 past w0 = Ok (s, w1) ->
  exists s' resampled w' old parents anc,
    pt_forward (full_of_basic (apf_model m l1 x0 dv)) call_rng s u (Some y) (r, vs) = Ok ((s', resampled), w') /\
    (pt_traj s = [] /\ part (st_pa old) = x0 \/ exists pre, pt_traj s = pre ++ [old]) /\
    let k := (length (pt_traj s) - 1)%nat in
    let first x := exp (l1 x (cell_of u) (cell_of (Some y)) k) in
    let product := map (fun xw => lin (snd xw) * first (fst xw)) (combine (part (st_pa old)) (lw (st_pa old))) in
    take (part (st_pa old)) anc = Ok parents /\
    (resampled = true <-> 0 < thr /\ ess product < thr * INR (length x0)) /\
    (resampled = false -> parents = part (st_pa old)) /\
    (resampled = true -> 0 < r < 1 -> np_sample (map Fin product) (length x0) r = Ok anc) /\
    forall phi, apf_factor m l1 u (Some y) s' resampled * current x0 s' phi =
      rsum (map (fun ixw => let x := fst (snd ixw) in let x' := move m x (cell_of u) k (nth (fst ixw) vs dv) in
          (if resampled then wmean (st_pa old) first / INR (length x0) / first x else lin (snd (snd ixw)) / total (lw (st_pa old))) *
          (exp (ll m x' (cell_of (Some y)) (k + 1)) * phi x'))
        (combine (seq 0 (length x0)) (combine parents (lw (st_pa old))))).
Proof.
  intros m l1 x0 dv thr o T s0 past s w0 w1 u y r vs Hn Hi Hr.
  assert (HN : (0 < length x0)%nat) by (destruct x0; [congruence|simpl; lia]).
  destruct (ready_init x0 _ _ _ _ Hi) as [R0 _]. pose proof (ready_run m l1 x0 dv HN _ _ _ _ _ _ R0 Hr) as R1.
  destruct (start_ex x0 _ _ R1) as (pre & old & Hst).
  destruct (fwd_call m l1 x0 dv HN thr s pre old u y r vs R1 Hst) as (s' & fl & w' & parts & anc & Hc & _ & _ & Hfl & Htk & Lp & Hnf & Hsm & Hv).
  exists s', fl, w', old, parts, anc. split; [exact Hc|]. split.
  { destruct Hst as [E|(E & _ & ->)]; [right; eauto|left; split; auto]. }
  pose proof (start_now x0 HN _ _ _ Hst) as En. unfold now in En. cbv zeta. rewrite En.
  split; [exact Htk|]. split; [exact Hfl|]. split; [exact Hnf|]. split; [exact Hsm|].
  intros phi. rewrite Hv. cbv zeta.
  assert (Lx : length (combine parts (lw (st_pa old))) = length x0).
  { rewrite combine_length. pose proof (start_wf x0 _ _ _ _ R1 Hst) as Q. apply Forall_app in Q. destruct Q as [_ Q]. inversion Q as [|? ? (_ & Q1 & _)]; subst. lia. }
  rewrite Lx. reflexivity.
Qed.

(** From the constructor. *)
Theorem C87_given_initial : forall (m : ssm P U Y V) l1 noise x0 dv thr o T s0 ops phi,
  average noise -> x0 <> [] -> measured ops -> pt_init (length x0) thr 0 "APF" o T = Ok s0 ->
  apf_estimate m l1 noise x0 dv ops s0 phi = rsum (map (future m noise 0 ops phi) x0) / INR (length x0).
Proof.
  intros m l1 noise x0 dv thr o T s0 ops phi Ha Hn Hm Hi.
  pose proof (C87_from_any_state m l1 noise x0 dv thr o T s0 [] s0 (0, []) (0, []) ops phi Ha Hn Hm Hi eq_refl) as Q. rewrite Q.
  destruct (ready_init x0 _ _ _ _ Hi) as [_ E]. unfold current. rewrite E. reflexivity.
Qed.

(** Averaged over independent initial particles as well: exactly E[p(y's | path) phi(last state)]; with phi = 1 the likelihood of the
    measurements, and the same value as for the bootstrap filter (C80). *)
Theorem C87_unbiased : forall (m : ssm P U Y V) l1 noise (start : (P -> R) -> R) n dv thr o T s0 ops phi,
  average noise -> average start -> (0 < n)%nat -> measured ops -> pt_init n thr 0 "APF" o T = Ok s0 ->
  iid start n (fun x0 => apf_estimate m l1 noise x0 dv ops s0 phi) = start (future m noise 0 ops phi).
Proof.
  intros m l1 noise st n dv thr o T s0 ops phi Ha Hs Hn Hm Hi.
  destruct (pt_init (P := P) (U := U) (Y := Y) n thr 0 "PF" FONone None) as [s1|e] eqn:E1; [|discriminate].
  rewrite <- (C80_evidence_unbiased m noise st n dv thr FONone None s1 ops phi Ha Hs Hn E1).
  assert (Hlen : forall k F G, (forall l, length l = k -> F l = G l) -> iid st k F = iid st k G).
  { clear - Hs. induction k as [|k IH]; intros F G H; cbn [iid]; [apply H; reflexivity|].
    apply (av_ext st Hs). intros a. apply IH. intros l L. apply H. simpl. congruence. }
  apply Hlen. intros x0 L. subst n.
  assert (x0 <> []) by (intros ->; simpl in Hn; lia).
  rewrite (C87_given_initial m l1 noise x0 dv thr o T s0) by auto. rewrite (C80_evidence_given_initial m noise x0 dv thr FONone None s1) by auto. reflexivity.
Qed.
End C87.

(** Two particles at 0 and 1, noise 0 or 1 with probability one half, likelihood exp(-x), first stage weight exp(x), resampling at every
    step, a measurement of the initial state, then two steps. *)
Definition ex_first (x : R) (u : cell unit) (y : cell unit) (t : nat) : R := x.

Example C87_instance : exists s0, pt_init (P := R) (U := unit) (Y := unit) 2 2 0 "APF" FONone None = Ok s0 /\
  apf_estimate ex_ssm ex_first coin [0; 1] 0 [Meas (Some tt); Fwd None (Some tt); Fwd None (Some tt)] s0 (fun _ => 1) =
  (1 + exp (-3)) / 2 * ((1 + exp (-2)) / 2) * ((1 + exp (-1)) / 2).
Proof.
  destruct (pt_init (P := R) (U := unit) (Y := unit) 2 2 0 "APF" FONone None) as [s0|e] eqn:E; [|discriminate]. exists s0. split; [reflexivity|].
  rewrite (C87_given_initial ex_ssm ex_first coin [0; 1] 0 2 FONone None s0); [|apply coin_average|discriminate|repeat constructor|exact E].
  unfold rsum, future, coin, ex_ssm. cbn [map fold_right move ll cell_of length INR]. cbv zeta.
  repeat match goal with |- context [- (?a + ?b)] => replace (- (a + b)) with (- a + - b) by ring end. rewrite ?exp_plus, ?Ropp_0, ?exp_0.
  replace (-3) with (-1 + (-1 + -1)) by lra. replace (-2) with (-1 + -1) by lra. rewrite ?exp_plus.
  replace (exp (-1)) with (exp (- (1))) by (f_equal; lra). generalize (exp (- (1))). intros q. field.
Qed.

(** The hypotheses of the other theorems: a reachable state after a resampled step, whose next call resamples again. *)
Example C87_instance_reached : exists s0 s s' w1 w2, pt_init (P := R) (U := unit) (Y := unit) 2 3 0 "APF" FONone None = Ok s0 /\
  pt_run (full_of_basic (apf_model ex_ssm ex_first [0; 1] 0)) call_rng s0 [Fwd None (Some tt)] (/2, [0; 1]) = Ok (s, w1) /\ length (pt_traj s) = 2%nat /\
  pt_forward (full_of_basic (apf_model ex_ssm ex_first [0; 1] 0)) call_rng s None (Some tt) (/2, [0; 1]) = Ok ((s', true), w2).
Proof.
  destruct (pt_init (P := R) (U := unit) (Y := unit) 2 3 0 "APF" FONone None) as [s0|e] eqn:E; [|discriminate]. exists s0.
  assert (HN : (0 < length [0; 1])%nat) by (simpl; lia).
  destruct (ready_init [0; 1] _ _ _ _ E) as [R0 E0]. destruct (start_ex [0; 1] _ _ R0) as (pre & old & Hst).
  destruct (fwd_call ex_ssm ex_first [0; 1] 0 HN 3 s0 pre old None tt (/2) [0; 1] R0 Hst) as (s & fl & w1 & parts & anc & H & R1 & Hn & _).
  destruct (start_ex [0; 1] _ _ R1) as (pre1 & old1 & Hst1).
  destruct (fwd_call ex_ssm ex_first [0; 1] 0 HN 3 s pre1 old1 None tt (/2) [0; 1] R1 Hst1) as (s' & fl' & w2 & parts' & anc' & H' & _ & _ & Hfl & _).
  exists s, s', w1, w2. split; auto. cbn [pt_run pt_step]. unfold bind. rewrite H. split; [reflexivity|]. split.
  { rewrite <- (start_now [0; 1] HN _ _ _ Hst) in Hn. unfold now in Hn. rewrite E0 in Hn. simpl in Hn. lia. }
  replace fl' with true in H'; [exact H'|]. symmetry. apply Hfl. split; [lra|].
  pose proof (start_wf [0; 1] _ _ _ _ R1 Hst1) as Q. apply Forall_app in Q. destruct Q as [_ Q]. inversion Q as [|? ? (Q1 & Q2 & _)]; subst.
  set (T := tilted ex_first old1 None (Some tt) (length pre1)).
  assert (LT : length T = 2%nat) by (unfold T, tilted; rewrite map_length, combine_length, Q1, Q2; reflexivity).
  assert (B : ess T <= 2).
  { destruct T as [|a [|b [|]]]; try discriminate LT. unfold ess, rsum. simpl.
    set (S2 := a * (a * 1) + (b * (b * 1) + 0)). assert (S0 : 0 <= S2) by (unfold S2; nra).
    destruct (Req_dec S2 0) as [Z|Z].
    - unfold Rdiv. rewrite Z, Rinv_0. lra.
    - apply Rmult_le_reg_r with S2; [lra|]. unfold Rdiv. rewrite Rmult_assoc, Rinv_l by exact Z. unfold S2. pose proof (Rle_0_sqr (a - b)) as Q0. unfold Rsqr in Q0. nra. }
  simpl length. simpl INR. lra.
Qed.

Example C87_instance_iid : exists s0, pt_init (P := R) (U := unit) (Y := unit) 3 (1 / 2) 0 "APF" FONone None = Ok s0 /\
  iid coin 3 (fun x0 => apf_estimate ex_ssm ex_first coin x0 0 [Fwd None (Some tt)] s0 (fun _ => 1)) =
  (1 + exp (-1)) / 2 * ((1 + exp (-1)) / 2).
Proof.
  destruct (pt_init (P := R) (U := unit) (Y := unit) 3 (1 / 2) 0 "APF" FONone None) as [s0|e] eqn:E; [|discriminate]. exists s0. split; [reflexivity|].
  rewrite (C87_unbiased ex_ssm ex_first coin coin 3 0 (1 / 2) FONone None s0); [|apply coin_average|apply coin_average|lia|repeat constructor|exact E].
  unfold future, coin, ex_ssm. cbn [move ll cell_of]. cbv zeta.
  repeat match goal with |- context [- (?a + ?b)] => replace (- (a + b)) with (- a + - b) by ring end. rewrite ?exp_plus, ?Ropp_0, ?exp_0.
  replace (exp (-1)) with (exp (- (1))) by (f_equal; lra). generalize (exp (- (1))). intros q. field.
Qed.

Print Assumptions C87_from_any_state.
Print Assumptions C87_averages_exist.
Print Assumptions C87_one_call.
Print Assumptions C87_given_initial.
Print Assumptions C87_unbiased.
