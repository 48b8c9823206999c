(** C86: 'PFY' is an importance filter with the density of the proposal from the measurement in the role of the measurement density; the mean
    of its estimate, for every history of calls, every number of particles and every resampling threshold. *)
From Coquelicot Require Import Coquelicot.
From Coq Require Import ZArith String Bool Reals Lra Lia List Arith.
From Verif Require Import Base XR SampleModel SampleSpec PAModel WeightSpec FilterModel TrajModel FilterSpec FilterProofs TrajProofs FilterSem Prop_Filter
  EvidenceSpec Evidence SirSpec Sir FilterProto Prop_FilterProto Prop_Sir PfySirSpec PfySir.
Import ListNotations.
Open Scope R_scope.

(** Whatever was called before on a trajectory object constructed with 'PFY', one call of [forward] does what 'SIR' does in the same place with the
    model [b'] of [as_importance]: same particles, weights, offset, ancestors, resampling decision, draws and exceptions. *)
Theorem C86_call {W P U Y V V'} : forall (g : rng W) (b : bmodel W P U Y V) (b' : bmodel W P U Y V') N thr o s0 past s w0 w1 u y w,
  rng_ok g -> shape_ok (full_of_basic b) -> as_importance b b' -> (0 < N)%nat ->
  pt_init N thr 0 "PFY" o None = Ok s0 -> pt_run (full_of_basic b) g s0 past w0 = Ok (s, w1) ->
  pt_forward (full_of_basic b) g s u y w =
  match pt_forward (full_of_basic b') g (with_filter (FSIR thr) s) u y w with
  | Ok ((s', resampled), w') => Ok ((with_filter (FPFY thr) s', resampled), w')
  | Err e => Err e
  end.
Proof.
  intros g b b' N thr o s0 past s w0 w1 u y w Hg Hsh HS HN Hi Hr.
  pose proof (book_init _ _ _ _ _ _ Hi) as B0. destruct (book_run (full_of_basic b) g past _ _ _ _ _ B0 Hr) as [B E].
  assert (E0 : pt_N s0 = N /\ pt_f s0 = FPFY thr /\ pt_traj s0 = []) by (unfold pt_init in Hi; cbn in Hi; inversion Hi; auto).
  destruct E0 as (EN & Ef & Et).
  assert (Wf : traj_wf N (pt_traj s)).
  { apply (pt_run_wf (full_of_basic b) g Hg Hsh N HN past s0 w0 s w1 EN); [|exact Hr].
    rewrite Et. split; [constructor|]. intros st; discriminate. }
  eapply (pfy_forward_state g b b' Hg Hsh HS N thr s); eauto; try congruence.
  - rewrite (pt_run_N _ _ _ _ _ _ _ Hr). exact EN.
  - eapply (pfy_state g (full_of_basic b) N thr "PFY" o None s0 s past w0 w1 Hi); auto. exists thr. congruence.
Qed.

Section C86.
Context {P U Y V Q : Type}.

(** From any state that can be reached (any past calls, also of [measure], any past draws), the estimate of the remaining [forward]s averages to the
    exact value for the state-space model whose log measurement density is [ylog], given the current weighted particles. *)
Theorem C86_mean : forall (m : ssm P U Y V) noise (d : y_proposal P U Y Q) qnoise mu x0 dq thr o s0 past s w0 w1 fwds phi,
  average qnoise -> y_proposal_ok m noise d qnoise mu -> x0 <> [] -> pt_init (length x0) thr 0 "PFY" o None = Ok s0 ->
  pt_run (full_of_basic (pfy_model d x0 dq)) call_rng s0 past w0 = Ok (s, w1) ->
  pfy_estimate d qnoise x0 dq fwds s phi =
    current x0 s (future (mkSSM (move m) (ylog d)) noise (length (pt_traj s) - 1) (fwd_ops fwds) phi).
Proof.
  intros m noise d qnoise mu x0 dq thr o s0 past s w0 w1 fwds phi Ha Hp Hn Hi Hr.
  assert (HN : (0 < length x0)%nat) by (destruct x0; [congruence|simpl; lia]).
  destruct (py_init x0 HN _ _ _ Hi) as [R0 _]. pose proof (py_run m d x0 dq HN _ _ _ _ _ _ R0 Hr) as R1.
  apply (py_mean m noise d qnoise mu x0 dq HN Ha Hp thr phi fwds s R1).
Qed.

(** If the proposal's density is the likelihood up to factors [c] that do not depend on the state, then up to the product of these factors it is
    the exact value for the model itself: 'PFY' is unbiased then. *)
Theorem C86_proportional : forall (m : ssm P U Y V) noise (d : y_proposal P U Y Q) qnoise mu x0 dq thr o s0 past s w0 w1 fwds phi c,
  average noise -> average qnoise -> y_proposal_ok m noise d qnoise mu -> x0 <> [] -> pt_init (length x0) thr 0 "PFY" o None = Ok s0 ->
  pt_run (full_of_basic (pfy_model d x0 dq)) call_rng s0 past w0 = Ok (s, w1) ->
  (forall x y t, exp (ylog d x y t) = c y t * exp (ll m x y t)) ->
  pfy_estimate d qnoise x0 dq fwds s phi =
    scales c (length (pt_traj s) - 1) fwds * current x0 s (future m noise (length (pt_traj s) - 1) (fwd_ops fwds) phi).
Proof.
  intros m noise d qnoise mu x0 dq thr o s0 past s w0 w1 fwds phi c Hv Ha Hp Hn Hi Hr Hc.
  rewrite (C86_mean m noise d qnoise mu x0 dq thr o s0 past s w0 w1 fwds phi Ha Hp Hn Hi Hr).
  assert (E : forall l k x, future (mkSSM (move m) (ylog d)) noise k (fwd_ops l) phi x = scales c k l * future m noise k (fwd_ops l) phi x).
  { induction l as [|[u y] l IH]; intros k x; cbn [fwd_ops map fst snd future scales]; [ring|].
    rewrite <- (av_scale noise Hv). apply (av_ext noise Hv). intros v. cbn [move ll]. cbv zeta. rewrite Hc.
    change (map (fun uy : option U * option Y => Fwd (fst uy) (snd uy)) l) with (fwd_ops l). rewrite IH. ring. }
  assert (L : forall pa f, wmean pa (fun x : P => scales c (length (pt_traj s) - 1) fwds * f x) = scales c (length (pt_traj s) - 1) fwds * wmean pa f).
  { intros pa f. unfold wmean, Rdiv. rewrite <- Rmult_assoc. f_equal. rewrite <- rsum_map_scale. apply rsum_ext. intros x _. ring. }
  assert (X : forall pa f h, (forall x : P, f x = h x) -> wmean pa f = wmean pa h).
  { intros pa f h H. unfold wmean. f_equal. apply rsum_ext. intros x _. rewrite H. reflexivity. }
  unfold current. destruct (rev (pt_traj s)) as [|st r].
  - unfold Rdiv. rewrite <- Rmult_assoc. f_equal. rewrite <- rsum_map_scale. apply rsum_ext. intros x _. apply E.
  - rewrite <- L. apply X. intros x. apply E.
Qed.

(** The integrals in [pfy_estimate] exist, and no call of [forward] fails (a failing call would count as zero). *)
Theorem C86_averages_exist : forall (m : ssm P U Y V) noise (d : y_proposal P U Y Q) qnoise mu x0 dq thr o s0 past s w0 w1,
  average qnoise -> y_proposal_ok m noise d qnoise mu -> x0 <> [] -> pt_init (length x0) thr 0 "PFY" o None = Ok s0 ->
  pt_run (full_of_basic (pfy_model d x0 dq)) call_rng s0 past w0 = Ok (s, w1) ->
  (forall u y fwds phi, ex_RInt (pfy_outcome d qnoise x0 dq s u y
     (fun s' resampled => fwd_factor s' resampled * pfy_estimate d qnoise x0 dq fwds s' phi)) 0 1) /\
  (forall u y w, exists s' resampled w', pt_forward (full_of_basic (pfy_model d x0 dq)) call_rng s u y w = Ok ((s', resampled), w')).
Proof.
  intros m noise d qnoise mu x0 dq thr o s0 past s w0 w1 Ha Hp Hn Hi Hr.
  assert (HN : (0 < length x0)%nat) by (destruct x0; [congruence|simpl; lia]).
  destruct (py_init x0 HN _ _ _ Hi) as [R0 _]. pose proof (py_run m d x0 dq HN _ _ _ _ _ _ R0 Hr) as R1. split.
  - intros u y fwds phi. apply (py_integrable m noise d qnoise mu x0 dq HN Ha Hp thr phi u y fwds s R1).
  - intros u y [r qs]. destruct (py_forward m d x0 dq HN thr s u y r qs R1) as (s' & fl & w' & _ & E & _). eauto.
Qed.
End C86.

(** ** Instances on two states. [flip_ssm], [flip_coin], [third], [both]: see Prop_Sir. *)

(** The likelihood is 1/3 in [false] and 2/3 in [true] times 3/2; the proposal is the normalised likelihood. *)
Definition side_ssm : ssm bool unit unit bool := mkSSM (fun x _ _ v => xorb x v) (fun x _ _ => if x then 0 else ln (1 / 2)).
Definition side_proposal : y_proposal bool unit unit bool :=
  mkYProposal (fun _ _ q => q) (fun (x' : bool) _ _ => if x' then ln (2 / 3) else ln (1 / 3)) (fun _ _ _ _ => ln (1 / 2)).
Lemma side_ok : y_proposal_ok side_ssm flip_coin side_proposal third both.
Proof.
  constructor.
  - intros f h H. unfold both. rewrite !H. reflexivity.
  - intros x u t f. unfold flip_coin, both, side_ssm, side_proposal. cbn [move ytrans]. rewrite exp_ln by lra. destruct x; cbn [xorb]; lra.
  - intros y t f. unfold third, both, side_proposal. cbn [ydraw ylog]. rewrite !exp_ln by lra. reflexivity.
Qed.

Example C86_instance : exists s0, pt_init (P := bool) (U := unit) (Y := unit) 2 2 0 "PFY" FONone None = Ok s0 /\
  pfy_estimate side_proposal third [false; true] false [(None, Some tt); (None, Some tt)] s0 (fun _ => 1) =
  (2 / 3) * (2 / 3) * ((3 / 4) * (3 / 4)).
Proof.
  destruct (pt_init (P := bool) (U := unit) (Y := unit) 2 2 0 "PFY" FONone None) as [s0|e] eqn:E; [|discriminate]. exists s0. split; [reflexivity|].
  rewrite (C86_proportional side_ssm flip_coin side_proposal third both [false; true] false 2 FONone s0 [] s0 (0, []) (0, []) _ _ (fun _ _ => 2 / 3));
    [|apply flip_average|apply third_average|apply side_ok|discriminate|exact E|reflexivity|].
  2:{ intros [|] y t; unfold side_proposal, side_ssm; cbn [ylog ll]; rewrite ?exp_0, !exp_ln by lra; lra. }
  destruct (py_init [false; true] (Nat.lt_0_succ 1) _ _ _ E) as [_ E1]. unfold current. rewrite E1.
  unfold rsum, future, flip_coin, side_ssm, scales, fwd_ops. cbn [length Nat.sub rev map fold_right move ll cell_of INR xorb fst snd]. cbv zeta. cbn [move ll].
  rewrite ?exp_0, ?exp_ln by lra. lra.
Qed.

(** Models that meet the hypotheses of C86_call. *)
Example C86_call_instance :
  let b' := sir_model (mkSSM (move side_ssm) (ylog side_proposal))
    (mkProposal (fun _ _ y t q => ydraw side_proposal y (t + 1) q) (fun _ x' _ y t => ylog side_proposal x' y (t + 1)) (ytrans side_proposal)) [false; true] false in
  as_importance (pfy_model side_proposal [false; true] false) b' /\ shape_ok (full_of_basic (pfy_model side_proposal [false; true] false)) /\
  rng_ok (call_rng (V := bool)).
Proof.
  assert (HN : (0 < length [false; true])%nat) by (simpl; lia).
  cbv zeta. refine (conj _ (conj _ _)); [apply (pfy_as_sir side_ssm side_proposal [false; true] false)|apply (pfy_shape side_proposal [false; true] false)|apply call_rng_ok]. Unshelve. all: exact HN.
Qed.

(** After a [measure] and a [forward] (threshold 2/3). *)
Example C86_instance_reached : exists s0 s w1, pt_init (P := bool) (U := unit) (Y := unit) 2 (2 / 3) 0 "PFY" FONone None = Ok s0 /\
  pt_run (full_of_basic (pfy_model side_proposal [false; true] false)) call_rng s0 [Meas (Some tt); Fwd None (Some tt)] (/2, [true; false]) = Ok (s, w1) /\
  length (pt_traj s) = 2%nat.
Proof.
  destruct (pt_init (P := bool) (U := unit) (Y := unit) 2 (2 / 3) 0 "PFY" FONone None) as [s0|e] eqn:E; [|discriminate].
  assert (HN : (0 < length [false; true])%nat) by (simpl; lia).
  destruct (py_init [false; true] (Nat.lt_0_succ 1) _ _ _ E) as [R0 E0]. exists s0.
  destruct (pt_measure (full_of_basic (pfy_model side_proposal [false; true] false)) s0 (Some tt) (/2, [true; false])) as [[s1 w1]|e] eqn:Em.
  2:{ exfalso. unfold pt_init in E. cbn in E. inversion E; subst. cbn in Em. discriminate. }
  assert (E1 : length (pt_traj s1) = 1%nat /\ w1 = (/2, [true; false])).
  { unfold pt_init in E. cbn in E. inversion E; subst. cbn in Em. inversion Em; subst. auto. }
  destruct E1 as [E1 ->]. pose proof (py_measure side_proposal [false; true] false HN _ _ _ _ _ _ R0 Em) as R1.
  destruct (py_forward side_ssm side_proposal [false; true] false HN (2 / 3) s1 None (Some tt) (/2) [true; false] R1) as (s' & fl & w' & Hs & Hp & R2).
  destruct (Sir.start_ex [false; true] _ _ (py_sir _ _ _ R1)) as (pre & old & Hst).
  destruct (Sir.fwd_call (tm side_ssm side_proposal) (td side_proposal) [false; true] false HN (2 / 3) _ pre old None (Some tt) (/2) [true; false] (py_sir _ _ _ R1) Hst)
    as (s3 & fl3 & w3 & parts & anc & H3 & R3 & Hn & _). rewrite Hs in H3. inversion H3; subst.
  eexists _, _. split; [reflexivity|]. split.
  - cbn [pt_run pt_step]. unfold bind. rewrite Em, Hp. reflexivity.
  - cbn [fst with_filter pt_traj]. rewrite <- (Sir.start_now [false; true] HN _ _ _ Hst) in Hn. unfold Sir.now in Hn. cbn [with_filter pt_traj] in Hn. lia.
Qed.

(** ** What the documentation asks for is a different density *)

(** [propose_from_y] is documented (interfaces.py:334-337) to draw from p(x_t|y_t).  Here the states are independent over time with
    probabilities 1/3 and 2/3 and the measurement says nothing, so p(x_t|y_t) is (1/3, 2/3), and so is the exact filter distribution.  A
    proposal from p(x_t|y_t) makes 'PFY' estimate the distribution (1/5, 4/5). *)
Definition fresh_ssm : ssm bool unit unit bool := mkSSM (fun _ _ _ v => v) (fun _ _ _ => 0).
Definition third_log (x : bool) : R := if x then ln (2 / 3) else ln (1 / 3).
Definition fresh_proposal : y_proposal bool unit unit bool := mkYProposal (fun _ _ q => q) (fun x' _ _ => third_log x') (fun _ x' _ _ => third_log x').
Lemma fresh_ok : y_proposal_ok fresh_ssm third fresh_proposal third both.
Proof.
  constructor.
  - intros f h H. unfold both. rewrite !H. reflexivity.
  - intros x u t f. unfold third, both, fresh_ssm, fresh_proposal, third_log. cbn [move ytrans]. rewrite !exp_ln by lra. reflexivity.
  - intros y t f. unfold third, both, fresh_proposal, third_log. cbn [ydraw ylog]. rewrite !exp_ln by lra. reflexivity.
Qed.

Theorem C86_conditional_refuted : forall n, (0 < n)%nat -> exists s0 : ptraj bool unit unit, pt_init n 0 0 "PFY" FONone None = Ok s0 /\
  let isone (x : bool) := if x then 1 else 0 in
  let x0 := repeat true n in
  pfy_estimate fresh_proposal third x0 false [(None, Some tt)] s0 isone = 4 / 9 /\
  pfy_estimate fresh_proposal third x0 false [(None, Some tt)] s0 (fun _ => 1) = 5 / 9 /\
  forall x, future fresh_ssm third 0 [Fwd None (Some tt)] isone x = 2 / 3 /\ future fresh_ssm third 0 [Fwd None (Some tt)] (fun _ => 1) x = 1.
Proof.
  intros n Hn. destruct (pt_init (P := bool) (U := unit) (Y := unit) n 0 0 "PFY" FONone None) as [s0|e] eqn:E; [|discriminate]. exists s0. split; [reflexivity|].
  cbv zeta.
  assert (M : forall phi, pfy_estimate fresh_proposal third (repeat true n) false [(None, Some tt)] s0 phi = 1 / 9 * phi false + 4 / 9 * phi true).
  { intros phi.
    rewrite (C86_mean fresh_ssm third fresh_proposal third both (repeat true n) false 0 FONone s0 [] s0 (0, []) (0, []));
      [|apply third_average|apply fresh_ok|destruct n; [lia|discriminate]|rewrite repeat_length; exact E|reflexivity].
    assert (E1 : pt_traj s0 = []) by (unfold pt_init in E; cbn in E; inversion E; reflexivity). unfold current. rewrite E1. cbn [length Nat.sub rev].
    set (f := future _ _ _ _ _).
    assert (Ef : forall x, f x = 1 / 9 * phi false + 4 / 9 * phi true).
    { intros x. unfold f, fwd_ops, future, third. cbn [map fst snd move ll fresh_ssm fresh_proposal ylog]. cbv zeta. cbn [move ll]. unfold third_log.
      rewrite !exp_ln by lra. lra. }
    rewrite (map_ext _ _ Ef). rewrite repeat_length. assert (Hs : forall c k, rsum (map (fun _ : bool => c) (repeat true k)) = INR k * c).
    { intros c. induction k as [|k IH]; [unfold rsum; simpl; lra|]. rewrite S_INR. cbn [repeat map]. change (c + rsum (map (fun _ => c) (repeat true k)) = (INR k + 1) * c). rewrite IH. ring. }
    rewrite Hs. field. apply not_0_INR. lia. }
  split; [rewrite M; lra|]. split; [rewrite M; lra|]. intros x. unfold future, third, fresh_ssm. cbn [move ll]. cbv zeta. cbn [move ll]. rewrite exp_0. split; lra.
Qed.

Print Assumptions C86_call.
Print Assumptions C86_mean.
Print Assumptions C86_proportional.
Print Assumptions C86_averages_exist.
Print Assumptions C86_conditional_refuted.
