(** C88: the ancestral lines of the bootstrap filter's particles, weighted by the product of the reported increments, are properly weighted
    for the smoothing distribution: for every function of the whole path, every history of calls, every number of particles and every
    resampling threshold. *)
From Coquelicot Require Import Coquelicot.
From Coq Require Import ZArith String Reals Lra Lia List Arith.
From Verif Require Import Base XR SampleModel SampleSpec PAModel WeightSpec FilterModel TrajModel FilterSpec SmoothModel SmoothSpec SmoothBsi SmoothExample
  FfbsiSpec Ffbsi GibbsSpec Gibbs GibbsRun Prop_Ffbsi Prop_Anc EvidenceSpec Evidence Prop_Evidence PathSpec Path.
Import ListNotations.
Open Scope R_scope.

Section C88.
Context {P U Y V : Type}.

(** From any state reachable with the same model: the remaining calls average to the exact value, each current line being the past. *)
Theorem C88_paths_from_any_state : forall (m : ssm P U Y V) noise x0 dv thr o T s0 past s w0 w1 ops phi,
  average noise -> x0 <> [] -> pt_init (length x0) thr 0 "PF" o T = Ok s0 ->
  pt_run (full_of_basic (ssm_model m x0 dv)) call_rng s0 past w0 = Ok (s, w1) ->
  line_estimate m noise x0 dv ops s phi = line_mean x0 s (path_future m noise (length (pt_traj s) - 1) ops phi).
Proof.
  intros m noise x0 dv thr o T s0 past s w0 w1 ops phi Ha Hn Hi Hr.
  assert (HN : (0 < length x0)%nat) by (destruct x0; [congruence|simpl; lia]).
  destruct (ready_init x0 _ _ _ _ Hi) as [R0 _]. pose proof (ready_run m x0 dv HN _ _ _ _ _ _ R0 Hr) as R1.
  apply (line_estimate_mean m noise x0 dv Ha HN thr phi ops s R1).
Qed.

(** The integrals in [line_estimate] exist, and no call fails (a failing call would count as zero). *)
Theorem C88_averages_exist : forall (m : ssm P U Y V) noise x0 dv thr o T s0 past s w0 w1,
  average noise -> x0 <> [] -> pt_init (length x0) thr 0 "PF" o T = Ok s0 ->
  pt_run (full_of_basic (ssm_model m x0 dv)) call_rng s0 past w0 = Ok (s, w1) ->
  (forall u y ops phi, ex_RInt (fwd_outcome m noise x0 dv s u y (fun s' resampled => fwd_factor s' resampled * line_estimate m noise x0 dv ops s' phi)) 0 1) /\
  (forall u y w, exists s' resampled w', pt_forward (full_of_basic (ssm_model m x0 dv)) call_rng s u y w = Ok ((s', resampled), w')) /\
  (forall y w, exists s' w', pt_measure (full_of_basic (ssm_model m x0 dv)) s y w = Ok (s', w')).
Proof.
  intros m noise x0 dv thr o T s0 past s w0 w1 Ha Hn Hi Hr.
  assert (HN : (0 < length x0)%nat) by (destruct x0; [congruence|simpl; lia]).
  destruct (ready_init x0 _ _ _ _ Hi) as [R0 _]. pose proof (ready_run m x0 dv HN _ _ _ _ _ _ R0 Hr) as R1.
  split; [|exact (proj2 (C80_averages_exist m noise x0 dv thr o T s0 past s w0 w1 Ha Hn Hi Hr))].
  intros u y ops phi. apply (line_integrable m noise x0 dv Ha HN thr phi u y ops s R1).
Qed.

(** From the constructor: the mean over the initial particles of the exact value. *)
Theorem C88_paths_given_initial : forall (m : ssm P U Y V) noise x0 dv thr o T s0 ops phi,
  average noise -> x0 <> [] -> pt_init (length x0) thr 0 "PF" o T = Ok s0 ->
  line_estimate m noise x0 dv ops s0 phi = rsum (map (fun x => path_future m noise 0 ops phi [x]) x0) / INR (length x0).
Proof.
  intros m noise x0 dv thr o T s0 ops phi Ha Hn Hi.
  pose proof (C88_paths_from_any_state m noise x0 dv thr o T s0 [] s0 (0, []) (0, []) ops phi Ha Hn Hi eq_refl) as Q. rewrite Q.
  destruct (ready_init x0 _ _ _ _ Hi) as [_ E]. unfold line_mean. rewrite E. reflexivity.
Qed.

(** Averaged over independent initial particles as well: exactly E[p(y's | path) phi(path)], with no dependence on the number of particles. *)
Theorem C88_paths_unbiased : forall (m : ssm P U Y V) noise (start : (P -> R) -> R) n dv thr o T s0 ops phi,
  average noise -> average start -> (0 < n)%nat -> pt_init n thr 0 "PF" o T = Ok s0 ->
  iid start n (fun x0 => line_estimate m noise x0 dv ops s0 phi) = start (fun x => path_future m noise 0 ops phi [x]).
Proof.
  intros m noise st n dv thr o T s0 ops phi Ha Hs Hn Hi.
  assert (Hlen : forall k F G, (forall l, length l = k -> F l = G l) -> iid st k F = iid st k G).
  { clear - Hs. induction k as [|k IH]; intros F G H; cbn [iid]; [apply H; reflexivity|].
    apply (av_ext st Hs). intros a. apply IH. intros l L. apply H. simpl. congruence. }
  rewrite (Hlen n _ (fun x0 => / INR n * rsum (map (fun x => path_future m noise 0 ops phi [x]) x0))).
  2:{ intros x0 L. subst n. rewrite (C88_paths_given_initial m noise x0 dv thr o T s0); auto.
      - unfold Rdiv. ring.
      - intros ->. simpl in Hn. lia. }
  rewrite (av_scale _ (iid_average st Hs n)).
  assert (E : forall k f, iid st k (fun x0 => rsum (map f x0)) = INR k * st f).
  { clear - Hs. induction k as [|k IH]; intros f; cbn [iid map]; [unfold rsum; simpl; lra|].
    transitivity (st (fun a => f a + INR k * st f)).
    - apply (av_ext st Hs). intros a. rewrite <- IH. pose proof (iid_average st Hs k) as HI.
      transitivity (iid st k (fun l => f a * 1 + rsum (map f l))); [apply (av_ext _ HI); intros l; rewrite Rmult_1_r; reflexivity|].
      rewrite (av_lin _ HI (f a) (fun _ => 1)), (av_one _ HI). ring.
    - rewrite (av_add st Hs), (av_const st Hs), S_INR. ring. }
  rewrite E. field. apply not_0_INR. lia.
Qed.
End C88.

(** Particles at 0 and 1, noise 0 or 1 with probability one half, likelihood exp(-x), resampling at every step: after two steps the average
    of (first state of the line) is not that of the prior: the lines carry the information of later measurements back to time 0. *)
Example C88_instance : exists s0, pt_init (P := R) (U := unit) (Y := unit) 2 2 0 "PF" FONone None = Ok s0 /\
  line_estimate ex_ssm coin [0; 1] 0 [Fwd None (Some tt); Fwd None (Some tt)] s0 (fun path => nth 0 path 0) =
  exp (-2) / 2 * ((1 + exp (-2)) / 2) * ((1 + exp (-1)) / 2).
Proof.
  destruct (pt_init (P := R) (U := unit) (Y := unit) 2 2 0 "PF" FONone None) as [s0|e] eqn:E; [|discriminate]. exists s0. split; [reflexivity|].
  rewrite (C88_paths_given_initial ex_ssm coin [0; 1] 0 2 FONone None s0); [|apply coin_average|discriminate|exact E].
  unfold rsum, coin, ex_ssm. cbn [map fold_right path_future rev app move ll cell_of length INR nth]. cbv zeta. cbn [rev app nth].
  repeat match goal with |- context [- (?a + ?b)] => replace (- (a + b)) with (- a + - b) by ring end. rewrite ?exp_plus, ?Ropp_0, ?exp_0.
  replace (-2) with (-1 + -1) by lra. rewrite ?exp_plus.
  replace (exp (-1)) with (exp (- (1))) by (f_equal; lra). generalize (exp (- (1))). intros q. field.
Qed.

(** [C80_instance_reached] is the reachable resampled state for the first two theorems; independent initial particles for the last. *)
Example C88_instance_iid : exists s0, pt_init (P := R) (U := unit) (Y := unit) 3 (1 / 2) 0 "PF" FONone None = Ok s0 /\
  iid coin 3 (fun x0 => line_estimate ex_ssm coin x0 0 [Fwd None (Some tt)] s0 (fun path => nth 0 path 0 * nth 1 path 0)) =
  (exp (-1) + 2 * exp (-2)) / 4.
Proof.
  destruct (pt_init (P := R) (U := unit) (Y := unit) 3 (1 / 2) 0 "PF" FONone None) as [s0|e] eqn:E; [|discriminate]. exists s0. split; [reflexivity|].
  rewrite (C88_paths_unbiased ex_ssm coin coin 3 0 (1 / 2) FONone None s0); [|apply coin_average|apply coin_average|lia|exact E].
  unfold coin, ex_ssm. cbn [path_future rev app move ll cell_of nth]. cbv zeta. cbn [rev app nth].
  repeat match goal with |- context [- (?a + ?b)] => replace (- (a + b)) with (- a + - b) by ring end. rewrite ?exp_plus, ?Ropp_0, ?exp_0.
  replace (-2) with (-1 + -1) by lra. rewrite ?exp_plus.
  replace (exp (-1)) with (exp (- (1))) by (f_equal; lra). generalize (exp (- (1))). intros q. field.
Qed.

(** What the smoother draws: the 'ancestor' trajectories drawn from the filter's result average to [line_mean], so the weighted lines above are
    the trajectories [smooth(m, 'ancestor')] returns.  (Laws as in C23: iterated integrals over the random draws.) *)
Lemma lines_are_paths {P} N : forall (tr : list (tstep P)), Forall (step_wf N) tr -> forall i, (i < N)%nat -> nth i (lines tr) [] = path tr i.
Proof.
  induction tr as [|st tr IH] using rev_ind; intros Hw i Hi; [destruct i; reflexivity|].
  apply Forall_app in Hw. destruct Hw as [Hw Hst]. inversion Hst as [|? ? (W1 & W2 & W3 & W4 & W5) _]; subst.
  rewrite lines_snoc, path_snoc.
  destruct (nth_error (part (st_pa st)) i) as [x|] eqn:Ex. 2:{ apply nth_error_None in Ex. lia. }
  assert (Ha : nth_error (st_anc st) i = Some (nth i (st_anc st) 0%nat)) by (apply nth_error_nth'; lia).
  apply nth_error_nth. rewrite nth_error_map, (nth_error_combine_ok _ _ _ _ _ Ex Ha). cbn [option_map fst snd]. f_equal. f_equal.
  apply IH; auto. rewrite Forall_forall in W5. rewrite <- W4. rewrite W4. apply W5. eapply nth_error_In; eauto.
Qed.

Theorem C88_drawn_trajectories {P U Y V : Type} : forall (m : ssm P U Y V) x0 dv thr o T s0 past s w0 w1
    (sm : smodel (list R) P U Y V) junk fuel k so lj phi,
  x0 <> [] -> pt_init (length x0) thr 0 "PF" o T = Ok s0 -> pt_run (full_of_basic (ssm_model m x0 dv)) call_rng s0 past w0 = Ok (s, w1) ->
  pt_traj s <> [] -> plain_copy sm -> s_post sm = None -> (0 < k)%nat ->
  expect 1 (fun draws => match perform_smoothing sm tape junk fuel s k "ancestor" so lj draws with
                         | Ok (st, _) => rsum (map (fun j => phi (trajectory (sm_traj st) j)) (seq 0 k)) / INR k
                         | Err _ => 0
                         end)
    (line_mean x0 s phi).
Proof.
  intros m x0 dv thr o T s0 past s w0 w1 sm junk fuel k so lj phi Hn Hi Hr Hne Hcp Hpost Hk.
  assert (HN : (0 < length x0)%nat) by (destruct x0; [congruence|simpl; lia]).
  destruct (ready_init x0 _ _ _ _ Hi) as [R0 _]. pose proof (ready_run m x0 dv HN _ _ _ _ _ _ R0 Hr) as R1.
  destruct (exists_last Hne) as (pre & old & E). pose proof (start_wf x0 _ _ pre old R1 (or_introl E)) as Hw. rewrite <- E in Hw. destruct (rd_last x0 _ _ R1 _ _ E) as [Hl _].
  destruct (C23_lines_exist s (length x0) pre old HN E Hw) as [li Hli].
  assert (Q : line_mean x0 s phi = rsum (map (fun i => nweight (lw (st_pa old)) i * phi (states (pt_traj s) (li i))) (seq 0 (length x0)))).
  { rewrite (line_mean_snoc _ _ pre old _ E). unfold lmean.
    assert (Wo : step_wf (length x0) old) by (rewrite E in Hw; apply Forall_app in Hw; destruct Hw as [_ Hw]; inversion Hw; auto).
    pose proof (lines_length _ pre old Wo) as Ll. destruct Wo as (_ & W2 & _).
    unfold Rdiv. rewrite Rmult_comm, <- rsum_map_scale. apply rsum_nth.
    - rewrite combine_length, seq_length. lia.
    - intros i [l q] a H1 H2. apply nth_error_combine in H1. destruct H1 as [H1 H3].
      assert (Li : (i < length x0)%nat) by (rewrite <- Ll; apply nth_error_Some; congruence).
      apply (nth_error_nth _ _ 0%nat) in H2. rewrite seq_nth in H2 by auto. simpl in H2. subst a. cbn [fst snd].
      destruct (Hli i Li) as [L1 L2]. rewrite (states_path _ _ L1 Hne). rewrite E, app_length. simpl length.
      replace (length pre + 1 - 1)%nat with (length pre) by lia. rewrite L2.
      rewrite <- (lines_are_paths (length x0)); [|rewrite <- E; exact Hw|exact Li].
      rewrite (nth_error_nth _ _ _ H1). unfold nweight. rewrite (nth_error_nth _ _ _ H3). unfold Rdiv. ring. }
  rewrite Q. apply (C23_trajectory_law sm junk fuel s (length x0) k so lj phi li pre old); auto.
Qed.

(** A reachable result to draw from is that of [C80_instance_reached]; a copying smoothing model: *)
Example C88_drawn_instance : exists s0 s w1, pt_init (P := R) (U := unit) (Y := unit) (length [0; 1]) 2 0 "PF" FONone None = Ok s0 /\
  pt_run (full_of_basic (ssm_model ex_ssm [0; 1] 0)) call_rng s0 [Fwd None (Some tt)] (/2, [0; 1]) = Ok (s, w1) /\ pt_traj s <> [] /\
  plain_copy (swalk (W := list R) soft) /\ s_post (swalk (W := list R) soft) = None.
Proof.
  destruct C80_instance_reached as (s0 & s & w1 & A & B & C). exists s0, s, w1. split; [exact A|]. split; [exact B|].
  split; [intros E; rewrite E in C; discriminate|]. split; [apply swalk_plain|reflexivity].
Qed.

Print Assumptions C88_paths_from_any_state.
Print Assumptions C88_averages_exist.
Print Assumptions C88_paths_given_initial.
Print Assumptions C88_paths_unbiased.
Print Assumptions C88_drawn_trajectories.
