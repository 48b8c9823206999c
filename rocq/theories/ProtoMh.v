(** Congruence in the user's model, continued: the Metropolis-Hastings smoothers. *)
From Coq Require Import String Bool ZArith Reals List Arith Lia.
From Verif Require Import Base XR SampleSpec SampleModel PAModel WeightSpec WeightProofs FilterModel TrajModel
  FilterSpec SmoothModel SmoothProofs SmoothRs SmoothPath ProtoSpec ProtoProofs.
Import ListNotations.
Open Scope R_scope.

Section Mh.
Context {W P U Y V : Type}.
Variables sm sm' : smodel W P U Y V.
Variable g : rng W.
Variables (T m : nat) (u : list (cell U)) (y : list (cell Y)) (t : list nat).
Hypothesis H : same_smoother_calls T m u y t sm sm'.

(** The past and future of a Metropolis-Hastings step about step [k]. *)
Definition mh_at (k : nat) (ptr : option (list (tstep P))) (fut : option (list (tstep P))) : Prop :=
  at_step T k (opt_past ptr) (opt_future fut) /\ (fut = Some [] -> False) /\
  match ptr with None => k = 0%nat | Some _ => True end.

Lemma last_move k (tr : list (tstep P)) lst : idx_last tr = Ok lst -> length tr = k -> (k < T)%nat ->
  at_move T (k - 1) (removelast tr) /\ (0 < k)%nat.
Proof.
  intros E L HT. apply last_ok in E. destruct E as (_ & Er & Hne). rewrite Er.
  assert (0 < length tr)%nat by (destruct tr; [congruence|simpl; lia]).
  split; [|lia]. split; [rewrite firstn_length_le; lia|lia].
Qed.

Lemma mc_step_ext part_ ptr pp pc fut find k red s : mh_at k ptr fut ->
  mc_step sm g part_ ptr pp pc fut find u y t k red s = mc_step sm' g part_ ptr pp pc fut find u y t k red s.
Proof.
  intros ([Lp Lf] & Hf & Hn).
  destruct H as (Hxn & _ & _ & Hcp & Hci & Hpr & Hlp & Hx0 & Hx1 & Hno & Hup & Hme & Hcr & _).
  assert (At : at_step T k (opt_past ptr) (opt_future fut)) by (split; auto).
  assert (HkT : (k < T)%nat) by lia. clear Lf.
  unfold mc_step. apply bind_ext.
  { unfold mc_current. destruct ptr as [tr|].
    - same_lift lst El. destruct (last_move _ _ _ El Lp ltac:(lia)) as [Am _].
      same_lift old Eo. same_lift pi Ei. rewrite <- (take_length _ _ _ Ei). apply Hcp. auto.
    - subst k. same_lift t0 Et. apply idx_ok in Et. apply Hci. auto. }
  intros cur s1 Ecur.
  assert (Hk : forall tr, ptr = Some tr -> (0 < k)%nat).
  { intros tr ->. simpl in Lp. unfold mc_current in Ecur. apply bind_ok in Ecur. destruct Ecur as (lst & s3 & El & _).
    apply lift_ok in El. destruct El as (b & El & _). eapply (last_move k tr b); auto. }
  apply bind_ext.
  { unfold mc_propose. destruct red; [|apply Hpr; auto]. destruct ptr as [tr|].
    - specialize (Hk tr eq_refl). simpl in Lp.
      apply bind_ext; [apply Hno; auto; lia|]. intros v s2 _. same_bind. intros lst s3 _. same_bind. intros xp s4 _.
      apply Hup; auto; lia.
    - destruct fut as [f|]; [|reflexivity]. same_bind. intros f0 s2 _. apply Hcr. }
  intros xprop s2 _. apply bind_ext.
  { unfold mc_prior_terms. destruct red; [reflexivity|].
    apply bind_ext; [apply Hlp; auto|]. intros qp s3 _. apply bind_ext; [apply Hlp; auto|]. intros qc s4 _.
    destruct ptr as [tr|].
    - same_lift lst El. destruct (last_move _ _ _ El Lp ltac:(lia)) as [Am _].
      same_bind. intros ppv s5 _. same_bind. intros ip s6 _. apply bind_ext; [apply Hx1; auto|]. intros lp s7 _.
      same_bind. intros pcv s8 _. same_bind. intros ic s9 _. apply bind_ext; [apply Hx1; auto|reflexivity].
    - same_lift t0 Et. apply idx_ok in Et. apply bind_ext; [apply Hx0; auto|]. intros lp s7 _.
      apply bind_ext; [apply Hx0; auto|reflexivity]. }
  intros [[[q_prop q_curr] prev_prop] prev_curr] s3 _. apply bind_ext.
  { unfold mc_meas_terms. same_bind. intros yk s4 _. destruct (is_none yk); [reflexivity|].
    apply bind_ext; [apply Hme; [auto|lia]|]. intros rp s5 _. apply bind_ext; [apply Hme; [auto|lia]|reflexivity]. }
  intros [[[xpropy cury] y_prop] y_curr] s4 _. apply bind_ext; [|reflexivity].
  unfold mc_next_terms. destruct fut as [f|]; [|reflexivity].
  assert (f <> []) by (intros ->; auto).
  apply bind_ext; [apply Hxn; auto|]. intros np s5 _. apply bind_ext; [apply Hxn; auto|reflexivity].
Qed.

Lemma sample_ext p past pind fut find k s : at_step T k past fut ->
  s_sample sm p past pind fut find u y t k s = s_sample sm' p past pind fut find u y t k s.
Proof. apply H. Qed.

Lemma mhbp_inner_ext n w ptr fut k red : mh_at k ptr fut -> forall pn pa an s,
  mhbp_inner sm g n m w ptr fut u y t k red pn pa an s = mhbp_inner sm' g n m w ptr fut u y t k red pn pa an s.
Proof.
  intros At. induction n as [|n IH]; intros pn pa an s; cbn [mhbp_inner]; [reflexivity|].
  same_bind. intros pv s1 _. same_bind. intros pv' s2 _. same_bind. intros av s3 _.
  apply bind_ext; [apply mc_step_ext; auto|]. intros r s4 _. same_bind. intros av' s5 _. apply IH.
Qed.

Lemma mhbp_loop_ext n R_ red tr : length tr = T -> forall ci pa an fut s, (n + length fut = T)%nat ->
  mhbp_loop sm g n m R_ red tr u y t ci pa an fut s = mhbp_loop sm' g n m R_ red tr u y t ci pa an fut s.
Proof.
  intros HT. induction n as [|k IH]; intros ci pa an fut s Hn; cbn [mhbp_loop]; [reflexivity|].
  same_bind. intros st s1 _. same_bind. intros pn s2 _. same_bind. intros [[w ptr] an'] s3 Es.
  assert (At : mh_at k ptr (match fut with [] => None | _ => Some fut end)).
  { assert (opt_future (match fut with [] => None | _ => Some fut end) = fut) as Ef by (destruct fut; reflexivity).
    unfold mh_at. rewrite Ef. destruct k as [|k].
    - minv Es. repeat split; auto; try (simpl; lia). destruct fut; discriminate.
    - minv Es. repeat split; auto; try (simpl opt_past; lia).
      + destruct tr as [|a0 tr0]; simpl in *; [lia|]. rewrite firstn_length_le; lia.
      + destruct fut; discriminate. }
  apply bind_ext; [apply mhbp_inner_ext; auto|]. intros [[pn' pa'] an''] s4 _. same_bind. intros av s5 _.
  apply bind_ext; [apply sample_ext; apply At|]. intros p' s6 _. same_bind. intros pav s7 _. apply IH. simpl. lia.
Qed.

Lemma perform_mhbp_ext R_ red tr s : length tr = T ->
  perform_mhbp sm g R_ red tr u y t m s = perform_mhbp sm' g R_ red tr u y t m s.
Proof.
  intros HT. unfold perform_mhbp. same_bind. intros l s1 _. same_bind. intros w s2 _. same_bind. intros ci s3 _.
  apply mhbp_loop_ext; auto. simpl. lia.
Qed.

Lemma mhips_loop_ext n red tr : length tr = T -> forall fut s, (n + 1 + length fut = T)%nat -> fut <> [] ->
  mhips_loop sm g n m red tr u y t fut s = mhips_loop sm' g n m red tr u y t fut s.
Proof.
  intros HT. induction n as [|k IH]; intros fut s Hn Hf; cbn [mhips_loop]; [reflexivity|].
  same_bind. intros st s1 _.
  assert (At : mh_at (S k) (Some (firstn (S k) tr)) (Some fut)).
  { unfold mh_at, opt_past, opt_future. split; [split|split; [congruence|exact I]]; [rewrite firstn_length_le; lia|lia]. }
  apply bind_ext; [apply mc_step_ext; auto|]. intros r s2 _. apply bind_ext; [apply sample_ext; apply At|].
  intros p' s3 _. same_bind. intros pa s4 _. apply IH; [simpl; lia|discriminate].
Qed.

Lemma mhips_loop_steps n red tr : forall fut s r s1,
  mhips_loop sm g n m red tr u y t fut s = Ok (r, s1) -> length r = (n + length fut)%nat.
Proof.
  induction n as [|k IH]; intros fut s r s1 E; cbn [mhips_loop] in E; minv E; [auto|]. apply IH in E. rewrite E. simpl. lia.
Qed.
Lemma mhbp_loop_steps n R_ red tr : forall ci pa an fut s r s1,
  mhbp_loop sm g n m R_ red tr u y t ci pa an fut s = Ok (r, s1) -> length r = (n + length fut)%nat.
Proof.
  induction n as [|k IH]; intros ci pa an fut s r s1 E; cbn [mhbp_loop] in E; [minv E; auto|].
  do 2 (apply bind_ok in E; destruct E as (? & ? & _ & E)).
  apply bind_ok in E. destruct E as ([[w ptr] an'] & ? & _ & E).
  apply bind_ok in E. destruct E as ([[pn' pa'] an''] & s2 & _ & E).
  do 3 (apply bind_ok in E; destruct E as (? & ? & _ & E)).
  apply IH in E. rewrite E. simpl. lia.
Qed.

Lemma step_needs_two part_ tr pp pc fut find k red s r s1 : length tr = T ->
  mc_step sm g part_ (Some (firstn (length tr - 1) tr)) pp pc fut find u y t k red s = Ok (r, s1) -> (2 <= T)%nat.
Proof.
  intros HT E. unfold mc_step in E. apply bind_ok in E. destruct E as (? & ? & E & _).
  unfold mc_current in E. apply bind_ok in E. destruct E as (? & ? & E & _). apply lift_ok in E. destruct E as (? & E & _).
  apply last_ok in E. destruct E as (_ & _ & E).
  destruct tr as [|a0 [|b0 tr]]; [contradiction E; reflexivity|contradiction E; reflexivity|simpl in HT; lia].
Qed.

(** A pass over a trajectory of one step raises; the last step's move fails first. *)
Lemma pass_ext red tr s : length tr = T ->
  perform_mhips_pass sm g red tr u y t m s = perform_mhips_pass sm' g red tr u y t m s.
Proof.
  intros HT. unfold perform_mhips_pass. same_lift lst El. apply last_ok in El. destruct El as (_ & _ & Hne).
  assert (0 < length tr)%nat by (destruct tr; [congruence|simpl; lia]).
  assert (At : mh_at (length tr - 1) (Some (firstn (length tr - 1) tr)) None).
  { unfold mh_at, opt_past, opt_future. split; [split|split; [congruence|exact I]]; [rewrite firstn_length_le; lia|simpl; lia]. }
  apply bind_ext; [apply mc_step_ext; auto|]. intros r s1 Er. apply bind_ext; [apply sample_ext; apply At|].
  intros p' s2 _. same_bind. intros pa s3 _.
  assert (H2 : (2 <= T)%nat).
  { eapply step_needs_two; eauto. }
  apply bind_ext; [apply mhips_loop_ext; [auto|simpl; lia|discriminate]|]. intros ft s4 Ef.
  apply mhips_loop_steps in Ef. simpl in Ef. same_bind. intros st0 s5 _.
  assert (At0 : mh_at 0 None (Some ft)).
  { unfold mh_at, opt_past, opt_future. repeat split; auto; [simpl; lia|]. intros E. injection E as ->. simpl in Ef. lia. }
  apply bind_ext; [apply mc_step_ext; auto|]. intros r' s6 _. apply bind_ext; [apply sample_ext; apply At0|reflexivity].
Qed.
Lemma pass_steps red tr s r s1 : length tr = T -> perform_mhips_pass sm g red tr u y t m s = Ok (r, s1) -> length r = T.
Proof.
  intros HT E. unfold perform_mhips_pass in E. apply bind_ok in E. destruct E as (? & ? & _ & E).
  apply bind_ok in E. destruct E as (? & ? & Er & E). apply step_needs_two in Er; auto.
  do 2 (apply bind_ok in E; destruct E as (? & ? & _ & E)).
  apply bind_ok in E. destruct E as (ft & ? & Ef & E). apply mhips_loop_steps in Ef. simpl in Ef.
  do 4 (apply bind_ok in E; destruct E as (? & ? & _ & E)). minv E. simpl. lia.
Qed.

Lemma passes_ext n red : forall tr s, length tr = T ->
  mhips_passes sm g n red tr u y t m s = mhips_passes sm' g n red tr u y t m s.
Proof.
  destruct H as (_ & _ & _ & _ & _ & _ & _ & _ & _ & _ & _ & _ & _ & _ & Hp & _ & Hk).
  induction n as [|n IH]; intros tr s HT; cbn [mhips_passes]; [reflexivity|].
  apply bind_ext; [eapply hook_ext; eauto|]. intros tr1 s1 E1.
  assert (L1 : length tr1 = T).
  { unfold hook in E1. unfold hook_keeps_length in Hk. destruct (s_pre sm); [eapply Hk; eauto|minv E1; auto]. }
  apply bind_ext; [apply pass_ext; auto|]. intros tr2 s2 E2. apply IH. eapply pass_steps; eauto.
Qed.
Lemma passes_steps n red : forall tr s r s1, length tr = T ->
  mhips_passes sm g n red tr u y t m s = Ok (r, s1) -> length r = T.
Proof.
  destruct H as (_ & _ & _ & _ & _ & _ & _ & _ & _ & _ & _ & _ & _ & _ & Hp & _ & Hk).
  induction n as [|n IH]; intros tr s r s1 HT E; cbn [mhips_passes] in E; minv E; [auto|].
  eapply IH; [|exact E]. eapply pass_steps; [|exact Hm0].
  unfold hook in Hm. unfold hook_keeps_length in Hk. destruct (s_pre sm); [eapply Hk; eauto|minv Hm; auto].
Qed.
End Mh.
