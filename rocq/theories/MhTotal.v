(** The Metropolis-Hastings smoothers succeed on filter results of two or more steps. *)
From Coquelicot Require Import Coquelicot.
From Coq Require Import String Bool Reals ZArith Lra Lia List Arith.
From Verif Require Import Base XR SampleModel SampleSpec SampleProofs PAModel WeightSpec WeightProofs FilterModel TrajModel FilterSpec FilterProofs FilterTotal SmoothModel SmoothSpec
  SmoothProofs SmoothBsi SmoothPath MhSpec MhProofs.
Import ListNotations.
Open Scope R_scope.

Section Total.
Context {W P U Y V : Type}.
Variable sm : smodel W P U Y V.
Variable g : rng W.
Variable e : densities P U Y.
Hypothesis Hg : rng_ok g.
Hypothesis Hmh : mh_model sm e.
Hypothesis Hpr : proposing sm.
Hypothesis Hcp : copy_smooth sm.

Lemma xnext1_total p past ip x u y t k uk tk s : idx u k = Ok uk -> idx t k = Ok tk -> length p = length x ->
  exists l, m_xnext1 (s_f sm) p past ip x (seq 0 (length x)) u y t k s = Ok (l, s) /\ length l = length x.
Proof.
  intros Hu Ht L. destruct Hmh as (_ & _ & _ & _ & _ & Hx & _). rewrite Hx, take_seq, Hu, Ht. cbn [rbind].
  destruct (zipw_ok (e_trans e uk tk) p x L) as [r Hr]. rewrite Hr. cbn. exists r. destruct (zipw_length _ _ _ _ Hr). auto.
Qed.

(** [past_ok]: the past can be indexed by the ancestors [pp]; [fut_ok]: there is a next
    state for each of the [m] trajectories. *)
Definition past_ok (ptr : option (list (tstep P))) (pp : list nat) (m : nat) : Prop :=
  match ptr with
  | Some tr => length pp = m /\ exists last, idx_last tr = Ok last /\
      Forall (fun i => (i < length (part (st_pa last)))%nat) pp /\ Forall (fun i => (i < length (st_anc last))%nat) pp
  | None => True
  end.
Definition fut_ok (fut : option (list (tstep P))) (m : nat) : Prop :=
  match fut with Some f => exists f0 rest, f = f0 :: rest /\ length (part (st_pa f0)) = m | None => True end.

Lemma mc_step_total cur ptr pp pc fut u y t k m :
  length cur = m -> past_ok ptr pp m -> past_ok ptr pc m -> fut_ok fut m ->
  (ptr <> None -> (k - 1 < length u)%nat) -> (fut <> None -> (k < length u)%nat) -> (k < length t)%nat -> (k < length y)%nat ->
  runs (mc_step sm g cur ptr pp pc fut (seq 0 m) u y t k false) (fun r => length (fst r) = m /\ length (snd r) = m).
Proof.
  intros Lc Hpp Hpc Hf Hu1 Hu2 Hk Hy s. pose proof Hmh as (Hx & Hcpred & Hcin & H0 & Hq & _ & Hms).
  destruct (idx_lt t k Hk) as [tk Htk]. destruct (idx_lt y k Hy) as [yk Hyk]. destruct (idx_lt t 0 ltac:(lia)) as [t0 Ht0].
  unfold mc_step.
  assert (E1 : mc_current sm cur ptr pc u y t k s = Ok (cur, s)).
  { unfold mc_current. destruct ptr as [tr|].
    - destruct Hpc as (_ & last & El & F1 & F2). rewrite (lift_bind_eq _ _ _ _ El).
      destruct (take_ok _ _ F1) as [a Ea]. rewrite (lift_bind_eq _ _ _ _ Ea). destruct (take_ok _ _ F2) as [b Eb]. rewrite (lift_bind_eq _ _ _ _ Eb). apply Hcpred.
    - rewrite (lift_bind_eq _ _ _ _ Htk). apply Hcin. }
  rewrite (bind_eq _ _ _ _ _ E1). unfold mc_propose.
  destruct (Hpr (opt_past ptr) pp (opt_future fut) (seq 0 m) u y t k s) as (xp & s1 & Ep & Lp). rewrite seq_length in Lp. rewrite (bind_eq _ _ _ _ _ Ep).
  assert (E2 : exists q1 q2 l1 l2, mc_prior_terms sm false xp cur ptr pp pc fut (seq 0 m) u y t k s1 = Ok ((Some q1, Some q2, Some l1, Some l2), s1) /\
     length q1 = m /\ length q2 = m /\ length l1 = m /\ length l2 = m).
  { unfold mc_prior_terms. rewrite (bind_eq _ _ _ _ _ (Hq _ _ _ _ _ _ _ _ _ _)), (bind_eq _ _ _ _ _ (Hq _ _ _ _ _ _ _ _ _ _)).
    destruct ptr as [tr|].
    - destruct Hpp as (LP & last & El & F1 & F2). destruct Hpc as (LC & last' & El' & F1' & F2'). rewrite El in El'. injection El' as <-.
      assert (Kt : (k - 1 < length t)%nat) by lia. specialize (Hu1 ltac:(discriminate)).
      destruct (idx_lt u _ Hu1) as [uk Euk]. destruct (idx_lt t _ Kt) as [t1 Et1].
      rewrite (lift_bind_eq _ _ _ _ El). destruct (take_ok _ _ F1) as [a Ea]. rewrite (lift_bind_eq _ _ _ _ Ea). destruct (take_ok _ _ F2) as [b Eb]. rewrite (lift_bind_eq _ _ _ _ Eb).
      destruct (xnext1_total a (removelast tr) b xp u y t (k - 1) uk t1 s1 Euk Et1) as (l1 & E1' & L1); [rewrite (take_length _ _ _ Ea); congruence|].
      rewrite (bind_eq _ _ _ _ _ E1'). destruct (take_ok _ _ F1') as [a' Ea']. rewrite (lift_bind_eq _ _ _ _ Ea'). destruct (take_ok _ _ F2') as [b' Eb']. rewrite (lift_bind_eq _ _ _ _ Eb').
      destruct (xnext1_total a' (removelast tr) b' cur u y t (k - 1) uk t1 s1 Euk Et1) as (l2 & E2' & L2); [rewrite (take_length _ _ _ Ea'); congruence|].
      rewrite (bind_eq _ _ _ _ _ E2'). do 4 eexists. split; [reflexivity|]. unfold mapi. rewrite !mapi_length. repeat split; congruence.
    - rewrite (lift_bind_eq _ _ _ _ Ht0), (bind_eq _ _ _ _ _ (H0 _ _ _)), (bind_eq _ _ _ _ _ (H0 _ _ _)).
      do 4 eexists. split; [reflexivity|]. unfold mapi. rewrite !mapi_length, !map_length. repeat split; congruence. }
  destruct E2 as (q1 & q2 & l1 & l2 & E2 & Q1 & Q2 & Q3 & Q4). rewrite (bind_eq _ _ _ _ _ E2).
  assert (E3 : exists y1 y2, mc_meas_terms sm xp cur ptr pp pc u y t k s1 = Ok ((xp, cur, y1, y2), s1) /\ tlen y1 m /\ tlen y2 m).
  { unfold mc_meas_terms. rewrite (lift_bind_eq _ _ _ _ Hyk). destruct (is_none yk) eqn:En; [do 2 eexists; repeat split; exact I|].
    assert (EM : forall anc p s0, m_measure (s_f sm) (opt_past ptr) anc p (firstn (k + 1) u) (firstn (k + 1) y) (firstn (k + 1) t) s0 = Ok ((p, map (e_meas e yk tk) p), s0)).
    { intros anc p s0. rewrite Hms, (idx_last_firstn y k yk Hyk), (idx_last_firstn t k tk Htk). reflexivity. }
    rewrite (bind_eq _ _ _ _ _ (EM pp xp s1)), (bind_eq _ _ _ _ _ (EM pc cur s1)).
    do 2 eexists. split; [reflexivity|]. cbn. rewrite !map_length. split; congruence. }
  destruct E3 as (y1 & y2 & E3 & Y1 & Y2). rewrite (bind_eq _ _ _ _ _ E3).
  assert (E4 : exists n1 n2, mc_next_terms sm xp cur ptr pp pc fut (seq 0 m) u y t k s1 = Ok ((n1, n2), s1) /\ tlen n1 m /\ tlen n2 m).
  { unfold mc_next_terms. destruct fut as [f|]; [|do 2 eexists; repeat split; exact I].
    destruct Hf as (f0 & rest & -> & Lf). specialize (Hu2 ltac:(discriminate)). destruct (idx_lt u _ Hu2) as [uk Euk].
    assert (EN : forall p ind s0, length p = m -> exists r, s_xnext sm p (opt_past ptr) ind (f0 :: rest) (seq 0 m) u y t k s0 = Ok (r, s0) /\ length r = m).
    { intros p ind s0 L0. rewrite Hx. unfold idx at 1. cbn [nth_error rbind]. rewrite <- Lf, take_seq, Euk, Htk. cbn [rbind].
      destruct (zipw_ok (e_trans e uk tk) p (part (st_pa f0)) ltac:(congruence)) as [r1 R1]. rewrite R1. cbn. exists r1. destruct (zipw_length _ _ _ _ R1). split; congruence. }
    destruct (EN xp pp s1 Lp) as (r1 & R1 & LR1). destruct (EN cur pc s1 Lc) as (r2 & R2 & LR2).
    rewrite (bind_eq _ _ _ _ _ R1), (bind_eq _ _ _ _ _ R2). do 2 eexists. split; [reflexivity|]. split; auto. }
  destruct E4 as (n1 & n2 & E4 & N1 & N2). rewrite (bind_eq _ _ _ _ _ E4).
  destruct (tsub_ok (Some l1) (Some l2) m Q3 Q4) as (d1 & D1 & L1 & K1). rewrite (lift_bind_eq _ _ _ _ D1).
  destruct (tsub_ok y1 y2 m Y1 Y2) as (d2 & D2 & L2 & _). rewrite (lift_bind_eq _ _ _ _ D2).
  destruct (tsub_ok n1 n2 m N1 N2) as (d3 & D3 & L3 & _). rewrite (lift_bind_eq _ _ _ _ D3).
  destruct (tsub_ok (Some q2) (Some q1) m Q2 Q1) as (d4 & D4 & L4 & _). rewrite (lift_bind_eq _ _ _ _ D4).
  destruct (tadd_ok d1 d2 m L1 L2) as (d5 & D5 & L5 & K5). rewrite (lift_bind_eq _ _ _ _ D5).
  destruct (tadd_ok d5 d3 m L5 L3) as (d6 & D6 & L6 & K6). rewrite (lift_bind_eq _ _ _ _ D6).
  destruct (tadd_ok d6 d4 m L6 L4) as (d7 & D7 & L7 & K7). rewrite (lift_bind_eq _ _ _ _ D7).
  destruct d7 as [ratio|]; [|exfalso; apply K7; auto; left; apply K6; left; apply K5; left; apply K1; left; discriminate].
  cbn in L7. rewrite (bind_eq _ _ _ _ _ (log_draws_eq g _ _)).
  set (test := map _ _). assert (Lt : length test = m) by (unfold test; rewrite map_length, stream_length; auto).
  destruct (zipw_ok xltb test ratio ltac:(congruence)) as [acc Ea]. rewrite (lift_bind_eq _ _ _ _ Ea). destruct (zipw_length _ _ _ _ Ea) as [A1 A2].
  destruct (mask_set_ok cur acc xp) as [res Er]; try congruence. rewrite (lift_bind_eq _ _ _ _ Er). destruct (mask_set_spec _ _ _ _ Er) as (M1 & _).
  do 2 eexists. split; [reflexivity|]. cbn. split; congruence.
Qed.

(** A smoothed step of [m] particles. *)
Definition wfm (m : nat) (st : tstep P) : Prop :=
  length (part (st_pa st)) = m /\ lw (st_pa st) = repeat (Fin (- ln (INR m))) m /\ st_anc st = seq 0 m.

Lemma new_step (p : list P) m (anc : list nat) : (0 < m)%nat -> length p = m ->
  exists pa, pa_init p None = Ok pa /\ part pa = p /\ lw pa = repeat (Fin (- ln (INR m))) m.
Proof.
  intros Hm L. destruct (pa_init_runs p m Hm L) as (pa & E & Ep). exists pa. split; auto. split; auto.
  destruct (pa_init_uniform _ _ E) as [_ Hl]. rewrite L in Hl. auto.
Qed.

Lemma seq_lt m n : (m <= n)%nat -> Forall (fun j => (j < n)%nat) (seq 0 m).
Proof. intros H. apply Forall_forall. intros j Hj. apply in_seq in Hj. lia. Qed.

Lemma past_ok_firstn m tr i : (0 < i <= length tr)%nat -> Forall (wfm m) tr -> past_ok (Some (firstn i tr)) (seq 0 m) m.
Proof.
  intros Hi F. split; [apply seq_length|]. destruct (idx_lt tr (i - 1) ltac:(lia)) as [st Est].
  exists st. replace i with ((i - 1) + 1)%nat by lia. rewrite (idx_last_firstn _ _ _ Est). split; auto.
  apply idx_ok in Est. apply nth_error_In in Est. rewrite Forall_forall in F. destruct (F _ Est) as (L & _ & A).
  rewrite L, A, seq_length. split; apply seq_lt; lia.
Qed.

Lemma past_ok_none m l : past_ok None l m. Proof. exact I. Qed.

Lemma mhips_loop_total m tr u y t : (0 < m)%nat -> Forall (wfm m) tr -> (length tr <= length u + 1)%nat -> (length tr <= length t)%nat -> (length tr <= length y)%nat ->
  forall n fut, (n + 1 < length tr)%nat -> Forall (wfm m) fut -> fut <> [] ->
  runs (mhips_loop sm g n m false tr u y t fut) (fun r => Forall (wfm m) r /\ length r = (n + length fut)%nat).
Proof.
  intros Hm F Hu Ht Hy. induction n as [|n IH]; intros fut Hn Ff Hne; cbn [mhips_loop]; [apply runs_ret; auto|].
  destruct (idx_lt tr (S n) ltac:(lia)) as [st Est]. eapply runs_lift_bind; [exact Est|].
  apply idx_ok in Est. pose proof (nth_error_In _ _ Est) as Hin. rewrite Forall_forall in F. destruct (F _ Hin) as (L & _ & A). rewrite <- Forall_forall in F.
  eapply runs_bind.
  - apply mc_step_total with (m := m); auto; try lia.
    + apply past_ok_firstn; auto. lia. + apply past_ok_firstn; auto. lia.
    + destruct fut as [|f0 rest]; [congruence|]. exists f0, rest. inversion Ff as [|? ? (B & _) _]; subst. auto.
  - intros r [L1 L2]. eapply runs_bind; [apply Hcp|]. intros p' ->.
    destruct (new_step (fst r) m (seq 0 m) Hm L1) as (pa & E & Ep & El). eapply runs_lift_bind; [exact E|].
    eapply runs_weaken; [apply IH; [lia| |discriminate]|].
    + constructor; auto. split; [cbn; congruence|split; auto].
    + cbn. intros a [Fa La]. split; auto. lia.
Qed.

Lemma mhips_pass_total m tr u y t : (0 < m)%nat -> (2 <= length tr)%nat -> Forall (wfm m) tr -> (length tr <= length u + 1)%nat -> (length tr <= length t)%nat -> (length tr <= length y)%nat ->
  runs (perform_mhips_pass sm g false tr u y t m) (fun r => Forall (wfm m) r /\ length r = length tr).
Proof.
  intros Hm HT F Hu Ht Hy. unfold perform_mhips_pass.
  destruct (idx_lt tr (length tr - 1) ltac:(lia)) as [last Elast].
  assert (El : idx_last tr = Ok last). { pose proof (idx_last_firstn _ _ _ Elast) as E. rewrite firstn_all2 in E by lia. auto. }
  eapply runs_lift_bind; [exact El|]. apply idx_ok in Elast. pose proof (nth_error_In _ _ Elast) as Hin.
  assert (F' := F). rewrite Forall_forall in F'. destruct (F' _ Hin) as (L & _ & A).
  eapply runs_bind.
  - apply mc_step_total with (m := m); auto; try lia; try exact I.
    + apply past_ok_firstn; auto. lia. + apply past_ok_firstn; auto. lia. + congruence.
  - intros r [L1 L2]. eapply runs_bind; [apply Hcp|]. intros p' ->.
    destruct (new_step (fst r) m (seq 0 m) Hm L1) as (pa & E & Ep & Elw). eapply runs_lift_bind; [exact E|].
    eapply runs_bind; [apply mhips_loop_total; auto; [lia| |discriminate]|].
    { constructor; auto. split; [cbn; congruence|split; auto]. }
    cbn [length]. intros ft [Fft Lft]. destruct (idx_lt tr 0 ltac:(lia)) as [st0 E0]. eapply runs_lift_bind; [exact E0|].
    apply idx_ok in E0. destruct (F' _ (nth_error_In _ _ E0)) as (L0 & _ & A0).
    eapply runs_bind.
    + apply mc_step_total with (m := m); auto; try lia; try exact I.
      destruct ft as [|f0 rest]; [cbn in Lft; lia|]. exists f0, rest. inversion Fft as [|? ? (B & _) _]; subst. auto.
    + intros r' [L1' L2']. eapply runs_bind; [apply Hcp|]. intros p' ->.
      destruct (new_step (fst r') m (seq 0 m) Hm L1') as (pa' & E' & Ep' & Elw'). eapply runs_lift_bind; [exact E'|].
      apply runs_ret. split; [constructor; auto; split; [cbn; congruence|split; auto]|cbn; lia].
Qed.

Hypothesis Hpre : s_pre sm = None.

Lemma mhips_passes_total m u y t : (0 < m)%nat -> forall n tr, (2 <= length tr)%nat -> Forall (wfm m) tr -> (length tr <= length u + 1)%nat -> (length tr <= length t)%nat -> (length tr <= length y)%nat ->
  runs (mhips_passes sm g n false tr u y t m) (fun r => Forall (wfm m) r /\ length r = length tr).
Proof.
  intros Hm. induction n as [|n IH]; intros tr HT F Hu Ht Hy; cbn [mhips_passes]; [apply runs_ret; auto|].
  rewrite Hpre. cbn [hook]. eapply runs_bind; [apply (runs_ret tr (fun x => x = tr) eq_refl)|]. intros ? ->.
  eapply runs_bind; [apply mhips_pass_total; auto|]. intros r [Fr Lr]. eapply runs_weaken; [apply IH; auto; lia|].
  cbn. intros a [Fa La]. split; auto. lia.
Qed.

Lemma ancestors_loop_anc n : forall tr u y t find anc fut s out s', ancestors_loop sm n tr u y t find anc fut s = Ok (out, s') ->
  Forall (fun st => st_anc st = find) fut -> Forall (fun st => st_anc st = find) out.
Proof.
  induction n as [|n IH]; intros tr u y t find anc fut s out s' H F; cbn [ancestors_loop] in H.
  - minv H. auto.
  - minv H. eapply IH; [exact H|]. constructor; auto.
Qed.

Lemma ancestors_wfm m tr u y t s out s' : (0 < m)%nat -> perform_ancestors_int sm g tr u y t m s = Ok (out, s') ->
  Forall (wfm m) out /\ length out = length tr.
Proof.
  intros Hm H. unfold perform_ancestors_int in H. minv H. destruct (sampleM_range _ _ _ _ _ _ Hg Hm0) as [Li _].
  destruct (calculate_ancestors_sel sm (copy_smooth_copying sm Hcp) _ _ _ _ _ _ _ _ H) as (inds & S1 & S2 & _ & S4). rewrite Li in S4.
  split; [|apply S1].
  assert (A : Forall (fun st => st_anc st = seq 0 m) out).
  { rewrite <- Li. clear Li S1 S2 S4. unfold calculate_ancestors in H. minv H. eapply ancestors_loop_anc; [exact H|]. constructor; auto. }
  apply Forall_forall. intros st Hin. destruct (In_nth_error _ _ Hin) as [k Hk]. destruct (S4 _ _ Hk) as [B1 B2].
  rewrite Forall_forall in A. split; auto.
Qed.

(** mhbp *)
Lemma mhbp_inner_total m weights ptr fut u y t k : (0 < m)%nat -> fut_ok fut m ->
  (ptr <> None -> (k - 1 < length u)%nat) -> (fut <> None -> (k < length u)%nat) -> (k < length t)%nat -> (k < length y)%nat ->
  (forall tr, ptr = Some tr -> exists last w, idx_last tr = Ok last /\ weights = Some w /\ w <> [] /\
      length (part (st_pa last)) = length w /\ length (st_anc last) = length w) ->
  (ptr = None -> weights = None) ->
  forall n pnew panc anc, length pnew = m -> length anc = m -> past_ok ptr anc m -> (ptr = None -> exists pv, panc = Some pv /\ length pv = m) ->
  runs (mhbp_inner sm g n m weights ptr fut u y t k false pnew panc (Some anc))
    (fun r => let '(p, pa', a) := r in length p = m /\ (exists av, a = Some av /\ length av = m /\ past_ok ptr av m) /\
       ((0 < n)%nat \/ (exists pv, panc = Some pv /\ length pv = m) -> exists pv, pa' = Some pv /\ length pv = m)).
Proof.
  intros Hm Hf Hu1 Hu2 Ht Hy Hp Hw. induction n as [|n IH]; intros pnew panc anc Lp La Hpa Hpn; cbn [mhbp_inner].
  - apply runs_ret. split; auto. split; [exists anc; auto|]. intros [?|?]; [lia|auto].
  - assert (K : runs (match weights with Some w => do l <- sampleM g w m; ret (Some l) | None => ret panc end)
        (fun r => exists pv, r = Some pv /\ length pv = m /\ past_ok ptr pv m)).
    { destruct ptr as [tr|].
      - destruct (Hp tr eq_refl) as (last & w & El & -> & Hw1 & Lw & La'). eapply runs_bind; [apply (runs_sampleM g Hg w m Hw1)|].
        intros l [Ll Fl]. apply runs_ret. exists l. split; auto. split; auto. split; auto. exists last. split; auto. rewrite Lw, La'. auto.
      - rewrite (Hw eq_refl). destruct (Hpn eq_refl) as (pv & -> & Lv). apply runs_ret. exists pv. split; auto. }
    eapply runs_bind; [exact K|]. intros r (pv & -> & Lv & Pv). eapply runs_lift_bind; [reflexivity|]. eapply runs_lift_bind; [reflexivity|].
    eapply runs_bind; [apply mc_step_total with (m := m); auto|]. intros r [L1 L2].
    destruct (mask_set_ok anc (snd r) pv) as [av Ea]; try congruence. eapply runs_lift_bind; [exact Ea|].
    destruct (mask_set_spec _ _ _ _ Ea) as (M1 & M2 & M3 & M4).
    eapply runs_weaken; [apply (IH (fst r) (Some pv) av); auto; try congruence; [|intros E; exists pv; auto]|].
    2: { intros [[p' pa'] a'] (B1 & B2 & B3). split; auto. split; auto. intros _. apply B3. right. exists pv. auto. }
    destruct ptr as [tr|]; [|exact I]. destruct (Hp tr eq_refl) as (last & w & El & -> & Hw1 & Lw & La').
    destruct Hpa as (_ & last1 & El1 & F1 & F2). destruct Pv as (_ & last2 & El2 & G1 & G2).
    rewrite El in El1, El2. injection El1 as <-. injection El2 as <-. split; [congruence|]. exists last. split; auto.
    assert (Sel : forall (Q : nat -> Prop), Forall Q anc -> Forall Q pv -> Forall Q av).
    { intros Q Qa Qp. rewrite Forall_forall in *. intros i Hi. destruct (In_nth_error _ _ Hi) as [j Hj].
      assert (Hj' : (j < length av)%nat) by (apply nth_error_Some; congruence).
      destruct (nth_error anc j) as [x|] eqn:Ex; [|apply nth_error_None in Ex; lia].
      destruct (nth_error pv j) as [x'|] eqn:Ex'; [|apply nth_error_None in Ex'; lia].
      destruct (nth_error (snd r) j) as [c|] eqn:Ec; [|apply nth_error_None in Ec; lia].
      rewrite (M4 _ _ _ _ Ex Ex' Ec) in Hj. injection Hj as <-. destruct c; [apply Qp|apply Qa]; eapply nth_error_In; eauto. }
    split; apply Sel; auto.
Qed.

Lemma mhbp_loop_total N m R_ tr u y t : (0 < N)%nat -> (0 < m)%nat -> (0 < R_)%nat -> (2 <= length tr)%nat -> Forall (step_wf N) tr ->
  (length tr <= length u + 1)%nat -> (length tr <= length t)%nat -> (length tr <= length y)%nat ->
  forall n cind panc anc fut, (n <= length tr)%nat -> length cind = m -> ((0 < n)%nat -> Forall (fun i => (i < N)%nat) cind) ->
    (n = length tr /\ fut = [] \/ (n < length tr)%nat /\ anc = Some cind /\ fut_ok (Some fut) m /\ exists pv, panc = Some pv /\ length pv = m) ->
    runs (mhbp_loop sm g n m R_ false tr u y t cind panc anc fut)
      (fun r => length r = (n + length fut)%nat /\ (Forall (fun st => length (part (st_pa st)) = m /\ lw (st_pa st) = repeat (Fin (- ln (INR m))) m) fut ->
         Forall (fun st => length (part (st_pa st)) = m /\ lw (st_pa st) = repeat (Fin (- ln (INR m))) m) r)).
Proof.
  intros HN Hm HR HT F Hu Ht Hy. induction n as [|k IH]; intros cind panc anc fut Hn Lc Fc Inv; cbn [mhbp_loop]; [apply runs_ret; auto|].
  specialize (Fc ltac:(lia)).
  destruct (idx_lt tr k ltac:(lia)) as [st Est]. eapply runs_lift_bind; [exact Est|].
  pose proof F as F'. rewrite Forall_forall in F'. destruct (F' st) as (W1 & W2 & W3 & W4 & W5); [apply idx_ok in Est; eapply nth_error_In; eauto|].
  destruct (take_ok (part (st_pa st)) cind) as [pnew Ep]; [rewrite W1; auto|]. eapply runs_lift_bind; [exact Ep|].
  pose proof (take_length _ _ _ Ep) as Lp.
  set (ft := match fut with [] => None | _ => Some fut end).
  assert (Hft : fut_ok ft m /\ (ft <> None -> (k < length u)%nat)).
  { destruct Inv as [[E ->]|(Hlt & _ & Hf & _)]; [split; [exact I|intros K; exfalso; apply K; reflexivity]|]. destruct Hf as (f0 & rest & -> & Lf). cbn in ft. unfold ft.
    split; [exists f0, rest; auto|]. intros _. lia. }
  destruct Hft as [Hft1 Hft2].
  set (setup := match k with O => ret (None, None, anc) | S k' => _ end).
  assert (HS : runs setup (fun r => let '(w, ptr, a) := r in exists av, a = Some av /\ length av = m /\ past_ok ptr av m /\
      (ptr <> None -> (k - 1 < length u)%nat) /\ Forall (fun i => (i < N)%nat) av /\
      (forall tr', ptr = Some tr' -> exists last w', idx_last tr' = Ok last /\ w = Some w' /\ w' <> [] /\ length (part (st_pa last)) = length w' /\ length (st_anc last) = length w' /\ length w' = N) /\
      (ptr = None -> k = O /\ w = None /\ exists pv, panc = Some pv /\ length pv = m))).
  { destruct k as [|k']; unfold setup.
    - apply runs_ret. destruct Inv as [[E ->]|(Hlt & -> & Hf & Hpv)]; [lia|]. exists cind. repeat (split; auto); try congruence; try discriminate.
    - destruct (take_ok (st_anc st) cind) as [a Ea]; [rewrite W4; auto|]. eapply runs_lift_bind; [exact Ea|].
      destruct (idx_lt tr k' ltac:(lia)) as [prev Eprev]. eapply runs_lift_bind; [exact Eprev|].
      destruct (F' prev) as (V1 & V2 & V3 & V4 & V5); [apply idx_ok in Eprev; eapply nth_error_In; eauto|].
      destruct (norm_weights_ok (lw (st_pa prev))) as (w & Ew & Lw). { intros E. rewrite E in V2. cbn in V2. lia. }
      eapply runs_lift_bind; [exact Ew|]. apply runs_ret.
      assert (El : idx_last (firstn (S k') tr) = Ok prev) by (replace (S k') with (k' + 1)%nat by lia; apply idx_last_firstn; auto).
      assert (Fa : Forall (fun i => (i < N)%nat) a) by (eapply take_Forall; [exact Ea|auto]).
      assert (La : length a = m) by (rewrite (take_length _ _ _ Ea); auto).
      exists a. split; auto. split; auto. split. { split; auto. exists prev. rewrite V1, V4. auto. }
      split; [intros _; lia|]. split; auto. split; [|discriminate].
      intros tr' E. injection E as <-. exists prev, w. rewrite Lw, V1, V2, V4. repeat (split; auto). intros ->. cbn in Lw. lia. }
  eapply runs_bind; [exact HS|]. intros [[w ptr] a] (av & -> & La & Pa & Hu1 & Fa & Hp & Hw).
  eapply runs_bind.
  { apply mhbp_inner_total with (ptr := ptr); auto; try lia; try congruence.
    - intros tr' E. destruct (Hp tr' E) as (last & w' & A1 & A2 & A3 & A4 & A5 & A6). exists last, w'. repeat (split; auto).
    - intros E. apply Hw; auto. - intros E. apply Hw; auto. }
  intros [[p' pa'] a'] (B1 & (av' & -> & B2 & B3) & B4). eapply runs_lift_bind; [reflexivity|].
  eapply runs_bind; [apply Hcp|]. intros ? ->. destruct (new_step p' m [] Hm B1) as (pa & E & Epa & Elw). eapply runs_lift_bind; [exact E|].
  eapply runs_weaken.
  { apply IH; [lia|auto| |].
    - destruct ptr as [tr'|].
      + intros _. destruct (Hp tr' eq_refl) as (last & w' & A1 & A2 & A3 & A4 & A5 & A6). destruct B3 as (_ & last' & C1 & C2 & _). rewrite A1 in C1. injection C1 as <-. rewrite A4, A6 in C2. auto.
      + intros Hk. destruct (Hw eq_refl). lia.
    - right. split; [lia|]. split; auto. split; [|apply B4; auto]. exists (mkStep pa []), fut. cbn. rewrite Epa. auto. }
  cbn [length]. intros r [Lr Fr]. split; [lia|]. intros Ff. apply Fr. constructor; auto. cbn. rewrite Epa. auto.
Qed.
End Total.
