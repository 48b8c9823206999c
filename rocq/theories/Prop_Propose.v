(** C75: proposals of mixed linear/nonlinear Gaussian models in the Metropolis-Hastings smoothers. *)
From mathcomp Require Import all_ssreflect all_algebra.
From Coq Require Import Reals Lra List Lia.
From Verif Require Import Base RMat KalmanModel LinAlg Gauss Moments Storage MlnlgModel MlnlgProofs Prop_Kalman LtvModel Prop_Ltv Prop_Mlnlg MlnlgEmModel Prop_MlnlgEm NlgModel Prop_Nlg MlnlgProposeModel.
Set Implicit Arguments.
Unset Strict Implicit.
Unset Printing Implicit Defensive.
Import GRing.Theory.
Local Open Scope ring_scope.

(** trajectory i continues particle anc(i) of the parents, whose state is xi i, z i, P i *)
Definition continues N (p : parent_step) (anc : list nat) lxi lz (xi : nat -> 'cV[R]_lxi) (z : nat -> 'cV[R]_lz) (P : nat -> 'M[R]_lz) (rest : nat -> row) : Prop :=
  length anc = N /\ length (pr_anc p) = length (pr_part p) /\
  forall i, (i < N)%coq_nat -> exists a, nth_error anc i = Some a /\ nth_error (pr_part p) a = Some (rbrow (xi i) (z i) (P i) (rest i)).
(** the indices 0 .. N-1, which mc_step is given for the future trajectories *)
Definition same_index N (find : list nat) : Prop := find = List.seq 0 N.

Lemma take_tab_seq A N (f : nat -> A) : Base.take (tab N f) (List.seq 0 N) = Ok (tab N f).
Proof.
have HF : Forall (fun i => (i < length (tab N f))%coq_nat) (List.seq 0 N) by apply/List.Forall_forall => i /List.in_seq [_ H]; rewrite tab_length.
case: (Base.take_ok _ _ HF) => r E. rewrite E. congr Ok. apply: list_tab; first by rewrite (Base.take_length _ _ _ E) seq_length.
move=> i Hi. have En : nth_error (List.seq 0 N) i = Some i.
{ rewrite (nth_error_nth' _ 0%nat) ?seq_length // seq_nth //. }
by rewrite (Base.take_nth _ _ _ E _ _ En) (tab_nth f Hi).
Qed.
Section WithParents.
Variables (lz m : nat) (U Y Tm : Type).
Lemma continues_take N p anc lxi (xi : nat -> 'cV[R]_lxi) (z : nat -> 'cV[R]_lz) P rest : continues N p anc xi z P rest ->
  Base.take (pr_part p) anc = Ok (tab N (fun i => rbrow (xi i) (z i) (P i) (rest i))) /\ exists r, Base.take (pr_anc p) anc = Ok r.
Proof.
case=> HL [HA Ha].
have Hall : Forall (fun i => (i < List.length (pr_part p))%coq_nat) anc.
{ apply/List.Forall_forall => a Hin. case: (In_nth_error _ _ Hin) => i Ei. have Hi : (i < N)%coq_nat by rewrite -HL; apply/nth_error_Some; rewrite Ei.
  case: (Ha i Hi) => a' [Ea' Ep]. move: Ei. rewrite Ea' => [[<-]]. by apply/nth_error_Some; rewrite Ep. }
split; last by apply: Base.take_ok; rewrite HA.
case: (Base.take_ok _ _ Hall) => r Er. rewrite Er. congr Ok. apply: list_tab; first by rewrite (Base.take_length _ _ _ Er).
move=> i Hi. case: (Ha i Hi) => a [Ea Ep]. by rewrite (Base.take_nth _ _ _ Er _ _ Ea).
Qed.
End WithParents.

(** C75: for a model with one nonlinear state and uncorrelated noises the proposal for trajectory i draws xi' as
    predicted mean plus a draw from N(0, Axi P Axi' + Qxi), and stores with it mean and covariance of the linear state
    given xi'; the density logp_proposal evaluates, for any states given in the same order, is the density of exactly that
    distribution of xi'. *)
Theorem C75_proposal : forall lz m U Y Tm (L : mlnlg 1 lz m U Y Tm) G N u t p anc find (xi : nat -> 'cV[R]_1) (z : nat -> 'cV[R]_lz) (P : nat -> 'M[R]_lz) (rest : nat -> row)
  (Axi : nat -> 'M[R]_(1, lz)) (fxi : nat -> 'cV[R]_1) (Qxi : nat -> 'M[R]_1) (Az : nat -> 'M[R]_lz) (fz : nat -> 'cV[R]_lz) (Qz : nat -> 'M[R]_lz),
  continues N p anc xi z P rest -> same_index N find -> xi_only L ->
  (forall i, (i < N)%coq_nat -> dynamics_at L (tab N (fun i => rbrow (xi i) (z i) (P i) (rest i))) u t i (Axi i) (fxi i) (Qxi i) (Az i) (fz i) (Qz i) 0 /\
    psd (P i) /\ posdef (Qxi i) /\ posdef (Qz i)) ->
  (forall mvn, let noise i := mvn i 0 (Axi i *m P i *m (Axi i)^T + Qxi i) in
   exists z1 P1, ml_propose_smooth L G mvn (Some p) anc find u t = Ok (tab N (fun i => rbrow (Axi i *m z i + fxi i + noise i) (z1 i) (P1 i) (rest i))) /\
     forall i, (i < N)%coq_nat -> posdef (P1 i) /\
       forall z', normal_pdf (joint_mean (Axi i) (fxi i) (Az i) (fz i) (z i)) (joint_cov (Axi i) (Az i) (P i) (Qxi i) 0 (Qz i)) (col_mx (Axi i *m z i + fxi i + noise i) z') =
         (normal_pdf 0 (Axi i *m P i *m (Axi i)^T + Qxi i)%mx (noise i) * normal_pdf (z1 i) (P1 i) z')%Re) /\
  forall (xn : nat -> 'cV[R]_1) (rest' : nat -> row),
    exists lp, ml_logp_proposal L G (tab N (fun i => ravel (xn i) ++ rest' i)%SEQ) (Some p) anc find u t = Ok (tab N lp) /\
      forall i, (i < N)%coq_nat -> exp (lp i) = normal_pdf (Axi i *m z i + fxi i) (Axi i *m P i *m (Axi i)^T + Qxi i) (xn i).
Proof.
move=> lz m U Y Tm L G N u t p anc find xi z P rest Axi fxi Qxi Az fz Qz Hc Hf HL H.
case: (continues_take Hc) => Et [ra Ea].
case: (C63_update_exact HL H) => HN HU. split.
- move=> mvn noise. case: (HU noise) => z1 [P1 [E1 H1]]. exists z1, P1. split => //.
  by rewrite /ml_propose_smooth Et [rbind (Ok _) _]/= HN [rbind (Ok _) _]/= E1.
- move=> xn rest'. have H' i (Hi : (i < N)%coq_nat) : dynamics_at L (tab N (fun i => rbrow (xi i) (z i) (P i) (rest i))) u t i (Axi i) (fxi i) (Qxi i) (Az i) (fz i) (Qz i) 0 /\ psd (P i) /\ posdef (Qxi i) by case: (H i Hi) => ? [? [? ?]].
  case: (C64_logp_singlestep (Qc := fun _ => 0) H' xn rest') => lp [E2 H2]. exists lp. split => //.
  by rewrite /ml_logp_proposal Et [rbind (Ok _) _]/= Ea [rbind (Ok _) _]/= Hf take_tab_seq [rbind (Ok _) _]/=.
Qed.

(** C75: mc_step compares a proposal with the current state by log p(x | parent) - log q(x); the two cancel: for states
    in the order of the trajectories logp_proposal returns exactly what logp_xnext_singlestep (or, without parents,
    eval_logp_x0) returns, for any model, including the errors. *)
Theorem C75_cancels : forall lxi lz m U Y Tm (L : mlnlg lxi lz m U Y Tm) G (part : list row) parents anc find u t,
  same_index (length part) find -> ml_logp_proposal L G part parents anc find u t = ml_prev L G part parents anc u t.
Proof. by move=> lxi lz m U Y Tm L G part [p|] anc find u t ->. Qed.

(** C75: at the first time step the proposals are new initial particles, and for particles with the initial linear state,
    as they are made by create_initial_estimate and cond_sampled_initial, logp_proposal is the log density of xi up to a
    constant common to all particles. *)
Theorem C75_initial : forall lxi lz m U Y Tm (L : mlnlg lxi lz m U Y Tm) (G : ml_init_gauss (lxi := lxi) (lz := lz)) u t anc find,
  posdef (ig_Pxi0 G) -> posdef (ig_Pz0 G) ->
  (forall mvn, ml_propose_smooth L G mvn None anc find u t = Ok (tab (length find) (fun i => rbrow (mvn i (ig_xi0 G) (ig_Pxi0 G)) (ig_z0 G) (ig_Pz0 G) nil))) /\
  exists K, (0 < K)%Re /\ forall N (xi : nat -> 'cV[R]_lxi) (rest : nat -> row),
    exists lp, ml_logp_proposal L G (tab N (fun i => rbrow (xi i) (ig_z0 G) (ig_Pz0 G) (rest i))) None anc find u t = Ok (tab N lp) /\
      forall i, (i < N)%coq_nat -> exp (lp i) = (K * normal_pdf (ig_xi0 G) (ig_Pxi0 G) (xi i))%Re.
Proof.
move=> lxi lz m U Y Tm L G u t anc find HPx HPz. split.
- move=> mvn. rewrite /ml_propose_smooth /ig_create. congr Ok. rewrite /tab. apply: List.map_ext => i. by rewrite /rbrow cats0.
- pose q := (- (1 / 2) * (ln (\det (ig_Pz0 G)) + \tr (invmx (ig_Pz0 G) *m calc_l1 (ig_z0 G) (ig_Pz0 G) (ig_z0 G))%mx))%Re.
  exists (exp q). split; first exact: exp_pos. move=> N xi rest.
  exists (fun i => (normal_logpdf (ig_xi0 G) (ig_Pxi0 G) (xi i) + q)%Re). split.
  + case: (C72_initial_gaussian G (fun _ _ _ => 0) N) => _ [_ [Hl Hr]].
    rewrite /ml_logp_proposal /em_logp_x0 get_states_tab [rbind (Ok _) _]/= map_tab /= Hr (Hl HPx) [rbind (Ok _) _]/= tab_length (forr_ok (g := fun _ => q)); first exact: map2r_tab.
    move=> i Hi. rewrite !idx_tab // [rbind (Ok _) _]/=. case: (chol_total HPz) => V HV. rewrite HV /=. congr Ok. exact: (qterm_cho_ok _ HPz HV).
  + move=> i Hi. rewrite exp_plus Rmult_comm normal_pdf_log //. exact: posdef_det.
Qed.
(** C75: with more than one nonlinear state every proposal from parents raises ValueError. *)
Theorem C75_two_states_refuted : forall lxi lz m U Y Tm (L : mlnlg lxi lz m U Y Tm) G N u t p anc find (xi : nat -> 'cV[R]_lxi) (z : nat -> 'cV[R]_lz) (P : nat -> 'M[R]_lz) (rest : nat -> row)
  (Axi : nat -> 'M[R]_(lxi, lz)) (fxi : nat -> 'cV[R]_lxi) (Qxi : nat -> 'M[R]_lxi) (Az : nat -> 'M[R]_lz) (fz : nat -> 'cV[R]_lz) (Qz : nat -> 'M[R]_lz) (Qc : nat -> 'M[R]_(lxi, lz)),
  continues N p anc xi z P rest -> (0 < N)%coq_nat -> lxi <> 1%nat ->
  (forall i, (i < N)%coq_nat -> dynamics_at L (tab N (fun i => rbrow (xi i) (z i) (P i) (rest i))) u t i (Axi i) (fxi i) (Qxi i) (Az i) (fz i) (Qz i) (Qc i)) ->
  forall mvn, ml_propose_smooth L G mvn (Some p) anc find u t = Err ValueError.
Proof.
move=> lxi lz m U Y Tm L G N u t p anc find xi z P rest Axi fxi Qxi Az fz Qz Qc Hc HN Hl HD mvn.
case: (continues_take Hc) => Et _. rewrite /ml_propose_smooth Et [rbind (Ok _) _]/=.
have NA := nonlin_at HD.
have [ns ->] : exists ns, sample_process_noise L mvn (tab N (fun i => rbrow (xi i) (z i) (P i) (rest i))) u t = Ok ns.
{ exists (tab N (fun i => mvn i 0 (Qxi i + Axi i *m P i *m (Axi i)^T))). rewrite /sample_process_noise. case: (nonlin_int L _ u t) NA => [[[a ?] [f ?]] [q ?]] NA.
  rewrite get_states_tab [rbind (Ok _) _]/= tab_length. apply: forr_ok => i Hi. case: (NA _ Hi) => [-> [_ ->]]. by rewrite idx_tab. }
rewrite [rbind (Ok _) _]/=. exact: (C63_update_refuted _ HD Hl HN).
Qed.

(** ** Example *)
Example C75_case : exists (z1 : nat -> 'cV[R]_2) (P1 : nat -> 'M[R]_2),
  ml_propose_smooth (exL None) (mkIG 0 0 1%:M 1%:M) (fun i _ _ => const_mx (INR i)) (Some (mkParent (tab 3 (fun i => rbrow (const_mx (INR i) : 'cV[R]_1) ex_u ex_P nil)) (cons 0 (cons 1 (cons 2 nil)))%nat))
    (cons 2 (cons 0 nil))%nat (cons 0 (cons 1 nil))%nat tt tt =
  Ok (tab 2 (fun i => rbrow (ex_C *m ex_u + 0 + const_mx (INR i)) (z1 i) (P1 i) nil)).
Proof.
have HP := posdef_psd ex_P_posdef.
pose x i : 'cV[R]_1 := const_mx (INR (nth i (cons 2 (cons 0 nil))%nat 0%nat)).
case: (@C75_proposal _ _ _ _ _ (exL None) (mkIG 0 0 1%:M 1%:M) 2 tt tt (mkParent (tab 3 (fun i => rbrow (const_mx (INR i) : 'cV[R]_1) ex_u ex_P nil)) (cons 0 (cons 1 (cons 2 nil)))%nat)
    (cons 2 (cons 0 nil))%nat (cons 0 (cons 1 nil))%nat x (fun _ => ex_u) (fun _ => ex_P) (fun _ => nil)
    (fun _ => ex_C) (fun _ => 0) (fun _ => ex_R) (fun _ => ex_P) (fun _ => ex_u) (fun _ => ex_P)) => //.
- split => //. split => //. move=> [|[|i]] Hi; last (by lia); by eexists.
- by move=> i _; split; [exact: exL_dyn|split; [|split; [exact: ex_R_posdef|exact: ex_P_posdef]]].
- move=> H _. case: (H (fun i _ _ => const_mx (INR i))) => z1 [P1 [E _]]. by exists z1, P1.
Qed.
Print Assumptions C75_proposal.
Print Assumptions C75_initial.
