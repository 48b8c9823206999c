(** Proposals of mixed linear/nonlinear Gaussian models for the Metropolis-Hastings smoothers. *)
From mathcomp Require Import all_ssreflect all_algebra.
From Coq Require Import Reals List.
From Verif Require Import Base RMat KalmanModel Storage MlnlgModel MlnlgEmModel.
Set Implicit Arguments.
Unset Strict Implicit.
Unset Printing Implicit Defensive.
Import GRing.Theory.
Local Open Scope ring_scope.

Section PROPOSE.
Variables (lxi lz m : nat) (U Y Tm : Type).
Variable L : mlnlg lxi lz m U Y Tm.
Variable G : ml_init_gauss (lxi := lxi) (lz := lz).
(** the last step of the trajectory before the current one: ptraj[-1].pa.part and ptraj[-1].ancestors *)
(** mlnlg.py:591-655: [ptraj[-1]] and the data of its step *)
Record parent_step := mkParent { pr_part : list row; pr_anc : list nat }.

(** mlnlg.py:591-623 [propose_smooth]; [parents] is None where the code gets ptraj=None (first time step); [u], [t] are
    ut[cur_ind - 1], tt[cur_ind - 1]; [mvn i mean cov]: the i-th multivariate normal draw; only the length of [find] is
    used.  The initial particles are those of a model with Gaussian initial state (mlnlg.py:1057-1073). *)
Definition ml_propose_smooth (mvn : nat -> 'cV[R]_lxi -> 'M[R]_lxi -> 'cV[R]_lxi) (parents : option parent_step) (anc find : list nat) (u : U) (t : Tm) : res (list row) :=
  match parents with
  | Some p =>
      dor prop_part <- Base.take (pr_part p) anc ;
      dor noise <- sample_process_noise L mvn prop_part u t ;
      rb_update L prop_part u t noise
  | None => Ok (ig_create G mvn (length find))
  end.
(** mlnlg.py:625-658 [logp_proposal]; the ancestors of the parents are looked up (for the argument pind, which
    logp_xnext_singlestep ignores) *)
Definition ml_logp_proposal (prop_part : list row) (parents : option parent_step) (anc find : list nat) (u : U) (t : Tm) : res (list R) :=
  match parents with
  | Some p =>
      dor part <- Base.take (pr_part p) anc ;
      dor _ <- Base.take (pr_anc p) anc ;
      dor nexts <- Base.take prop_part find ;
      logp_xnext_singlestep L part nexts u t
  | None => em_logp_x0 (ig_rb_initial G) (ig_logp_xi0 G) prop_part
  end.

(** smoother.py:692-727 in [mc_step], without [reduced]: for a set of states with their parents, the log density under
    the proposal (as evaluated by mc_step, with the indices [find] of the future trajectories) and the log density given
    the parents ([logp_prev]) *)
Definition ml_prev (part : list row) (parents : option parent_step) (anc : list nat) (u : U) (t : Tm) : res (list R) :=
  match parents with
  | Some p =>
      dor pp <- Base.take (pr_part p) anc ;
      dor _ <- Base.take (pr_anc p) anc ;
      dor nexts <- Base.take part (List.seq 0 (length part)) ;
      logp_xnext_singlestep L pp nexts u t
  | None => em_logp_x0 (ig_rb_initial G) (ig_logp_xi0 G) part
  end.
End PROPOSE.
