(** Concrete Markov models used to show that the hypotheses of the smoothing theorems
    can be met: the random walk of ExampleModel.v for an arbitrary world, with a given
    transition log density [d]. *)
From Coquelicot Require Import Coquelicot.
From Coq Require Import String Bool Reals Lra Lia List Arith.
From Verif Require Import Base XR SampleModel SampleSpec SampleProofs PAModel WeightSpec WeightProofs
  FilterModel TrajModel FilterSpec FilterProofs TrajProofs FilterTotal ExampleModel SmoothModel SmoothSpec SmoothProofs SmoothBsi.
Import ListNotations.
Open Scope R_scope.

Section Ex.
Context {W : Type}.
Variable d : R -> R -> xr.

Definition gwalk : bmodel W R R R (list R) :=
  mkBasic (fun n => ret (repeat 0 n))
          (fun p u t => ret (repeat 0 (length p)))
          (fun p u t v => ret (map (fun x => x + in_of u) p))
          (fun p y t => ret (p, map (ll_of y) p))
          (fun p q u t => lift (zipw d p q))
          (fun p u y t => ret (map (fun x => Fin x) p))
          (fun p u y t => ret p)
          (fun p q u y t => ret (map (fun x => Fin 0) p))
          (fun n y t => ret (repeat (INR t) n)).

(** Proposal: the constant 1 for every trajectory; densities of the proposal and of
    the initial state are flat. *)
Definition swalk : smodel W R R R (list R) :=
  smooth_of_basic gwalk (fun p u t => ret (Fin 0))
    (fun past pind fut find u y t k => ret (map (fun _ => 1) find))
    (fun p past pind fut find u y t k => ret (map (fun _ => Fin 0) p))
    (fun p t => ret (map (fun _ => Fin 0) p)).

Lemma swalk_markov : markov_density swalk (fun _ _ => d).
Proof.
  intros p past pind fut find u y t k s. cbn. unfold def_xnext_full, bind, lift, rbind. cbn.
  destruct (idx fut 0) as [f0|]; [|reflexivity]. destruct (take (part (st_pa f0)) find) as [nx|]; [|reflexivity].
  destruct (idx u k); [|reflexivity]. destruct (idx t k); [|reflexivity]. destruct (zipw d p nx); reflexivity.
Qed.

Lemma swalk_copying : copying swalk.
Proof. intros p ptr anc fut find u y t k s r s' H. cbn in H. unfold def_sample, ret in H. congruence. Qed.
End Ex.

(** Gaussian shaped density, and the density of a deterministic transition. *)
Definition soft (x x' : R) : xr := Fin (- (x' - x) ^ 2).
Definition hard (x x' : R) : xr := if Req_EM_T x x' then Fin 0 else NInf.

(** Two particles 0 and 1 of weights 1 and exp(-1); two trajectories at 0 and 1. *)
Definition ex_pa : papprox R := mkPA [0; 1] [Fin 0; Fin (-1)] 2 (Fin 0).
Definition ex_fut : list (tstep R) := [mkStep (mkPA [0; 1] [Fin 0; Fin 0] 2 (Fin 0)) [0%nat; 1%nat]].
Definition ex_u : list (cell R) := [CVal 0].

Lemma ex_live : live (lw ex_pa).
Proof. split; [repeat constructor|exists 0; left; auto]. Qed.

Lemma ex_backward (d : R -> R -> xr) :
  backward_step (fun (_ : cell R) (_ : nat) => d) ex_u [0%nat] 0 ex_pa [0%nat; 1%nat] ex_fut d [0; 1].
Proof.
  unfold backward_step. split; [exists (CVal 0), 0%nat; auto|]. split; [eexists; split; reflexivity|].
  split; auto. split; auto. apply ex_live.
Qed.

Lemma soft_reachable x find : Forall (fun j => (j < 2)%nat) find ->
  all_reachable soft ex_pa [0; x] find.
Proof.
  intros F. apply Forall_forall. rewrite Forall_forall in F. intros j Hj. specialize (F j Hj).
  assert (H : exists x', nth_error [0; x] j = Some x') by (destruct j as [|[|j]]; cbn; eauto; lia).
  destruct H as [x' Hx]. exists x'. split; auto. split; auto. split; [repeat constructor|].
  split; [intros; exact I|]. unfold backward_weights. cbn.
  pose proof (exp_pos (-(x' * (x' * 1)))). pose proof (exp_pos (-1)). pose proof (exp_pos 0).
  assert (forall a, 0 < exp a) by apply exp_pos.
  repeat apply Rplus_lt_le_0_compat; try (apply Rmult_lt_0_compat; auto); try lra.
  rewrite Rplus_0_r. left. apply Rmult_lt_0_compat; auto.
Qed.

Lemma hard_reachable find : Forall (fun j => (j < 2)%nat) find -> all_reachable hard ex_pa [0; 1] find.
Proof.
  intros F. apply Forall_forall. rewrite Forall_forall in F. intros j Hj. specialize (F j Hj).
  assert (L : forall p x', logish (hard p x')) by (intros; unfold hard; destruct (Req_EM_T p x'); exact I).
  assert (E : forall a, 0 < exp a) by apply exp_pos.
  destruct j as [|[|j]]; [exists 0|exists 1|lia]; (split; [reflexivity|]); (split; [auto|]); (split; [repeat constructor|]);
    (split; [intros; apply L|]); unfold backward_weights, hard; cbn;
    destruct (Req_EM_T 0 0); try lra; destruct (Req_EM_T 1 0); try lra; destruct (Req_EM_T 0 1); try lra; destruct (Req_EM_T 1 1); try lra; cbn.
  - rewrite exp_0. pose proof (E (-1)). lra.
  - rewrite exp_0. pose proof (E (-1)). lra.
Qed.
