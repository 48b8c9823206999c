(** A concrete Markov model (a noiseless scalar random walk with Gaussian shaped
    likelihood) used to show that the hypotheses of the theorems are satisfiable,
    and the default callbacks preserve the contracts. *)
From Coq Require Import Reals Lra Lia List Arith.
From Verif Require Import Base XR SampleModel SampleSpec SampleProofs PAModel WeightSpec WeightProofs
  FilterModel TrajModel FilterSpec FilterProofs TrajProofs FilterTotal.
Import ListNotations.
Open Scope R_scope.

Definition ll_of (y : cell R) (x : R) : xr :=
  match y with CVal z => Fin (- (x - z) ^ 2) | _ => Fin 0 end.

Definition in_of (u : cell R) : R := match u with CVal z => z | _ => 0 end.

(** W = unit: no randomness in the model itself. *)
Definition walk : bmodel unit R R R (list R) :=
  mkBasic (fun n => ret (repeat 0 n))
          (fun p u t => ret (repeat 0 (length p)))
          (fun p u t v => ret (map (fun x => x + in_of u) p))
          (fun p y t => ret (p, map (ll_of y) p))
          (fun p q u t => ret (map (fun x => Fin (- x ^ 2)) p))
          (fun p u y t => ret (map (fun x => Fin x) p))
          (fun p u y t => ret p)
          (fun p q u y t => ret (map (fun x => Fin 0) p))
          (fun n y t => ret (repeat (INR t) n)).

Definition walk_full : fmodel unit R R R (list R) := full_of_basic walk.

Lemma walk_total N : (0 < N)%nat -> total_ok N walk_full.
Proof.
  intros HN. constructor; simpl.
  - apply runs_ret. apply repeat_length.
  - intros p i Lp Li Fi. unfold def_copy. apply runs_lift.
    destruct (take_ok p i) as [r E]; [rewrite Lp; auto|]. exists r. split; auto.
    apply take_length in E. lia.
  - intros p Lp. apply runs_ret. auto.
  - intros tr a u t Htr Ftr Fa Hu Ht. unfold def_noise.
    destruct (exists_last Htr) as (tr' & st & ->). eapply runs_lift_bind; [apply idx_last_app|].
    apply Forall_app in Ftr. destruct Ftr as [_ F]. inversion F as [|? ? (S1 & _) _]; subst.
    destruct (take_ok (part (st_pa st)) a) as [r E]; [auto|]. eapply runs_lift_bind; [exact E|].
    destruct (exists_last Hu) as (u' & u0 & ->). eapply runs_lift_bind; [apply idx_last_app|].
    destruct (exists_last Ht) as (t' & t0 & ->). eapply runs_lift_bind; [apply idx_last_app|].
    apply runs_ret. auto.
  - intros p tr u y t a v Lp Hu Ht. unfold def_update.
    destruct (exists_last Hu) as (u' & u0 & ->). eapply runs_lift_bind; [apply idx_last_app|].
    destruct (exists_last Ht) as (t' & t0 & ->). eapply runs_lift_bind; [apply idx_last_app|].
    apply runs_ret. rewrite map_length. auto.
  - intros tr a p u y t Lp Hy Ht. unfold def_measure.
    destruct (exists_last Hy) as (u' & u0 & ->). eapply runs_lift_bind; [apply idx_last_app|].
    destruct (exists_last Ht) as (t' & t0 & ->). eapply runs_lift_bind; [apply idx_last_app|].
    apply runs_ret. simpl. rewrite map_length. auto.
  - intros p tr pi fp fi u y t k Lp Lfi Ffi Hk Hkt. unfold def_xnext1.
    destruct (take_ok fp fi Ffi) as [r E]. eapply runs_lift_bind; [exact E|].
    destruct (idx_lt u k Hk) as [u0 Eu]. eapply runs_lift_bind; [exact Eu|].
    destruct (idx_lt t k Hkt) as [t0 Et]. eapply runs_lift_bind; [exact Et|].
    apply runs_ret. rewrite map_length. auto.
  - intros. apply runs_ret. rewrite map_length. auto.
  - intros. apply runs_ret. auto.
  - intros. apply runs_ret. rewrite map_length. auto.
  - intros. apply runs_ret. rewrite map_length. auto.
  - intros. apply runs_ret. simpl. rewrite map_length. auto.
  - intros. apply runs_ret. apply repeat_length.
Qed.

Lemma walk_shape : shape_ok walk_full.
Proof.
  constructor; simpl; intros.
  - apply ret_ok in H. inversion H. apply repeat_length.
  - unfold def_copy in H. apply lift_ok in H. destruct H as (a & E & E2). inversion E2; subst.
    eapply take_length; eauto.
  - apply ret_ok in H. inversion H; auto.
  - unfold def_update in H. minv H. simpl in H. minv H. apply map_length.
  - unfold def_measure in H. minv H. simpl in H. minv H. rewrite map_length. auto.
  - unfold def_xnext1 in H. minv H. simpl in H. minv H. apply map_length.
  - apply ret_ok in H. inversion H. apply map_length.
  - apply ret_ok in H. inversion H. auto.
  - apply ret_ok in H. inversion H. apply map_length.
  - apply ret_ok in H. inversion H. apply map_length.
  - apply ret_ok in H. inversion H. rewrite map_length. auto.
  - apply ret_ok in H. inversion H. apply repeat_length.
Qed.

(** A conditioning trajectory of three single-particle steps. *)
Definition cond3 : list (tstep R) :=
  map (fun x => mkStep (mkPA [x] [Fin 0] 1 (Fin 0)) [0%nat]) [5; 6; 7].
