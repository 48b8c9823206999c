(** C81: the law of the trajectories drawn by the backward simulation smoother ('full'). *)
From Coquelicot Require Import Coquelicot.
From Coq Require Import ZArith String Reals Lra Lia List Arith.
From Verif Require Import Base XR SampleModel SampleSpec PAModel WeightSpec FilterModel TrajModel FilterSpec SmoothModel SmoothSpec SmoothBsi
  SmoothExample Prop_Smooth FfbsiSpec Ffbsi.
Import ListNotations.
Open Scope R_scope.

Section C81.
Context {P U Y V : Type}.

(** Averaged over the random draws of the smoother (one uniform number, then one per trajectory and earlier step), the mean of any function
    of the trajectory over the [m] smoothed trajectories is the exact FFBSi mean. *)
Theorem C81_trajectory_mean : forall (sm : smodel (list R) P U Y V) (junk : nat -> nat) (fuel : nat) (ld : cell U -> nat -> P -> P -> xr)
    (pt : ptraj P U Y) (N m : nat) (so : option soptions) (lj : xr) (phi : list P -> R),
  markov_density sm ld -> plain_copy sm -> s_post sm = None -> (0 < N)%nat -> smoothable ld N pt -> (0 < m)%nat ->
  expect (1 + (length (pt_traj pt) - 1) * m)
    (fun draws => match perform_smoothing sm tape junk fuel pt m "full" so lj draws with
                  | Ok (st, _) => rsum (map (fun j => phi (trajectory (sm_traj st) j)) (seq 0 m)) / INR m
                  | Err _ => 0
                  end) (ffbsi_mean ld pt phi).
Proof. intros. apply (mean_law sm junk fuel ld H H0 H1 pt N H2 H3 m H4 so lj phi). Qed.

(** One trajectory: its law. *)
Theorem C81_one_trajectory : forall (sm : smodel (list R) P U Y V) (junk : nat -> nat) (fuel : nat) (ld : cell U -> nat -> P -> P -> xr)
    (pt : ptraj P U Y) (N : nat) (so : option soptions) (lj : xr) (phi : list P -> R),
  markov_density sm ld -> plain_copy sm -> s_post sm = None -> (0 < N)%nat -> smoothable ld N pt ->
  expect (length (pt_traj pt))
    (fun draws => match perform_smoothing sm tape junk fuel pt 1 "full" so lj draws with
                  | Ok (st, _) => phi (trajectory (sm_traj st) 0)
                  | Err _ => 0
                  end) (ffbsi_mean ld pt phi).
Proof.
  intros sm junk fuel ld pt N so lj phi H1 H2 H3 H4 H5.
  pose proof (C81_trajectory_mean sm junk fuel ld pt N 1 so lj phi H1 H2 H3 H4 H5 ltac:(lia)) as L.
  replace (1 + (length (pt_traj pt) - 1) * 1)%nat with (length (pt_traj pt)) in L.
  2:{ destruct H5 as (Hne & _). destruct (pt_traj pt); [congruence|simpl; lia]. }
  eapply expect_ext; [|exact L]. intros l _ _. cbv beta. destruct (perform_smoothing _ _ _ _ _ _ _ _ _ l) as [[st s']|e]; [|reflexivity].
  unfold rsum. simpl. field.
Qed.

(** Jointly: the last states are drawn together (systematically, with one uniform number r); given these, the trajectories are
    independent, each with the FFBSi law. *)
Theorem C81_joint : forall (sm : smodel (list R) P U Y V) (junk : nat -> nat) (fuel : nat) (ld : cell U -> nat -> P -> P -> xr)
    (pt : ptraj P U Y) (N m : nat) (so : option soptions) (lj : xr) (phi : nat -> list P -> R) pre last r ind,
  markov_density sm ld -> plain_copy sm -> s_post sm = None -> (0 < N)%nat -> smoothable ld N pt -> (0 < m)%nat ->
  pt_traj pt = pre ++ [last] -> 0 < r < 1 -> np_sample (map Fin (map lin (lw (st_pa last)))) m r = Ok ind ->
  expect ((length (pt_traj pt) - 1) * m)
    (fun draws => match perform_smoothing sm tape junk fuel pt m "full" so lj (r :: draws) with
                  | Ok (st, _) => rprod (map (fun j => phi j (trajectory (sm_traj st) j)) (seq 0 m))
                  | Err _ => 0
                  end)
    (rprod (map (fun ji => match nth_error (part (st_pa last)) (snd ji) with
                           | Some x => extend ld pt (phi (fst ji)) (length (pt_traj pt) - 1) [x]
                           | None => 0
                           end) (combine (seq 0 m) ind))).
Proof. intros. apply (pass_law sm junk fuel ld H H0 H1 pt N H2 H3 m H4 so lj phi pre last r ind H5 H6 H7). Qed.
End C81.

Lemma swalk_plain d : plain_copy (swalk (W := list R) d).
Proof. intros p ptr anc fut find u y t k s. reflexivity. Qed.

(** Three trajectories through the two stored steps of [ex_pt]: the mean of the first state (0 or 1). *)
Example C81_instance :
  expect 4 (fun draws => match perform_smoothing (swalk soft) tape (fun _ => 0%nat) 0 ex_pt 3 "full" None NaN draws with
                         | Ok (st, _) => rsum (map (fun j => hd 0 (trajectory (sm_traj st) j)) (seq 0 3)) / INR 3
                         | Err _ => 0
                         end)
    (ffbsi_mean (fun _ _ => soft) ex_pt (hd 0)).
Proof.
  apply (C81_trajectory_mean (swalk soft) (fun _ => 0%nat) 0 (fun _ _ => soft) ex_pt 2 3 None NaN (hd 0));
    [apply swalk_markov|apply swalk_plain|reflexivity|lia|apply ex_smoothable|lia].
Qed.
(** Its value: the two filter particles 0 and 1 of the first step have weights 1 and exp(-1), and the last state is 0; the transition
    density exp(-(x'-x)^2) gives another factor exp(-1) for the particle 1. *)
Example C81_instance_value :
  ffbsi_mean (fun _ _ => soft) ex_pt (hd 0) = exp (-1) * exp (-1) / (1 + exp (-1) * exp (-1)).
Proof.
  cbv [ffbsi_mean ex_pt ex_traj pt_traj rev app choice part st_pa length seq combine map rsum fold_right fst snd lw].
  cbn [extend nth_error pt_traj pt_u pt_t ex_pa Nat.sub]. cbv [choice backward_prob backward_weights nweight total lin soft].
  cbn. unfold rsum; cbn.
  pose proof (exp_pos (-1)) as H1.
  replace (- ((0 - 0) * ((0 - 0) * 1))) with 0 by ring.
  replace (- ((0 - 1) * ((0 - 1) * 1))) with (-1) by ring.
  rewrite ?exp_0. field. repeat split; try nra; pose proof (exp_pos (-2)); lra.
Qed.

Example C81_one_trajectory_instance :
  expect 2 (fun draws => match perform_smoothing (swalk soft) tape (fun _ => 0%nat) 0 ex_pt 1 "full" None NaN draws with
                         | Ok (st, _) => hd 0 (trajectory (sm_traj st) 0)
                         | Err _ => 0
                         end)
    (exp (-1) * exp (-1) / (1 + exp (-1) * exp (-1))).
Proof.
  rewrite <- C81_instance_value.
  apply (C81_one_trajectory (swalk soft) (fun _ => 0%nat) 0 (fun _ _ => soft) ex_pt 2 None NaN (hd 0));
    [apply swalk_markov|apply swalk_plain|reflexivity|lia|apply ex_smoothable].
Qed.

Print Assumptions C81_trajectory_mean.
Print Assumptions C81_one_trajectory.
Print Assumptions C81_joint.
