(** Property C69: the laws of ParticleApproximation.sample and .resample. *)
From Coquelicot Require Import Coquelicot.
From Coq Require Import ZArith Reals Lra Lia List.
From Verif Require Import Base XR SampleModel SampleSpec SampleProofs PAModel FilterModel WeightSpec WeightProofs Prop_Sample Prop_Weights.
Import ListNotations.
Open Scope R_scope.

(** A generator whose next uniform draw is the state itself. *)
Definition const_rng : rng R := mkRng (fun r => (r, r)) (fun n r => (seq 0 n, r)).

Lemma sampleM_draw {W} (g : rng W) w n s : w <> [] ->
  sampleM g w n s = match np_sample w n (fst (rand g s)) with Ok l => Ok (l, snd (rand g s)) | Err e => Err e end.
Proof.
  intros H. unfold sampleM, bind, lift, draw.
  destruct (idx_last (xcumsum w)) as [z|] eqn:Ez.
  2:{ exfalso. unfold idx_last in Ez. destruct (rev (xcumsum w)) eqn:E'; [|discriminate].
      apply (f_equal (@rev xr)) in E'. rewrite rev_involutive in E'. destruct w; [congruence|discriminate]. }
  destruct (rand g s) as [r s']. reflexivity.
Qed.

(** C69: sample() returns the particle i exactly when the uniform draw falls into an interval whose length is the normalised weight of
    particle i; the intervals lie end to end. *)
Theorem C69_sample_interval : forall W P (g : rng W) (pa : papprox P) (s : W) (i : nat) (p : P) (x : xr),
  live (lw pa) -> 0 < fst (rand g s) < 1 -> nth_error (lw pa) i = Some x -> nth_error (part pa) i = Some p ->
  psum (map lin (lw pa)) i / total (lw pa) < fst (rand g s) <= psum (map lin (lw pa)) i / total (lw pa) + nweight (lw pa) i ->
  pa_sample g pa s = Ok (p, snd (rand g s)).
Proof.
  intros W P g pa s i p x H Hr Hx Hp Hi. unfold pa_sample, bind at 1.
  assert (Hne : map xexp (lw pa) <> []) by (pose proof (live_nonempty _ H); destruct (lw pa); simpl; congruence).
  rewrite sampleM_draw by auto. rewrite map_exp by apply H.
  assert (Hx' : nth_error (map lin (lw pa)) i = Some (lin x)) by (rewrite nth_error_map, Hx; reflexivity).
  pose proof (proj2 (C03_sample_one_interval _ _ i _ (weights_ok_lin _ H) Hr Hx')) as E.
  unfold nweight in Hi. rewrite (nth_error_nth (lw pa) i NInf Hx) in Hi. unfold total in Hi. rewrite (E Hi).
  unfold bind, lift. simpl. unfold idx. rewrite Hp. reflexivity.
Qed.

(** C69: the expected number of copies of particle i after resample(N) is N times its normalised weight. *)
Theorem C69_resample_unbiased : forall P (pa : papprox P) (n i : nat),
  live (lw pa) -> length (part pa) = length (lw pa) -> (0 < n)%nat -> (i < length (lw pa))%nat ->
  is_RInt (fun r => match pa_resample const_rng def_copy pa n r with Ok ((_, ind), _) => INR (occurrences i ind) | Err _ => 0 end)
    0 1 (INR n * nweight (lw pa) i).
Proof.
  intros P pa n i H L Hn Hi. destruct (nth_error (lw pa) i) as [x|] eqn:Hx.
  2:{ apply nth_error_None in Hx. lia. }
  assert (Hx' : nth_error (map lin (lw pa)) i = Some (lin x)) by (rewrite nth_error_map, Hx; reflexivity).
  pose proof (C03_sample_unbiased _ n i _ (weights_ok_lin _ H) Hn Hx') as E.
  unfold nweight. rewrite (nth_error_nth (lw pa) i NInf Hx). unfold total.
  eapply is_RInt_ext; [|exact E]. intros r Hr. rewrite Rmin_left, Rmax_right in Hr by lra.
  destruct (C01_sample_valid (map lin (lw pa)) n r (weights_ok_lin _ H)) as (l & El & _ & Hf & _).
  { unfold unit_draw. lra. }
  rewrite El. unfold pa_resample. destruct (live_max _ H) as (m & Hm & _). unfold bind, lift. rewrite Hm.
  rewrite sampleM_resample by auto.
  rewrite sampleM_draw by (pose proof (live_nonempty _ H); destruct (lw pa); simpl; congruence).
  cbn [rand const_rng fst snd]. rewrite El. unfold def_copy.
  destruct (take_ok (part pa) l) as [q Eq].
  { rewrite map_length in Hf. rewrite L. exact Hf. }
  unfold lift. rewrite Eq. reflexivity.
Qed.

Example C69_case : pa_sample const_rng (mkPA [10; 20]%nat [Fin 0; Fin (ln 3)] 2 (Fin 0)) (1 / 2) = Ok (20%nat, 1 / 2).
Proof.
  assert (L3 : exp (ln 3) = 3) by (apply exp_ln; lra).
  apply (C69_sample_interval _ _ const_rng (mkPA [10; 20]%nat [Fin 0; Fin (ln 3)] 2 (Fin 0)) (1 / 2) 1%nat 20%nat (Fin (ln 3))); auto.
  - split; [repeat constructor|]. exists 0. simpl; auto.
  - simpl. lra.
  - unfold nweight, total, psum. simpl. rewrite L3, exp_0. lra.
Qed.
Example C69_case_resample :
  is_RInt (fun r => match pa_resample const_rng def_copy (mkPA [10; 20]%nat [Fin 0; Fin (ln 3)] 2 (Fin 0)) 4 r with Ok ((_, ind), _) => INR (occurrences 1 ind) | Err _ => 0 end) 0 1 3.
Proof.
  assert (E : INR 4 * nweight [Fin 0; Fin (ln 3)] 1 = 3).
  { unfold nweight, total. simpl. rewrite exp_ln, exp_0 by lra. lra. }
  pose proof (C69_resample_unbiased nat (mkPA [10; 20]%nat [Fin 0; Fin (ln 3)] 2 (Fin 0)) 4 1) as H.
  simpl lw in H. rewrite E in H. apply H; simpl; try lia.
  split; [repeat constructor|]. exists 0. simpl; auto.
Qed.
Print Assumptions C69_sample_interval.
Print Assumptions C69_resample_unbiased.
