(** Properties of the backward simulators (smoother.py:11-194): C24 - C27. *)
From Coquelicot Require Import Coquelicot.
From Coq Require Import String Bool Reals Lra Lia List Arith Permutation.
From Verif Require Import Base XR SampleModel SampleSpec SampleProofs PAModel WeightSpec WeightProofs
  FilterModel TrajModel Prop_Weights Prop_Cond SmoothModel SmoothSpec SmoothProofs SmoothBsi SmoothRs Perms SmoothLaw SmoothRsas SmoothMcmc SmoothExample.
Import ListNotations.
Open Scope R_scope.

Lemma seq_lt_Forall m n : (m <= n)%nat -> Forall (fun j => (j < n)%nat) (seq 0 m).
Proof. intros H. apply Forall_forall. intros j Hj. apply in_seq in Hj. lia. Qed.

Lemma nth_lt {A} (l : list A) i : (i < length l)%nat -> exists a, nth_error l i = Some a.
Proof. intros H. destruct (nth_error l i) eqn:E; eauto. apply nth_error_None in E. lia. Qed.

Lemma reach_iff {P U} (ld : cell U -> nat -> P -> P -> xr) uk tk pa (f0 : tstep P) find :
  all_reachable (ld uk tk) pa (part (st_pa f0)) find <-> reachable ld uk tk pa f0 find.
Proof. reflexivity. Qed.

(** ** C24 *)
(** Whatever the random draws, [bsi_full] returns one valid particle index per
    trajectory. *)
Theorem C24_bsi_full_valid : forall (W P U Y V : Type) (sm : smodel W P U Y V) (g : rng W) (ld : cell U -> nat -> P -> P -> xr)
  (u : list (cell U)) (y : list (cell Y)) (t : list nat) (k : nat) (pa : papprox P) (ptr : list (tstep P)) (pind : list nat)
  (fut : list (tstep P)) (d : P -> P -> xr) (xs : list P) (find : list nat) (s : W),
  rng_ok g -> markov_density sm ld -> backward_step ld u t k pa pind fut d xs -> all_reachable d pa xs find ->
  exists l s', bsi_full sm g pa ptr pind fut find u y t k s = Ok (l, s') /\ indices pa (length find) l.
Proof.
  intros W P U Y V sm g ld u y t k pa ptr pind fut d xs find s Hg Hmk ((uk & tk & Hu & Ht & ->) & (f0 & Hf0 & ->) & Hlen & Hpi & Hlive) HR.
  destruct (bsi_full_run sm g Hg ld Hmk u y t k uk tk Hu Ht pa ptr pind fut f0 Hf0 Hlen Hpi find s HR) as (l & s' & E & L & Hl).
  exists l, s'. split; auto. split; auto. apply Forall_forall. intros i Hi. apply In_nth_error in Hi. destruct Hi as [q Hq].
  assert (Q : (q < length find)%nat) by (rewrite <- L; apply nth_error_Some; congruence).
  destruct (nth_lt find q Q) as [j Hj]. apply (Hl q j i Hj Hq).
Qed.

Example C24_bsi_full_valid_example : forall (W : Type) (g : rng W) (s : W), rng_ok g ->
  exists l s', bsi_full (swalk soft) g ex_pa [] [0; 1]%nat ex_fut [1; 0; 1]%nat ex_u [CVal 0] [0%nat] 0 s = Ok (l, s') /\
    length l = 3%nat /\ Forall (fun i => (i < 2)%nat) l.
Proof.
  intros W g s Hg. apply (C24_bsi_full_valid W R R R (list R) (swalk soft) g (fun _ _ => soft) ex_u [CVal 0] [0%nat] 0 ex_pa [] [0; 1]%nat
    ex_fut soft [0; 1] [1; 0; 1]%nat s Hg); [apply swalk_markov|apply ex_backward|apply soft_reachable; repeat constructor].
Qed.

(** With independent uniform draws, the probability that [bsi_full] returns the
    indices [is_] is the product over the trajectories of the backward kernels. *)
Theorem C24_bsi_full_law : forall (P U Y V : Type) (sm : smodel (list R) P U Y V) (ld : cell U -> nat -> P -> P -> xr)
  (u : list (cell U)) (y : list (cell Y)) (t : list nat) (k : nat) (pa : papprox P) (ptr : list (tstep P)) (pind : list nat)
  (fut : list (tstep P)) (d : P -> P -> xr) (xs : list P) (find is_ : list nat),
  markov_density sm ld -> backward_step ld u t k pa pind fut d xs -> all_reachable d pa xs find -> indices pa (length find) is_ ->
  expect (length find) (outcome nats_eqb (bsi_full sm tape pa ptr pind fut find u y t k) is_)
    (rprod (map (fun ji => match nth_error xs (fst ji) with
                           | Some x' => backward_prob d pa x' (snd ji)
                           | None => 0 end) (combine find is_))).
Proof.
  intros P U Y V sm ld u y t k pa ptr pind fut d xs find is_ Hmk ((uk & tk & Hu & Ht & ->) & (f0 & Hf0 & ->) & Hlen & Hpi & Hlive) HR [L F].
  unfold all_reachable in HR. rewrite Forall_forall in HR.
  apply (bsi_full_law sm ld Hmk u y t k uk tk Hu Ht pa ptr pind fut f0 Hf0 find is_ HR L).
  rewrite <- Hlen. auto.
Qed.

(** Trajectories 1 and 0 (next states 1 and 0): the probability of choosing the
    particles 1 and 0. *)
Example C24_bsi_full_law_example :
  expect 2 (outcome nats_eqb (bsi_full (swalk soft) tape ex_pa [] [0; 1]%nat ex_fut [1; 0]%nat ex_u [CVal 0] [0%nat] 0) [1; 0]%nat)
    ((exp (-1) / (exp (-1) + exp (-1))) * (1 / (1 + exp (-1) * exp (-1)))).
Proof.
  pose proof (C24_bsi_full_law R R R (list R) (swalk soft) (fun _ _ => soft) ex_u [CVal 0] [0%nat] 0 ex_pa [] [0; 1]%nat
    ex_fut soft [0; 1] [1; 0]%nat [1; 0]%nat (swalk_markov soft) (ex_backward soft)
    (soft_reachable 1 [1; 0]%nat ltac:(repeat constructor)) ltac:(split; repeat constructor)) as H.
  cbn [length] in H. match type of H with expect _ _ ?v => replace v with ((exp (-1) / (exp (-1) + exp (-1))) * (1 / (1 + exp (-1) * exp (-1)))) in H; [exact H|] end.
  cbn. unfold backward_prob, backward_weights, soft. cbn. pose proof (exp_pos (-1)).
  replace (- ((1 - 0) * ((1 - 0) * 1))) with (-1) by lra. replace (- ((1 - 1) * ((1 - 1) * 1))) with 0 by lra.
  replace (- ((0 - 0) * ((0 - 0) * 1))) with 0 by lra. replace (- ((0 - 1) * ((0 - 1) * 1))) with (-1) by lra. rewrite exp_0.
  field. split; [|nra]. nra.
Qed.

(** ** C25 *)
(** Whatever the draws and the number of rounds allowed, [bsi_rs] returns one valid
    index per trajectory, each either accepted against the bound or drawn by the exact
    sampler. *)
Theorem C25_bsi_rs_total : forall (W P U Y V : Type) (sm : smodel W P U Y V) (g : rng W) (junk : nat -> nat) (ld : cell U -> nat -> P -> P -> xr)
  (u : list (cell U)) (y : list (cell Y)) (t : list nat) (k : nat) (pa : papprox P) (ptr : list (tstep P)) (pind : list nat)
  (fut : list (tstep P)) (d : P -> P -> xr) (xs : list P) (find : list nat) (maxpdf : xr) (max_iter : nat) (s : W),
  rng_ok g -> markov_density sm ld -> backward_step ld u t k pa pind fut d xs -> all_reachable d pa xs (seq 0 (length find)) ->
  exists l s', bsi_rs sm g junk pa ptr pind fut find u y t k maxpdf max_iter s = Ok (l, s') /\ indices pa (length find) l /\
    forall j i x' p, nth_error l j = Some i -> nth_error xs j = Some x' -> nth_error (part pa) i = Some p ->
      (exists v, unit_draw v /\ xltb (xlog (Fin v)) (xsub (d p x') maxpdf) = true) \/
      (exists r, unit_draw r /\ np_sample (map Fin (backward_weights d pa x')) 1 r = Ok [i]).
Proof.
  intros W P U Y V sm g junk ld u y t k pa ptr pind fut d xs find mp mi s Hg Hmk ((uk & tk & Hu & Ht & ->) & (f0 & Hf0 & ->) & Hlen & Hpi & Hlive) HR.
  assert (Hne : lw pa <> []) by (destruct Hlive as [_ [r Hr]]; destruct (lw pa); [destruct Hr|discriminate]).
  destruct (norm_weights_ok (lw pa) Hne) as (wn & Hwn & _).
  unfold bsi_rs. rewrite (lift_bind_eq _ _ _ _ Hwn).
  assert (Lj : length (map junk (seq 0 (length find))) = length find) by (rewrite map_length, seq_length; auto).
  destruct (rs_loop_run sm g Hg ld Hmk u y t k uk tk Hu Ht pa ptr pind fut f0 Hf0 Hlen Hpi Hlive wn Hwn mp mi (seq 0 (length find))
    (map junk (seq 0 (length find))) s) as (l & s' & E & L & _ & A); auto.
  { apply seq_NoDup. } { rewrite Lj. apply seq_lt_Forall. auto. }
  exists l, s'. split; [exact E|]. rewrite Lj in L.
  assert (A' : forall j i, nth_error l j = Some i -> chosen ld uk tk pa f0 mp j i).
  { intros j i Hi. assert (Q : (j < length find)%nat) by (rewrite <- L; apply nth_error_Some; congruence).
    destruct (A j) as (i' & Ei & C); [apply in_seq; lia|]. congruence. }
  split.
  - split; auto. apply Forall_forall. intros i Hi. apply In_nth_error in Hi. destruct Hi as [j Hj]. apply (A' j i Hj).
  - intros j i x' p Hi Hx Hp. destruct (A' j i Hi) as [_ [(v & Hv & Ha)|(x2 & r & Hx2 & Hr & Hs)]].
    + left. exists v. split; auto. unfold accepts, dens in Ha. rewrite Hp, Hx in Ha. auto.
    + right. exists r. split; auto. congruence.
Qed.

Example C25_bsi_rs_total_example : forall (W : Type) (g : rng W) (s : W), rng_ok g ->
  exists l s', bsi_rs (swalk soft) g (fun _ => 7%nat) ex_pa [] [0; 1]%nat ex_fut [0; 1]%nat ex_u [CVal 0] [0%nat] 0 (Fin 0) 5 s = Ok (l, s') /\
    indices ex_pa 2 l.
Proof.
  intros W g s Hg. destruct (C25_bsi_rs_total W R R R (list R) (swalk soft) g (fun _ => 7%nat) (fun _ _ => soft) ex_u [CVal 0] [0%nat] 0 ex_pa [] [0; 1]%nat
    ex_fut soft [0; 1] [0; 1]%nat (Fin 0) 5 s Hg) as (l & s' & E & I & _);
    [apply swalk_markov|apply ex_backward|apply (soft_reachable 1 [0; 1]%nat); repeat constructor|]. eauto.
Qed.

(** When [maxpdf] bounds the transition density, the index of trajectory [j] has
    exactly the law of the backward kernel, for every number of trajectories and every
    number of rounds ([N]: any number of uniform draws sufficient for all rounds). *)
Theorem C25_bsi_rs_law : forall (P U Y V : Type) (sm : smodel (list R) P U Y V) (junk : nat -> nat) (ld : cell U -> nat -> P -> P -> xr)
  (u : list (cell U)) (y : list (cell Y)) (t : list nat) (k : nat) (pa : papprox P) (ptr : list (tstep P)) (pind : list nat)
  (fut : list (tstep P)) (d : P -> P -> xr) (xs : list P) (find : list nat) (maxpdf : R) (max_iter N : nat) (j i : nat) (x' : P),
  markov_density sm ld -> backward_step ld u t k pa pind fut d xs -> all_reachable d pa xs (seq 0 (length find)) ->
  (j < length find)%nat -> nth_error xs j = Some x' -> (forall p, In p (part pa) -> xle (d p x') (Fin maxpdf)) ->
  (i < length (part pa))%nat -> (max_iter * (2 + length find) + length find <= N)%nat ->
  expect N (entry_is (bsi_rs sm tape junk pa ptr pind fut find u y t k (Fin maxpdf) max_iter) j i) (backward_prob d pa x' i).
Proof.
  intros P U Y V sm junk ld u y t k pa ptr pind fut d xs find mx mi N j i x' Hmk ((uk & tk & Hu & Ht & ->) & (f0 & Hf0 & ->) & Hlen & Hpi & Hlive) HR Hj Hx Hmax Hi HN.
  assert (Hne : lw pa <> []) by (destruct Hlive as [_ [r Hr]]; destruct (lw pa); [destruct Hr|discriminate]).
  destruct (norm_weights_ok (lw pa) Hne) as (wn & Hwn & _).
  assert (Lj : length (map junk (seq 0 (length find))) = length find) by (rewrite map_length, seq_length; auto).
  assert (Hus : usable (ld uk tk) pa x').
  { unfold all_reachable in HR. rewrite Forall_forall in HR. destruct (HR j) as (x2 & E & H); [apply in_seq; lia|]. congruence. }
  eapply expect_ext; [|apply (rs_law sm ld Hmk u y t k uk tk Hu Ht pa ptr pind fut f0 Hf0 Hlen Hpi Hlive wn Hwn mx j x' Hx Hus Hmax i
    ltac:(lia) mi (seq 0 (length find)) (map junk (seq 0 (length find))) N)].
  - intros l _ _. unfold entry_is, bsi_rs. rewrite (lift_bind_eq _ _ _ _ Hwn). reflexivity.
  - apply seq_NoDup.
  - rewrite Lj. apply seq_lt_Forall. auto.
  - exact HR.
  - apply in_seq. lia.
  - rewrite seq_length. auto.
Qed.

Example C25_bsi_rs_law_example :
  expect 30 (entry_is (bsi_rs (swalk soft) tape (fun _ => 7%nat) ex_pa [] [0; 1]%nat ex_fut [0; 1]%nat ex_u [CVal 0] [0%nat] 0 (Fin 0) 5) 1 0)
    (backward_prob soft ex_pa 1 0).
Proof.
  apply (C25_bsi_rs_law R R R (list R) (swalk soft) (fun _ => 7%nat) (fun _ _ => soft) ex_u [CVal 0] [0%nat] 0 ex_pa [] [0; 1]%nat
    ex_fut soft [0; 1] [0; 1]%nat 0 5 30 1 0 1).
  - apply swalk_markov.
  - apply ex_backward.
  - apply (soft_reachable 1 [0; 1]%nat). repeat constructor.
  - cbn; lia.
  - reflexivity.
  - intros p _. unfold soft, xle. pose proof (pow2_ge_0 (1 - p)). lra.
  - cbn; lia.
  - cbn; lia.
Qed.

(** [find] is used only through its length ... *)
Theorem C25_find_ignored : forall (W P U Y V : Type) (sm : smodel W P U Y V) (g : rng W) (junk : nat -> nat)
  (u : list (cell U)) (y : list (cell Y)) (t : list nat) (k : nat) (pa : papprox P) (ptr : list (tstep P)) (pind : list nat)
  (fut : list (tstep P)) (find find' : list nat) (maxpdf : xr) (max_iter : nat) (s : W),
  length find = length find' ->
  bsi_rs sm g junk pa ptr pind fut find u y t k maxpdf max_iter s = bsi_rs sm g junk pa ptr pind fut find' u y t k maxpdf max_iter s.
Proof. intros W P U Y V sm g junk u y t k pa ptr pind fut find find' mp mi s H. unfold bsi_rs. rewrite H. reflexivity. Qed.

(** ... so for another list of future indices it draws for the wrong trajectory.
    Two particles 0 and 1, deterministic transition, future index list [1], whose
    state is 1: the only particle that can reach it is particle 1, yet [bsi_rs] always
    returns particle 0, of backward probability zero. *)
Theorem C25_wrong_future_refuted : exists (pa : papprox R) (fut : list (tstep R)) (find : list nat) (d : R -> R -> xr) (xs : list R) (x' : R),
  backward_step (fun (_ : cell R) (_ : nat) => d) ex_u [0%nat] 0 pa [0; 1]%nat fut d xs /\ all_reachable d pa xs find /\
  (forall p x, xle (d p x) (Fin 0)) /\ find = [1%nat] /\ nth_error xs 1 = Some x' /\ backward_prob d pa x' 0 = 0 /\
  forall (W : Type) (g : rng W) (junk : nat -> nat) (max_iter : nat) (s : W), rng_ok g ->
  exists s', bsi_rs (swalk d) g junk pa [] [0; 1]%nat fut find ex_u [CVal 0] [0%nat] 0 (Fin 0) max_iter s = Ok ([0%nat], s').
Proof.
  exists ex_pa, ex_fut, [1%nat], hard, [0; 1], 1.
  split; [apply ex_backward|]. split; [apply hard_reachable; repeat constructor|].
  split. { intros p x. unfold hard. destruct (Req_EM_T p x); cbn; auto. lra. }
  split; auto. split; auto. split.
  { unfold backward_prob, backward_weights, hard. cbn. destruct (Req_EM_T 0 1); [lra|]. cbn. lra. }
  intros W g junk mi s Hg.
  destruct (C25_bsi_rs_total W R R R (list R) (swalk hard) g junk (fun _ _ => hard) ex_u [CVal 0] [0%nat] 0 ex_pa [] [0; 1]%nat
    ex_fut hard [0; 1] [1%nat] (Fin 0) mi s Hg) as (l & s' & E & [L F] & A);
    [apply swalk_markov|apply ex_backward|apply (hard_reachable [0%nat]); repeat constructor|].
  exists s'. rewrite E. repeat f_equal. destruct l as [|i [|? ?]]; cbn in L; try lia. f_equal. inversion F as [|? ? Hi _]; subst.
  destruct i as [|[|i]]; [reflexivity| |cbn in Hi; lia]. exfalso.
  destruct (A 0%nat 1%nat 0 1 eq_refl eq_refl eq_refl) as [(v & Hv & Ha)|(r & Hr & Hs)].
  - unfold hard in Ha. destruct (Req_EM_T 1 0); [lra|]. assert (K : forall a, xltb a (xsub NInf (Fin 0)) = false) by (intros [ | | |z]; reflexivity). rewrite K in Ha. discriminate.
  - assert (Hw : backward_weights hard ex_pa 0 = [1; 0]).
    { unfold backward_weights, hard. cbn. destruct (Req_EM_T 0 0); [|lra]. destruct (Req_EM_T 1 0); [lra|]. cbn. rewrite exp_0. repeat f_equal; lra. }
    rewrite Hw in Hs. assert (K : weights_ok [1; 0]) by (split; [repeat constructor; lra|cbn; lra]).
    rewrite (pick_spec [1; 0] r K) in Hs. injection Hs as Hp.
    unfold pick, ncum, sample_key in Hp. cbn in Hp. unfold unit_draw in Hr.
    assert (E0 : Rltb ((0 + 1) / (1 + (0 + 0))) ((0 + r) / 1) = false).
    { apply Rltb_false. unfold Rdiv. rewrite !Rplus_0_l, Rplus_0_r, Rinv_1. lra. }
    rewrite E0 in Hp. discriminate.
Qed.

(** ** C26 *)
(** A number of rounds that depends only on the number of trajectories and the tuning
    parameters is always enough: the loop terminates, for every model, every particle
    set of [N] particles, every bound and every sequence of draws, with one valid index
    per trajectory. *)
Theorem C26_rsas_terminates : forall (x1 sv sw ratio : R) (N M : nat),
  sv <> 0 -> sw <> 0 -> 0 < ratio -> (0 < N)%nat ->
  exists F, forall fuel, (F <= fuel)%nat ->
  forall (W P U Y V : Type) (sm : smodel W P U Y V) (g : rng W) (junk : nat -> nat) (ld : cell U -> nat -> P -> P -> xr)
    (u : list (cell U)) (y : list (cell Y)) (t : list nat) (k : nat) (pa : papprox P) (ptr : list (tstep P)) (pind : list nat)
    (fut : list (tstep P)) (d : P -> P -> xr) (xs : list P) (find : list nat) (maxpdf : xr) (P1 : R) (s : W),
  rng_ok g -> markov_density sm ld -> backward_step ld u t k pa pind fut d xs -> all_reachable d pa xs (seq 0 (length find)) ->
  length (part pa) = N -> (length find <= M)%nat -> 0 <= P1 ->
  exists l s', bsi_rsas sm g junk fuel pa ptr pind fut find u y t k maxpdf x1 P1 sv sw ratio s = Ok (l, s') /\ indices pa (length find) l.
Proof.
  intros x1 sv sw ratio N M Hsv Hsw Hr HN.
  assert (Hstop : 0 < ratio / INR N) by (apply Rdiv_lt_0_compat; auto; apply lt_0_INR; auto).
  destruct (enough_exists sv sw (ratio / INR N) Hsv Hsw Hstop M x1) as [F HF].
  exists (S F). intros fuel Hfuel.
  intros W P U Y V sm g junk ld u y t k pa ptr pind fut d xs find mp P1 s Hg Hmk ((uk & tk & Hu & Ht & ->) & (f0 & Hf0 & ->) & Hlen & Hpi & Hlive) HR HNp HM HP1.
  assert (Hne : lw pa <> []) by (destruct Hlive as [_ [r Hr']]; destruct (lw pa); [destruct Hr'|discriminate]).
  destruct (norm_weights_ok (lw pa) Hne) as (wn & Hwn & _).
  unfold bsi_rsas. rewrite (lift_bind_eq _ _ _ _ Hwn).
  assert (Lj : length (map junk (seq 0 (length find))) = length find) by (rewrite map_length, seq_length; auto).
  destruct (rsas_loop_run sm g Hg ld Hmk u y t k uk tk Hu Ht pa ptr pind fut f0 Hf0 Hlen Hpi Hlive wn Hwn sv sw (ratio / INR (length (part pa))) mp fuel
    (seq 0 (length find)) (map junk (seq 0 (length find))) x1 P1 s) as (l & s' & E & L & _ & A); auto.
  { apply seq_NoDup. } { rewrite Lj. apply seq_lt_Forall. auto. }
  { rewrite seq_length, HNp. destruct (Nat.eq_dec (length find) 0) as [E0|E0].
    - rewrite E0. destruct fuel; [lia|]. intros ak Ha. lia.
    - apply (enough_mono _ _ _ F); [lia|]. apply HF; auto. lia. }
  exists l, s'. split; [exact E|]. rewrite Lj in L. split; auto.
  apply Forall_forall. intros i Hi. apply In_nth_error in Hi. destruct Hi as [j Hj].
  assert (Q : (j < length find)%nat) by (rewrite <- L; apply nth_error_Some; congruence).
  destruct (A j) as (i' & Ei & C); [apply in_seq; lia|]. assert (i' = i) by congruence. subst. apply C.
Qed.

Example C26_rsas_terminates_example : exists F, forall (W : Type) (g : rng W) (s : W), rng_ok g ->
  exists l s', bsi_rsas (swalk soft) g (fun _ => 7%nat) F ex_pa [] [0; 1]%nat ex_fut [0; 1]%nat ex_u [CVal 0] [0%nat] 0 (Fin 0) 1 1 1 1 1 s = Ok (l, s') /\
    indices ex_pa 2 l.
Proof.
  destruct (C26_rsas_terminates 1 1 1 1 2 2) as [F HF]; try lra; try lia. exists F. intros W g s Hg.
  apply (HF F (le_n F) W R R R (list R) (swalk soft) g (fun _ => 7%nat) (fun _ _ => soft) ex_u [CVal 0] [0%nat] 0%nat ex_pa [] [0; 1]%nat
    ex_fut soft [0; 1] [0; 1]%nat (Fin 0) 1 s Hg); [apply swalk_markov|apply ex_backward|apply (soft_reachable 1 [0; 1]%nat); repeat constructor|reflexivity|cbn; lia|lra].
Qed.

(** The hypothesis on [ratio] is needed: with ratio = 0 the loop never ends when the
    drawn candidates cannot reach the trajectory's next state (here: all draws 1/4
    select particle 0, which the deterministic transition cannot move to 1, although
    particle 1 is there already). *)
Theorem C26_zero_ratio_refuted : exists (g : rng unit) (fut : list (tstep R)),
  rng_ok g /\ backward_step (fun (_ : cell R) (_ : nat) => hard) ex_u [0%nat] 0 ex_pa [0; 1]%nat fut hard [1] /\
  all_reachable hard ex_pa [1] [0%nat] /\
  forall fuel, bsi_rsas (swalk hard) g (fun _ => 0%nat) fuel ex_pa [] [0; 1]%nat fut [0%nat] ex_u [CVal 0] [0%nat] 0 (Fin 0) 1 1 1 1 0 tt = Err OutOfFuel.
Proof.
  exists (mkRng (fun s => (1/4, s)) (fun n s => (seq 0 n, s))), [mkStep (mkPA [1] [Fin 0] 1 (Fin 0)) [0%nat]].
  set (g := mkRng _ _). set (fut := [mkStep _ _] : list (tstep R)).
  assert (Hg : rng_ok g). { split; [intros s; cbn; unfold unit_draw; lra|intros n s; cbn; apply Permutation_refl]. }
  assert (HB : backward_step (fun (_ : cell R) (_ : nat) => hard) ex_u [0%nat] 0 ex_pa [0; 1]%nat fut hard [1]).
  { split; [exists (CVal 0), 0%nat; auto|]. split; [eexists; split; reflexivity|]. split; auto. split; auto. apply ex_live. }
  assert (HR : all_reachable hard ex_pa [1] [0%nat]).
  { pose proof (hard_reachable [1%nat] ltac:(repeat constructor)) as H. inversion H as [|? ? (x' & E & U) _]; subst.
    constructor; [|constructor]. exists x'. split; auto. }
  split; auto. split; auto. split; auto.
  assert (Hne : lw ex_pa <> []) by discriminate. destruct (norm_weights_ok (lw ex_pa) Hne) as (wn & Hwn & _).
  assert (RR : forall res, rs_round (swalk hard) g ex_pa [] [0; 1]%nat fut ex_u [CVal 0] [0%nat] 0 (Fin 0) wn [0%nat] [res] tt = Ok (([res], [0%nat], 0%nat), tt)).
  { intros res. unfold rs_round.
    rewrite (propose_run g (lw ex_pa) wn 1 tt _ (1/4) tt [0%nat] tt ex_live Hwn eq_refl eq_refl (Permutation_refl _)).
    assert (Hc : cands (map lin (lw ex_pa)) 1 (1/4) [0%nat] = [0%nat]).
    { unfold cands, smp. cbn. rewrite exp_0. pose proof (exp_pos (-1)). assert (exp (-1) < 1) by (rewrite <- exp_0; apply exp_increasing; lra).
      rewrite (proj2 (Rltb_false _ _)); auto. unfold Rdiv. apply (Rmult_le_reg_r (1 + (exp (-1) + 0))); [lra|].
      rewrite (Rmult_assoc (0 + 1)), Rinv_l by lra. rewrite Rinv_1. lra. }
    rewrite Hc. cbn. unfold hard. destruct (Req_EM_T 0 1); [lra|].
    assert (K : forall a, xltb a (xsub NInf (Fin 0)) = false) by (intros [ | | |z]; reflexivity). rewrite !K. reflexivity. }
  assert (L : forall fuel pk Pk res, 0 <= pk -> 0 < Pk ->
    rsas_loop (swalk hard) g fuel ex_pa [] [0; 1]%nat fut ex_u [CVal 0] [0%nat] 0 (Fin 0) 1 1 (0 / INR (length (part ex_pa))) wn pk Pk [0%nat] [res] tt = Err OutOfFuel).
  { induction fuel as [|n IH]; intros pk Pk res Hp HP; [reflexivity|]. cbn [rsas_loop]. rewrite (bind_eq _ _ _ _ _ (RR res)). cbn [length].
    destruct (kf_step 1 1 ltac:(lra) 1 0 pk Pk ltac:(lia) ltac:(lra)) as (K & _ & Hd & _). cbn zeta in K.
    rewrite (lift_bind_eq _ _ _ _ K). cbn [INR] in *.
    assert (Hpos : 0 <= (1 - 0 / 1) * (pk * (1 * 1 / (1 * 1 * Pk + 1 * 1)) + 1 * 1 * Pk / (1 * 1 * Pk + 1 * 1) * (0 / 1))).
    { unfold Rdiv. rewrite !Rmult_0_l, !Rmult_0_r, Rplus_0_r. rewrite Rminus_0_r, Rmult_1_l. apply Rmult_le_pos; auto.
      apply Rmult_le_pos; [lra|]. left. apply Rinv_0_lt_compat. auto. }
    rewrite (proj2 (Rltb_false _ _)) by (unfold Rdiv at 1; rewrite Rmult_0_l; exact Hpos).
    apply IH; auto. assert (0 <= (1 - 0 / 1) ^ 2 * (1 * 1 / (1 * 1 * Pk + 1 * 1)) * Pk); [|lra].
    apply Rmult_le_pos; [|lra]. apply Rmult_le_pos; [apply pow2_ge_0|]. left. apply Rdiv_lt_0_compat; lra. }
  intros fuel. unfold bsi_rsas. rewrite (lift_bind_eq _ _ _ _ Hwn). apply L; lra.
Qed.

(** The adaptive stopping rule does not bias the result: same law as [bsi_full]. *)
Theorem C26_rsas_law : forall (x1 sv sw ratio : R) (N M : nat),
  sv <> 0 -> sw <> 0 -> 0 < ratio -> (0 < N)%nat ->
  exists F, forall fuel draws, (F <= fuel)%nat -> (fuel * (2 + M) + M <= draws)%nat ->
  forall (P U Y V : Type) (sm : smodel (list R) P U Y V) (junk : nat -> nat) (ld : cell U -> nat -> P -> P -> xr)
    (u : list (cell U)) (y : list (cell Y)) (t : list nat) (k : nat) (pa : papprox P) (ptr : list (tstep P)) (pind : list nat)
    (fut : list (tstep P)) (d : P -> P -> xr) (xs : list P) (find : list nat) (maxpdf : R) (P1 : R) (j i : nat) (x' : P),
  markov_density sm ld -> backward_step ld u t k pa pind fut d xs -> all_reachable d pa xs (seq 0 (length find)) ->
  length (part pa) = N -> (length find <= M)%nat -> 0 <= P1 ->
  (j < length find)%nat -> nth_error xs j = Some x' -> (forall p, In p (part pa) -> xle (d p x') (Fin maxpdf)) ->
  (i < length (part pa))%nat ->
  expect draws (entry_is (bsi_rsas sm tape junk fuel pa ptr pind fut find u y t k (Fin maxpdf) x1 P1 sv sw ratio) j i) (backward_prob d pa x' i).
Proof.
  intros x1 sv sw ratio N M Hsv Hsw Hr HN.
  assert (Hstop : 0 < ratio / INR N) by (apply Rdiv_lt_0_compat; auto; apply lt_0_INR; auto).
  destruct (enough_exists sv sw (ratio / INR N) Hsv Hsw Hstop M x1) as [F HF].
  exists (S F). intros fuel dr Hfuel Hdr.
  intros P U Y V sm junk ld u y t k pa ptr pind fut d xs find mx P1 j i x' Hmk ((uk & tk & Hu & Ht & ->) & (f0 & Hf0 & ->) & Hlen & Hpi & Hlive) HR HNp HM HP1 Hj Hx Hmax Hi.
  assert (Hne : lw pa <> []) by (destruct Hlive as [_ [r Hr']]; destruct (lw pa); [destruct Hr'|discriminate]).
  destruct (norm_weights_ok (lw pa) Hne) as (wn & Hwn & _).
  assert (Lj : length (map junk (seq 0 (length find))) = length find) by (rewrite map_length, seq_length; auto).
  assert (Hus : usable (ld uk tk) pa x').
  { unfold all_reachable in HR. rewrite Forall_forall in HR. destruct (HR j) as (x2 & E & H); [apply in_seq; lia|]. congruence. }
  eapply expect_ext; [|apply (rsas_law sm ld Hmk u y t k uk tk Hu Ht pa ptr pind fut f0 Hf0 Hlen Hpi Hlive wn Hwn mx j x' Hx Hus Hmax
     sv sw (ratio / INR (length (part pa))) i ltac:(lia) fuel (seq 0 (length find)) (map junk (seq 0 (length find))) x1 P1 dr)].
  - intros l _ _. unfold entry_is, bsi_rsas. rewrite (lift_bind_eq _ _ _ _ Hwn). reflexivity.
  - apply seq_NoDup.
  - rewrite Lj. apply seq_lt_Forall. auto.
  - exact HR.
  - apply in_seq. lia.
  - rewrite seq_length, HNp. apply (enough_mono _ _ _ F); [lia|]. apply HF; auto. lia.
  - rewrite seq_length. assert (fuel * (2 + length find) <= fuel * (2 + M))%nat by (apply Nat.mul_le_mono_l; lia). lia.
Qed.

Example C26_rsas_law_example : exists F draws,
  expect draws (entry_is (bsi_rsas (swalk soft) tape (fun _ => 7%nat) F ex_pa [] [0; 1]%nat ex_fut [0; 1]%nat ex_u [CVal 0] [0%nat] 0 (Fin 0) 1 1 1 1 1) 1 0)
    (backward_prob soft ex_pa 1 0).
Proof.
  destruct (C26_rsas_law 1 1 1 1 2 2) as [F HF]; try lra; try lia. exists F, (F * 4 + 2)%nat.
  apply (HF F (F * 4 + 2)%nat (le_n F) (le_n _) R R R (list R) (swalk soft) (fun _ => 7%nat) (fun _ _ => soft) ex_u [CVal 0] [0%nat] 0%nat ex_pa [] [0; 1]%nat
    ex_fut soft [0; 1] [0; 1]%nat 0 1 1%nat 0%nat 1); [apply swalk_markov|apply ex_backward|apply (soft_reachable 1 [0; 1]%nat); repeat constructor|reflexivity|cbn; lia|lra|cbn; lia|reflexivity| |cbn; lia].
  intros p _. unfold soft, xle. pose proof (pow2_ge_0 (1 - p)). lra.
Qed.

(** ** C27 *)
Theorem C27_bsi_mcmc_valid : forall (W P U Y V : Type) (sm : smodel W P U Y V) (g : rng W) (ld : cell U -> nat -> P -> P -> xr)
  (u : list (cell U)) (y : list (cell Y)) (t : list nat) (k : nat) (pa : papprox P) (ptr : list (tstep P)) (pind : list nat)
  (fut : list (tstep P)) (d : P -> P -> xr) (xs : list P) (find ancestors : list nat) (R_ : nat) (s : W),
  rng_ok g -> markov_density sm ld -> backward_step ld u t k pa pind fut d xs ->
  Forall (fun j => (j < length xs)%nat) find -> indices pa (length find) ancestors ->
  exists l s', bsi_mcmc sm g pa ptr pind fut find u y t k R_ ancestors s = Ok (l, s') /\ indices pa (length find) l.
Proof.
  intros W P U Y V sm g ld u y t k pa ptr pind fut d xs find anc R_ s Hg Hmk ((uk & tk & Hu & Ht & ->) & (f0 & Hf0 & ->) & Hlen & Hpi & Hlive) HF [La Fa].
  assert (Hne : lw pa <> []) by (destruct Hlive as [_ [r Hr]]; destruct (lw pa); [destruct Hr|discriminate]).
  destruct (norm_weights_ok (lw pa) Hne) as (wn & Hwn & _).
  destruct (mcmc_init sm g ld Hmk u y t k uk tk Hu Ht pa ptr pind fut f0 Hf0 Hlen Hpi wn Hwn find HF anc La Fa) as (pc & Hc & E).
  rewrite E. destruct (mcmc_loop_run sm g ld Hmk u y t k uk tk Hu Ht pa ptr pind fut f0 Hf0 Hlen Hpi Hlive wn Hwn find HF R_ Hg anc pc s Hc)
    as (l & s' & E2 & L & F). exists l, s'. split; auto. split; auto.
Qed.

Example C27_bsi_mcmc_valid_example : forall (W : Type) (g : rng W) (s : W), rng_ok g ->
  exists l s', bsi_mcmc (swalk hard) g ex_pa [] [0; 1]%nat ex_fut [1; 0; 1]%nat ex_u [CVal 0] [0%nat] 0 30 [0; 0; 1]%nat s = Ok (l, s') /\ indices ex_pa 3 l.
Proof.
  intros W g s Hg. apply (C27_bsi_mcmc_valid W R R R (list R) (swalk hard) g (fun _ _ => hard) ex_u [CVal 0] [0%nat] 0 ex_pa [] [0; 1]%nat
    ex_fut hard [0; 1] [1; 0; 1]%nat [0; 0; 1]%nat 30 s Hg); [apply swalk_markov|apply ex_backward|repeat constructor|split; repeat constructor].
Qed.

(** The index of trajectory [q] after [R_] iterations has the law of a
    Metropolis-Hastings chain with proposal w and target w_i p(x'|x_i), started at its
    initial index. *)
Theorem C27_bsi_mcmc_law : forall (P U Y V : Type) (sm : smodel (list R) P U Y V) (ld : cell U -> nat -> P -> P -> xr)
  (u : list (cell U)) (y : list (cell Y)) (t : list nat) (k : nat) (pa : papprox P) (ptr : list (tstep P)) (pind : list nat)
  (fut : list (tstep P)) (d : P -> P -> xr) (xs : list P) (find ancestors : list nat) (R_ N q a i : nat) (x' : P) (dx : nat -> R),
  markov_density sm ld -> backward_step ld u t k pa pind fut d xs ->
  Forall (fun j => (j < length xs)%nat) find -> indices pa (length find) ancestors ->
  (exists j, nth_error find q = Some j /\ nth_error xs j = Some x') -> nth_error ancestors q = Some a ->
  (forall c p, nth_error (part pa) c = Some p -> logish (d p x') /\ dx c = lin (d p x')) ->
  (R_ * (2 + length find) <= N)%nat ->
  expect N (entry_is (bsi_mcmc sm tape pa ptr pind fut find u y t k R_ ancestors) q i) (mh_chain (map lin (lw pa)) dx R_ a i).
Proof.
  intros P U Y V sm ld u y t k pa ptr pind fut d xs find anc R_ N q a i x' dx Hmk ((uk & tk & Hu & Ht & ->) & (f0 & Hf0 & ->) & Hlen & Hpi & Hlive) HF [La Fa]
    (j & Hq & Hx) Ha Hdx HN.
  assert (Hne : lw pa <> []) by (destruct Hlive as [_ [r Hr]]; destruct (lw pa); [destruct Hr|discriminate]).
  destruct (norm_weights_ok (lw pa) Hne) as (wn & Hwn & _).
  destruct (mcmc_init sm tape ld Hmk u y t k uk tk Hu Ht pa ptr pind fut f0 Hf0 Hlen Hpi wn Hwn find HF anc La Fa) as (pc & Hc & E).
  assert (Hd : forall c, (c < length (part pa))%nat -> logish (dens ld uk tk pa f0 c j) /\ dx c = lin (dens ld uk tk pa f0 c j)).
  { intros c Hcl. destruct (nth_lt (part pa) c Hcl) as [p Hp]. unfold dens. rewrite Hp, Hx. apply Hdx; auto. }
  assert (Al : (a < length (part pa))%nat) by (rewrite Forall_forall in Fa; apply Fa; eapply nth_error_In; eauto).
  assert (Ext : forall n b, (b < length (part pa))%nat ->
     mh_chain (map lin (lw pa)) dx n b i = mh_chain (map lin (lw pa)) (fun c => lin (dens ld uk tk pa f0 c j)) n b i).
  { induction n as [|n IH]; intros b Hb; cbn [mh_chain]; auto. apply rsum_ext. intros c Hcs. apply in_seq in Hcs.
    rewrite map_length in Hcs. rewrite !IH by lia. destruct (Hd b Hb) as [_ ->]. destruct (Hd c ltac:(lia)) as [_ ->]. auto. }
  rewrite (Ext R_ a Al).
  eapply expect_ext; [|apply (mcmc_law sm ld Hmk u y t k uk tk Hu Ht pa ptr pind fut f0 Hf0 Hlen Hpi Hlive wn Hwn find HF q j Hq
     (fun c Hc => proj1 (Hd c Hc)) i R_ anc pc a N Hc Ha HN)].
  intros l _ _. unfold entry_is. rewrite E. reflexivity.
Qed.

Example C27_bsi_mcmc_law_example :
  expect 10 (entry_is (bsi_mcmc (swalk soft) tape ex_pa [] [0; 1]%nat ex_fut [1; 0; 1]%nat ex_u [CVal 0] [0%nat] 0 2 [0; 0; 1]%nat) 1 1)
    (mh_chain [exp 0; exp (-1)] (fun c => match c with 0%nat => exp 0 | _ => exp (-1) end) 2 0 1).
Proof.
  apply (C27_bsi_mcmc_law R R R (list R) (swalk soft) (fun _ _ => soft) ex_u [CVal 0] [0%nat] 0 ex_pa [] [0; 1]%nat
    ex_fut soft [0; 1] [1; 0; 1]%nat [0; 0; 1]%nat 2 10 1 0 1 0).
  - apply swalk_markov.
  - apply ex_backward.
  - repeat constructor.
  - split; repeat constructor.
  - exists 0%nat. split; reflexivity.
  - reflexivity.
  - intros c p Hp. split; [exact I|]. destruct c as [|[|c]]; cbn in Hp; try discriminate.
    + injection Hp as <-. unfold soft, lin. f_equal. lra.
    + injection Hp as <-. unfold soft, lin. f_equal. lra.
    + destruct c; discriminate.
  - cbn. lia.
Qed.

(** That chain satisfies detailed balance with respect to the backward weights ... *)
Theorem C27_detailed_balance : forall (w : list R) (f : nat -> R) (a c : nat), 0 <= f a -> 0 <= f c ->
  (nth a w 0 * f a) * (nth c w 0 / rsum w * mh_prob (f a) (f c)) = (nth c w 0 * f c) * (nth a w 0 / rsum w * mh_prob (f c) (f a)).
Proof. intros w f a c Ha Hc. rewrite <- !Rmult_assoc. apply mh_balance; auto. Qed.

(** ... so started from the backward kernel it stays there, for any number of
    iterations. *)
Theorem C27_stationary : forall (w : list R) (f : nat -> R) (n i : nat), weights_ok w -> (forall a, 0 <= f a) -> (i < length w)%nat ->
  rsum (map (fun a => nth a w 0 * f a * mh_chain w f n a i) (seq 0 (length w))) = nth i w 0 * f i.
Proof. intros. apply mh_stationary; auto. Qed.

Example C27_stationary_example : exists (w : list R) (f : nat -> R), weights_ok w /\ (forall a, 0 <= f a) /\ (0 < length w)%nat /\
  rsum (map (fun a => nth a w 0 * f a * mh_chain w f 7 a 0) (seq 0 (length w))) = 2.
Proof.
  exists [1; 3], (fun a => match a with 0%nat => 2 | _ => 5 end). assert (K : weights_ok [1; 3]) by (split; [repeat constructor; lra|cbn; lra]).
  assert (F : forall a : nat, 0 <= match a with 0%nat => 2 | _ => 5 end) by (intros [|a]; lra).
  split; auto. split; auto. split; [cbn; lia|]. rewrite (C27_stationary [1; 3] _ 7 0 K F); cbn; [lra|lia].
Qed.

Print Assumptions C24_bsi_full_valid. Print Assumptions C24_bsi_full_law. Print Assumptions C25_bsi_rs_total. Print Assumptions C25_bsi_rs_law.
Print Assumptions C25_find_ignored. Print Assumptions C25_wrong_future_refuted. Print Assumptions C26_rsas_terminates. Print Assumptions C26_zero_ratio_refuted.
Print Assumptions C26_rsas_law. Print Assumptions C27_bsi_mcmc_valid. Print Assumptions C27_bsi_mcmc_law. Print Assumptions C27_detailed_balance. Print Assumptions C27_stationary.


