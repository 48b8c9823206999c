(** Proofs for C80: the bootstrap filter's likelihood estimate is unbiased. *)
From Coquelicot Require Import Coquelicot.
From Coq Require Import ZArith String Reals Lra Lia List Arith.
From Verif Require Import Base XR SampleModel SampleSpec SampleProofs PAModel WeightSpec WeightProofs
  FilterModel TrajModel FilterSpec FilterProofs TrajProofs FilterTotal Prop_Sample Prop_Weights FilterSem Prop_Law Prop_Filter EvidenceSpec.
Import ListNotations.
Open Scope R_scope.

(** ** Averages *)
Section Avg.
Context {A : Type} (E : (A -> R) -> R) (HE : average E).

Lemma av_add F G : E (fun a => F a + G a) = E F + E G.
Proof.
  rewrite <- (Rmult_1_l (E F)), <- (av_lin E HE). apply (av_ext E HE). intros a. rewrite Rmult_1_l. reflexivity.
Qed.
Lemma av_zero : E (fun _ => 0) = 0.
Proof.
  pose proof (av_lin E HE (-1) (fun _ => 1) (fun _ => 1)) as H. rewrite (av_one E HE) in H.
  rewrite <- (Rplus_0_l 0). transitivity (E (fun _ : A => -1 * 1 + 1)); [apply (av_ext E HE); intros; lra|]. rewrite H. lra.
Qed.
Lemma av_scale c F : E (fun a => c * F a) = c * E F.
Proof.
  transitivity (E (fun a => c * F a + 0)); [apply (av_ext E HE); intros; lra|].
  rewrite (av_lin E HE c F (fun _ => 0)), av_zero. lra.
Qed.
Lemma av_const c : E (fun _ => c) = c.
Proof.
  transitivity (E (fun a => c * 1)); [apply (av_ext E HE); intros; lra|].
  rewrite (av_scale c (fun _ => 1)), (av_one E HE). lra.
Qed.

Lemma iid_average n : average (iid E n).
Proof.
  induction n as [|n IH]; constructor.
  - intros F G H. apply H.
  - intros c F G. reflexivity.
  - reflexivity.
  - intros F G H. cbn [iid]. apply (av_ext E HE). intros a. apply (av_ext _ IH). intros l. apply H.
  - intros c F G. cbn [iid].
    rewrite <- (av_lin E HE c (fun a => iid E n (fun l => F (a :: l))) (fun a => iid E n (fun l => G (a :: l)))).
    apply (av_ext E HE). intros a. apply (av_lin _ IH).
  - cbn [iid]. transitivity (E (fun _ => 1)); [|apply (av_one E HE)]. apply (av_ext E HE). intros a. apply (av_one _ IH).
Qed.

(** A sum with one term per draw. *)
Lemma iid_sum {B} (xs : list B) (d : A) (G : B -> A -> R) :
  iid E (length xs) (fun vs => rsum (map (fun ix => G (snd ix) (nth (fst ix) vs d)) (combine (seq 0 (length xs)) xs)))
  = rsum (map (fun x => E (G x)) xs).
Proof.
  induction xs as [|x xs IH]; [reflexivity|]. cbn [length iid seq combine map].
  transitivity (E (fun a => G x a + rsum (map (fun x => E (G x)) xs))).
  - apply (av_ext E HE). intros a. rewrite <- IH.
    pose proof (iid_average (length xs)) as HI.
    rewrite <- (Rmult_1_r (G x a)). rewrite <- (av_one _ HI). rewrite <- (av_lin _ HI (G x a) (fun _ => 1)).
    apply (av_ext _ HI). intros l. cbn [nth fst snd]. unfold rsum. cbn [fold_right]. rewrite (Rmult_1_r (G x a)). f_equal. f_equal.
    rewrite <- seq_shift. clear. generalize (seq 0 (length xs)). intros q. revert xs. induction q as [|i q IH]; intros [|y xs]; auto.
    cbn [map combine fst snd nth]. f_equal. apply IH.
  - rewrite av_add, av_const. reflexivity.
Qed.
End Avg.

(** ** Systematic resampling averages any function of the particles *)
Lemma rsum_zero_map {A} (f : A -> R) l : (forall x, In x l -> f x = 0) -> rsum (map f l) = 0.
Proof. intros H. induction l as [|a l IH]; [reflexivity|]. unfold rsum in *. simpl. rewrite H, IH by (simpl; auto; intros; apply H; simpl; auto). lra. Qed.

Lemma rsum_pick (c : nat -> R) a N : (a < N)%nat -> rsum (map (fun j => (if Nat.eqb a j then 1 else 0) * c j) (seq 0 N)) = c a.
Proof.
  intros H. replace N with (a + (1 + (N - a - 1)))%nat by lia. rewrite !seq_app, !map_app, !rsum_app.
  rewrite rsum_zero_map, (rsum_zero_map _ (seq (0 + a + 1) _)).
  - simpl. rewrite Nat.eqb_refl. lra.
  - intros x Hx. apply in_seq in Hx. destruct (Nat.eqb_spec a x); [lia|lra].
  - intros x Hx. apply in_seq in Hx. destruct (Nat.eqb_spec a x); [lia|lra].
Qed.

Lemma rsum_by_count (c : nat -> R) N l : Forall (fun i => (i < N)%nat) l ->
  rsum (map c l) = rsum (map (fun j => INR (occurrences j l) * c j) (seq 0 N)).
Proof.
  induction 1 as [|a l Ha Hl IH].
  - symmetry. apply rsum_zero_map. intros x _. simpl. lra.
  - change (rsum (map c (a :: l))) with (c a + rsum (map c l)). rewrite IH, <- (rsum_pick c a N Ha), <- rsum_map_plus.
    apply rsum_ext. intros j _. unfold occurrences. simpl. destruct (Nat.eq_dec a j) as [->|Hn].
    + rewrite Nat.eqb_refl, S_INR. lra.
    + apply Nat.eqb_neq in Hn. rewrite Hn. lra.
Qed.

Lemma is_RInt_rsum {A} (F : A -> R -> R) (v : A -> R) l a b : (forall x, In x l -> is_RInt (F x) a b (v x)) ->
  is_RInt (fun r => rsum (map (fun x => F x r) l)) a b (rsum (map v l)).
Proof.
  induction l as [|x l IH]; intros H.
  - simpl. pose proof (is_RInt_const a b (0 : R)) as Q. unfold scal in Q. simpl in Q. unfold mult in Q. simpl in Q. rewrite Rmult_0_r in Q. exact Q.
  - change (is_RInt (fun r => plus (F x r) (rsum (map (fun x => F x r) l))) a b (plus (v x) (rsum (map v l)))).
    apply (is_RInt_plus (V := R_NormedModule)); [apply H; simpl; auto|apply IH; intros; apply H; simpl; auto].
Qed.

Lemma resample_average (w : list R) (c : nat -> R) : weights_ok w ->
  is_RInt (fun r => match np_sample (map Fin w) (length w) r with Ok l => rsum (map c l) | Err _ => 0 end) 0 1
    (INR (length w) * rsum (map (fun j => nth j w 0 / rsum w * c j) (seq 0 (length w)))).
Proof.
  intros Hw. assert (Hn : (0 < length w)%nat). { destruct w; [destruct Hw as [_ Hw]; unfold rsum in Hw; simpl in Hw; lra|simpl; lia]. }
  set (N := length w) in *.
  assert (X : is_RInt (fun r => rsum (map (fun j => match np_sample (map Fin w) N r with Ok l => INR (occurrences j l) | Err _ => 0 end * c j) (seq 0 N)))
     0 1 (rsum (map (fun j => INR N * (nth j w 0 / rsum w) * c j) (seq 0 N)))).
  { apply (is_RInt_rsum (fun j r => match np_sample (map Fin w) N r with Ok l => INR (occurrences j l) | Err _ => 0 end * c j)).
    intros j Hj. apply in_seq in Hj. destruct (nth_error w j) as [x|] eqn:E; [|apply nth_error_None in E; unfold N in *; lia].
    rewrite (nth_error_nth w j 0 E). pose proof (C03_sample_unbiased w N j x Hw Hn E) as Q.
    apply (is_RInt_scal _ _ _ (c j)) in Q. unfold scal in Q. simpl in Q. unfold mult in Q. simpl in Q.
    rewrite Rmult_comm. eapply is_RInt_ext; [|exact Q]. intros r _. simpl. apply Rmult_comm. }
  replace (INR N * rsum (map (fun j => nth j w 0 / rsum w * c j) (seq 0 N)))
    with (rsum (map (fun j => INR N * (nth j w 0 / rsum w) * c j) (seq 0 N))).
  2:{ rewrite <- rsum_map_scale. apply rsum_ext. intros j _. ring. }
  eapply is_RInt_ext; [|exact X]. intros r Hr. rewrite Rmin_left, Rmax_right in Hr by lra. cbv beta.
  destruct (C01_sample_valid w N r Hw) as (l & El & _ & Hf & _); [unfold unit_draw; lra|]. rewrite El. symmetry. apply rsum_by_count.
  exact Hf.
Qed.

Lemma rsum_nth {A B} (f : A -> R) (h : B -> R) : forall l1 l2, length l1 = length l2 ->
  (forall i a b, nth_error l1 i = Some a -> nth_error l2 i = Some b -> f a = h b) -> rsum (map f l1) = rsum (map h l2).
Proof.
  induction l1 as [|a l1 IH]; intros [|b l2] L H; try discriminate; [reflexivity|]. unfold rsum in *. simpl. f_equal.
  - apply (H 0%nat); reflexivity.
  - apply IH; [injection L; auto|]. intros i. apply (H (S i)).
Qed.
Lemma nth_error_combine {A B} (l1 : list A) (l2 : list B) i a b : nth_error (combine l1 l2) i = Some (a, b) ->
  nth_error l1 i = Some a /\ nth_error l2 i = Some b.
Proof. revert l2 i. induction l1 as [|x l1 IH]; intros [|y l2] [|i] H; try discriminate; simpl in *; [injection H as <- <-; auto|apply IH; auto]. Qed.
Lemma nth_error_combine_ok {A B} (l1 : list A) (l2 : list B) i a b : nth_error l1 i = Some a -> nth_error l2 i = Some b ->
  nth_error (combine l1 l2) i = Some (a, b).
Proof. revert l2 i. induction l1 as [|x l1 IH]; intros [|y l2] [|i] H H'; try discriminate; simpl in *; [injection H as <-; injection H' as <-; auto|apply IH; auto]. Qed.
Lemma nth_error_seq0 n i a : nth_error (seq 0 n) i = Some a -> a = i /\ (i < n)%nat.
Proof.
  intros H. assert (L : (i < n)%nat) by (rewrite <- (seq_length n 0); apply nth_error_Some; congruence). split; auto.
  apply (nth_error_nth _ _ 0%nat) in H. rewrite seq_nth in H by auto. auto.
Qed.

Section Step.
Context {P U Y V : Type}.
Variables (m : ssm P U Y V) (noise : (V -> R) -> R) (x0 : list P) (dv : V).
Hypothesis Hav : average noise.
Hypothesis HN : (0 < length x0)%nat.
Notation N := (length x0).
Notation bm := (ssm_model m x0 dv).
Notation mdl := (full_of_basic bm).
Notation g := (call_rng (V := V)).

Lemma call_rng_ok : rng_ok g.
Proof.
  split; [|intros n w; apply Permutation.Permutation_refl]. intros w. unfold call_rng, unit_draw. cbn [rand fst].
  destruct (Rle_dec 0 (fst w)); [|cbn; lra]. destruct (Rlt_dec (fst w) 1); cbn; lra.
Qed.

Ltac run_ret := match goal with |- runs _ _ => apply runs_ret end.
Lemma ssm_total : total_ok N mdl.
Proof.
  constructor; cbn [m_create m_copy m_copy_all m_noise m_update m_measure m_xnext1 m_stage1 m_qsample m_logp_q m_logp_xnext m_meas1 m_propose_y full_of_basic
    b_create b_noise b_update b_measure b_xnext b_stage1 b_qsample b_logp_q b_propose_y ssm_model]; intros.
  - rewrite Nat.eqb_refl. apply runs_ret. reflexivity.
  - unfold def_copy. apply runs_lift. destruct (take_ok p i) as [q E]; [rewrite H; auto|]. exists q. split; auto. apply take_length in E. lia.
  - apply runs_ret. auto.
  - unfold def_noise. destruct (exists_last H) as (tr' & st & ->). eapply runs_lift_bind; [apply idx_last_app|].
    apply Forall_app in H0. destruct H0 as [_ H0]. inversion H0; subst. destruct H6 as (L & _).
    destruct (take_ok (part (st_pa st)) a) as [q E]; [rewrite L; auto|]. eapply runs_lift_bind; [exact E|].
    destruct (exists_last H2) as (u' & x & ->). eapply runs_lift_bind; [apply idx_last_app|].
    destruct (exists_last H3) as (t' & z & ->). eapply runs_lift_bind; [apply idx_last_app|].
    intros w. cbn. eauto.
  - unfold def_update. destruct (exists_last H0) as (u' & x & ->). eapply runs_lift_bind; [apply idx_last_app|].
    destruct (exists_last H1) as (t' & z & ->). eapply runs_lift_bind; [apply idx_last_app|].
    apply runs_ret. rewrite map_length, combine_length, seq_length. lia.
  - unfold def_measure. destruct (exists_last H0) as (u' & x & ->). eapply runs_lift_bind; [apply idx_last_app|].
    destruct (exists_last H1) as (t' & z & ->). eapply runs_lift_bind; [apply idx_last_app|].
    apply runs_ret. cbn. rewrite map_length. auto.
  - unfold def_xnext1. destruct (take_ok fp fi) as [q E]; [auto|]. eapply runs_lift_bind; [exact E|].
    destruct (idx_lt u k) as [x Ex]; [auto|]. eapply runs_lift_bind; [exact Ex|].
    destruct (idx_lt t k) as [z Ez]; [auto|]. eapply runs_lift_bind; [exact Ez|].
    apply runs_ret. rewrite map_length. auto.
  - apply runs_ret. rewrite map_length. auto.
  - apply runs_ret. auto.
  - apply runs_ret. rewrite map_length. auto.
  - apply runs_ret. rewrite map_length. auto.
  - apply runs_ret. cbn. rewrite map_length. auto.
  - rewrite Nat.eqb_refl. apply runs_ret. reflexivity.
Qed.

Lemma ssm_shape : shape_ok mdl.
Proof.
  constructor; cbn [m_create m_copy m_copy_all m_noise m_update m_measure m_xnext1 m_stage1 m_qsample m_logp_q m_logp_xnext m_meas1 m_propose_y full_of_basic
    b_create b_noise b_update b_measure b_xnext b_stage1 b_qsample b_logp_q b_propose_y ssm_model]; intros.
  - destruct (Nat.eqb_spec N n); [|discriminate]. apply ret_ok in H. inversion H; subst; auto.
  - unfold def_copy in H. apply lift_ok in H. destruct H as (q & E & H). inversion H; subst. apply take_length in E. auto.
  - apply ret_ok in H. inversion H; subst; auto.
  - unfold def_update in H. minv H. cbn in H. inversion H; subst. rewrite map_length, combine_length, seq_length. lia.
  - unfold def_measure in H. minv H. cbn in H. inversion H; subst. rewrite map_length. auto.
  - unfold def_xnext1 in H. minv H. cbn in H. inversion H; subst. rewrite map_length. auto.
  - apply ret_ok in H. inversion H; subst. rewrite map_length; auto.
  - apply ret_ok in H. inversion H; subst. auto.
  - apply ret_ok in H. inversion H; subst. rewrite map_length; auto.
  - apply ret_ok in H. inversion H; subst. rewrite map_length; auto.
  - apply ret_ok in H. inversion H; subst. rewrite map_length; auto.
  - destruct (Nat.eqb_spec N n); [|discriminate]. apply ret_ok in H. inversion H; subst; auto.
Qed.

(** Nothing in these calls changes the world. *)
Lemma maybe_call thr (pa pa1 : papprox P) fl anc r vs w1 : live (lw pa) ->
  maybe_resample mdl g thr pa (r, vs) = Ok ((pa1, fl, anc), w1) ->
  w1 = (r, vs) /\ (fl = true -> 0 < r < 1 -> np_sample (map Fin (map lin (lw pa))) (num pa) r = Ok anc).
Proof.
  intros Hl H. unfold maybe_resample in H. destruct (Rltb 0 thr).
  - apply bind_ok in H. destruct H as (ne & w2 & H0 & H). apply lift_ok in H0. destruct H0 as (ne' & _ & H0). inversion H0; subst ne' w2; clear H0.
    destruct (xltb _ _).
    + apply bind_ok in H. destruct H as ([pa2 ind] & w2 & H1 & H). apply ret_ok in H. cbn [fst snd] in H. inversion H; subst; clear H.
      unfold pa_resample in H1. destruct (live_max _ Hl) as (mm & Hm & _). unfold bind at 1, lift at 1 in H1. rewrite Hm in H1.
      cbv zeta in H1. apply bind_ok in H1. destruct H1 as (ind' & wr & Hs & H1).
      rewrite sampleM_resample in Hs by auto. rewrite sampleM_draw in Hs.
      2:{ pose proof (live_nonempty _ Hl). destruct (lw pa); simpl; congruence. }
      apply bind_ok in H1. destruct H1 as (np & w3 & Hc & H1). apply ret_ok in H1. inversion H1; subst; clear H1.
      cbn [full_of_basic m_copy] in Hc. unfold def_copy in Hc. apply lift_ok in Hc. destruct Hc as (q & _ & Hc). inversion Hc; subst; clear Hc.
      unfold call_rng in Hs. cbn [rand fst snd] in Hs.
      destruct (np_sample _ _ _) eqn:En in Hs; [|discriminate]. inversion Hs; subst; clear Hs. split; [reflexivity|]. intros _ Hr.
      destruct (Rle_dec 0 r); [|lra]. destruct (Rlt_dec r 1); [|lra]. exact En.
    + apply ret_ok in H. inversion H; subst. split; auto. discriminate.
  - apply ret_ok in H. inversion H; subst. split; auto. discriminate.
Qed.

(** The initial step of the filter. *)
Definition first_step : tstep P := mkStep (mkPA x0 (repeat (Fin (- ln (INR N))) N) N (Fin 0)) (seq 0 N).

Lemma initial_call thr w : initial_step mdl (FPF thr) N w = Ok (first_step, w).
Proof.
  unfold initial_step. cbn [create_initial full_of_basic m_create b_create ssm_model]. rewrite Nat.eqb_refl. unfold bind, ret, lift.
  assert (E : pa_init x0 None = Ok (mkPA x0 (repeat (Fin (- ln (INR N))) N) N (Fin 0))).
  { unfold pa_init. destruct x0; [simpl in HN; lia|reflexivity]. }
  rewrite E. reflexivity.
Qed.

(** What is known about a state of the filter between calls. *)
Record ready (thr : R) (s : ptraj P U Y) : Prop := {
  rd_N : pt_N s = N; rd_f : pt_f s = FPF thr; rd_book : exists l, book s l; rd_wf : traj_wf N (pt_traj s);
  rd_last : forall pre st, pt_traj s = pre ++ [st] -> live (lw (st_pa st)) /\ exists o, woff (st_pa st) = Fin o }.

(** The step a call starts from: the last one, or the initial one. *)
Definition start (s : ptraj P U Y) (pre : list (tstep P)) (old : tstep P) : Prop :=
  pt_traj s = pre ++ [old] \/ pt_traj s = [] /\ pre = [] /\ old = first_step.

Lemma first_live : live (lw (st_pa first_step)).
Proof.
  apply (prior_live true N (repeat (Fin (- ln (INR N))) N)); [|apply repeat_length]. split; [apply Forall_forall; intros x Hx; apply repeat_spec in Hx; subst; exact I|].
  exists (- ln (INR N)). pose proof HN as Q. revert Q. generalize (ln (INR N)). generalize N. intros n z Q. destruct n; [lia|]. simpl. auto.
Qed.
Lemma start_live thr s pre old : ready thr s -> start s pre old -> live (lw (st_pa old)) /\ exists o, woff (st_pa old) = Fin o.
Proof. intros H [E|(_ & _ & ->)]; [apply (rd_last _ _ H _ _ E)|]. split; [apply first_live|]. exists 0. reflexivity. Qed.
Lemma start_wf thr s pre old : ready thr s -> start s pre old -> Forall (step_wf N) (pre ++ [old]).
Proof.
  intros H [E|(_ & -> & ->)]; [rewrite <- E; apply (rd_wf _ _ H)|]. constructor; [|constructor].
  repeat split; simpl; rewrite ?repeat_length, ?seq_length; auto. apply seq_range.
Qed.
Definition now (s : ptraj P U Y) : nat := (length (pt_traj s) - 1)%nat.
Lemma start_now s pre old : start s pre old -> now s = length pre.
Proof. unfold now. intros [E|(E & -> & _)]; rewrite E; [rewrite app_length; simpl; lia|reflexivity]. Qed.

(** Weighted sums after the weights of [old] (or uniform ones) were multiplied by the likelihoods. *)
Lemma reweighted (pa pa' : papprox P) y t (psi : P -> R) o : live (lw pa) -> length (part pa) = length (lw pa) -> woff pa = Fin o ->
  add_weights pa (map (fun x => Fin (ll m x y t)) (part pa)) = Ok pa' ->
  part pa' = part pa /\ live (lw pa') /\ (exists o', woff pa' = Fin o') /\
  mass pa' * wmean pa' psi = exp o * rsum (map (fun xw => lin (snd xw) * (exp (ll m (fst xw) y t) * psi (fst xw))) (combine (part pa) (lw pa))).
Proof.
  intros Hl L Ho Ha. set (lls := map (fun x => Fin (ll m x y t)) (part pa)) in *.
  assert (Hll : Forall logish lls) by (apply Forall_forall; intros x Hx; apply in_map_iff in Hx; destruct Hx as (z & <- & _); exact I).
  assert (Hs : survivor (lw pa) lls).
  { destruct Hl as [_ [q Hq]]. apply In_nth_error in Hq. destruct Hq as [i Hi].
    destruct (nth_error (part pa) i) as [x|] eqn:Ex.
    2:{ apply nth_error_None in Ex. rewrite L in Ex. apply nth_error_None in Ex. congruence. }
    exists i, q, (ll m x y t). split; auto. unfold lls. rewrite nth_error_map, Ex. reflexivity. }
  destruct (add_weights_bayes _ _ _ (proj1 Hl) Hll Hs Ha) as ((B1 & B2 & B3) & _ & B4 & B5).
  destruct (B5 o Ho) as (o' & Ho' & Et). pose proof (add_weights_shape _ _ _ Ha) as (Ep & _).
  split; auto. split; auto. split; [eauto|].
  unfold mass, wmean. rewrite Ho'. cbn [lin]. pose proof (live_total _ B4) as Tp.
  rewrite <- rsum_map_scale.
  replace (total (lw pa') * exp o' * (rsum (map (fun xw => lin (snd xw) * psi (fst xw)) (combine (part pa') (lw pa'))) / total (lw pa')))
    with (exp o' * rsum (map (fun xw => lin (snd xw) * psi (fst xw)) (combine (part pa') (lw pa')))) by (field; lra).
  rewrite <- rsum_map_scale. rewrite Ep. apply rsum_nth; [rewrite !combine_length; lia|].
  intros i [x1 w1] [x2 w2] H1 H2. apply nth_error_combine in H1, H2. destruct H1 as [X1 W1], H2 as [X2 W2].
  rewrite X1 in X2. injection X2 as <-. cbn [fst snd].
  assert (Hi : (i < length (lw pa))%nat) by (apply nth_error_Some; congruence).
  specialize (B3 i Hi). rewrite (nth_error_nth _ _ _ W1), (nth_error_nth _ _ _ W2) in B3.
  assert (El : nth_error lls i = Some (Fin (ll m x1 y t))) by (unfold lls; rewrite nth_error_map, X1; reflexivity).
  rewrite (nth_error_nth _ _ _ El) in B3. cbn [lin] in B3. fold (total (lw pa')) in B3.
  set (Z := rsum _) in *. assert (Zp : Z <> 0).
  { intros Z0. rewrite Z0, Rmult_0_r in Et. pose proof (exp_pos o'). nra. }
  assert (K : lin w1 * exp o' = exp o * (lin w2 * exp (ll m x1 y t))).
  { apply (f_equal (fun q => q * (total (lw pa') * exp o'))) in B3.
    replace (lin w1 / total (lw pa') * (total (lw pa') * exp o')) with (lin w1 * exp o') in B3 by (field; lra).
    rewrite B3, Et. field. exact Zp. }
  transitivity (lin w1 * exp o' * psi x1); [ring|]. rewrite K. ring.
Qed.

(** The weights a forward call starts from, relative to their sum. *)
Definition share (fl : bool) (old : tstep P) (q : xr) : R := lin q / (if fl then 1 else total (lw (st_pa old))).

(** One particle's contribution. *)
Definition gain (u : option U) (y : option Y) k (psi : P -> R) (x : P) (v : V) : R :=
  exp (ll m (move m x (cell_of u) k v) (cell_of y) (k + 1)) * psi (move m x (cell_of u) k v).

Lemma fwd_call thr s pre old u y r vs : ready thr s -> start s pre old ->
  exists s' fl w' parts anc,
    pt_forward mdl g s u y (r, vs) = Ok ((s', fl), w') /\ ready thr s' /\ now s' = (length pre + 1)%nat /\
    (fl = true <-> 0 < thr /\ ess (map lin (lw (st_pa old))) < thr * INR N) /\
    take (part (st_pa old)) anc = Ok parts /\ length parts = N /\ (fl = false -> parts = part (st_pa old)) /\
    (fl = true -> 0 < r < 1 -> np_sample (map Fin (map lin (lw (st_pa old)))) N r = Ok anc) /\
    forall psi, fwd_factor s' fl * current x0 s' psi =
      let xs := combine parts (prior_lw fl N (lw (st_pa old))) in
      rsum (map (fun ix => share fl old (snd (snd ix)) * gain u y (length pre) psi (fst (snd ix)) (nth (fst ix) vs dv))
        (combine (seq 0 (length xs)) xs)).
Proof.
  intros Hrd Hst. pose proof call_rng_ok as Hg. destruct (rd_book _ _ Hrd) as [l B].
  assert (T : exists s' fl w', pt_forward mdl g s u y (r, vs) = Ok ((s', fl), w') /\ pt_N s' = N /\ pt_f s' = pt_f s /\ traj_wf N (pt_traj s')).
  { assert (Q1 : filter_ready (pt_f s) (length (snd (ledger_step (using_pfy (pt_f s)) l (Fwd u y))))) by (rewrite (rd_f _ _ Hrd); exact I).
    assert (Q2 : op_ready (pt_f s) (Fwd u y)) by (rewrite (rd_f _ _ Hrd); exact I).
    destruct (pt_forward_total mdl g Hg N HN ssm_total s l u y (rd_N _ _ Hrd) B (rd_wf _ _ Hrd) Q1 Q2 (r, vs)) as ([s' fl] & w' & H & EN' & Ef' & Hwf').
    exists s', fl, w'. auto. }
  destruct T as (s' & fl & w' & H & EN' & Ef' & Hwf').
  destruct (pt_forward_inv mdl g s s' l u y fl _ w' B H) as (tr & uv & yv & tv & w1 & pa & anc & k & Htr & Lk & Hff & Ht & Nu & Ny & Nt & Nt1 & _).
  rewrite (rd_f _ _ Hrd), (rd_N _ _ Hrd) in *.
  assert (X : tr = pre ++ [old] /\ w1 = (r, vs)).
  { destruct Htr as [(Hne & -> & ->)|(E & st0 & Hi & ->)].
    - destruct Hst as [E|(E & _)]; [auto|congruence].
    - rewrite initial_call in Hi. inversion Hi; subst. destruct Hst as [E'|(_ & -> & ->)]; [rewrite E in E'; destruct pre; discriminate|auto]. }
  destruct X as [-> ->]. assert (k = length pre) by (rewrite app_length in Lk; simpl in Lk; lia). subst k. clear Htr Lk.
  pose proof (start_wf _ _ _ _ Hrd Hst) as Fwf. pose proof (old_wf _ _ _ Fwf) as Owf.
  destruct (start_live _ _ _ _ Hrd Hst) as [Hl _].
  pose proof (old_pa_wf N old (Fin 0) Owf) as Hw.
  cbn [filter_forward] in Hff.
  destruct (pf_forward_sem _ g _ _ _ _ _ _ _ pre old _ _ _ _ _ Fwf eq_refl Hff)
        as (pa1 & w2 & v & w3 & p & w4 & p' & lls & Hm & Hn & Hu & Hme & Ha).
  pose proof (maybe_resample_parts _ _ _ _ _ _ _ _ _ _ Hw Hm) as Hpt. cbn [part] in Hpt.
  destruct (maybe_resample_sem _ g Hg _ _ _ _ _ _ _ _ Hw Hl Hm) as (Hfl & El & En & HB & HC). cbn [lw] in *.
  destruct (maybe_call thr (mkPA (part (st_pa old)) (lw (st_pa old)) N (Fin 0)) pa1 fl anc r vs w2 Hl Hm) as [-> Hs]. cbn [lw num] in Hs.
  simpl in Hn, Hu, Hme. unfold def_noise in Hn. unfold def_update in Hu. unfold def_measure in Hme.
  rewrite idx_last_app, (idx_last_firstn _ _ _ Nu), (idx_last_firstn _ _ _ Nt) in Hn.
  rewrite (idx_last_firstn _ _ _ Nu), (idx_last_firstn _ _ _ Nt) in Hu.
  rewrite (idx_last_firstn _ _ _ Ny), (idx_last_firstn _ _ _ Nt1) in Hme.
  unfold bind, lift in Hn, Hu, Hme. rewrite Hpt in Hn. cbn in Hn, Hu, Hme.
  inversion Hn; subst v w3; clear Hn. inversion Hu; subst p w4; clear Hu. inversion Hme; subst p' lls w'; clear Hme.
  assert (Nwf : step_wf N (mkStep pa anc)).
  { destruct Hwf' as [Q _]. rewrite Ht in Q. apply Forall_app in Q. destruct Q as [_ Q]. inversion Q; auto. }
  assert (Lp : length (part pa1) = N) by (apply take_length in Hpt; rewrite Hpt; apply Nwf).
  set (moved := map _ (combine (seq 0 (length (part pa1))) (part pa1))) in *.
  assert (Lm : length moved = N) by (unfold moved; rewrite map_length, combine_length, seq_length; lia).
  assert (Lpr : length (prior_lw fl N (lw (st_pa old))) = N) by (apply prior_length; apply Owf).
  assert (Hlp : live (prior_lw fl N (lw (st_pa old)))) by (apply prior_live; [exact Hl|apply Owf]).
  assert (E0 : woff pa1 = Fin 0).
  { destruct fl; [apply HC; auto|]. destruct (HB eq_refl) as (-> & _). reflexivity. }
  assert (RW : forall psi, part pa = moved /\ live (lw pa) /\ (exists o', woff pa = Fin o') /\
    mass pa * wmean pa psi = exp 0 * rsum (map (fun xw => lin (snd xw) * (exp (ll m (fst xw) (cell_of y) (length pre + 1)) * psi (fst xw))) (combine moved (prior_lw fl N (lw (st_pa old)))))).
  { intros psi. rewrite <- El.
    apply (reweighted (mkPA moved (lw pa1) (num pa1) (woff pa1)) pa (cell_of y) (length pre + 1) psi 0); cbn [lw part woff]; auto; rewrite El; auto. lia. }
  destruct (RW (fun _ => 0)) as (_ & Hl' & Ho' & _).
  exists s', fl, (r, vs), (part pa1), anc. split; [exact H|]. split.
  { constructor; auto.
    - destruct (book_forward mdl g _ _ _ _ _ _ _ _ B H) as [B' _]. eauto.
    - intros pre2 st2 E2. rewrite Ht in E2. apply app_inj_tail in E2. destruct E2 as [_ <-]. auto. }
  split; [unfold now; rewrite Ht, !app_length; simpl; lia|]. split; [exact Hfl|]. split; [exact Hpt|]. split; [exact Lp|].
  split; [intros E; destruct (HB E) as (-> & _); reflexivity|]. split; [exact Hs|].
  intros psi. destruct (RW psi) as (_ & _ & _ & Hsum). rewrite exp_0, Rmult_1_l in Hsum.
  unfold fwd_factor, current. rewrite Ht. rewrite !rev_app_distr. cbn [rev app st_pa].
  set (D := if fl then 1 else total (lw (st_pa old))).
  transitivity (mass pa * wmean pa psi / D); [unfold Rdiv; ring|]. rewrite Hsum. unfold Rdiv. rewrite Rmult_comm, <- rsum_map_scale.
  cbv zeta. set (xs := combine (part pa1) (prior_lw fl N (lw (st_pa old)))).
  assert (Lx : length xs = N) by (unfold xs; rewrite combine_length; lia).
  apply rsum_nth; [rewrite !combine_length, seq_length; lia|].
  intros i [x1 q1] [j [x2 q2]] H1 H2. apply nth_error_combine in H1, H2. destruct H1 as [X1 Q1], H2 as [J X2].
  apply nth_error_combine in X2. destruct X2 as [X2 Q2]. apply nth_error_seq0 in J. destruct J as [-> _].
  rewrite Q1 in Q2. injection Q2 as <-. unfold moved in X1. rewrite nth_error_map in X1.
  destruct (nth_error (combine (seq 0 (length (part pa1))) (part pa1)) i) as [[j x]|] eqn:E; [|discriminate].
  apply nth_error_combine in E. destruct E as [J X]. apply nth_error_seq0 in J. destruct J as [-> _]. rewrite X in X2. injection X2 as <-.
  cbn in X1. injection X1 as <-. cbn [fst snd]. unfold share, gain, D. unfold Rdiv. ring.
Qed.

Lemma first_share : exp (- ln (INR N)) = / INR N.
Proof. rewrite exp_Ropp, exp_ln; [reflexivity|]. apply lt_0_INR. exact HN. Qed.
Lemma first_total : total (lw (st_pa first_step)) = 1.
Proof.
  unfold total, first_step. cbn [st_pa lw].
  assert (E : forall n, rsum (map lin (repeat (Fin (- ln (INR N))) n)) = INR n * / INR N).
  { induction n as [|n IH]; [simpl; lra|]. rewrite S_INR. cbn [repeat map lin]. change (exp (- ln (INR N)) + rsum (map lin (repeat (Fin (- ln (INR N))) n)) = (INR n + 1) * / INR N).
    rewrite IH, first_share. ring. }
  rewrite E. apply Rinv_r. apply not_0_INR. lia.
Qed.
Lemma start_mass s pre old : start s pre old -> mass (st_pa old) = match rev (pt_traj s) with o :: _ => mass (st_pa o) | [] => 1 end.
Proof.
  intros [E|(E & -> & ->)]; rewrite E; [rewrite rev_app_distr; reflexivity|]. cbn [rev]. unfold mass. rewrite first_total. unfold first_step. cbn. rewrite exp_0. lra.
Qed.
Lemma current_start s pre old phi : start s pre old -> current x0 s phi = wmean (st_pa old) phi.
Proof.
  intros [E|(E & -> & ->)]; unfold current; rewrite E; [rewrite rev_app_distr; reflexivity|]. cbn [rev].
  unfold wmean. rewrite first_total. unfold first_step. cbn [st_pa part lw]. unfold Rdiv. rewrite Rinv_1, Rmult_1_r, Rmult_comm, <- rsum_map_scale.
  apply rsum_nth; [rewrite combine_length, repeat_length; lia|]. intros i x [x' q] Hx H'. apply nth_error_combine in H'. destruct H' as [H1 H2].
  rewrite Hx in H1. injection H1 as <-. apply nth_error_In, repeat_spec in H2. subst q. cbn [fst snd lin]. rewrite first_share. reflexivity.
Qed.
Lemma start_ex thr s : ready thr s -> exists pre old, start s pre old.
Proof.
  intros H. unfold start. destruct (pt_traj s) as [|a l] eqn:E; [exists [], first_step; auto|].
  destruct (exists_last (l := a :: l)) as (pre & old & E'); [discriminate|]. exists pre, old. auto.
Qed.

Lemma meas_call thr s pre old y w : ready thr s -> start s pre old ->
  exists s', pt_measure mdl s y w = Ok (s', w) /\ ready thr s' /\ now s' = length pre /\
    forall psi, meas_factor s s' * current x0 s' psi = wmean (st_pa old) (fun x => exp (ll m x (cell_of y) (length pre)) * psi x).
Proof.
  intros Hrd Hst. destruct (rd_book _ _ Hrd) as [l B].
  assert (T : exists s' w', pt_measure mdl s y w = Ok (s', w') /\ pt_N s' = N /\ pt_f s' = pt_f s /\ traj_wf N (pt_traj s')).
  { assert (Q1 : filter_ready (pt_f s) (length (snd (ledger_step (using_pfy (pt_f s)) l (Meas y))))) by (rewrite (rd_f _ _ Hrd); exact I).
    destruct (pt_measure_total mdl N HN ssm_total s l y (rd_N _ _ Hrd) B (rd_wf _ _ Hrd) Q1 w) as (s' & w' & H & EN' & Ef' & Hwf').
    exists s', w'. auto. }
  destruct T as (s' & w' & H & EN' & Ef' & Hwf'). rewrite (rd_f _ _ Hrd) in Ef'.
  destruct (book_measure mdl _ _ _ _ _ _ B H) as [B' _].
  pose proof (start_wf _ _ _ _ Hrd Hst) as Fwf. pose proof (old_wf _ _ _ Fwf) as Owf.
  destruct (start_live _ _ _ _ Hrd Hst) as [Hl [o Ho]].
  assert (X : w' = w /\ exists pa, pt_traj s' = pre ++ [mkStep pa (st_anc old)] /\
     add_weights (st_pa old) (map (fun x => Fin (ll m x (cell_of y) (length pre))) (part (st_pa old))) = Ok pa).
  { clear Ef' EN' Hwf' B'. unfold pt_measure in H. rewrite if4 in H. cbv beta iota zeta in H. rewrite (rd_f _ _ Hrd), (rd_N _ _ Hrd) in H.
    cbn [using_pfy] in H. apply bind_ok in H. destruct H as ([tr ind] & w0 & H0 & H).
    assert (E0 : tr = pre ++ [old] /\ ind = length pre /\ w0 = w).
    { destruct Hst as [E|(E & -> & ->)]; rewrite E in H0.
      - destruct l as [us ys]. destruct B as (B1 & B2 & _). rewrite E, app_length in B1. simpl in B1.
        assert (Ei : pt_ind1 s = S (length pre)) by lia. rewrite Ei in H0. destruct (pre ++ [old]) eqn:Ea; [destruct pre; discriminate|].
        apply ret_ok in H0. inversion H0; auto.
      - apply bind_ok in H0. destruct H0 as (st & w2 & H0 & H1). rewrite initial_call in H0. inversion H0; subst. apply ret_ok in H1. inversion H1; subst; auto. }
    destruct E0 as (-> & -> & ->).
    apply bind_ok in H; destruct H as (yv & wa & Hy & H); apply lift_ok in Hy; destruct Hy as (yv' & Hy & Ey); inversion Ey; subst yv' wa; clear Ey.
    apply bind_ok in H; destruct H as (tv & wa & Htv & H); apply lift_ok in Htv; destruct Htv as (tv' & Htv & Et); inversion Et; subst tv' wa; clear Et.
    rewrite idx_last_app in H. unfold lift in H at 1. unfold bind in H at 1.
    apply bind_ok in H; destruct H as (pa & w1 & Hme & H).
    apply bind_ok in H; destruct H as (tr' & wa & Hup & H); apply lift_ok in Hup; destruct Hup as (tr'' & Hup & Et); inversion Et; subst tr'' wa; clear Et.
    apply ret_ok in H. inversion H; subst; clear H. cbn [pt_traj].
    pose proof (upd_nth _ _ _ _ Hy (length pre)) as Ny. pose proof (upd_nth _ _ _ _ Htv (length pre)) as Nt.
    rewrite Nat.eqb_refl in Ny, Nt.
    unfold pf_measure in Hme. cbn [full_of_basic m_measure] in Hme. unfold def_measure in Hme.
    rewrite (idx_last_firstn _ _ _ Ny), (idx_last_firstn _ _ _ Nt) in Hme. cbn in Hme. unfold bind, lift, ret in Hme. cbn [fst snd] in Hme.
    assert (Eup : tr' = pre ++ [mkStep pa (st_anc old)]).
    { unfold upd_last in Hup. rewrite removelast_last in Hup. destruct (pre ++ [old]) eqn:E; [destruct pre; discriminate|]. inversion Hup; auto. }
    subst tr'. 
    destruct (add_weights _ _) eqn:Ea in Hme; [|discriminate]. inversion Hme; subst; clear Hme. split; [reflexivity|]. exists pa. split; [reflexivity|].
    rewrite <- Ea. destruct (st_pa old); reflexivity. }
  destruct X as (-> & pa & Ht & Ha).
  assert (Lo : length (part (st_pa old)) = length (lw (st_pa old))) by (destruct Owf as (-> & -> & _); reflexivity).
  exists s'. split; [exact H|].
  destruct (reweighted (st_pa old) pa (cell_of y) (length pre) (fun _ => 0) o Hl Lo Ho Ha) as (_ & Hl' & Ho' & _).
  split.
  { constructor; auto; [eauto|]. intros pre2 st2 E2. rewrite Ht in E2. apply app_inj_tail in E2. destruct E2 as [_ <-]. auto. }
  split; [unfold now; rewrite Ht, app_length; simpl; lia|].
  intros psi. destruct (reweighted (st_pa old) pa (cell_of y) (length pre) psi o Hl Lo Ho Ha) as (_ & _ & _ & Hsum).
  unfold meas_factor, current. rewrite <- (start_mass s pre old Hst). rewrite Ht, rev_app_distr. cbn [rev app st_pa].
  pose proof (live_total _ Hl) as Tp. unfold mass at 2. rewrite Ho. cbn [lin].
  transitivity (mass pa * wmean pa psi / (total (lw (st_pa old)) * exp o)).
  { unfold Rdiv. ring. }
  rewrite Hsum. unfold wmean. pose proof (exp_pos o). field. split; lra.
Qed.

(** Average over the noises of one forward call, for a fixed uniform number. *)
Definition step_mean u y k (psi : P -> R) (x : P) : R := noise (gain u y k psi x).

Lemma fwd_iid thr s pre old u y r (F : ptraj P U Y -> bool -> R) psi : ready thr s -> start s pre old -> 0 < r < 1 ->
  (forall s' fl, ready thr s' -> now s' = (length pre + 1)%nat -> F s' fl = fwd_factor s' fl * current x0 s' psi) ->
  exists fl parts anc,
    (fl = true <-> 0 < thr /\ ess (map lin (lw (st_pa old))) < thr * INR N) /\
    take (part (st_pa old)) anc = Ok parts /\ length parts = N /\ (fl = false -> parts = part (st_pa old)) /\
    (fl = true -> np_sample (map Fin (map lin (lw (st_pa old)))) N r = Ok anc) /\
    fwd_outcome m noise x0 dv s u y F r =
      rsum (map (fun xq => share fl old (snd xq) * step_mean u y (length pre) psi (fst xq)) (combine parts (prior_lw fl N (lw (st_pa old))))).
Proof.
  intros Hrd Hst Hr HF.
  destruct (fwd_call thr s pre old u y r [] Hrd Hst) as (s0 & fl & w0 & parts & anc & _ & _ & _ & Hfl & Htk & Lp & Hnf & Hsm & _).
  exists fl, parts, anc. split; auto. split; auto. split; auto. split; auto. split; auto.
  unfold fwd_outcome. set (xs := combine parts (prior_lw fl N (lw (st_pa old)))).
  assert (Owf : step_wf N old) by (eapply old_wf; eapply start_wf; eauto).
  assert (Lx : length xs = N) by (unfold xs; rewrite combine_length, prior_length; [lia|apply Owf]).
  transitivity (rsum (map (fun x : P * xr => noise (fun v => share fl old (snd x) * gain u y (length pre) psi (fst x) v)) xs)).
  2:{ apply rsum_ext. intros x _. unfold step_mean. apply (av_scale noise Hav). }
  rewrite <- (iid_sum noise Hav xs dv (fun x v => share fl old (snd x) * gain u y (length pre) psi (fst x) v)).
  rewrite Lx. apply (av_ext _ (iid_average noise Hav N)). intros vs.
  destruct (fwd_call thr s pre old u y r vs Hrd Hst) as (s1 & fl1 & w1 & parts1 & anc1 & Hc & Hrd1 & Hn1 & Hfl1 & Htk1 & Lp1 & Hnf1 & Hsm1 & Hv).
  rewrite Hc, (HF s1 fl1 Hrd1 Hn1), Hv. cbv zeta.
  assert (fl1 = fl) by (apply Bool.eq_iff_eq_true; rewrite Hfl, Hfl1; reflexivity). subst fl1.
  assert (parts1 = parts).
  { destruct fl; [|rewrite Hnf, Hnf1; auto]. specialize (Hsm eq_refl Hr). specialize (Hsm1 eq_refl Hr). congruence. }
  subst parts1. fold xs. rewrite Lx. reflexivity.
Qed.

(** Average over the uniform number as well. *)
Lemma fwd_average thr s pre old u y (F : ptraj P U Y -> bool -> R) psi : ready thr s -> start s pre old ->
  (forall s' fl, ready thr s' -> now s' = (length pre + 1)%nat -> F s' fl = fwd_factor s' fl * current x0 s' psi) ->
  is_RInt (fwd_outcome m noise x0 dv s u y F) 0 1 (wmean (st_pa old) (step_mean u y (length pre) psi)).
Proof.
  intros Hrd Hst HF. set (h := step_mean u y (length pre) psi).
  assert (Owf : step_wf N old) by (eapply old_wf; eapply start_wf; eauto). destruct Owf as (O1 & O2 & O3 & _).
  destruct (start_live _ _ _ _ Hrd Hst) as [Hl _]. pose proof (live_total _ Hl) as Tp.
  assert (Dec : {0 < thr /\ ess (map lin (lw (st_pa old))) < thr * INR N} + {~ (0 < thr /\ ess (map lin (lw (st_pa old))) < thr * INR N)}).
  { destruct (Rlt_dec 0 thr); [|right; tauto]. destruct (Rlt_dec (ess (map lin (lw (st_pa old)))) (thr * INR N)); [left|right]; tauto. }
  assert (HNR : 0 < INR N) by (apply lt_0_INR; exact HN).
  destruct Dec as [Hy|Hn].
  - (* resampling *)
    set (c := fun j => match nth_error (part (st_pa old)) j with Some x => h x / INR N | None => 0 end).
    pose proof (resample_average (map lin (lw (st_pa old))) c) as Q.
    assert (Hok : weights_ok (map lin (lw (st_pa old)))) by (apply weights_ok_lin; exact Hl).
    specialize (Q Hok). rewrite map_length, O2 in Q.
    replace (wmean (st_pa old) h) with (INR N * rsum (map (fun j => nth j (map lin (lw (st_pa old))) 0 / rsum (map lin (lw (st_pa old))) * c j) (seq 0 N))).
    + eapply is_RInt_ext; [|exact Q]. intros r Hr. rewrite Rmin_left, Rmax_right in Hr by lra. cbv beta.
      destruct (fwd_iid thr s pre old u y r F psi Hrd Hst Hr HF) as (fl & parts & anc & Hfl & Htk & Lp & _ & Hsm & Hv).
      rewrite Hv. assert (fl = true) by (apply Hfl; exact Hy). subst fl. rewrite (Hsm eq_refl).
      apply rsum_nth.
      * rewrite combine_length, prior_length by exact O2. apply take_length in Htk. lia.
      * intros i a [x q] Ha Hx. apply nth_error_combine in Hx. destruct Hx as [Hx Hq]. cbn [prior_lw] in Hq. apply nth_error_In in Hq.
        apply repeat_spec in Hq. subst q. pose proof (take_nth _ _ _ Htk i a Ha) as E1.
        rewrite Hx in E1. unfold c. rewrite <- E1. unfold share. cbn [fst snd lin].
        rewrite exp_Ropp, exp_ln by exact HNR. fold h. field. lra.
    + unfold wmean. fold (total (lw (st_pa old))). rewrite <- rsum_map_scale. unfold Rdiv. rewrite Rmult_comm, <- rsum_map_scale.
      apply rsum_nth; [rewrite combine_length, seq_length; lia|]. intros i j [x q] Hj Hx. apply nth_error_seq0 in Hj. destruct Hj as [-> _].
      apply nth_error_combine in Hx. destruct Hx as [Hx Hq]. unfold c. rewrite Hx. cbn [fst snd].
      assert (E : nth_error (map lin (lw (st_pa old))) i = Some (lin q)) by (rewrite nth_error_map, Hq; reflexivity).
      rewrite (nth_error_nth _ _ _ E). field. lra.
  - (* no resampling *)
    pose proof (is_RInt_const 0 1 (wmean (st_pa old) h)) as Q. unfold scal in Q. simpl in Q. unfold mult in Q. simpl in Q.
    rewrite Rminus_0_r, Rmult_1_l in Q. eapply is_RInt_ext; [|exact Q]. intros r Hr. rewrite Rmin_left, Rmax_right in Hr by lra. cbv beta.
    destruct (fwd_iid thr s pre old u y r F psi Hrd Hst Hr HF) as (fl & parts & anc & Hfl & Htk & Lp & Hnf & _ & Hv).
    rewrite Hv. assert (fl = false) by (destruct fl; auto; exfalso; apply Hn; apply Hfl; auto). subst fl. rewrite (Hnf eq_refl). cbn [prior_lw].
    unfold wmean. unfold Rdiv. rewrite Rmult_comm, <- rsum_map_scale. apply rsum_ext. intros [x q] _. unfold share. cbn [fst snd]. fold h. unfold Rdiv. ring.
Qed.

(** ** All the calls of a history *)
Lemma estimate_mean thr phi ops : forall s, ready thr s -> estimate m noise x0 dv ops s phi = current x0 s (future m noise (now s) ops phi).
Proof.
  induction ops as [|[u y|y] ops IH]; intros s Hrd; cbn [estimate future]; [reflexivity| |].
  - destruct (start_ex _ _ Hrd) as (pre & old & Hst). rewrite (start_now _ _ _ Hst), (current_start _ _ _ _ Hst).
    apply is_RInt_unique. apply (fwd_average thr s pre old u y _ (future m noise (length pre + 1) ops phi) Hrd Hst).
    intros s' fl Hrd' Hn. rewrite (IH s' Hrd'), Hn. reflexivity.
  - destruct (start_ex _ _ Hrd) as (pre & old & Hst). rewrite (start_now _ _ _ Hst), (current_start _ _ _ _ Hst).
    destruct (meas_call thr s pre old y (0, []) Hrd Hst) as (s' & Hc & Hrd' & Hn & Hv). rewrite Hc, (IH s' Hrd'), Hn. apply Hv.
Qed.

Lemma estimate_integrable thr phi u y ops s : ready thr s ->
  is_RInt (fwd_outcome m noise x0 dv s u y (fun s' resampled => fwd_factor s' resampled * estimate m noise x0 dv ops s' phi)) 0 1
    (current x0 s (future m noise (now s) (Fwd u y :: ops) phi)).
Proof.
  intros Hrd. destruct (start_ex _ _ Hrd) as (pre & old & Hst). rewrite (start_now _ _ _ Hst), (current_start _ _ _ _ Hst).
  apply (fwd_average thr s pre old u y _ (future m noise (length pre + 1) ops phi) Hrd Hst).
  intros s' fl Hrd' Hn. rewrite (estimate_mean thr phi ops s' Hrd'), Hn. reflexivity.
Qed.

Lemma ready_init thr o T s : pt_init N thr 0 "PF" o T = Ok s -> ready thr s /\ pt_traj s = [].
Proof.
  intros H. assert (E : pt_N s = N /\ pt_f s = FPF thr /\ pt_traj s = []).
  { unfold pt_init in H. destruct T as [[|n]|]; cbn in H; try discriminate; inversion H; auto. }
  destruct E as (E1 & E2 & E3). split; auto. constructor; auto.
  - exists ([], []). eapply book_init; eauto.
  - rewrite E3. split; [constructor|]. intros st; discriminate.
  - intros pre st E. rewrite E3 in E. destruct pre; discriminate.
Qed.

Lemma ready_run thr ops : forall s s' w w', ready thr s -> pt_run mdl g s ops w = Ok (s', w') -> ready thr s'.
Proof.
  induction ops as [|[u y|y] ops IH]; intros s s' w w' Hrd H; cbn [pt_run] in H.
  - apply ret_ok in H. inversion H; subst. auto.
  - apply bind_ok in H. destruct H as (s1 & w1 & H1 & H). cbn [pt_step] in H1. apply bind_ok in H1. destruct H1 as ([s2 b] & w2 & H1 & H2).
    apply ret_ok in H2. inversion H2; subst; clear H2. destruct (start_ex _ _ Hrd) as (pre & old & Hst).
    destruct w as [r vs]. destruct (fwd_call thr s pre old u y r vs Hrd Hst) as (s3 & fl & w3 & parts & anc & Hc & Hrd' & _).
    rewrite H1 in Hc. inversion Hc; subst. eapply IH; eauto.
  - apply bind_ok in H. destruct H as (s1 & w1 & H1 & H). cbn [pt_step] in H1. destruct (start_ex _ _ Hrd) as (pre & old & Hst).
    destruct (meas_call thr s pre old y w Hrd Hst) as (s2 & Hc & Hrd' & _). rewrite H1 in Hc. inversion Hc; subst. eapply IH; eauto.
Qed.
End Step.
