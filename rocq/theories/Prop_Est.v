(** Properties of the reported estimates (simulator.py:114-185): C32. *)
From Coq Require Import Bool Reals Lra Lia List Arith.
From Verif Require Import Base XR SampleSpec PAModel WeightSpec FilterModel EstModel.
Import ListNotations.
Open Scope R_scope.

(** Specification: every step holds [N] particles of [D] components. *)
Definition rect (N D : nat) (tr : list (tstep (list R))) : Prop :=
  tr <> [] /\ forall st, In st tr -> length (part (st_pa st)) = N /\ length (lw (st_pa st)) = N /\ Forall (fun r => length r = D) (part (st_pa st)).

(** The mean of component [c] of the particles [p] with probabilities [w]. *)
Definition expectation (w : list R) (p : list (list R)) (c : nat) : R :=
  rsum (map (fun a => fst a * nth c (snd a) 0) (combine w p)).

Lemma total_pos w : live w -> 0 < total w.
Proof.
  intros [F [r Hr]]. unfold total. apply rsum_pos.
  - apply Forall_forall. intros x Hx. apply in_map_iff in Hx. destruct Hx as (a & <- & _). apply lin_nonneg.
  - apply Exists_exists. exists (exp r). split; [apply in_map_iff; exists (Fin r); auto|apply exp_pos].
Qed.

Lemma step_weights_live w : live w -> step_weights w = map Fin (map (fun x => lin x / total w) w).
Proof.
  intros Hl. pose proof (total_pos w Hl) as Ht. destruct Hl as [F _]. unfold step_weights.
  assert (E : map xexp w = map Fin (map lin w)).
  { rewrite map_map. apply map_ext_in. intros a Ha. rewrite Forall_forall in F. apply xexp_logish. auto. }
  rewrite E, xsum_fin, !map_map. apply map_ext. intros a. cbn. fold (total w).
  rewrite Reqb_false by lra. reflexivity.
Qed.

Lemma est_loop_ok N D tr : (forall st, In st tr -> length (part (st_pa st)) = N /\ length (lw (st_pa st)) = N /\ Forall (fun r => length r = D) (part (st_pa st))) ->
  est_loop N D tr = Ok (map (fun st => part (st_pa st)) tr, map (fun st => step_weights (lw (st_pa st))) tr).
Proof.
  induction tr as [|st tr IH]; intros H; cbn [est_loop map]; auto.
  destruct (H st ltac:(left; auto)) as (L1 & L2 & F). unfold assign1, assign.
  assert (L3 : length (step_weights (lw (st_pa st))) = N) by (unfold step_weights; rewrite !map_length; auto).
  rewrite L3, L1, !Nat.eqb_refl. cbn [rbind andb].
  assert (B : forallb (fun r => Nat.eqb (length r) D) (part (st_pa st)) = true).
  { apply forallb_forall. intros r Hr. rewrite Forall_forall in F. apply Nat.eqb_eq. auto. }
  rewrite B. cbn [rbind]. rewrite IH by (intros; apply H; right; auto). reflexivity.
Qed.

Lemma ncols_rect N D p : (0 < N)%nat -> length p = N -> Forall (fun r => length r = D) p -> ncols p = D.
Proof. intros HN L F. destruct p as [|r p]; [cbn in L; lia|]. inversion F; auto. Qed.

Lemma get_filtered_ok N D tr : (0 < N)%nat -> rect N D tr ->
  exists st0, idx tr 0 = Ok st0 /\ ncols (part (st_pa st0)) = D /\
  get_filtered_estimates tr = Ok (map (fun st => part (st_pa st)) tr, map (fun st => step_weights (lw (st_pa st))) tr).
Proof.
  intros HN [Hne H]. destruct tr as [|st0 tr]; [congruence|]. exists st0.
  destruct (H st0 ltac:(left; auto)) as (L1 & L2 & F). split; [reflexivity|]. split; [eapply ncols_rect; eauto|].
  unfold get_filtered_estimates. cbn [idx nth_error rbind]. rewrite (ncols_rect N D _ HN L1 F), L1. apply est_loop_ok; auto.
Qed.

Lemma nth_map_some {A B} (f : A -> B) l k b : nth_error (map f l) k = Some b -> exists a, nth_error l k = Some a /\ b = f a.
Proof. rewrite nth_error_map. destruct (nth_error l k); cbn; intros H; [injection H as <-; eauto|discriminate]. Qed.

(** ** C32 *)
(** For every recorded trajectory with usable weights: the particles are returned
    unchanged, and the weights of each step are the normalised linear weights: in [0,1],
    with sum 1. *)
Theorem C32_filtered_weights : forall (N D : nat) (tr : list (tstep (list R))),
  (0 < N)%nat -> rect N D tr -> Forall (fun st => live (lw (st_pa st))) tr ->
  exists est ws, get_filtered_estimates tr = Ok (est, ws) /\ est = map (fun st => part (st_pa st)) tr /\ length ws = length tr /\
    forall k st, nth_error tr k = Some st ->
      exists w, nth_error ws k = Some (map Fin w) /\ length w = N /\ Forall (fun x => 0 <= x <= 1) w /\ rsum w = 1 /\
        forall i a, nth_error (lw (st_pa st)) i = Some a -> nth_error w i = Some (lin a / rsum (map lin (lw (st_pa st)))).
Proof.
  intros N D tr HN Hr Hl. destruct (get_filtered_ok N D tr HN Hr) as (st0 & _ & _ & E). do 2 eexists. split; [exact E|]. split; auto. split; [apply map_length|].
  intros k st Hk. rewrite Forall_forall in Hl. pose proof (nth_error_In _ _ Hk) as Hin. specialize (Hl _ Hin). pose proof (total_pos _ Hl) as Ht.
  exists (map (fun x => lin x / total (lw (st_pa st))) (lw (st_pa st))). split; [rewrite nth_error_map, Hk; cbn; f_equal; apply step_weights_live; auto|].
  destruct Hr as [_ Hr]. destruct (Hr _ Hin) as (_ & L2 & _).
  split; [rewrite map_length; auto|]. split; [|split].
  - apply Forall_forall. intros x Hx. apply in_map_iff in Hx. destruct Hx as (a & <- & Ha). pose proof (lin_nonneg a).
    assert (lin a <= total (lw (st_pa st))).
    { apply rsum_in_le; [|apply in_map; auto]. apply Forall_forall. intros z Hz. apply in_map_iff in Hz. destruct Hz as (b & <- & _). apply lin_nonneg. }
    split; [apply Rmult_le_pos; auto; left; apply Rinv_0_lt_compat; auto|].
    apply Rmult_le_reg_r with (total (lw (st_pa st))); auto. unfold Rdiv. rewrite Rmult_assoc, Rinv_l, Rmult_1_r, Rmult_1_l; lra.
  - rewrite rsum_map_div. fold (total (lw (st_pa st))). field. lra.
  - intros i a Ha. rewrite nth_error_map, Ha. reflexivity.
Qed.

(** Adding a common offset to all log weights of each step changes nothing. *)
Definition shift (c : R) (st : tstep (list R)) : tstep (list R) :=
  mkStep (mkPA (part (st_pa st)) (map (fun a => xadd a (Fin c)) (lw (st_pa st))) (num (st_pa st)) (woff (st_pa st))) (st_anc st).
Theorem C32_offset_invariant : forall (N D : nat) (tr : list (tstep (list R))) (c : nat -> R) (tr' : list (tstep (list R))),
  (0 < N)%nat -> rect N D tr -> Forall (fun st => live (lw (st_pa st))) tr -> length tr' = length tr ->
  (forall k st, nth_error tr k = Some st -> nth_error tr' k = Some (shift (c k) st)) ->
  get_filtered_estimates tr' = get_filtered_estimates tr.
Proof.
  intros N D tr c tr' HN Hr Hl HL Hs.
  assert (Hr' : rect N D tr').
  { destruct Hr as [Hne Hr]. split; [intros ->; destruct tr; [congruence|discriminate]|].
    intros st' Hin. destruct (In_nth_error _ _ Hin) as [k Hk]. assert (Hk2 : (k < length tr)%nat) by (rewrite <- HL; apply nth_error_Some; congruence).
    destruct (nth_error tr k) as [st|] eqn:E; [|apply nth_error_None in E; lia]. rewrite (Hs _ _ E) in Hk. injection Hk as <-. cbn. rewrite map_length.
    apply Hr. eapply nth_error_In; eauto. }
  destruct (get_filtered_ok N D tr HN Hr) as (_ & _ & _ & E). destruct (get_filtered_ok N D tr' HN Hr') as (_ & _ & _ & E'). rewrite E, E'.
  f_equal. f_equal.
  - apply nth_error_ext. intros k. rewrite !nth_error_map. destruct (nth_error tr k) as [st|] eqn:Ek.
    + rewrite (Hs _ _ Ek). reflexivity.
    + replace (nth_error tr' k) with (@None (tstep (list R))); auto. symmetry. apply nth_error_None. apply nth_error_None in Ek. lia.
  - apply nth_error_ext. intros k. rewrite !nth_error_map. destruct (nth_error tr k) as [st|] eqn:Ek.
    + rewrite (Hs _ _ Ek). cbn [option_map]. f_equal. cbn [shift st_pa lw]. rewrite Forall_forall in Hl. specialize (Hl _ (nth_error_In _ _ Ek)).
      pose proof (total_pos _ Hl) as Ht. pose proof Hl as [F [r Hin]]. rewrite Forall_forall in F.
      assert (Hl' : live (map (fun a => xadd a (Fin (c k))) (lw (st_pa st)))).
      { split; [apply Forall_forall; intros x Hx; apply in_map_iff in Hx; destruct Hx as (a & <- & Ha); apply logish_xadd; [auto|exact I]|].
        exists (r + c k). apply in_map_iff. exists (Fin r). auto. }
      rewrite !step_weights_live by auto. f_equal. rewrite map_map. 
      assert (T : total (map (fun a => xadd a (Fin (c k))) (lw (st_pa st))) = exp (c k) * total (lw (st_pa st))).
      { unfold total. rewrite map_map, <- rsum_map_mul, map_map. f_equal. apply map_ext_in. intros a Ha. rewrite lin_xadd; [cbn; ring|auto|exact I]. }
      rewrite T. apply map_ext_in. intros a Ha. rewrite lin_xadd; [|auto|exact I]. cbn. pose proof (exp_pos (c k)). field. split; lra.
    + replace (nth_error tr' k) with (@None (tstep (list R))); auto. symmetry. apply nth_error_None. apply nth_error_None in Ek. lia.
Qed.

(** Bounds of a weighted mean. *)
Lemma expectation_range lo hi : forall (w : list R) (p : list (list R)) c, length w = length p -> Forall (fun x => 0 <= x) w ->
  (forall r, In r p -> lo <= nth c r 0 <= hi) -> lo * rsum w <= expectation w p c <= hi * rsum w.
Proof.
  unfold expectation. induction w as [|x w IH]; intros [|r p] c L F H; cbn in *; try discriminate; [lra|].
  inversion F; subst. assert (lo <= nth c r 0 <= hi) by auto. destruct (IH p c) as [A B]; auto.

  assert (lo * x <= x * nth c r 0 <= hi * x).
  { rewrite (Rmult_comm lo), (Rmult_comm hi). split; apply Rmult_le_compat_l; lra. }
  unfold rsum in *. lra.
Qed.

Lemma zip_xmul (w : list R) p c : length w = length p ->
  zipw (fun a x => xmul a (Fin x)) (map Fin w) (column p c) = Ok (map Fin (map (fun a => fst a * nth c (snd a) 0) (combine w p))).
Proof.
  revert p. induction w as [|x w IH]; intros [|r p] L; cbn in *; try discriminate; auto.
  fold (column p c). rewrite IH by lia. reflexivity.
Qed.

Lemma wmean_ok d (w : list R) p : length w = length p -> wmean d (map Fin w) p = Ok (map (fun c => Fin (expectation w p c)) (seq 0 d)).
Proof.
  intros L. unfold wmean. generalize 0%nat. induction d as [|d IH]; intros n; cbn [seq fold_right map]; auto.
  rewrite zip_xmul by auto. cbn [rbind]. rewrite IH. cbn [rbind]. rewrite xsum_fin. reflexivity.
Qed.

Lemma mean_loop_ok d : forall (est : list (list (list R))) (ws : list (list xr)), length est = length ws ->
  (forall k p w, nth_error est k = Some p -> nth_error ws k = Some w -> exists w', w = map Fin w' /\ length w' = length p) ->
  exists ms, mean_loop d est ws = Ok ms /\ length ms = length est /\
    forall k p w', nth_error est k = Some p -> nth_error ws k = Some (map Fin w') -> nth_error ms k = Some (map (fun c => Fin (expectation w' p c)) (seq 0 d)).
Proof.
  induction est as [|p est IH]; intros [|w ws] L H; cbn in L; try discriminate.
  - exists []. split; auto. split; auto. intros [|k]; discriminate.
  - destruct (H 0%nat p w eq_refl eq_refl) as (w' & -> & Lw). cbn [mean_loop]. rewrite wmean_ok by auto. cbn [rbind].
    destruct (IH ws ltac:(lia) (fun k => H (S k))) as (ms & E & Lm & A). rewrite E. eexists. split; [reflexivity|]. split; [cbn; lia|].
    intros [|k] p' w2 Hp Hw; cbn in *; [|apply A; auto]. injection Hp as <-. injection Hw as Hw.
    replace w2 with w'; auto. clear - Hw. revert w2 Hw. induction w' as [|a w' IH']; intros [|b w2] Hw; cbn in Hw; try discriminate; auto.
    injection Hw as -> Hw. f_equal. auto.
Qed.

(** The filtered mean of each step is the expectation under those weights, so every
    component lies between the smallest and the largest value of that component among
    the step's particles. *)
Theorem C32_filtered_mean : forall (N D : nat) (tr : list (tstep (list R))),
  (0 < N)%nat -> rect N D tr -> Forall (fun st => live (lw (st_pa st))) tr ->
  exists ms, get_filtered_mean tr = Ok ms /\ length ms = length tr /\
    forall k st, nth_error tr k = Some st -> exists row, nth_error ms k = Some (map Fin row) /\ length row = D /\
      forall c, (c < D)%nat ->
        nth c row 0 = expectation (map (fun a => lin a / rsum (map lin (lw (st_pa st)))) (lw (st_pa st))) (part (st_pa st)) c /\
        forall lo hi, (forall r, In r (part (st_pa st)) -> lo <= nth c r 0 <= hi) -> lo <= nth c row 0 <= hi.
Proof.
  intros N D tr HN Hr Hl. destruct (get_filtered_ok N D tr HN Hr) as (st0 & E0 & Ec & E). unfold get_filtered_mean. rewrite E, E0. cbn [rbind fst snd]. rewrite Ec.
  destruct Hr as [Hne Hr]. rewrite Forall_forall in Hl.
  destruct (mean_loop_ok D (map (fun st => part (st_pa st)) tr) (map (fun st => step_weights (lw (st_pa st))) tr)) as (ms & Em & Lm & A).
  { rewrite !map_length. auto. }
  { intros k p w Hp Hw. apply nth_map_some in Hp, Hw. destruct Hp as (st & Hk & ->). destruct Hw as (st' & Hk' & ->). rewrite Hk in Hk'. injection Hk' as <-.
    pose proof (nth_error_In _ _ Hk) as Hin. destruct (Hr _ Hin) as (L1 & L2 & _).
    rewrite step_weights_live by auto. eexists. split; [reflexivity|]. rewrite map_length. lia. }
  exists ms. split; auto. split; [rewrite Lm, map_length; auto|].
  intros k st Hk. pose proof (nth_error_In _ _ Hk) as Hin. specialize (Hl _ Hin). destruct (Hr _ Hin) as (L1 & L2 & _).
  set (w := map (fun a => lin a / total (lw (st_pa st))) (lw (st_pa st))).
  exists (map (fun c => expectation w (part (st_pa st)) c) (seq 0 D)).
  split; [rewrite map_map; apply A; rewrite nth_error_map, Hk; cbn; auto; f_equal; apply step_weights_live; auto|].
  split; [rewrite map_length, seq_length; auto|]. intros c Hc.
  assert (En : nth c (map (fun c => expectation w (part (st_pa st)) c) (seq 0 D)) 0 = expectation w (part (st_pa st)) c).
  { rewrite nth_indep with (d' := expectation w (part (st_pa st)) 0) by (rewrite map_length, seq_length; auto).
    rewrite (map_nth (fun c => expectation w (part (st_pa st)) c)), seq_nth; auto. }
  rewrite En. split; auto. intros lo hi Hlh. pose proof (total_pos _ Hl) as Ht.
  assert (Sw : rsum w = 1). { unfold w. rewrite rsum_map_div. fold (total (lw (st_pa st))). field. lra. }
  destruct (expectation_range lo hi w (part (st_pa st)) c) as [B1 B2]; auto.
  { unfold w. rewrite map_length. lia. }
  { apply Forall_forall. intros x Hx. apply in_map_iff in Hx. destruct Hx as (a & <- & _). apply Rmult_le_pos; [apply lin_nonneg|left; apply Rinv_0_lt_compat; auto]. }
  rewrite Sw in *. lra.
Qed.

Lemma sest_loop_ok N D tr : (forall st, In st tr -> length (part (st_pa st)) = N /\ Forall (fun r => length r = D) (part (st_pa st))) ->
  sest_loop N D tr = Ok (map (fun st => part (st_pa st)) tr).
Proof.
  induction tr as [|st tr IH]; intros H; cbn [sest_loop map]; auto.
  destruct (H st ltac:(left; auto)) as (L1 & F). unfold assign. rewrite L1, !Nat.eqb_refl. cbn [andb].
  assert (B : forallb (fun r => Nat.eqb (length r) D) (part (st_pa st)) = true).
  { apply forallb_forall. intros r Hr. rewrite Forall_forall in F. apply Nat.eqb_eq. auto. }
  rewrite B. cbn [rbind]. rewrite IH by (intros; apply H; right; auto). reflexivity.
Qed.

Lemma expectation_repeat x (p : list (list R)) c : expectation (repeat x (length p)) p c = x * rsum (column p c).
Proof. unfold expectation, column. induction p as [|r p IH]; cbn; [ring|]. unfold rsum in *. rewrite IH. ring. Qed.

(** The smoothed estimates are the stored trajectories, and the smoothed mean of each
    step is the plain average of its particles, within their componentwise range. *)
Theorem C32_smoothed_mean : forall (M D : nat) (tr : list (tstep (list R))),
  (0 < M)%nat -> tr <> [] ->
  (forall st, In st tr -> length (part (st_pa st)) = M /\ Forall (fun r => length r = D) (part (st_pa st))) ->
  get_smoothed_estimates tr = Ok (map (fun st => part (st_pa st)) tr) /\
  exists ms, get_smoothed_mean tr = Ok ms /\ length ms = length tr /\
    forall k st, nth_error tr k = Some st -> exists row, nth_error ms k = Some (map Fin row) /\ length row = D /\
      forall c, (c < D)%nat ->
        nth c row 0 = rsum (map (fun r => nth c r 0) (part (st_pa st))) / INR M /\
        forall lo hi, (forall r, In r (part (st_pa st)) -> lo <= nth c r 0 <= hi) -> lo <= nth c row 0 <= hi.
Proof.
  intros M D tr HM Hne H. destruct tr as [|st0 tr0] eqn:Etr; [congruence|]. rewrite <- Etr in *.
  destruct (H st0) as (L0 & F0); [rewrite Etr; left; auto|].
  assert (E : get_smoothed_estimates tr = Ok (map (fun st => part (st_pa st)) tr)).
  { unfold get_smoothed_estimates. rewrite Etr at 1. cbn [idx nth_error rbind]. rewrite (ncols_rect M D _ HM L0 F0), L0. apply sest_loop_ok. auto. }
  split; auto. unfold get_smoothed_mean. rewrite E. cbn [rbind]. replace (idx tr 0) with (Ok st0) by (rewrite Etr; reflexivity). cbn [rbind].
  rewrite (ncols_rect M D _ HM L0 F0). eexists. split; [reflexivity|]. split; [rewrite !map_length; auto|].
  intros k st Hk. destruct (H st (nth_error_In _ _ Hk)) as (L & F). assert (HM0 : 0 < INR M) by (apply lt_0_INR; auto).
  exists (map (fun c => rsum (column (part (st_pa st)) c) / INR M) (seq 0 D)).
  split; [|split; [rewrite map_length, seq_length; auto|]].
  - rewrite map_map, nth_error_map, Hk. cbn. f_equal. unfold pmean. rewrite map_map. apply map_ext. intros c. rewrite xsum_fin, L. cbn. rewrite Reqb_false by lra. reflexivity.
  - intros c Hc.
    assert (En : nth c (map (fun c => rsum (column (part (st_pa st)) c) / INR M) (seq 0 D)) 0 = rsum (column (part (st_pa st)) c) / INR M).
    { rewrite nth_indep with (d' := rsum (column (part (st_pa st)) 0) / INR M) by (rewrite map_length, seq_length; auto).
      rewrite (map_nth (fun c => rsum (column (part (st_pa st)) c) / INR M)), seq_nth; auto. }
    rewrite En. split; [reflexivity|]. intros lo hi Hlh.
    destruct (expectation_range lo hi (repeat (/ INR M) (length (part (st_pa st)))) (part (st_pa st)) c) as [B1 B2]; auto.
    { apply repeat_length. }
    { apply Forall_forall. intros x Hx. apply repeat_spec in Hx. subst. left. apply Rinv_0_lt_compat. auto. }
    rewrite expectation_repeat, rsum_repeat, L in *. rewrite Rinv_r in * by lra. unfold Rdiv. rewrite Rmult_comm. lra.
Qed.

(** A two step trajectory of two particles in the plane; one log weight is -inf. *)
Definition est_traj : list (tstep (list R)) :=
  [mkStep (mkPA [[0; 1]; [2; 3]] [Fin 0; Fin (-1)] 2 (Fin 0)) [0; 1]%nat; mkStep (mkPA [[0; 1]; [5; 3]] [NInf; Fin 3] 2 (Fin 0)) [0; 0]%nat].
Example C32_example : rect 2 2 est_traj /\ Forall (fun st => live (lw (st_pa st))) est_traj.
Proof.
  split.
  - split; [discriminate|]. intros st [<-|[<-|[]]]; cbn; repeat split; auto; repeat constructor.
  - apply Forall_cons; [|apply Forall_cons; [|constructor]]; (split; [repeat constructor|]); [exists 0|exists 3]; cbn; auto.
Qed.

Print Assumptions C32_filtered_weights.
Print Assumptions C32_offset_invariant.
Print Assumptions C32_filtered_mean.
Print Assumptions C32_smoothed_mean.
