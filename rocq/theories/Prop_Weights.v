(** Properties C04 (log weights), C07, C08, C10, C12 (single update), C56: the
    ParticleApproximation and its weights (filter.py:1052-1143, 130-171). *)
From Coq Require Import Reals Lra Lia List.
From Verif Require Import Base XR SampleModel SampleSpec SampleProofs PAModel FilterModel WeightSpec WeightProofs.
Import ListNotations.
Open Scope R_scope.

(** ** C04: a common offset of all log weights has no effect *)
Definition shift_lw {P} (c : R) (pa : papprox P) : papprox P :=
  mkPA (part pa) (map (fun x => xadd x (Fin c)) (lw pa)) (num pa) (woff pa).

Lemma sampleM_ext {W} (g : rng W) w w' n : w <> [] -> w' <> [] ->
  (forall r, np_sample w n r = np_sample w' n r) -> forall s, sampleM g w n s = sampleM g w' n s.
Proof.
  intros H H' E s. unfold sampleM, bind, lift.
  destruct (idx_last (xcumsum w)) as [z|] eqn:Ez.
  2:{ exfalso. unfold idx_last in Ez. destruct (rev (xcumsum w)) eqn:E'; [|discriminate].
      apply (f_equal (@rev xr)) in E'. rewrite rev_involutive in E'. destruct w; [congruence|discriminate]. }
  destruct (idx_last (xcumsum w')) as [z'|] eqn:Ez'.
  2:{ exfalso. unfold idx_last in Ez'. destruct (rev (xcumsum w')) eqn:E'; [|discriminate].
      apply (f_equal (@rev xr)) in E'. rewrite rev_involutive in E'. destruct w'; [congruence|discriminate]. }
  destruct (draw g s) as [[r s']|]; auto. rewrite E. auto.
Qed.

Lemma live_nonempty w : live w -> w <> [].
Proof. intros [_ (r & H)] ->. inversion H. Qed.

Lemma sampleM_resample {W} (g : rng W) w m n s : live w -> xmax w = Ok m ->
  sampleM g (map xexp (map (fun x => xsub x m) w)) n s = sampleM g (map Fin (map lin w)) n s.
Proof.
  intros H Hm. apply sampleM_ext.
  - destruct w; [|simpl; congruence]. discriminate.
  - destruct w; [|simpl; congruence]. discriminate.
  - intros r. rewrite <- resample_ind_lin by auto. unfold resample_ind. rewrite Hm. simpl.
    rewrite map_map. auto.
Qed.

Theorem C04_log_offset_irrelevant : forall W P (g : rng W) (copy : list P -> list nat -> M W (list P))
    (pa : papprox P) (c : R) (n : nat) (s : W),
  live (lw pa) ->
  calc_Neff (shift_lw c pa) = calc_Neff pa /\
  pa_resample g copy (shift_lw c pa) n s = pa_resample g copy pa n s /\
  pa_sample g (shift_lw c pa) s = pa_sample g pa s.
Proof.
  intros W P g copy pa c n s H. split; [|split].
  - apply neff_shift; auto.
  - unfold pa_resample, shift_lw. cbn [lw part].
    destruct (live_max _ (live_shift c _ H)) as (m' & Hm' & _).
    destruct (live_max _ H) as (m & Hm & _). unfold bind, lift. rewrite Hm, Hm'.
    rewrite !sampleM_resample by auto using live_shift.
    rewrite (sampleM_ext g (map Fin (map lin (map (fun x => xadd x (Fin c)) (lw pa))))
                           (map Fin (map lin (lw pa)))); auto.
    + destruct (lw pa); [discriminate|simpl; congruence].
    + destruct (lw pa); [discriminate|simpl; congruence].
    + intros r. rewrite lin_shift by apply H. apply sample_scale; auto using exp_pos, weights_ok_lin.
  - unfold pa_sample, shift_lw. cbn [lw part]. unfold bind.
    rewrite (sampleM_ext g (map xexp (map (fun x => xadd x (Fin c)) (lw pa))) (map xexp (lw pa))); auto.
    + pose proof (live_nonempty _ H). destruct (lw pa); simpl; congruence.
    + pose proof (live_nonempty _ H). destruct (lw pa); simpl; congruence.
    + intros r. rewrite !map_exp by (try apply H; apply live_shift; auto).
      rewrite lin_shift by apply H. apply sample_scale; auto using exp_pos, weights_ok_lin.
Qed.

(** ** C07 *)
Theorem C07_neff_bounds : forall P (pa : papprox P), live (lw pa) ->
  exists e, calc_Neff pa = Ok (Fin e) /\
    e = (total (lw pa)) ^ 2 / rsum (map (fun x => lin x ^ 2) (lw pa)) /\
    1 <= e <= INR (length (lw pa)) /\
    (e = INR (length (lw pa)) <-> (forall x y, In x (lw pa) -> In y (lw pa) -> x = y)) /\
    (e = 1 <-> exists i, forall j x, nth_error (lw pa) j = Some (Fin x) -> j = i).
Proof.
  intros P pa H. exists (ess (map lin (lw pa))).
  pose proof (weights_ok_lin _ H) as [Hp Ht].
  split; [apply neff_fin; auto|]. split.
  { unfold ess, total. rewrite map_map. auto. }
  split; [|split].
  - pose proof (ess_bounds _ Hp Ht). rewrite map_length in H0. auto.
  - pose proof (ess_max_iff _ Ht) as E. rewrite map_length in E. rewrite E. clear E.
    destruct H as [Hl Hex]. rewrite Forall_forall in Hl. split.
    + intros E x y Hx Hy. specialize (E (lin x) (lin y) (in_map _ _ _ Hx) (in_map _ _ _ Hy)).
      pose proof (Hl x Hx). pose proof (Hl y Hy).
      destruct x, y; simpl in *; try contradiction; auto.
      * pose proof (exp_pos r). lra.
      * pose proof (exp_pos r). lra.
      * f_equal. apply exp_inv. auto.
    + intros E x y Hx Hy. apply in_map_iff in Hx, Hy. destruct Hx as (a & <- & Ha), Hy as (b & <- & Hb).
      f_equal. auto.
  - rewrite (ess_min_iff _ Hp Ht). split; intros (i & E); exists i.
    + intros j x Hj. apply E.
      * rewrite map_length. apply nth_error_Some. congruence.
      * rewrite (nth_error_nth (map lin (lw pa)) j 0 (x := exp x)).
        -- pose proof (exp_pos x). lra.
        -- rewrite nth_error_map, Hj. auto.
    + intros j Hj Hn. rewrite map_length in Hj. destruct (nth_error (lw pa) j) as [x|] eqn:Ex.
      * rewrite (nth_error_nth (map lin (lw pa)) j 0 (x := lin x)) in Hn
          by (rewrite nth_error_map, Ex; auto).
        destruct x; simpl in Hn; try lra. eauto.
      * apply nth_error_None in Ex. lia.
Qed.

Example C07_instance : live [NInf; Fin 0; Fin 0] /\
  calc_Neff (mkPA [1; 2; 3]%nat [NInf; Fin 0; Fin 0] 3 (Fin 0)) = Ok (Fin 2).
Proof.
  assert (H : live [NInf; Fin 0; Fin 0]).
  { split; [repeat constructor|]. exists 0. simpl. auto. }
  split; auto. unfold calc_Neff. cbn [lw]. rewrite neff_fin by auto. f_equal. f_equal.
  unfold ess. cbn. rewrite exp_0. field.
Qed.

(** ** C08 *)
Theorem C08_resample : forall W P (g : rng W) (pa : papprox P) (n : nat) (s : W),
  rng_ok g -> live (lw pa) -> length (part pa) = length (lw pa) -> (0 < n)%nat ->
  exists pa' ind r s',
    pa_resample g def_copy pa n s = Ok ((pa', ind), s') /\
    unit_draw r /\ np_sample (map Fin (map lin (lw pa))) n r = Ok ind /\
    length ind = n /\ length (part pa') = n /\
    (forall k, (k < n)%nat -> exists i, nth_error ind k = Some i /\ (i < length (part pa))%nat /\
        nth_error (part pa') k = nth_error (part pa) i) /\
    length (lw pa') = n /\ Forall (fun x => x = Fin (- ln (INR n))) (lw pa') /\
    total (lw pa') = 1 /\ num pa' = n /\ woff pa' = Fin 0.
Proof.
  intros W P g pa n s Hg H L Hn. destruct (live_max _ H) as (m & Hm & _).
  destruct (sampleM_ok g (map Fin (map lin (lw pa))) n s) as (ind & s1 & Hs).
  { pose proof (live_nonempty _ H). destruct (lw pa); simpl; congruence. }
  destruct (sampleM_spec _ _ _ _ _ _ Hg Hs) as (r & Hr & Hnp).
  destruct (np_sample_range _ _ _ _ Hr Hnp) as [Lind Rind]. rewrite !map_length in Rind.
  destruct (take_ok (part pa) ind) as [np Hnew].
  { rewrite L. auto. }
  exists (mkPA np (uniform_lw n) n (Fin 0)), ind, r, s1.
  assert (Hpos : 0 < INR n) by (apply lt_0_INR; auto).
  assert (Eu : ln (1 / INR n) = - ln (INR n)).
  { unfold Rdiv. rewrite Rmult_1_l. apply ln_Rinv. auto. }
  split; [|split; [auto|split; [auto|split; [auto|]]]].
  - unfold pa_resample, bind, lift. rewrite Hm. rewrite sampleM_resample by auto. rewrite Hs.
    unfold def_copy, lift. rewrite Hnew. reflexivity.
  - cbn [part lw num woff]. pose proof (take_length _ _ _ Hnew) as Ln. split; [lia|]. split.
    { intros k Hk. destruct (nth_error ind k) as [i|] eqn:Ei.
      - exists i. split; auto. split.
        + rewrite L. rewrite Forall_forall in Rind. apply Rind. eapply nth_error_In; eauto.
        + eapply take_nth; eauto.
      - apply nth_error_None in Ei. lia. }
    unfold uniform_lw. split; [apply repeat_length|]. split.
    { apply Forall_forall. intros x Hx. apply repeat_spec in Hx. subst. rewrite Eu. auto. }
    split; auto. unfold total. rewrite map_rep. simpl lin. rewrite Eu, exp_Ropp, exp_ln by auto.
    assert (Q : forall k c, rsum (repeat c k) = INR k * c).
    { induction k; intros c; [simpl; lra|]. rewrite S_INR. simpl. rewrite IHk. lra. }
    rewrite Q. field. lra.
Qed.

Definition const_rng (r : R) : rng unit := mkRng (fun s => (r, s)) (fun n s => (seq 0 n, s)).

Lemma const_rng_ok r : unit_draw r -> rng_ok (const_rng r).
Proof. intros H. split; simpl; auto. Qed.

Example C08_instance :
  let pa := mkPA [10; 20]%nat [NInf; Fin 0] 2 (Fin 3) in
  rng_ok (const_rng (1/2)) /\ live (lw pa) /\ length (part pa) = length (lw pa).
Proof.
  split; [apply const_rng_ok; unfold unit_draw; lra|]. split; auto.
  split; [repeat constructor|]. exists 0. simpl. auto.
Qed.

(** ** C10: one measurement *)
(** [meas] is whatever the model's measurement callback returned: new particle
    array and log likelihoods. *)
Theorem C10_measure_multiplies : forall W P U Y V (mdl : fmodel W P U Y V)
    traj anc (pa pa' : papprox P) (uvec : list (cell U)) (yvec : list (cell Y)) tvec k s s',
  Forall logish (lw pa) ->
  pf_measure mdl traj anc pa uvec yvec tvec k s = Ok (pa', s') ->
  exists p ll,
    m_measure mdl traj anc (part pa) uvec (firstn (k + 1) yvec) (firstn (k + 1) tvec) s = Ok ((p, ll), s') /\
    length ll = length (lw pa) /\
    (Forall logish ll -> survivor (lw pa) ll ->
      part pa' = p /\ num pa' = num pa /\
      rescaled (lw pa') /\
      (forall o, woff pa = Fin o -> exists o', woff pa' = Fin o' /\
         forall i a b, nth_error (lw pa) i = Some a -> nth_error ll i = Some b ->
           exists c, nth_error (lw pa') i = Some c /\
             xadd c (Fin o') = xadd (xadd a (Fin o)) b) /\
      (forall i a b, nth_error (lw pa) i = Some a -> nth_error ll i = Some b ->
         nweight (lw pa') i =
         lin a * lin b / rsum (map (fun ab => lin (fst ab) * lin (snd ab)) (combine (lw pa) ll)))).
Proof.
  intros W P U Y V mdl traj anc pa pa' uvec yvec tvec k s s' Hl H.
  unfold pf_measure in H. minv H. destruct a as [p ll]. inversion H; subst; clear H. rename b into pa'.
  exists p, ll. cbn [fst snd] in *.
  pose proof (add_weights_shape _ _ _ Hl0) as (_ & _ & L1 & L2). cbn [lw] in L1, L2.
  split; auto. split; auto. intros Hll Hs.
  destruct (add_weights_live (mkPA p (lw pa) (num pa) (woff pa)) _ _ Hl Hll Hs Hl0) as (R1 & R2 & R3 & R4 & R5 & R6 & c & R7 & R8).
  cbn [lw part num woff] in *. split; auto. split; auto. split; auto. split.
  - intros o Eo. rewrite Eo in R7. exists (o + c). split; auto.
    intros i a b Ha Hb. eexists. split; [eapply R8; eauto|].
    assert (La : logish a) by (rewrite Forall_forall in Hl; apply Hl; eapply nth_error_In; eauto).
    assert (Lb : logish b) by (rewrite Forall_forall in Hll; apply Hll; eapply nth_error_In; eauto).
    destruct a, b; simpl in La, Lb; try contradiction; simpl; auto. f_equal. lra.
  - intros i a b Ha Hb.
    assert (Z : total (lw pa') = exp (- c) *
        rsum (map (fun ab => lin (fst ab) * lin (snd ab)) (combine (lw pa) ll))).
    { apply zip_total; auto.
      intros j x y Hx Hy. eexists. split; [eapply R8; eauto|].
      assert (La : logish x) by (rewrite Forall_forall in Hl; apply Hl; eapply nth_error_In; eauto).
      assert (Lb : logish y) by (rewrite Forall_forall in Hll; apply Hll; eapply nth_error_In; eauto).
      rewrite lin_xsub_fin by (apply logish_xadd; auto). rewrite lin_xadd by auto. lra. }
    assert (La : logish a) by (rewrite Forall_forall in Hl; apply Hl; eapply nth_error_In; eauto).
    assert (Lb : logish b) by (rewrite Forall_forall in Hll; apply Hll; eapply nth_error_In; eauto).
    pose proof (live_total _ R2) as Hpos.
    unfold nweight. rewrite (nth_error_nth _ _ _ (R8 i a b Ha Hb)).
    rewrite lin_xsub_fin by (apply logish_xadd; auto). rewrite lin_xadd by auto.
    rewrite Z in *. pose proof (exp_pos (- c)). field. split; nra.
Qed.

(** ** C12, single update: the sum of the new weights, with the offset, is the sum of
    old weight times likelihood. *)
Theorem C12_update_total : forall P (pa pa' : papprox P) (ll : list xr) (o : R),
  Forall logish (lw pa) -> Forall logish ll -> survivor (lw pa) ll -> woff pa = Fin o ->
  add_weights pa ll = Ok pa' ->
  exists o', woff pa' = Fin o' /\
    total (lw pa') * exp o' =
    exp o * rsum (map (fun ab => lin (fst ab) * lin (snd ab)) (combine (lw pa) ll)).
Proof.
  intros P pa pa' ll o Hl Hll Hs Ho E.
  destruct (add_weights_live _ _ _ Hl Hll Hs E) as (R1 & R2 & R3 & R4 & R5 & R6 & c & R7 & R8).
  rewrite Ho in R7. exists (o + c). split; auto.
  rewrite (zip_total (exp (- c)) (lw pa) ll (lw pa')); auto; [|lia|].
  - rewrite exp_plus, exp_Ropp. field. pose proof (exp_pos c). lra.
  - intros j x y Hx Hy. eexists. split; [eapply R8; eauto|].
    assert (La : logish x) by (rewrite Forall_forall in Hl; apply Hl; eapply nth_error_In; eauto).
    assert (Lb : logish y) by (rewrite Forall_forall in Hll; apply Hll; eapply nth_error_In; eauto).
    rewrite lin_xsub_fin by (apply logish_xadd; auto). rewrite lin_xadd by auto. lra.
Qed.

Example C10_C12_instance :
  let pa := mkPA [1; 2; 3]%nat [NInf; Fin 0; Fin (-1)] 3 (Fin 0) in
  Forall logish (lw pa) /\ Forall logish [Fin 5; NInf; Fin 2] /\
  survivor (lw pa) [Fin 5; NInf; Fin 2] /\
  exists pa', add_weights pa [Fin 5; NInf; Fin 2] = Ok pa'.
Proof.
  split; [repeat constructor|]. split; [repeat constructor|]. split.
  - exists 2%nat, (-1), 2. auto.
  - cbn. eauto.
Qed.

(** ** C56 *)
(** Numpy's order: [np_le a b] when [b] does not sort strictly before [a]. *)
Definition np_le (a b : xr) : Prop := np_less b a = false.

Lemma np_le_trans a b c : np_le a b -> np_le b c -> np_le a c.
Proof.
  unfold np_le. destruct a, b, c; simpl; try congruence.
  rewrite !Rltb_false. lra.
Qed.
Lemma np_less_le a b : np_less a b = true -> np_le a b.
Proof. unfold np_le. destruct a, b; simpl; try congruence. rewrite Rltb_true, Rltb_false. lra. Qed.

From Coq Require Import Sorting.Permutation Sorting.Sorted.

Lemma ins_by_perm key i l : Permutation (i :: l) (ins_by key i l).
Proof.
  induction l as [|j l IH]; simpl; auto. destruct (np_less (key j) (key i)); auto.
  rewrite perm_swap. constructor. auto.
Qed.

Lemma ins_by_sorted key i l : StronglySorted (fun a b => np_le (key a) (key b)) l ->
  StronglySorted (fun a b => np_le (key a) (key b)) (ins_by key i l).
Proof.
  induction 1 as [|j l Hs IH Hj]; simpl.
  - constructor; constructor.
  - destruct (np_less (key j) (key i)) eqn:E.
    + constructor; auto. apply Forall_forall. intros x Hx.
      apply (Permutation_in x (Permutation_sym (ins_by_perm key i l))) in Hx.
      destruct Hx as [<-|Hx]; [apply np_less_le; auto|]. rewrite Forall_forall in Hj. auto.
    + constructor.
      * constructor; auto.
      * constructor; auto. rewrite Forall_forall in *. intros x Hx.
        eapply np_le_trans; [exact E|]. auto.
Qed.

Lemma argsort_spec w : Permutation (argsort w) (seq 0 (length w)) /\
  StronglySorted (fun a b => np_le (nth a w NaN) (nth b w NaN)) (argsort w).
Proof.
  unfold argsort. induction (seq 0 (length w)) as [|i l [P S]]; simpl.
  - split; constructor.
  - split.
    + rewrite <- ins_by_perm. constructor. auto.
    + apply ins_by_sorted. auto.
Qed.

Lemma take_firstn {A} (l : list A) n r : take l (seq 0 n) = Ok r -> r = firstn n l /\ (n <= length l)%nat.
Proof.
  intros H. pose proof (take_length _ _ _ H) as L. rewrite seq_length in L.
  pose proof (take_ok_inv _ _ _ H) as F. split.
  - apply nth_error_ext.
    intros k. destruct (Nat.lt_ge_cases k n) as [Hk|Hk].
      * rewrite (take_nth _ _ _ H k k).
        -- rewrite nth_error_firstn_lt; auto.
        -- rewrite nth_error_nth' with (d := 0%nat) by (rewrite seq_length; auto).
           rewrite seq_nth by auto. auto.
      * rewrite (proj2 (nth_error_None r k)) by lia. symmetry. apply nth_error_None.
        rewrite firstn_length. lia.
  - destruct n; [lia|]. rewrite Forall_forall in F. apply (F n). apply in_seq. lia.
Qed.

(** What the code guarantees: the [n] particles of SMALLEST weight, in increasing
    order of weight. *)
Theorem C56_find_best_returns_smallest : forall P (pa : papprox P) n l,
  find_best_particles pa n = Ok l ->
  length l = n /\ NoDup l /\ Forall (fun i => (i < length (lw pa))%nat) l /\
  (forall i j, In i l -> (j < length (lw pa))%nat -> ~ In j l ->
     np_le (nth i (lw pa) NaN) (nth j (lw pa) NaN)) /\
  StronglySorted (fun a b => np_le (nth a (lw pa) NaN) (nth b (lw pa) NaN)) l.
Proof.
  intros P pa n l H. unfold find_best_particles in H.
  destruct (argsort_spec (lw pa)) as [Hp Hs].
  pose proof (Permutation_length Hp) as L. rewrite seq_length in L.
  apply take_firstn in H. destruct H as [-> Hn].
  assert (ND : NoDup (argsort (lw pa))).
  { apply (Permutation_NoDup (Permutation_sym Hp)). apply seq_NoDup. }
  assert (Q : forall (R : nat -> nat -> Prop) k l, StronglySorted R l ->
     StronglySorted R (firstn k l) /\ forall i j, In i (firstn k l) -> In j (skipn k l) -> R i j).
  { clear. intros R k l H. revert k. induction H as [|a l H IH Ha]; intros k.
    - rewrite firstn_nil, skipn_nil. split; [constructor|]. intros i j [].
    - destruct k; simpl; [split; [constructor|intros i j []]|].
      destruct (IH k) as [A B]. rewrite Forall_forall in Ha. split.
      + constructor; auto. apply Forall_forall. intros x Hx. apply Ha.
        rewrite <- (firstn_skipn k l). apply in_or_app; auto.
      + intros i j [<-|Hi] Hj; auto. apply Ha. rewrite <- (firstn_skipn k l). apply in_or_app; auto. }
  destruct (Q _ n _ Hs) as [S1 S2].
  split; [rewrite firstn_length; lia|]. split.
  { rewrite <- (firstn_skipn n (argsort (lw pa))) in ND. clear -ND. induction (firstn n (argsort (lw pa))) as [|x l IH]; constructor;
    simpl in ND; inversion ND; subst; auto. intros Hx. apply H1. apply in_or_app; auto. }
  split.
  { apply Forall_forall. intros i Hi. assert (In i (argsort (lw pa))).
    { rewrite <- (firstn_skipn n). apply in_or_app; auto. }
    apply (Permutation_in _ Hp) in H. apply in_seq in H. lia. }
  split; auto.
  intros i j Hi Hj Hnj. apply S2; auto.
  assert (In j (argsort (lw pa))).
  { apply (Permutation_in _ (Permutation_sym Hp)). apply in_seq. lia. }
  rewrite <- (firstn_skipn n) in H. apply in_app_or in H. tauto.
Qed.

(** The documented behaviour ("find the best particles") is false. *)
Theorem C56_find_best_refuted :
  ~ (forall P (pa : papprox P) n l, find_best_particles pa n = Ok l ->
      forall i j, In i l -> (j < length (lw pa))%nat -> ~ In j l ->
        np_le (nth j (lw pa) NaN) (nth i (lw pa) NaN)).
Proof.
  intros H.
  specialize (H nat (mkPA [10; 20]%nat [Fin 0; Fin (-1)] 2 (Fin 0)) 1%nat [1%nat]).
  assert (E : find_best_particles (mkPA [10; 20]%nat [Fin 0; Fin (-1)] 2 (Fin 0)) 1 = Ok [1%nat]).
  { unfold find_best_particles, argsort. xcompute. reflexivity. }
  specialize (H E 1%nat 0%nat). simpl in H.
  assert (N : np_le (Fin 0) (Fin (-1))) by (apply H; auto; lia).
  unfold np_le in N. simpl in N. apply Rltb_false in N. lra.
Qed.
