(** C23, the law: what the trajectories of the 'ancestor' smoother (smoother.py:270-319) are on average. *)
From Coquelicot Require Import Coquelicot.
From Coq Require Import ZArith String Reals Lra Lia List Arith.
From Verif Require Import Base XR SampleModel SampleSpec SampleProofs PAModel WeightSpec WeightProofs
  FilterModel TrajModel FilterSpec SmoothModel SmoothSpec SmoothProofs SmoothBsi SmoothPath SmoothExample Prop_Smooth EvidenceSpec Evidence FfbsiSpec Ffbsi
  GibbsSpec Gibbs GibbsRun GibbsKernel Prop_Ffbsi.
Import ListNotations.
Open Scope R_scope.

(** The states along a recorded line of descent. *)
Definition states {P} (tr : list (tstep P)) (line : nat -> nat) : list P :=
  flat_map (fun k => match nth_error tr k with
                     | Some st => match nth_error (part (st_pa st)) (line k) with Some x => [x] | None => [] end
                     | None => []
                     end) (seq 0 (length tr)).

Lemma states_path {P} : forall (tr : list (tstep P)) line, lineage tr line -> tr <> [] -> states tr line = path tr (line (length tr - 1)%nat).
Proof.
  induction tr as [|st tr IH] using rev_ind; intros line Hl Hne; [congruence|].
  unfold states. rewrite app_length. simpl length at 1. rewrite Nat.add_1_r, seq_S, flat_map_app. simpl plus. cbn [flat_map]. rewrite app_nil_r.
  rewrite nth_error_app2, Nat.sub_diag by lia. cbn [nth_error]. rewrite path_snoc. simpl length.
  replace (S (length tr) - 1)%nat with (length tr) by lia. f_equal.
  assert (E : flat_map (fun k => match nth_error (tr ++ [st]) k with
      Some st0 => match nth_error (part (st_pa st0)) (line k) with Some x => [x] | None => [] end | None => [] end) (seq 0 (length tr)) = states tr line).
  { unfold states. assert (G : forall q, (forall k, In k q -> (k < length tr)%nat) ->
      flat_map (fun k => match nth_error (tr ++ [st]) k with
      Some st0 => match nth_error (part (st_pa st0)) (line k) with Some x => [x] | None => [] end | None => [] end) q =
      flat_map (fun k => match nth_error tr k with
      Some st0 => match nth_error (part (st_pa st0)) (line k) with Some x => [x] | None => [] end | None => [] end) q).
    { induction q as [|k q IHq]; intros Hq; [reflexivity|]. cbn [flat_map]. rewrite nth_error_app1 by (apply Hq; simpl; auto). f_equal. apply IHq.
      intros k' Hk'. apply Hq. simpl; auto. }
    apply G. intros k Hk. apply in_seq in Hk. lia. }
  rewrite E. clear E. destruct tr as [|st0 tr0]; [reflexivity|].
  rewrite IH; [|intros k s1 Hk; apply (Hl k s1); rewrite nth_error_app1; auto; apply nth_error_Some; congruence|discriminate]. f_equal.
  pose proof (Hl (length tr0) st) as H. simpl length. replace (S (length tr0) - 1)%nat with (length tr0) by lia.
  assert (Es : nth_error ((st0 :: tr0) ++ [st]) (S (length tr0)) = Some st) by (rewrite nth_error_app2 by (simpl; lia); simpl; rewrite Nat.sub_diag; reflexivity).
  apply H in Es. symmetry. apply nth_error_nth. exact Es.
Qed.

Section Law.
Context {P U Y V : Type}.

(** The mean over the M trajectories drawn from a filter result, averaged over the random number used, is the mean over the filter's last
    particles, weighted with their normalised weights, each standing for the recorded line of descent that ends in it. *)
Theorem C23_trajectory_law : forall (sm : smodel (list R) P U Y V) (junk : nat -> nat) (fuel : nat) (pt : ptraj P U Y) (N m : nat)
    (so : option soptions) (lj : xr) (phi : list P -> R) (lines : nat -> nat -> nat) pre last,
  plain_copy sm -> s_post sm = None -> (0 < N)%nat -> (0 < m)%nat -> pt_traj pt = pre ++ [last] -> Forall (step_wf N) (pt_traj pt) ->
  live (lw (st_pa last)) ->
  (forall i, (i < N)%nat -> lineage (pt_traj pt) (lines i) /\ lines i (length pre) = i) ->
  expect 1 (fun draws => match perform_smoothing sm tape junk fuel pt m "ancestor" so lj draws with
                         | Ok (st, _) => rsum (map (fun j => phi (trajectory (sm_traj st) j)) (seq 0 m)) / INR m
                         | Err _ => 0
                         end)
    (rsum (map (fun i => nweight (lw (st_pa last)) i * phi (states (pt_traj pt) (lines i))) (seq 0 N))).
Proof.
  intros sm junk fuel pt N m so lj phi lines pre last Hcp Hpost HN Hm Htr Hwf Hlv Hli.
  assert (HmR : 0 < INR m) by (apply lt_0_INR; exact Hm).
  assert (Wf : step_wf N last) by (rewrite Htr in Hwf; apply Forall_app in Hwf; destruct Hwf as [_ Hwf]; inversion Hwf; auto).
  destruct Wf as (W1 & W2 & _).
  set (w := map lin (lw (st_pa last))). assert (Hw : weights_ok w) by (apply weights_ok_lin; exact Hlv).
  assert (Lw : length w = N) by (unfold w; rewrite map_length; lia).
  assert (Hne : pt_traj pt <> []) by (rewrite Htr; destruct pre; discriminate).
  set (c := fun i => phi (path (pt_traj pt) i)).
  cbn [expect].
  exists (fun r => / INR m * match np_sample (map Fin w) m r with Ok l => rsum (map c l) | Err _ => 0 end). split.
  - intros r Hr. destruct (sample_valid w m r Hw ltac:(unfold unit_draw; lra)) as (ind & Es & Li & Fi & _). rewrite Es.
    destruct (smooth_call sm junk fuel Hcp Hpost pt N m so lj pre last r ind [] Htr Hwf HN Hm Hlv Hr Es) as (st & w' & -> & Htj).
    unfold Rdiv. rewrite Rmult_comm. f_equal. rewrite <- Li.
    assert (G : forall ind k, (forall j i, nth_error ind j = Some i -> trajectory (sm_traj st) (k + j) = path (pt_traj pt) i) ->
       rsum (map c ind) = rsum (map (fun j => phi (trajectory (sm_traj st) j)) (seq k (length ind)))).
    { clear. induction ind as [|i ind IH]; intros k H; [reflexivity|]. unfold rsum in *. cbn [length seq map fold_right]. f_equal.
      - unfold c. f_equal. symmetry. rewrite <- (H 0%nat i eq_refl), Nat.add_0_r. reflexivity.
      - apply IH. intros j i' Hj. rewrite <- (H (S j) i' Hj). f_equal. lia. }
    apply (G ind 0%nat). exact Htj.
  - pose proof (is_RInt_scal (V := R_NormedModule) _ _ _ (/ INR m) _ (sample_average w m c Hw Hm)) as Q.
    unfold scal in Q; simpl in Q; unfold mult in Q; simpl in Q. rewrite <- Rmult_assoc, Rinv_l, Rmult_1_l, Lw in Q by lra.
    match goal with |- is_RInt _ 0 1 ?z => match type of Q with is_RInt _ 0 1 ?z' => replace z with z'; [exact Q|] end end.
    apply rsum_ext. intros i Hi. apply in_seq in Hi. destruct (Hli i) as [H1 H2]; [lia|].
    rewrite (states_path _ _ H1 Hne), Htr, app_length. simpl length. replace (length pre + 1 - 1)%nat with (length pre) by lia. rewrite H2.
    unfold c. rewrite Htr. f_equal. unfold nweight, w, total. f_equal.
    rewrite (nth_indep _ 0 (lin NInf)) by (rewrite map_length; lia). apply map_nth.
Qed.

(** Every last particle has such a line of descent. *)
Theorem C23_lines_exist : forall (pt : ptraj P U Y) (N : nat) pre last, (0 < N)%nat -> pt_traj pt = pre ++ [last] -> Forall (step_wf N) (pt_traj pt) ->
  exists lines, forall i, (i < N)%nat -> lineage (pt_traj pt) (lines i) /\ lines i (length pre) = i.
Proof.
  intros pt N pre last HN Htr Hwf. rewrite Htr in *. clear pt Htr. revert last Hwf.
  induction pre as [|st pre IH] using rev_ind; intros last Hwf.
  - exists (fun i _ => i). intros i Hi. split; [|reflexivity]. intros k st Hk. cbn in Hk. destruct k; discriminate.
  - apply Forall_app in Hwf. destruct Hwf as [Hwf Hlast]. destruct (IH st Hwf) as [lines Hl].
    inversion Hlast as [|? ? (W1 & W2 & W3 & W4 & W5) _]; subst.
    set (par := fun i => nth i (st_anc last) 0%nat).
    exists (fun i k => if Nat.ltb k (length pre + 1) then lines (par i) k else i). intros i Hi.
    assert (Hp : nth_error (st_anc last) i = Some (par i)) by (apply nth_error_nth'; lia).
    assert (Hpn : (par i < length (st_anc last))%nat).
    { rewrite Forall_forall in W5. rewrite W4. apply W5. eapply nth_error_In; eauto. }
    rewrite W4 in Hpn. destruct (Hl (par i) Hpn) as [L1 L2]. split.
    + intros k s Hk. assert (Lk : (S k < length ((pre ++ [st]) ++ [last]))%nat) by (apply nth_error_Some; congruence). rewrite !app_length in Lk. simpl in Lk.
      destruct (Nat.ltb (S k) (length pre + 1)) eqn:E1.
      * apply Nat.ltb_lt in E1. rewrite (proj2 (Nat.ltb_lt k _)) by lia. apply (L1 k s). rewrite nth_error_app1 in Hk; auto. rewrite app_length. simpl. lia.
      * apply Nat.ltb_ge in E1. assert (k = length pre) by lia. subst k. rewrite (proj2 (Nat.ltb_lt (length pre) _)) by lia. rewrite L2.
        rewrite nth_error_app2 in Hk by (rewrite app_length; cbn [length]; lia). rewrite app_length in Hk.
        replace (S (length pre) - (length pre + length [st]))%nat with 0%nat in Hk by (cbn [length]; lia). injection Hk as <-. exact Hp.
    + rewrite app_length. simpl. rewrite Nat.ltb_irrefl. reflexivity.
Qed.
End Law.

(** Three trajectories through two stored steps; the last step's particles 3 and 4 have weights exp(-2) and 1 and descend from the states 1
    and 0: the mean of the first state. *)
Definition law_pt : ptraj R R R := mkPT 2 (FPF 1) [CVal 0; CNone] [CVal 0; CVal 1] [0; 1]%nat 2 2
  [mkStep (mkPA [0; 1] [Fin 0; Fin (-1)] 2 (Fin 0)) [0; 1]%nat; mkStep (mkPA [3; 4] [Fin (-2); Fin 0] 2 (Fin 0)) [1; 0]%nat].
Example C23_law_instance :
  expect 1 (fun draws => match perform_smoothing (swalk soft) tape (fun _ => 0%nat) 0 law_pt 3 "ancestor" None NaN draws with
                         | Ok (st, _) => rsum (map (fun j => hd 5 (trajectory (sm_traj st) j)) (seq 0 3)) / INR 3
                         | Err _ => 0
                         end) (exp (-2) / (exp (-2) + 1)).
Proof.
  pose (lines := fun i k => match k with O => (1 - i)%nat | _ => i end).
  assert (Q : rsum (map (fun i => nweight [Fin (-2); Fin 0] i * hd 5 (states (pt_traj law_pt) (lines i))) (seq 0 2)) = exp (-2) / (exp (-2) + 1)).
  { unfold states, law_pt, lines, rsum, nweight, total. cbn. unfold rsum. cbn. rewrite exp_0. pose proof (exp_pos (-2)). field. lra. }
  rewrite <- Q.
  apply (C23_trajectory_law (swalk soft) (fun _ => 0%nat) 0 law_pt 2 3 None NaN (hd 5) lines
      [mkStep (mkPA [0; 1] [Fin 0; Fin (-1)] 2 (Fin 0)) [0; 1]%nat] (mkStep (mkPA [3; 4] [Fin (-2); Fin 0] 2 (Fin 0)) [1; 0]%nat));
      [apply swalk_plain|reflexivity|lia|lia|reflexivity|repeat constructor| |].
  + split; [repeat constructor|]. exists (-2). simpl. auto.
  + intros i Hi. split; [|destruct i as [|[|]]; [reflexivity..|lia]]. intros [|[|k]] st Hk; cbn in Hk; try discriminate.
    * inversion Hk; subst. destruct i as [|[|]]; [reflexivity..|lia].
Qed.

Print Assumptions C23_trajectory_law.
Print Assumptions C23_lines_exist.
