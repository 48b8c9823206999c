(** Proofs for C81. *)
From Coquelicot Require Import Coquelicot.
From Coq Require Import ZArith String Reals Lra Lia List Arith.
From Verif Require Import Base XR SampleModel SampleSpec SampleProofs PAModel WeightSpec WeightProofs
  FilterModel TrajModel FilterSpec SmoothModel SmoothSpec SmoothProofs SmoothBsi SmoothRs SmoothLaw SmoothPath FilterProofs TrajProofs FilterTotal FilterSem FfbsiSpec.
Import ListNotations.
Open Scope R_scope.

(** ** Independent draws *)
Lemma expect_prod : forall (Gs : list (R -> R)) (vs : list R), Forall2 (fun G v => is_RInt G 0 1 v) Gs vs ->
  expect (length Gs) (fun l => rprod (map (fun Gr => (fst Gr) (snd Gr)) (combine Gs l))) (rprod vs).
Proof.
  induction 1 as [|G v Gs vs HG _ IH]; [reflexivity|]. cbn [length expect combine map rprod fold_right fst snd].
  fold (rprod vs). exists (fun r => G r * rprod vs). split.
  - intros r Hr. apply (expect_scale _ (G r)) in IH. exact IH.
  - pose proof (is_RInt_scal (V := R_NormedModule) _ _ _ (rprod vs) _ HG) as Q.
    unfold scal in Q; simpl in Q; unfold mult in Q; simpl in Q. rewrite Rmult_comm. eapply is_RInt_ext01; [|exact Q]. intros r Hr. simpl. lra.
Qed.

Lemma rsum_pairs {A} (f : nat -> R) (h : nat * A -> R) (l : list A) :
  (forall i x, nth_error l i = Some x -> f i = h (i, x)) -> rsum (map f (seq 0 (length l))) = rsum (map h (combine (seq 0 (length l)) l)).
Proof.
  intros H. assert (G : forall n l', (forall i x, nth_error l' i = Some x -> f (n + i)%nat = h ((n + i)%nat, x)) ->
    rsum (map f (seq n (length l'))) = rsum (map h (combine (seq n (length l')) l'))).
  { intros n l'. revert n. induction l' as [|a l' IH]; intros n Q; [reflexivity|]. cbn [length seq combine map]. unfold rsum in *. simpl. f_equal.
    - specialize (Q 0%nat a eq_refl). rewrite Nat.add_0_r in Q. exact Q.
    - apply IH. intros i x Hx. replace (S n + i)%nat with (n + S i)%nat by lia. apply Q. exact Hx. }
  apply (G 0%nat l). exact H.
Qed.

Lemma nth_error_combine {A B} (l1 : list A) (l2 : list B) i a b : nth_error (combine l1 l2) i = Some (a, b) ->
  nth_error l1 i = Some a /\ nth_error l2 i = Some b.
Proof. revert l2 i. induction l1 as [|x l1 IH]; intros [|y l2] [|i] H; try discriminate; simpl in *; [injection H as <- <-; auto|apply IH; auto]. Qed.

Lemma rprod_ext {A} (f h : A -> R) l : (forall x, In x l -> f x = h x) -> rprod (map f l) = rprod (map h l).
Proof. intros H. induction l as [|a l IH]; [reflexivity|]. simpl. f_equal; [apply H; simpl; auto|]. apply IH. intros. apply H. simpl; auto. Qed.

Section Loop.
Context {P U Y V : Type}.
Variable sm : smodel (list R) P U Y V.
Variables (junk : nat -> nat) (fuel : nat).
Variable ld : cell U -> nat -> P -> P -> xr.
Hypothesis Hmk : markov_density sm ld.
Hypothesis Hcp : plain_copy sm.
Variable pt : ptraj P U Y.
Variable N : nat.
Hypothesis HN : (0 < N)%nat.
Hypothesis Hsm : smoothable ld N pt.
Variable m : nat.
Hypothesis Hm : (0 < m)%nat.
Variable o : option soptions.
Variable phi : nat -> list P -> R.
Notation tr := (pt_traj pt).
Notation loop := (bsi_loop sm tape junk fuel BFull o m).

Definition value (out : list (tstep P)) : R := rprod (map (fun j => phi j (trajectory out j)) (seq 0 m)).

Lemma loop_law : forall n anc f0 rest st, nth_error tr n = Some st -> length (part (st_pa f0)) = m ->
  (forall x, In x (part (st_pa f0)) -> In x (part (st_pa st))) ->
  expect (n * m) (fun l => match loop n tr (pt_u pt) (pt_y pt) (pt_t pt) anc (f0 :: rest) l with Ok (out, _) => value out | Err _ => 0 end)
    (rprod (map (fun j => extend ld pt (phi j) n (trajectory (f0 :: rest) j)) (seq 0 m))).
Proof.
  induction n as [|k IH]; intros anc f0 rest st' Hst' Lf Hin.
  - cbn [Nat.mul expect bsi_loop extend]. reflexivity.
  - destruct Hsm as (Hne & Hwf & Hlv & Hus).
    assert (Hk : (k < length tr)%nat) by (assert (S k < length tr)%nat by (apply nth_error_Some; congruence); lia).
    assert (Q : exists st, nth_error tr k = Some st) by (destruct (nth_error tr k) eqn:E; [eauto|apply nth_error_None in E; lia]). destruct Q as [st Est].
    destruct (Hus k st st' Est Hst') as (uk & tk & Eu & Et & Hu).
    assert (Swf : step_wf N st) by (rewrite Forall_forall in Hwf; apply Hwf; eapply nth_error_In; eauto).
    destruct Swf as (W1 & W2 & W3 & W4 & W5).
    set (bw := fun j => match nth_error (part (st_pa f0)) j with Some x' => backward_weights (ld uk tk) (st_pa st) x' | None => [] end).
    set (c := fun j i => match nth_error (part (st_pa st)) i with Some x => extend ld pt (phi j) k (x :: trajectory (f0 :: rest) j) | None => 0 end).
    assert (Hreach : forall j, (j < m)%nat -> exists x', nth_error (part (st_pa f0)) j = Some x' /\ usable (ld uk tk) (st_pa st) x').
    { intros j Hj. destruct (nth_error (part (st_pa f0)) j) as [x'|] eqn:E; [|apply nth_error_None in E; lia].
      exists x'. split; auto. apply Hu. apply Hin. eapply nth_error_In; eauto. }
    replace (S k * m)%nat with (m + k * m)%nat by lia.
    set (Gs := map (fun j r => c j (pick (bw j) r)) (seq 0 m)).
    assert (LG : length Gs = m) by (unfold Gs; rewrite map_length, seq_length; auto).
    eapply expect_app with (h := fun l => rprod (map (fun Gr => (fst Gr) (snd Gr)) (combine Gs l))).
    + rewrite <- LG at 1. 
      replace (rprod (map (fun j => extend ld pt (phi j) (S k) (trajectory (f0 :: rest) j)) (seq 0 m)))
        with (rprod (map (fun j => rsum (map (fun i => nth i (bw j) 0 / rsum (bw j) * c j i) (seq 0 (length (bw j))))) (seq 0 m))).
      * apply expect_prod. unfold Gs. 
        assert (Q : forall q, (forall j, In j q -> (j < m)%nat) -> Forall2 (fun G v => is_RInt G 0 1 v) (map (fun j r => c j (pick (bw j) r)) q)
          (map (fun j => rsum (map (fun i => nth i (bw j) 0 / rsum (bw j) * c j i) (seq 0 (length (bw j))))) q)).
        { induction q as [|j q IHq]; intros Hq; constructor; [|apply IHq; intros; apply Hq; simpl; auto].
          apply pick_integral. destruct (Hreach j) as (x' & Ex & Hx); [apply Hq; simpl; auto|]. unfold bw. rewrite Ex. apply usable_weights. exact Hx. }
        apply Q. intros j Hj. apply in_seq in Hj. lia.
      * apply rprod_ext. intros j Hj. apply in_seq in Hj. destruct (Hreach j) as (x' & Ex & Hx); [lia|].
        cbn [extend]. rewrite Est, Eu, Et. unfold trajectory at 1. cbn [flat_map]. rewrite Ex. cbn [app]. unfold choice, bw. rewrite Ex.
        rewrite (backward_weights_length (ld uk tk) (st_pa st) x') by exact Hx. rewrite W2, <- W1.
        apply rsum_pairs. intros i x Hi. unfold c. rewrite Hi. cbn [fst snd]. reflexivity.
    + intros l Ll Fl. 
      set (ind := map (fun fr => match nth_error (part (st_pa f0)) (fst fr) with Some x' => pick (backward_weights (ld uk tk) (st_pa st) x') (snd fr) | None => 0%nat end)
        (combine (seq 0 m) l)).
      assert (Hfull : forall l', bsi_full sm tape (st_pa st) (firstn k tr) (st_anc st) (f0 :: rest) (seq 0 m) (pt_u pt) (pt_y pt) (pt_t pt) k (l ++ l') = Ok (ind, l')).
      { intros l'. rewrite (bsi_full_eq sm tape ld Hmk (pt_u pt) (pt_y pt) (pt_t pt) k uk tk Eu Et (st_pa st) (firstn k tr) (st_anc st) (f0 :: rest) f0 eq_refl).
        - rewrite seq_length, <- Ll, stream_tape by auto. cbn [fst snd]. rewrite Ll. reflexivity.
        - intros j Hj. apply in_seq in Hj. apply Hreach. lia. }
      assert (Li : length ind = m) by (unfold ind; rewrite map_length, combine_length, seq_length; lia).
      assert (Nind : forall j, (j < m)%nat -> exists r, nth_error l j = Some r /\ 0 < r < 1 /\ nth_error ind j = Some (pick (bw j) r)).
      { intros j Hj. destruct (nth_error l j) as [r|] eqn:Er; [|apply nth_error_None in Er; lia]. exists r. split; auto.
        split; [rewrite Forall_forall in Fl; apply Fl; eapply nth_error_In; eauto|]. unfold ind. rewrite nth_error_map.
        assert (Es : nth_error (seq 0 m) j = Some j) by (rewrite nth_error_nth' with (d := 0%nat) by (rewrite seq_length; auto); rewrite seq_nth by auto; reflexivity).
        rewrite (combine_nth_error _ _ _ _ _ Es Er). cbn [option_map fst snd]. unfold bw. destruct (Hreach j Hj) as (x' & -> & _). reflexivity. }
      assert (Find : Forall (fun i => (i < N)%nat) ind).
      { apply Forall_forall. intros i Hi. apply In_nth_error in Hi. destruct Hi as [j Hj].
        assert (Q : (j < m)%nat) by (rewrite <- Li; apply nth_error_Some; congruence).
        destruct (Nind j Q) as (r & _ & Hr & E). rewrite E in Hj. injection Hj as <-. destruct (Hreach j Q) as (x' & Ex & Hx). unfold bw. rewrite Ex.
        pose proof (pick_lt _ r (usable_weights _ _ _ Hx) Hr) as Q2. rewrite backward_weights_length in Q2 by exact Hx. lia. }
      destruct (take_ok (st_anc st) ind) as [a1 E1]; [rewrite W4; auto|].
      destruct (take_ok (part (st_pa st)) ind) as [p1 E2]; [rewrite W1; auto|].
      assert (Lp1 : length p1 = m) by (apply take_length in E2; lia).
      set (pa1 := mkPA p1 (repeat (Fin (- ln (INR (length p1)))) (length p1)) (length p1) (Fin 0)).
      assert (E3 : pa_init p1 None = Ok pa1) by (unfold pa_init; destruct p1; [simpl in Lp1; lia|reflexivity]).
      assert (Hp1 : forall x, In x p1 -> In x (part (st_pa st))).
      { assert (F : Forall (fun z => In z (part (st_pa st))) p1) by (eapply take_Forall; [exact E2|]; apply Forall_forall; auto).
        rewrite Forall_forall in F. exact F. }
      pose proof (IH a1 (mkStep pa1 (seq 0 m)) (f0 :: rest) st Est Lp1 Hp1) as IHl.
      replace (rprod (map (fun Gr => fst Gr (snd Gr)) (combine Gs l)))
        with (rprod (map (fun j => extend ld pt (phi j) k (trajectory (mkStep pa1 (seq 0 m) :: f0 :: rest) j)) (seq 0 m))).
      * eapply expect_ext; [|exact IHl]. intros l' _ _. cbv beta. cbn [bsi_loop]. unfold bind at 1, lift at 1. rewrite (proj2 (idx_ok _ _ _) Est).
        cbn [bsi_select]. unfold bind at 1. rewrite Hfull. unfold bind at 1, lift at 1. rewrite E1. unfold bind at 1, lift at 1. rewrite E2.
        unfold bind at 1. rewrite Hcp. unfold bind at 1, lift at 1. rewrite E3. reflexivity.
      * assert (EG : forall q, (forall j, In j q -> (j < m)%nat) -> forall l0, (forall i j, nth_error q i = Some j -> nth_error l0 i = nth_error l j) -> length l0 = length q ->
           rprod (map (fun j => extend ld pt (phi j) k (trajectory (mkStep pa1 (seq 0 m) :: f0 :: rest) j)) q) =
           rprod (map (fun Gr => fst Gr (snd Gr)) (combine (map (fun j r => c j (pick (bw j) r)) q) l0))).
        { induction q as [|j q IHq]; intros Hq l0 Hl0 L0; [reflexivity|]. destruct l0 as [|r l0]; [discriminate|].
          cbn [map combine rprod fold_right fst snd]. f_equal.
          - assert (Q : (j < m)%nat) by (apply Hq; simpl; auto). destruct (Nind j Q) as (r' & Er & _ & Ei).
            specialize (Hl0 0%nat j eq_refl). simpl in Hl0. rewrite Er in Hl0. injection Hl0 as ->.
            pose proof (take_nth _ _ _ E2 j _ Ei) as Ep. unfold c. rewrite <- Ep. unfold trajectory at 1. cbn [flat_map st_pa pa1 part].
            destruct (nth_error p1 j) as [x|] eqn:Ex; [reflexivity|]. apply nth_error_None in Ex. lia.
          - apply IHq; [intros; apply Hq; simpl; auto| |simpl in L0; lia]. intros i j' Hj'. apply (Hl0 (S i)). exact Hj'. }
        apply EG; [intros j Hj; apply in_seq in Hj; lia| |rewrite seq_length; exact Ll].
        intros i j Hj. assert (i < m)%nat by (rewrite <- (seq_length m 0); apply nth_error_Some; congruence).
        apply (nth_error_nth _ _ 0%nat) in Hj. rewrite seq_nth in Hj by auto. simpl in Hj. subst. reflexivity.
Qed.
End Loop.

(** Mean number of copies, for any number of draws. *)
Lemma sample_average (w : list R) (n : nat) (c : nat -> R) : weights_ok w -> (0 < n)%nat ->
  is_RInt (fun r => match np_sample (map Fin w) n r with Ok l => rsum (map c l) | Err _ => 0 end) 0 1
    (INR n * rsum (map (fun j => nth j w 0 / rsum w * c j) (seq 0 (length w)))).
Proof.
  intros Hw Hn.
  rewrite <- rsum_map_scale.
  eapply is_RInt_ext01 with (f := fun r => rsum (map (fun j => c j * copies w n j r) (seq 0 (length w)))).
  - intros r Hr. destruct (sample_valid w n r Hw ltac:(unfold unit_draw; lra)) as (l & El & _ & Fl & _). rewrite El.
    rewrite (occ_sum _ (length w) c) by exact Fl. apply rsum_ext. intros j _. unfold copies. rewrite El. ring.
  - apply is_RInt_rsum. intros j Hj. apply in_seq in Hj.
    assert (Ec : nth_error w j = Some (nth j w 0)) by (apply nth_error_nth'; lia).
    pose proof (is_RInt_scal (V := R_NormedModule) _ _ _ (c j) _ (sample_expected w n j _ Hw Hn Ec)) as HS.
    unfold scal in HS; simpl in HS; unfold mult in HS; simpl in HS.
    replace (INR n * (nth j w 0 / rsum w * c j)) with (c j * (INR n * (nth j w 0 / rsum w))) by ring. exact HS.
Qed.

Section Pass.
Context {P U Y V : Type}.
Variable sm : smodel (list R) P U Y V.
Variables (junk : nat -> nat) (fuel : nat).
Variable ld : cell U -> nat -> P -> P -> xr.
Hypothesis Hmk : markov_density sm ld.
Hypothesis Hcp : plain_copy sm.
Hypothesis Hpost : s_post sm = None.
Variable pt : ptraj P U Y.
Variable N : nat.
Hypothesis HN : (0 < N)%nat.
Hypothesis Hsm : smoothable ld N pt.
Variable m : nat.
Hypothesis Hm : (0 < m)%nat.
Variables (so : option soptions) (lj : xr).
Notation tr := (pt_traj pt).
Notation T := (length tr - 1)%nat.
Notation run := (perform_smoothing sm tape junk fuel pt m "full" so lj).

Definition from_last (last : tstep P) (phi : list P -> R) (i : nat) : R :=
  match nth_error (part (st_pa last)) i with Some x => extend ld pt phi T [x] | None => 0 end.

Lemma last_ex : exists pre last, tr = pre ++ [last] /\ step_wf N last /\ live (lw (st_pa last)) /\ nth_error tr T = Some last.
Proof.
  destruct Hsm as (Hne & Hwf & Hlv & _). destruct (exists_last Hne) as (pre & last & E). exists pre, last. split; [exact E|].
  assert (I1 : In last tr) by (rewrite E; apply in_or_app; simpl; auto). rewrite Forall_forall in Hwf, Hlv.
  split; [apply Hwf; exact I1|]. split; [apply Hlv; exact I1|].
  rewrite E, app_length. simpl. rewrite nth_error_app2 by lia.
  replace (length pre + 1 - 1 - length pre)%nat with 0%nat by lia. reflexivity.
Qed.

Lemma pass_law phi pre last r ind : tr = pre ++ [last] -> 0 < r < 1 -> np_sample (map Fin (map lin (lw (st_pa last)))) m r = Ok ind ->
  expect (T * m) (fun l => match run (r :: l) with Ok (st, _) => value m phi (sm_traj st) | Err _ => 0 end)
    (rprod (map (fun ji => from_last last (phi (fst ji)) (snd ji)) (combine (seq 0 m) ind))).
Proof.
  intros Etr Hr Hs.
  destruct last_ex as (pre' & last' & E & Lwf & Llv & Nl). rewrite Etr in E. apply app_inj_tail in E. destruct E as [<- <-].
  destruct Lwf as (W1 & W2 & W3 & W4 & W5).
  destruct (norm_weights_ok (lw (st_pa last))) as (wn & Ew & _); [intros E; rewrite E in W2; simpl in W2; lia|].
  destruct (sample_valid _ m r (weights_ok_lin _ Llv) ltac:(unfold unit_draw; lra)) as (ind' & Es & Li & Fi & _).
  rewrite Hs in Es. injection Es as <-. rewrite map_length, W2 in Fi.
  destruct (take_ok (st_anc last) ind) as [a1 E1]; [rewrite W4; auto|].
  destruct (take_ok (part (st_pa last)) ind) as [p1 E2]; [rewrite W1; auto|].
  assert (Lp1 : length p1 = m) by (apply take_length in E2; lia).
  set (pa1 := mkPA p1 (repeat (Fin (- ln (INR (length p1)))) (length p1)) (length p1) (Fin 0)).
  assert (E3 : pa_init p1 None = Ok pa1) by (unfold pa_init; destruct p1; [simpl in Lp1; lia|reflexivity]).
  assert (Hp1 : forall x, In x p1 -> In x (part (st_pa last))).
  { assert (F : Forall (fun z => In z (part (st_pa last))) p1) by (eapply take_Forall; [exact E2|]; apply Forall_forall; auto).
    rewrite Forall_forall in F. exact F. }
  set (o := match so with None => no_options | Some q => opt_update no_options q end).
  pose proof (loop_law sm junk fuel ld Hmk Hcp pt N HN Hsm m Hm (Some o) phi T a1 (mkStep pa1 (seq 0 m)) [] last Nl Lp1 Hp1) as L.
  replace (rprod (map (fun ji => from_last last (phi (fst ji)) (snd ji)) (combine (seq 0 m) ind)))
    with (rprod (map (fun j => extend ld pt (phi j) T (trajectory [mkStep pa1 (seq 0 m)] j)) (seq 0 m))).
  - eapply expect_ext; [|exact L]. intros l _ _. cbv beta. 
    unfold perform_smoothing, default_options. cbn [String.eqb Ascii.eqb Bool.eqb orb]. unfold bind at 1, ret at 1. fold o. unfold smooth. rewrite Hpost.
    cbn [String.eqb Ascii.eqb Bool.eqb orb hook]. unfold bind at 1.
    assert (EB : perform_bsi sm tape junk fuel BFull (Some o) tr (pt_u pt) (pt_y pt) (pt_t pt) m (r :: l) =
      bsi_loop sm tape junk fuel BFull (Some o) m T tr (pt_u pt) (pt_y pt) (pt_t pt) a1 [mkStep pa1 (seq 0 m)] l).
    { unfold perform_bsi. rewrite Etr at 1. rewrite idx_last_app. unfold bind at 1, lift at 1. unfold bind at 1, lift at 1. rewrite Ew.
      unfold bind at 1. rewrite (sampleM_norm_eq _ _ _ _ _ Llv Ew). cbn [rand tape]. rewrite unit_of_in by exact Hr. rewrite Hs. cbn [rbind].
      unfold bind at 1, lift at 1. rewrite E1. unfold bind at 1, lift at 1. rewrite E2. unfold bind at 1. rewrite Hcp. unfold bind at 1, lift at 1. rewrite E3.
      reflexivity. }
    rewrite EB. destruct (bsi_loop _ _ _ _ _ _ _ _ _ _ _ _ _ _ _) as [[out w]|e]; reflexivity.
  - assert (G : forall q, (forall j, In j q -> (j < m)%nat) -> forall q2, (forall i j, nth_error q i = Some j -> nth_error q2 i = nth_error ind j) -> length q2 = length q ->
      rprod (map (fun j => extend ld pt (phi j) T (trajectory [mkStep pa1 (seq 0 m)] j)) q) = rprod (map (fun ji => from_last last (phi (fst ji)) (snd ji)) (combine q q2))).
    { induction q as [|j q IHq]; intros Hq q2 Hq2 L2; [reflexivity|]. destruct q2 as [|i q2]; [discriminate|].
      cbn [map combine rprod fold_right fst snd]. f_equal.
      - assert (Q : (j < m)%nat) by (apply Hq; simpl; auto). specialize (Hq2 0%nat j eq_refl). simpl in Hq2. symmetry in Hq2.
        pose proof (take_nth _ _ _ E2 j _ Hq2) as Ep. unfold from_last. rewrite <- Ep. unfold trajectory. cbn [flat_map st_pa pa1 part].
        destruct (nth_error p1 j) as [x|] eqn:Ex; [reflexivity|]. apply nth_error_None in Ex. lia.
      - apply IHq; [intros; apply Hq; simpl; auto| |simpl in L2; lia]. intros i' j' Hj'. apply (Hq2 (S i')). exact Hj'. }
    apply G; [intros j Hj; apply in_seq in Hj; lia| |rewrite seq_length; exact Li].
    intros i j Hj. assert (i < m)%nat by (rewrite <- (seq_length m 0); apply nth_error_Some; congruence).
    apply (nth_error_nth _ _ 0%nat) in Hj. rewrite seq_nth in Hj by auto. simpl in Hj. subst. reflexivity.
Qed.

Lemma extend_one n : forall st x rest, nth_error tr n = Some st -> In x (part (st_pa st)) -> extend ld pt (fun _ => 1) n (x :: rest) = 1.
Proof.
  induction n as [|k IH]; intros st' x' rest Hst' Hin; [reflexivity|].
  destruct Hsm as (Hne & Hwf & Hlv & Hus).
  assert (Q : exists st, nth_error tr k = Some st).
  { destruct (nth_error tr k) eqn:E; [eauto|]. apply nth_error_None in E. assert (S k < length tr)%nat by (apply nth_error_Some; congruence). lia. }
  destruct Q as [st Est]. destruct (Hus k st st' Est Hst') as (uk & tk & Eu & Et & Hu). specialize (Hu x' Hin).
  cbn [extend]. rewrite Est, Eu, Et. unfold choice.
  assert (Swf : step_wf N st) by (rewrite Forall_forall in Hwf; apply Hwf; eapply nth_error_In; eauto).
  rewrite <- (rsum_pairs (fun i => nth i (backward_weights (ld uk tk) (st_pa st) x') 0 / rsum (backward_weights (ld uk tk) (st_pa st) x'))).
  - rewrite rsum_map_div. destruct Swf as (W1 & W2 & _). rewrite W1, <- W2, <- (backward_weights_length _ _ _ Hu), <- rsum_seq.
    destruct Hu as (_ & _ & _ & Hp). field. lra.
  - intros i x Hi. cbn [fst snd]. rewrite (IH st x _ Est) by (eapply nth_error_In; eauto). rewrite Rmult_1_r. reflexivity.
Qed.

Lemma expect_rsum {A} (F : A -> list R -> R) (v : A -> R) n l : (forall a, In a l -> expect n (F a) (v a)) ->
  expect n (fun w => rsum (map (fun a => F a w) l)) (rsum (map v l)).
Proof.
  induction l as [|a l IH]; intros H; [exact (expect_const n 0)|].
  change (expect n (fun w => F a w + rsum (map (fun a => F a w) l)) (v a + rsum (map v l))).
  apply expect_plus; [apply H; simpl; auto|]. apply IH. intros. apply H. simpl; auto.
Qed.

Lemma rprod_only {A} (q : list A) (h : A -> R) (d : A) (j : nat) : (j < length q)%nat -> (forall i a, i <> j -> nth_error q i = Some a -> h a = 1) ->
  rprod (map h q) = h (nth j q d).
Proof.
  revert j. induction q as [|a q IH]; intros j Hj H; [simpl in Hj; lia|]. cbn [map rprod fold_right]. fold (rprod (map h q)). destruct j as [|j].
  - replace (rprod (map h q)) with 1; [cbn [nth]; ring|]. symmetry.
    assert (G : forall q', (forall i a', nth_error q' i = Some a' -> h a' = 1) -> rprod (map h q') = 1).
    { induction q' as [|b q' IH']; intros G; [reflexivity|]. cbn [map rprod fold_right]. fold (rprod (map h q')). rewrite (G 0%nat b eq_refl), IH'; [ring|].
      intros i a' Hi. apply (G (S i)). exact Hi. }
    apply G. intros i a' Hi. apply (H (S i)); [lia|exact Hi].
  - rewrite (H 0%nat a) by (auto; lia). rewrite (IH j); [cbn [nth]; ring|simpl in Hj; lia|]. intros i a' Hi Ha. apply (H (S i)); [lia|exact Ha].
Qed.

Lemma mean_law phi : expect (1 + T * m)
  (fun l => match run l with Ok (st, _) => rsum (map (fun j => phi (trajectory (sm_traj st) j)) (seq 0 m)) / INR m | Err _ => 0 end) (ffbsi_mean ld pt phi).
Proof.
  destruct last_ex as (pre & last & Etr & Lwf & Llv & Nl). destruct Lwf as (W1 & W2 & W3 & W4 & W5).
  assert (HmR : 0 < INR m) by (apply lt_0_INR; exact Hm).
  set (w := map lin (lw (st_pa last))). assert (Hw : weights_ok w) by (apply weights_ok_lin; exact Llv).
  set (c := from_last last phi).
  change (1 + T * m)%nat with (S (T * m)). cbn [expect].
  exists (fun r => / INR m * match np_sample (map Fin w) m r with Ok ind => rsum (map c ind) | Err _ => 0 end). split.
  - intros r Hr. destruct (sample_valid w m r Hw ltac:(unfold unit_draw; lra)) as (ind & Es & Li & Fi & _). rewrite Es.
    assert (X : expect (T * m) (fun l => / INR m * rsum (map (fun j => match run (r :: l) with
        Ok (st, _) => value m (fun j' => if Nat.eqb j' j then phi else fun _ => 1) (sm_traj st) | Err _ => 0 end) (seq 0 m)))
      (/ INR m * rsum (map (fun j => c (nth j ind 0%nat)) (seq 0 m)))).
    { apply expect_scale. apply (expect_rsum (fun j l => match run (r :: l) with
        Ok (st, _) => value m (fun j' => if Nat.eqb j' j then phi else fun _ => 1) (sm_traj st) | Err _ => 0 end)).
      intros j Hj. apply in_seq in Hj.
      pose proof (pass_law (fun j' => if Nat.eqb j' j then phi else fun _ => 1) pre last r ind Etr Hr Es) as L.
      rewrite (rprod_only _ _ (0%nat, 0%nat) j) in L.
      - rewrite combine_nth in L by (rewrite seq_length; lia). cbn [fst snd] in L. rewrite seq_nth, Nat.add_0_l, Nat.eqb_refl in L by lia. exact L.
      - rewrite combine_length, seq_length. lia.
      - intros i [j' q] Hij Hn. apply nth_error_combine in Hn. destruct Hn as [H1 H2]. cbn [fst snd].
        assert (j' = i).
        { assert (i < m)%nat by (rewrite <- (seq_length m 0); apply nth_error_Some; congruence).
          apply (nth_error_nth _ _ 0%nat) in H1. rewrite seq_nth in H1 by auto. auto. }
        subst j'. rewrite (proj2 (Nat.eqb_neq _ _) Hij). unfold from_last.
        assert (Q : (q < length (part (st_pa last)))%nat).
        { apply nth_error_In in H2. rewrite Forall_forall in Fi. specialize (Fi _ H2). unfold w in Fi. rewrite map_length in Fi. lia. }
        destruct (nth_error (part (st_pa last)) q) as [x|] eqn:Ex; [|apply nth_error_None in Ex; lia].
        apply (extend_one T last x [] Nl). eapply nth_error_In; eauto. }
    replace (rsum (map c ind)) with (rsum (map (fun j => c (nth j ind 0%nat)) (seq 0 m))).
    2:{ rewrite <- Li. clear. induction ind as [|a ind IH]; [reflexivity|]. cbn [length seq map nth]. unfold rsum in *. simpl. f_equal. rewrite <- seq_shift, map_map. exact IH. }
    eapply expect_ext; [|exact X]. intros l _ _. cbv beta. destruct (run (r :: l)) as [[st s']|e].
    + unfold Rdiv. rewrite Rmult_comm. f_equal. apply rsum_ext. intros j Hj. apply in_seq in Hj. unfold value.
      rewrite (rprod_only _ _ 0%nat j).
      * rewrite seq_nth by lia. rewrite Nat.add_0_l, Nat.eqb_refl. reflexivity.
      * rewrite seq_length. lia.
      * intros i a Hij Ha. assert (a = i).
        { assert (i < m)%nat by (rewrite <- (seq_length m 0); apply nth_error_Some; congruence).
          apply (nth_error_nth _ _ 0%nat) in Ha. rewrite seq_nth in Ha by auto. auto. }
        subst a. rewrite (proj2 (Nat.eqb_neq _ _) Hij). reflexivity.
    + symmetry. replace (rsum (map (fun _ : nat => 0) (seq 0 m))) with 0; [ring|]. clear. induction (seq 0 m) as [|a q IH]; [reflexivity|]. unfold rsum in *. simpl. rewrite <- IH. ring.
  - pose proof (is_RInt_scal (V := R_NormedModule) _ _ _ (/ INR m) _ (sample_average w m c Hw Hm)) as Q.
    unfold scal in Q; simpl in Q; unfold mult in Q; simpl in Q.
    replace (ffbsi_mean ld pt phi) with (/ INR m * (INR m * rsum (map (fun j => nth j w 0 / rsum w * c j) (seq 0 (length w))))); [exact Q|].
    rewrite <- Rmult_assoc, Rinv_l, Rmult_1_l by lra. unfold ffbsi_mean. rewrite Etr at 1. rewrite rev_app_distr. cbn [rev app]. unfold choice.
    replace (length w) with (length (part (st_pa last))) by (unfold w; rewrite map_length; lia).
    apply rsum_pairs. intros i x Hi. unfold c, from_last. rewrite Hi. cbn [fst snd]. f_equal. unfold nweight, w, total. f_equal.
    assert (Q2 : (i < length (lw (st_pa last)))%nat) by (rewrite W2, <- W1; apply nth_error_Some; congruence).
    rewrite (nth_indep _ 0 (lin NInf)) by (rewrite map_length; exact Q2). apply map_nth.
Qed.
End Pass.
