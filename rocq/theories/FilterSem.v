(** What one [forward] call does, for each filter (used by Prop_Filter.v). *)
From Coq Require Import String Bool Reals Lra Lia List Arith.
From Verif Require Import Base XR SampleModel SampleSpec SampleProofs PAModel WeightSpec WeightProofs
  FilterModel TrajModel FilterSpec FilterProofs TrajProofs Prop_Weights.
Import ListNotations.
Open Scope R_scope.

Section Sem.
Context {W P U Y V : Type}.
Variable mdl : fmodel W P U Y V.
Variable g : rng W.
Hypothesis Hg : rng_ok g.
Hypothesis Hsh : shape_ok mdl.

Lemma pt_step_N (s s' : ptraj P U Y) o w w' : pt_step mdl g s o w = Ok (s', w') ->
  pt_N s' = pt_N s /\ pt_f s' = pt_f s.
Proof.
  destruct o as [u y|y]; simpl; intros H.
  - apply bind_ok in H. destruct H as ([s1 b] & w1 & H & H2). apply ret_ok in H2. inversion H2; subst; clear H2. simpl.
    unfold pt_forward in H. apply bind_ok in H. destruct H as ([tr k] & w2 & _ & H).
    rewrite if4 in H. cbv beta iota zeta in H. minv H. destruct a as [[pa bb] anc]. minv H. auto.
  - unfold pt_measure in H. rewrite if4 in H. cbv beta iota zeta in H.
    destruct (using_pfy (pt_f s)); minv H; auto. destruct a as [tr k]. minv H. auto.
Qed.

Lemma pt_run_N ops : forall (s s' : ptraj P U Y) w w', pt_run mdl g s ops w = Ok (s', w') -> pt_N s' = pt_N s.
Proof.
  induction ops as [|o ops IH]; intros s s' w w' H; simpl in H.
  - apply ret_ok in H. inversion H; auto.
  - apply bind_ok in H. destruct H as (s1 & w1 & H1 & H). apply IH in H. apply pt_step_N in H1. destruct H1; congruence.
Qed.

Lemma initial_zero f w st w' : initial_step mdl f 0 w = Ok (st, w') -> False.
Proof.
  intros H. unfold initial_step in H. apply bind_ok in H. destruct H as (p & w1 & H1 & H).
  assert (L : length p = 0%nat).
  { unfold create_initial in H1. destruct f; try (apply (sh_create mdl Hsh) in H1; exact H1);
    apply bind_ok in H1; destruct H1 as (q & w2 & H1 & H2); apply (sh_create mdl Hsh) in H1;
    minv H2; inversion H2; subst; destruct q; discriminate. }
  destruct p; [|discriminate]. minv H. discriminate.
Qed.

Lemma step_zero (s s' : ptraj P U Y) o w w' : pt_N s = 0%nat -> pt_traj s = [] ->
  pt_step mdl g s o w = Ok (s', w') -> False.
Proof.
  intros EN Et H. destruct o as [u y|y]; simpl in H.
  - apply bind_ok in H. destruct H as ([s1 b] & w1 & H & _).
    unfold pt_forward in H. rewrite Et, EN in H. apply bind_ok in H. destruct H as (ti & w2 & H & _).
    apply bind_ok in H. destruct H as (st & w3 & H & _). eapply initial_zero; eauto.
  - unfold pt_measure in H. rewrite if4 in H. cbv beta iota zeta in H. rewrite Et, EN in H.
    destruct (using_pfy (pt_f s)).
    + apply bind_ok in H. destruct H as (yv & w2 & _ & H).
      apply bind_ok in H. destruct H as (tv & w3 & _ & H).
      apply bind_ok in H. destruct H as (pa & w4 & H & _).
      destruct (pt_f s); unfold pfy_measure, cpfyas_measure in H; minv H; inversion H; subst;
      try (match type of Hm with m_propose_y _ _ _ _ _ = Ok (?a, _) =>
             apply (sh_propose_y mdl Hsh) in Hm; destruct a; [|discriminate] end;
           repeat match goal with
           | E : pa_init [] None = Ok _ |- _ => discriminate E
           | E : set_last_row [] ?x = Ok _ |- _ => destruct x as [|? [|? ?]]; discriminate E
           end).
    + apply bind_ok in H. destruct H as (ti & w2 & H & _).
      apply bind_ok in H. destruct H as (st & w3 & H & _). eapply initial_zero; eauto.
Qed.

Lemma reachable_inv (s : ptraj P U Y) : reachable mdl g s ->
  traj_wf (pt_N s) (pt_traj s) /\ exists l, book s l.
Proof.
  intros (N & r & name & o & T & s0 & ops & w0 & w1 & Hi & Hr).
  assert (E0 : pt_N s0 = N /\ pt_traj s0 = []).
  { unfold pt_init in Hi. destruct T; simpl in Hi;
    repeat match type of Hi with context [match ?x with _ => _ end] => destruct x; simpl in Hi; try discriminate end;
    minv Hi; inversion Hi; auto. }
  destruct E0 as [EN Et].
  pose proof (book_init _ _ _ _ _ _ Hi) as B.
  assert (Hw : traj_wf N (pt_traj s0)).
  { rewrite Et. split; [constructor|]. intros st H. discriminate. }
  split; [|destruct (book_run mdl g _ _ _ _ _ _ B Hr) as [B' _]; eexists; exact B'].
  destruct (Nat.eq_dec N 0) as [->|HN].
  - destruct ops as [|o1 ops]; [simpl in Hr; apply ret_ok in Hr; inversion Hr; subst; rewrite EN; auto|].
    exfalso. simpl in Hr. apply bind_ok in Hr. destruct Hr as (s1 & w2 & H1 & _).
    eapply step_zero; eauto.
  - pose proof (pt_run_wf mdl g Hg Hsh N ltac:(lia) ops s0 w0 s w1 EN Hw Hr) as A.
    apply pt_run_N in Hr. rewrite Hr, EN. exact A.
Qed.

(** Decomposition of a forward call of a trajectory. *)
Lemma pt_forward_inv (s s' : ptraj P U Y) l u y b w w' : book s l ->
  pt_forward mdl g s u y w = Ok ((s', b), w') ->
  exists tr uv yv tv w1 pa anc k,
    ((pt_traj s <> [] /\ tr = pt_traj s /\ w1 = w) \/
     (pt_traj s = [] /\ exists st0, initial_step mdl (pt_f s) (pt_N s) w = Ok (st0, w1) /\ tr = [st0])) /\
    length tr = (k + 1)%nat /\
    filter_forward mdl g (pt_f s) (pt_N s) tr yv uv tv k w1 = Ok ((pa, b, anc), w') /\
    pt_traj s' = tr ++ [mkStep pa anc] /\
    nth_error uv k = Some (cell_of u) /\ nth_error yv (k + 1) = Some (cell_of y) /\
    nth_error tv k = Some k /\ nth_error tv (k + 1) = Some (k + 1)%nat /\
    pt_u s' = uv /\ pt_y s' = yv /\ pt_t s' = tv /\ pt_N s' = pt_N s /\ pt_f s' = pt_f s.
Proof.
  intros B H. unfold pt_forward in H. apply bind_ok in H. destruct H as ([tr k] & w1 & H1 & H).
  destruct l as [us ys]. destruct B as (B1 & B2 & B3 & B4 & B5 & B6 & B7 & B8 & B9 & B10 & B11).
  assert (A : ((pt_traj s <> [] /\ tr = pt_traj s /\ w1 = w) \/
     (pt_traj s = [] /\ exists st0, initial_step mdl (pt_f s) (pt_N s) w = Ok (st0, w1) /\ tr = [st0])) /\
    length tr = (k + 1)%nat /\ nth_error (pt_t s) k = Some k).
  { destruct (pt_traj s) eqn:Etr.
    - minv H1. split; [right; split; eauto|]. split; auto.
    - destruct (pt_ind1 s) eqn:Ei; minv H1. split; [left; split; [congruence|auto]|].
      simpl in B1. split; [simpl; lia|]. apply B6. lia. }
  destruct A as (A & Lk & Ht). clear H1.
  exists tr.
  rewrite if4 in H. cbv beta iota zeta in H.
  apply bind_ok in H; destruct H as (uv & wa & Hu & H); apply lift_ok in Hu; destruct Hu as (uv' & Hu & Eu); inversion Eu; subst uv' wa; clear Eu.
  apply bind_ok in H; destruct H as (yv & wa & Hy & H); apply lift_ok in Hy; destruct Hy as (yv' & Hy & Ey); inversion Ey; subst yv' wa; clear Ey.
  apply bind_ok in H; destruct H as (tv & wa & Htv & H); apply lift_ok in Htv; destruct Htv as (tv' & Htv & Et); inversion Et; subst tv' wa; clear Et.
  apply bind_ok in H; destruct H as ([[pa b0] anc] & wa & Hf & H). apply ret_ok in H. inversion H; subst; clear H.
  exists uv, yv, tv, w1, pa, anc, k. split; auto. split; auto. split; [exact Hf|].
  cbn [pt_traj pt_u pt_y pt_t pt_N pt_f]. split; auto.
  rewrite (upd_nth _ _ _ _ Hu), (upd_nth _ _ _ _ Hy), !(upd_nth _ _ _ _ Htv), !Nat.eqb_refl.
  destruct (Nat.eqb_spec k (k + 1)); [lia|].
  repeat split; auto. apply grow_nth; auto. lia.
Qed.

(** ** Resampling decision *)
Lemma uniform_ln n : (0 < n)%nat -> ln (1 / INR n) = - ln (INR n).
Proof. intros H. unfold Rdiv. rewrite Rmult_1_l. apply ln_Rinv. apply lt_0_INR. auto. Qed.

Lemma live_length w : live w -> (0 < length w)%nat.
Proof. intros H. pose proof (live_nonempty _ H). destruct w; [congruence|simpl; lia]. Qed.

Lemma maybe_resample_sem thr (pa pa1 : papprox P) N b anc w w1 : pa_wf N pa -> live (lw pa) ->
  maybe_resample mdl g thr pa w = Ok ((pa1, b, anc), w1) ->
  (b = true <-> 0 < thr /\ ess (map lin (lw pa)) < thr * INR N) /\
  lw pa1 = prior_lw b N (lw pa) /\ num pa1 = N /\
  (b = false -> pa1 = pa /\ anc = seq 0 N /\ w1 = w) /\
  (b = true -> woff pa1 = Fin 0 /\ exists r wr, unit_draw r /\
     np_sample (map Fin (map lin (lw pa))) N r = Ok anc /\
     m_copy mdl (part pa) anc wr = Ok (part pa1, w1)).
Proof.
  intros (L1 & L2 & L3) Hlive H. unfold maybe_resample in H.
  assert (HN : (0 < N)%nat) by (rewrite <- L2; apply live_length; auto).
  assert (Hno : forall (Q : Prop), ret (W := W) (pa, false, seq 0 (num pa)) w = Ok ((pa1, b, anc), w1) ->
     (Q <-> False) ->
     (b = true <-> Q) /\
  lw pa1 = prior_lw b N (lw pa) /\ num pa1 = N /\
  (b = false -> pa1 = pa /\ anc = seq 0 N /\ w1 = w) /\
  (b = true -> woff pa1 = Fin 0 /\ exists r wr, unit_draw r /\
     np_sample (map Fin (map lin (lw pa))) N r = Ok anc /\
     m_copy mdl (part pa) anc wr = Ok (part pa1, w1))).
  { intros Q E HQ. apply ret_ok in E. inversion E; subst. rewrite HQ.
    split; [split; [discriminate|tauto]|]. split; [reflexivity|]. split; auto. split; auto. discriminate. }
  destruct (Rltb 0 thr) eqn:Et.
  - apply Rltb_true in Et. unfold calc_Neff in H. rewrite neff_fin in H by auto.
    unfold bind at 1, lift at 1 in H. rewrite L3 in H.
    change (xltb (Fin (ess (map lin (lw pa)))) (Fin (thr * INR N)))
      with (Rltb (ess (map lin (lw pa))) (thr * INR N)) in H.
    destruct (Rltb (ess (map lin (lw pa))) (thr * INR N)) eqn:El.
    + apply Rltb_true in El.
      apply bind_ok in H. destruct H as ([pa2 ind] & w2 & H1 & H). apply ret_ok in H. inversion H; subst pa2 b anc w2; clear H.
      unfold pa_resample in H1.
      destruct (live_max _ Hlive) as (m & Hm & _). unfold bind at 1, lift at 1 in H1. rewrite Hm in H1.
      cbv zeta in H1. apply bind_ok in H1. destruct H1 as (ind' & wr & Hs & H1).
      rewrite sampleM_resample in Hs by auto.
      apply bind_ok in H1. destruct H1 as (np & w3 & Hc & H1). apply ret_ok in H1. inversion H1; subst; clear H1.
      destruct (sampleM_spec _ _ _ _ _ _ Hg Hs) as (r & Hr & Hnp).
      cbn [lw num woff part prior_lw fst snd].
      split; [tauto|]. split; [unfold uniform_lw; rewrite uniform_ln by auto; auto|]. split; auto.
      split; [discriminate|]. intros _. split; auto. exists r, wr. auto.
    + apply Rltb_false in El. rewrite <- L3 in H at 1. rewrite L3 in H. rewrite <- L3 in H. apply (Hno (0 < thr /\ ess (map lin (lw pa)) < thr * INR N)) in H; [exact H|].
      split; [|tauto]. lra.
  - apply Rltb_false in Et. apply (Hno (0 < thr /\ ess (map lin (lw pa)) < thr * INR N)) in H; [exact H|].
    split; [|tauto]. lra.
Qed.

(** ** Weight update as Bayes' rule *)
Lemma add_weights_bayes (pa pa' : papprox P) ll : Forall logish (lw pa) -> Forall logish ll ->
  survivor (lw pa) ll -> add_weights pa ll = Ok pa' ->
  bayes (lw pa) ll (lw pa') /\ rescaled (lw pa') /\ live (lw pa') /\
  (forall o, woff pa = Fin o -> exists o', woff pa' = Fin o' /\
     total (lw pa') * exp o' =
     exp o * rsum (map (fun ab => lin (fst ab) * lin (snd ab)) (combine (lw pa) ll))).
Proof.
  intros Hl Hll Hs E.
  destruct (add_weights_live _ _ _ Hl Hll Hs E) as (R1 & R2 & R3 & R4 & R5 & R6 & c & R7 & R8).
  assert (Z : total (lw pa') = exp (- c) *
        rsum (map (fun ab => lin (fst ab) * lin (snd ab)) (combine (lw pa) ll))).
  { apply zip_total; auto; [lia|].
    intros j x y Hx Hy. eexists. split; [eapply R8; eauto|].
    assert (La : logish x) by (rewrite Forall_forall in Hl; apply Hl; eapply nth_error_In; eauto).
    assert (Lb : logish y) by (rewrite Forall_forall in Hll; apply Hll; eapply nth_error_In; eauto).
    rewrite lin_xsub_fin by (apply logish_xadd; auto). rewrite lin_xadd by auto. lra. }
  pose proof (live_total _ R2) as Hpos. pose proof (exp_pos (- c)) as Hc.
  split; [|split; [auto|split; [auto|]]].
  - split; [lia|]. split; [lia|]. intros i Hi.
    destruct (nth_error (lw pa) i) as [a|] eqn:Ha; [|apply nth_error_None in Ha; lia].
    destruct (nth_error ll i) as [b|] eqn:Hb; [|apply nth_error_None in Hb; lia].
    assert (La : logish a) by (rewrite Forall_forall in Hl; apply Hl; eapply nth_error_In; eauto).
    assert (Lb : logish b) by (rewrite Forall_forall in Hll; apply Hll; eapply nth_error_In; eauto).
    rewrite (nth_error_nth _ _ _ (R8 i a b Ha Hb)), (nth_error_nth _ _ _ Ha), (nth_error_nth _ _ _ Hb).
    rewrite lin_xsub_fin by (apply logish_xadd; auto). rewrite lin_xadd by auto.
    fold (total (lw pa')). rewrite Z in *. field. split; nra.
  - intros o Ho. rewrite Ho in R7. exists (o + c). split; auto. rewrite Z, exp_plus, exp_Ropp.
    field. pose proof (exp_pos c). lra.
Qed.

Lemma prior_logish b N w : Forall logish w -> Forall logish (prior_lw b N w).
Proof.
  intros H. destruct b; simpl; auto. apply Forall_forall. intros x Hx. apply repeat_spec in Hx. subst. exact I.
Qed.
Lemma prior_live b N w : live w -> length w = N -> live (prior_lw b N w).
Proof.
  intros H L. destruct b; simpl; auto. pose proof (live_length _ H). split.
  - apply (prior_logish true N w). apply H.
  - exists (- ln (INR N)). destruct N; [lia|]. simpl. auto.
Qed.
Lemma prior_length b N w : length w = N -> length (prior_lw b N w) = N.
Proof. intros H. destruct b; simpl; auto. apply repeat_length. Qed.

(** ** Bootstrap filter *)
Lemma pf_forward_sem thr (tr : list (tstep P)) yv uv tv k N pre old b pa anc w w' :
  Forall (step_wf N) tr -> tr = pre ++ [old] ->
  pf_forward mdl g thr tr yv uv tv k w = Ok ((pa, b, anc), w') ->
  exists pa1 w1 v w2 p w3 p' ll,
    maybe_resample mdl g thr (mkPA (part (st_pa old)) (lw (st_pa old)) N (Fin 0)) w = Ok ((pa1, b, anc), w1) /\
    m_noise mdl tr anc (firstn (k + 1) uv) (firstn (k + 1) tv) w1 = Ok (v, w2) /\
    m_update mdl (part pa1) tr (firstn (k + 1) uv) (firstn (k + 1) yv) (firstn (k + 1) tv) anc v w2 = Ok (p, w3) /\
    m_measure mdl tr anc p uv (firstn (k + 1 + 1) yv) (firstn (k + 1 + 1) tv) w3 = Ok ((p', ll), w') /\
    add_weights (mkPA p' (lw pa1) (num pa1) (woff pa1)) ll = Ok pa.
Proof.
  intros Hwf -> H. unfold pf_forward in H. rewrite idx_last_app in H.
  assert (L : length (part (st_pa old)) = N).
  { rewrite Forall_forall in Hwf. apply (Hwf old). apply in_or_app. right. simpl. auto. }
  unfold bind at 1, lift at 1 in H. unfold bind at 1, lift at 1 in H. unfold pa_init in H. rewrite L in H.
  apply bind_ok in H. destruct H as ([[pa1 b1] anc1] & w1 & H1 & H).
  apply bind_ok in H. destruct H as (pa2 & w2 & H2 & H).
  apply bind_ok in H. destruct H as (pa3 & w3 & H3 & H). apply ret_ok in H. inversion H; subst; clear H.
  unfold pf_update in H2. apply bind_ok in H2. destruct H2 as (v & wa & Hv & H2).
  apply bind_ok in H2. destruct H2 as (p & wb & Hp & H2). apply ret_ok in H2. inversion H2; subst; clear H2.
  unfold pf_measure in H3. apply bind_ok in H3. destruct H3 as ([p' ll] & wc & Hme & H3).
  apply lift_ok in H3. destruct H3 as (pa4 & H3 & E). inversion E; subst; clear E.
  cbn [part lw num woff fst snd] in *.
  exists pa1, w1, v, wa, p, wb, p', ll. auto.
Qed.

(** ** Setup shared by the property proofs *)
Lemma idx_last_firstn {A} (l : list A) k a : nth_error l k = Some a -> idx_last (firstn (k + 1) l) = Ok a.
Proof.
  intros H. pose proof (nth_error_split _ _ H) as (l1 & l2 & -> & <-).
  rewrite firstn_app. replace (length l1 + 1 - length l1)%nat with 1%nat by lia.
  rewrite firstn_all2 by lia. simpl. apply idx_last_app.
Qed.

Lemma forward_setup (s s' : ptraj P U Y) u y b w w' pre old new : reachable mdl g s ->
  pt_forward mdl g s u y w = Ok ((s', b), w') -> pt_traj s' = pre ++ [old; new] ->
  exists uv yv tv w1,
    Forall (step_wf (pt_N s)) (pre ++ [old]) /\ step_wf (pt_N s) new /\ (0 < pt_N s)%nat /\
    filter_forward mdl g (pt_f s) (pt_N s) (pre ++ [old]) yv uv tv (length pre) w1
      = Ok ((st_pa new, b, st_anc new), w') /\
    nth_error uv (length pre) = Some (cell_of u) /\
    nth_error yv (length pre + 1) = Some (cell_of y) /\
    nth_error tv (length pre) = Some (length pre) /\
    nth_error tv (length pre + 1) = Some (length pre + 1)%nat /\
    pt_u s' = uv /\ pt_y s' = yv /\ pt_t s' = tv /\
    ((pt_traj s = pre ++ [old] /\ w1 = w) \/
     (pt_traj s = [] /\ pre = [] /\ initial_step mdl (pt_f s) (pt_N s) w = Ok (old, w1))).
Proof.
  intros Hr H Hp. destruct (reachable_inv _ Hr) as [Hwf (l & B)].
  destruct (pt_forward_inv _ _ _ _ _ _ _ _ B H) as
    (tr & uv & yv & tv & w1 & pa & anc & k & Htr & Lk & Hf & Et & Nu & Ny & Nt & Nt1 & Eu & Ey & Ett & EN & Ef).
  assert (Q : tr = pre ++ [old] /\ new = mkStep pa anc).
  { rewrite Et in Hp. change [old; new] with ([old] ++ [new]) in Hp. rewrite app_assoc in Hp.
    apply app_inj_tail in Hp. destruct Hp; auto. }
  destruct Q as [-> ->]. assert (k = length pre) as -> by (rewrite app_length in Lk; simpl in Lk; lia).
  assert (HN : (0 < pt_N s)%nat).
  { destruct (pt_N s) eqn:EN0; [|lia]. exfalso. destruct Htr as [(Hne & _)|(_ & st0 & Hi & _)].
    - destruct (pt_traj s) as [|st tr] eqn:Etr; [congruence|].
      destruct Hr as (N & r & name & o & T & s0 & ops & w0 & w2 & Hi & Hr0).
      assert (E0 : pt_traj s0 = []).
      { unfold pt_init in Hi. destruct T; simpl in Hi;
        repeat match type of Hi with context [match ?x with _ => _ end] => destruct x; simpl in Hi; try discriminate end;
        minv Hi; inversion Hi; auto. }
      pose proof (pt_run_N _ _ _ _ _ Hr0) as EN1. rewrite EN0 in EN1.
      destruct ops as [|o1 ops]; simpl in Hr0.
      + apply ret_ok in Hr0. inversion Hr0; subst. congruence.
      + apply bind_ok in Hr0. destruct Hr0 as (s1 & w3 & H1 & _). exact (step_zero s0 s1 o1 w0 w3 (eq_sym EN1) E0 H1).
    - eapply initial_zero; eauto. }
  destruct (pt_forward_wf mdl g Hg Hsh _ HN s u y w s' b w' eq_refl Hwf H) as ((Hwf' & _) & _).
  rewrite Et in Hwf'. apply Forall_app in Hwf'. destruct Hwf' as [F1 F2]. inversion F2; subst.
  exists (pt_u s'), (pt_y s'), (pt_t s'), w1. cbn [st_pa st_anc].
  repeat (split; [assumption || reflexivity|]).
  destruct Htr as [(_ & E & ->)|(E & st0 & Hi & E2)]; [left; auto|right].
  destruct pre as [|a pre]; [|destruct pre; discriminate]. inversion E2; subst. auto.
Qed.

Lemma old_wf N pre old : Forall (step_wf N) (pre ++ [old]) -> @step_wf P N old.
Proof. intros H. apply Forall_app in H. destruct H as [_ H]. inversion H; auto. Qed.

Lemma old_pa_wf N old off : @step_wf P N old -> pa_wf N (mkPA (part (st_pa old)) (lw (st_pa old)) N off).
Proof. intros (A & B & _). repeat split; auto. Qed.

Lemma idx_app_mid {A} (pre : list A) a : idx (pre ++ [a]) (length pre) = Ok a.
Proof. apply idx_ok. rewrite nth_error_app2 by lia. rewrite Nat.sub_diag. auto. Qed.

(** ** SIR filter *)
Lemma sir_forward_sem thr (tr : list (tstep P)) yv uv tv k N pre old b pa anc w w' u y t t1 :
  Forall (step_wf N) tr -> tr = pre ++ [old] ->
  nth_error uv k = Some u -> nth_error yv (k + 1) = Some y ->
  nth_error tv k = Some t -> nth_error tv (k + 1) = Some t1 ->
  sir_forward mdl g thr tr yv uv tv k w = Ok ((pa, b, anc), w') ->
  exists pa1 w1 pn w2 lq w3 lx w4 p' ly ll pa2,
    maybe_resample mdl g thr (mkPA (part (st_pa old)) (lw (st_pa old)) N (Fin 0)) w = Ok ((pa1, b, anc), w1) /\
    m_qsample mdl (part pa1) u y t w1 = Ok (pn, w2) /\
    m_logp_q mdl (part pa1) pn u y t w2 = Ok (lq, w3) /\
    m_logp_xnext mdl (part pa1) pn u t w3 = Ok (lx, w4) /\
    m_meas1 mdl pn y t1 w4 = Ok ((p', ly), w') /\
    (exists sm, zipw xadd ly lx = Ok sm /\ zipw xsub sm lq = Ok ll) /\
    add_weights pa1 ll = Ok pa2 /\ pa = mkPA p' (lw pa2) (num pa2) (woff pa2).
Proof.
  intros Hwf -> Hu Hy Ht Ht1 H. unfold sir_forward in H. rewrite idx_last_app in H.
  assert (L : length (part (st_pa old)) = N) by (apply old_wf in Hwf; apply Hwf).
  apply idx_ok in Hu, Hy, Ht, Ht1.
  unfold bind at 1, lift at 1 in H. unfold bind at 1, lift at 1 in H. unfold pa_init in H. rewrite L in H.
  apply bind_ok in H. destruct H as ([[pa1 b1] anc1] & w1 & H1 & H).
  rewrite Hu, Hy, Ht, Ht1 in H.
  do 4 (unfold bind at 1, lift at 1 in H).
  apply bind_ok in H. destruct H as (pn & w2 & Hq & H).
  apply bind_ok in H. destruct H as (lq & w3 & Hlq & H).
  apply bind_ok in H. destruct H as (lx & w4 & Hlx & H).
  apply bind_ok in H. destruct H as ([p' ly] & w5 & Hly & H). cbn [fst snd] in H.
  apply bind_ok in H. destruct H as (sm & w6 & Hs & H). apply lift_ok in Hs. destruct Hs as (sm' & Hs & E). inversion E; subst; clear E.
  apply bind_ok in H. destruct H as (ll & w7 & Hs2 & H). apply lift_ok in Hs2. destruct Hs2 as (ll' & Hs2 & E). inversion E; subst; clear E.
  apply bind_ok in H. destruct H as (pa2 & w8 & Ha & H). apply lift_ok in Ha. destruct Ha as (pa2' & Ha & E). inversion E; subst; clear E.
  apply ret_ok in H. inversion H; subst; clear H.
  exists pa1, w1, pn, w2, lq, w3, lx, w4, p', ly, ll', pa2'. eauto 12.
Qed.

(** ** Forward filter with proposals from the measurement *)
Lemma pfy_forward_sem thr (tr : list (tstep P)) yv uv tv N pre old b pa anc w w' y t :
  Forall (step_wf N) tr -> tr = pre ++ [old] ->
  idx_last yv = Ok y -> idx_last tv = Ok t ->
  pfy_forward mdl g N thr tr yv uv tv (length pre) w = Ok ((pa, b, anc), w') ->
  exists cp w0 pa1 w1 pn w2 pp pind ll,
    m_copy_all mdl (part (st_pa old)) w = Ok (cp, w0) /\
    maybe_resample mdl g thr (mkPA cp (lw (st_pa old)) N (Fin 0)) w0 = Ok ((pa1, b, anc), w1) /\
    m_propose_y mdl (length (part pa1)) y t w1 = Ok (pn, w2) /\
    take (part (st_pa old)) anc = Ok pp /\ take (st_anc old) anc = Ok pind /\
    m_xnext1 mdl pp pre pind pn (seq 0 N) uv yv tv (length pre) w2 = Ok (ll, w') /\
    add_weights (mkPA pn (lw pa1) (num pa1) (woff pa1)) ll = Ok pa.
Proof.
  intros Hwf -> Hy Ht H. unfold pfy_forward in H. rewrite idx_last_app, idx_app_mid, Hy, Ht in H.
  assert (L : length (part (st_pa old)) = N) by (apply old_wf in Hwf; apply Hwf).
  unfold bind at 1, lift at 1 in H.
  apply bind_ok in H. destruct H as (cp & w0 & Hcp & H).
  pose proof (sh_copy_all mdl Hsh _ _ _ _ Hcp) as Lcp.
  unfold bind at 1, lift at 1 in H. unfold pa_init in H. rewrite Lcp, L in H.
  apply bind_ok in H. destruct H as ([[pa1 b1] anc1] & w1 & H1 & H).
  do 2 (unfold bind at 1, lift at 1 in H).
  apply bind_ok in H. destruct H as (pn & w2 & Hp & H).
  unfold bind at 1, lift at 1 in H.
  apply bind_ok in H. destruct H as (pp & w3 & Hs & H). apply lift_ok in Hs. destruct Hs as (pp' & Hs & E). inversion E; subst; clear E.
  apply bind_ok in H. destruct H as (pind & w4 & Hs2 & H). apply lift_ok in Hs2. destruct Hs2 as (pind' & Hs2 & E). inversion E; subst; clear E.
  apply bind_ok in H. destruct H as (ll & w5 & Hll & H).
  apply bind_ok in H. destruct H as (pa2 & w8 & Ha & H). apply lift_ok in Ha. destruct Ha as (pa2' & Ha & E). inversion E; subst; clear E.
  apply ret_ok in H. inversion H; subst; clear H.
  rewrite firstn_app, Nat.sub_diag, firstn_all in Hll. simpl in Hll. rewrite app_nil_r in Hll.
  exists cp, w0, pa1, w1, pn, w2, pp', pind', ll. auto 10.
Qed.

(** ** Auxiliary filter *)
Lemma apf_forward_sem thr (tr : list (tstep P)) yv uv tv k N pre old b pa anc w w' u y t :
  Forall (step_wf N) tr -> tr = pre ++ [old] ->
  nth_error uv k = Some u -> nth_error yv (k + 1) = Some y -> nth_error tv k = Some t ->
  apf_forward mdl g thr tr yv uv tv k w = Ok ((pa, b, anc), w') ->
  y <> CNone /\
  exists l1 w0 wa ma pa1 w1 la v w2 p w3 p' ll pa2 wf mf,
    m_stage1 mdl (part (st_pa old)) u y t w = Ok (l1, w0) /\
    zipw xadd (lw (st_pa old)) l1 = Ok wa /\ xmax wa = Ok ma /\
    (let pa0 := mkPA (part (st_pa old)) (map (fun x => xsub x ma) wa) N (Fin 0) in
     exists c, (if Reqb thr 0 then Ok false else rbind (calc_Neff pa0)
                 (fun ne => Ok (xltb ne (Fin (thr * INR N))))) = Ok c /\
     if (c : bool) then b = true /\ pa_resample g (m_copy mdl) pa0 N w0 = Ok ((pa1, anc), w1) /\ take l1 anc = Ok la
     else b = false /\ pa1 = pa0 /\ anc = seq 0 N /\ w1 = w0 /\ la = l1) /\
    m_noise mdl tr anc (firstn (k + 1) uv) (firstn (k + 1) tv) w1 = Ok (v, w2) /\
    m_update mdl (part pa1) tr (firstn (k + 1) uv) (firstn (k + 1) yv) (firstn (k + 1) tv) anc v w2 = Ok (p, w3) /\
    m_measure mdl tr anc p uv (firstn (k + 1 + 1) yv) (firstn (k + 1 + 1) tv) w3 = Ok ((p', ll), w') /\
    add_weights (mkPA p' (lw pa1) (num pa1) (woff pa1)) ll = Ok pa2 /\
    zipw xsub (lw pa2) la = Ok wf /\ xmax wf = Ok mf /\
    pa = mkPA (part pa2) (map (fun x => xsub x mf) wf) (num pa2) (woff pa2).
Proof.
  intros Hwf -> Hu Hy Ht H. unfold apf_forward in H. rewrite idx_last_app in H.
  assert (L : length (part (st_pa old)) = N) by (apply old_wf in Hwf; apply Hwf).
  apply idx_ok in Hu, Hy, Ht. rewrite Hu, Hy, Ht in H.
  unfold bind at 1, lift at 1 in H. unfold bind at 1, lift at 1 in H. unfold pa_init in H. rewrite L in H.
  unfold bind at 1, lift at 1 in H. cbn [part lw num woff] in H.
  apply bind_ok in H. destruct H as ([pa0 l1o] & w0 & H0 & H).
  apply bind_ok in H. destruct H as (c & wc & Hc & H).
  apply bind_ok in H. destruct H as ([[[pa1 b1] anc1] lao] & w1 & H1 & H).
  apply bind_ok in H. destruct H as (pa2 & w2 & H2 & H).
  apply bind_ok in H. destruct H as (pa3 & w3 & H3 & H).
  destruct lao as [la|]; [|discriminate].
  assert (Hcw : wc = w0 /\ (if Reqb thr 0 then Ok false else rbind (calc_Neff pa0)
                 (fun ne => Ok (xltb ne (Fin (thr * INR (num pa0)))))) = Ok c).
  { destruct (Reqb thr 0); minv Hc; auto. rewrite Hl. auto. }
  destruct Hcw as [-> Hcc]. clear Hc.
  destruct (is_none y) eqn:Ey.
  { apply ret_ok in H0. inversion H0; subst; clear H0.
    destruct c; [apply bind_ok in H1; destruct H1 as (? & ? & ? & H1); discriminate|].
    apply ret_ok in H1. inversion H1. }
  split; [destruct y; simpl in Ey; congruence|].
  do 2 (unfold bind at 1, lift at 1 in H0).
  apply bind_ok in H0. destruct H0 as (l1 & w00 & Hl1 & H0).
  apply bind_ok in H0. destruct H0 as (wa & wz & Hs & H0). apply lift_ok in Hs. destruct Hs as (wa' & Hs & E). inversion E; subst; clear E.
  apply bind_ok in H0. destruct H0 as (ma & wz & Hmx & H0). apply lift_ok in Hmx. destruct Hmx as (ma' & Hmx & E). inversion E; subst; clear E.
  apply ret_ok in H0. inversion H0; subst; clear H0.
  apply bind_ok in H. destruct H as (wf & wz & Hs2 & H). apply lift_ok in Hs2. destruct Hs2 as (wf' & Hs2 & E). inversion E; subst; clear E.
  apply bind_ok in H. destruct H as (mf & wz & Hmx2 & H). apply lift_ok in Hmx2. destruct Hmx2 as (mf' & Hmx2 & E). inversion E; subst; clear E.
  apply ret_ok in H. inversion H; subst; clear H.
  unfold pf_update in H2. apply bind_ok in H2. destruct H2 as (v & wv & Hv & H2).
  apply bind_ok in H2. destruct H2 as (p & wb & Hp & H2). apply ret_ok in H2. inversion H2; subst; clear H2.
  unfold pf_measure in H3. apply bind_ok in H3. destruct H3 as ([p' ll] & wd & Hme & H3).
  apply lift_ok in H3. destruct H3 as (pa4 & H3 & E). inversion E; subst; clear E.
  cbn [part lw num woff fst snd] in *.
  exists l1, w00, wa', ma', pa1, w1, la, v, wv, p, wb, p', ll, pa4, wf', mf'.
  split; auto. split; auto. split; auto. split.
  { cbv zeta. exists c. split; [exact Hcc|]. destruct c.
    - apply bind_ok in H1. destruct H1 as ([pa5 ind] & w5 & Hres & H1). cbn [fst snd] in H1.
      apply bind_ok in H1. destruct H1 as (l' & w6 & Htk & H1). apply lift_ok in Htk. destruct Htk as (l'' & Htk & E). inversion E; subst; clear E.
      apply ret_ok in H1. inversion H1; subst; clear H1. auto.
    - apply ret_ok in H1. inversion H1; subst; clear H1. auto 10. }
  auto 10.
Qed.
End Sem.
