(** Properties C09, C10 (forward), C12 (forward), C17, C21, C22: what one forward call
    does to weights, ancestors and which data the model sees (filter.py:57-171,
    204-326, 429-480, 657-707). *)
From Coq Require Import String Bool Reals Lra Lia List Arith.
From Verif Require Import Base XR SampleModel SampleSpec SampleProofs PAModel WeightSpec WeightProofs
  FilterModel TrajModel FilterSpec FilterProofs TrajProofs Prop_Weights FilterSem FilterTotal ExampleModel Prop_Traj.
Import ListNotations.
Open Scope R_scope.

(** In all theorems below [s] is any reachable trajectory, [s'] the state after a
    forward call, [old] and [new] the last two stored steps of [s']: the step advanced
    from (created by this very call if [s] was empty) and the step produced.
    [length pre] is the number of the step advanced from. *)

(** ** C09 *)
Theorem C09_resampled_iff : forall W P U Y V (mdl : fmodel W P U Y V) (g : rng W)
    (s s' : ptraj P U Y) u y b w w' thr pre old new,
  rng_ok g -> shape_ok mdl -> reachable mdl g s ->
  (pt_f s = FPF thr \/ pt_f s = FPFY thr \/ pt_f s = FSIR thr) ->
  pt_forward mdl g s u y w = Ok ((s', b), w') ->
  pt_traj s' = pre ++ [old; new] -> live (lw (st_pa old)) ->
  (b = true <-> 0 < thr /\ ess (map lin (lw (st_pa old))) < thr * INR (pt_N s)) /\
  (b = false -> st_anc new = seq 0 (pt_N s)) /\
  (b = true -> exists r, unit_draw r /\
     np_sample (map Fin (map lin (lw (st_pa old)))) (pt_N s) r = Ok (st_anc new)).
Proof.
  intros W P U Y V mdl g s s' u y b w w' thr pre old new Hg Hsh Hr Hf H Ht Hl.
  destruct (forward_setup mdl g Hg Hsh _ _ _ _ _ _ _ _ _ _ Hr H Ht)
    as (uv & yv & tv & w1 & Fwf & Nwf & HN & Hff & Nu & Ny & Nt & Nt1 & Eu & Ey & Ett & _).
  assert (Hw : pa_wf (pt_N s) (mkPA (part (st_pa old)) (lw (st_pa old)) (pt_N s) (Fin 0))).
  { apply old_pa_wf. eapply old_wf; eauto. }
  assert (Q : exists (pa0 pa1 : papprox P) wa wb, lw pa0 = lw (st_pa old) /\ pa_wf (pt_N s) pa0 /\
     maybe_resample mdl g thr pa0 wa = Ok ((pa1, b, st_anc new), wb)).
  { destruct Hf as [Ef|[Ef|Ef]]; rewrite Ef in Hff; cbn [filter_forward] in Hff.
    - destruct (pf_forward_sem mdl g _ _ _ _ _ _ _ pre old _ _ _ _ _ Fwf eq_refl Hff)
        as (pa1 & w2 & v & w3 & p & w4 & p' & ll & Hm & _).
      eexists _, pa1, w1, w2. split; [|split; [exact Hw|exact Hm]]. reflexivity.
    - destruct (idx_last yv) as [yl|] eqn:Eyl.
      2:{ apply nth_error_In in Ny. unfold idx_last in Eyl. destruct (rev yv) eqn:Er; [|discriminate].
          apply (f_equal (@rev _)) in Er. rewrite rev_involutive in Er. subst. rewrite Er in Ny. inversion Ny. }
      destruct (idx_last tv) as [tl|] eqn:Etl.
      2:{ apply nth_error_In in Nt. unfold idx_last in Etl. destruct (rev tv) eqn:Er; [|discriminate].
          apply (f_equal (@rev _)) in Er. rewrite rev_involutive in Er. subst. rewrite Er in Nt. inversion Nt. }
      destruct (pfy_forward_sem mdl g Hsh _ _ _ _ _ _ pre old _ _ _ _ _ _ _ Fwf eq_refl Eyl Etl Hff)
        as (cp & w0 & pa1 & w2 & pn & w3 & pp & pind & ll & Hcp & Hm & _).
      eexists _, pa1, w0, w2. split; [|split; [|exact Hm]]; [reflexivity|].
      apply (sh_copy_all mdl Hsh) in Hcp. destruct Hw as (A & B & C). cbn [part lw num] in *.
      repeat split; simpl; congruence.
    - destruct (sir_forward_sem mdl g _ _ _ _ _ _ _ pre old _ _ _ _ _ _ _ _ _ Fwf eq_refl Nu Ny Nt Nt1 Hff)
        as (pa1 & w2 & pn & w3 & lq & w4 & lx & w5 & p' & ly & ll & pa2 & Hm & _).
      eexists _, pa1, w1, w2. split; [|split; [exact Hw|exact Hm]]. reflexivity. }
  destruct Q as (pa0 & pa1 & wa & wb & El & Hw0 & Hm).
  apply (maybe_resample_sem mdl g Hg) with (N := pt_N s) in Hm; auto; [|rewrite El; auto].
  rewrite El in Hm. destruct Hm as (A & _ & _ & B & C). split; auto. split.
  - intros E. apply B. auto.
  - intros E. destruct (C E) as (_ & r & wr & Hr' & Hn & _). eauto.
Qed.

(** With threshold 0 (or less) a filter never resamples; above 1 it always does. *)
Theorem C09_thresholds : forall W P U Y V (mdl : fmodel W P U Y V) (g : rng W)
    (s s' : ptraj P U Y) u y b w w' thr pre old new,
  rng_ok g -> shape_ok mdl -> reachable mdl g s ->
  (pt_f s = FPF thr \/ pt_f s = FPFY thr \/ pt_f s = FSIR thr) ->
  pt_forward mdl g s u y w = Ok ((s', b), w') ->
  pt_traj s' = pre ++ [old; new] -> live (lw (st_pa old)) ->
  (thr <= 0 -> b = false) /\ (1 < thr -> b = true).
Proof.
  intros W P U Y V mdl g s s' u y b w w' thr pre old new Hg Hsh Hr Hf H Ht Hl.
  destruct (forward_setup mdl g Hg Hsh _ _ _ _ _ _ _ _ _ _ Hr H Ht)
    as (uv & yv & tv & w1 & Fwf & Nwf & HN & _).
  destruct (C09_resampled_iff _ _ _ _ _ mdl g s s' u y b w w' thr pre old new Hg Hsh Hr Hf H Ht Hl) as (A & _).
  apply old_wf in Fwf. destruct Fwf as (_ & L & _).
  pose proof (weights_ok_lin _ Hl) as [Hp Hs].
  pose proof (ess_bounds _ Hp Hs) as E. rewrite map_length, L in E.
  apply lt_0_INR in HN. split; intros Hthr.
  - destruct b; auto. destruct (proj1 A eq_refl). lra.
  - apply A. split; [lra|]. nra.
Qed.

(** The auxiliary filter decides on the weights after the first stage. *)
Lemma shift_ess w m : live w -> ess (map lin (map (fun x => xsub x (Fin m)) w)) = ess (map lin w).
Proof.
  intros H. rewrite <- (ess_scale (exp (- m)) (map lin w)).
  - f_equal. rewrite !map_map. apply map_ext_in. intros x Hx. destruct H as [H _].
    rewrite Forall_forall in H. rewrite lin_xsub_fin by auto. lra.
  - apply exp_pos.
  - apply live_total; auto.
Qed.

Lemma zipw_lin_prod w l wa : Forall logish w -> Forall logish l -> zipw xadd w l = Ok wa ->
  map lin wa = map (fun ab => lin (fst ab) * lin (snd ab)) (combine w l).
Proof.
  revert l wa. induction w as [|a w IH]; intros [|b l] wa Hw Hl E; simpl in E; try discriminate.
  - inversion E. auto.
  - destruct (zipw xadd w l) eqn:E'; simpl in E; [|discriminate]. inversion E; subst.
    inversion Hw; inversion Hl; subst. simpl. rewrite lin_xadd by auto. f_equal. eauto.
Qed.

Lemma survivor_live w l wa : Forall logish w -> Forall logish l -> survivor w l ->
  zipw xadd w l = Ok wa -> live wa.
Proof.
  intros Hw Hl (i & a & b & Ha & Hb) E. split.
  - eapply (zipw_Forall xadd logish logish logish); eauto. apply logish_xadd.
  - exists (a + b). eapply nth_error_In with (n := i).
    exact (zipw_nth _ _ _ _ E i _ _ Ha Hb).
Qed.

Theorem C09_auxiliary : forall W P U Y V (mdl : fmodel W P U Y V) (g : rng W)
    (s s' : ptraj P U Y) u y b w w' thr pre old new,
  rng_ok g -> shape_ok mdl -> reachable mdl g s -> pt_f s = FAPF thr ->
  pt_forward mdl g s u y w = Ok ((s', b), w') ->
  pt_traj s' = pre ++ [old; new] -> Forall logish (lw (st_pa old)) ->
  exists l1 w1 w2,
    m_stage1 mdl (part (st_pa old)) (cell_of u) (cell_of y) (length pre) w1 = Ok (l1, w2) /\
    (Forall logish l1 -> survivor (lw (st_pa old)) l1 ->
     let prod := map (fun ab => lin (fst ab) * lin (snd ab)) (combine (lw (st_pa old)) l1) in
     (b = true <-> 0 < thr /\ ess prod < thr * INR (pt_N s)) /\
     (b = false -> st_anc new = seq 0 (pt_N s)) /\
     (b = true -> exists r, unit_draw r /\ np_sample (map Fin prod) (pt_N s) r = Ok (st_anc new))).
Proof.
  intros W P U Y V mdl g s s' u y b w w' thr pre old new Hg Hsh Hr Hf H Ht Hl.
  destruct (forward_setup mdl g Hg Hsh _ _ _ _ _ _ _ _ _ _ Hr H Ht)
    as (uv & yv & tv & w1 & Fwf & Nwf & HN & Hff & Nu & Ny & Nt & Nt1 & Eu & Ey & Ett & _).
  rewrite Hf in Hff. cbn [filter_forward] in Hff.
  destruct (apf_forward_sem mdl g _ _ _ _ _ _ _ pre old _ _ _ _ _ _ _ _ Fwf eq_refl Nu Ny Nt Hff)
    as (_ & l1 & w0 & wa & ma & pa1 & w2 & la & v & w3 & p & w4 & p' & ll & pa2 & wf & mf &
        Hs1 & Hwa & Hma & Hc & _).
  exists l1, w1, w0. split; auto. intros Hl1 Hsv. cbv zeta.
  pose proof (survivor_live _ _ _ Hl Hl1 Hsv Hwa) as Lwa.
  rewrite <- (zipw_lin_prod _ _ _ Hl Hl1 Hwa).
  destruct (live_max _ Lwa) as (m & Em & _). rewrite Em in Hma. inversion Hma; subst ma; clear Hma.
  assert (Lsh : live (map (fun x => xsub x (Fin m)) wa)).
  { replace (map (fun x => xsub x (Fin m)) wa) with (map (fun x => xadd x (Fin (- m))) wa) by reflexivity.
    apply live_shift; auto. }
  cbv zeta in Hc. destruct Hc as (c & Ec & Hc). unfold calc_Neff in Ec. cbn [lw] in Ec.
  rewrite neff_fin in Ec by auto. cbn [rbind] in Ec. rewrite shift_ess in Ec by auto.
  pose proof (weights_ok_lin _ Lwa) as [Wp Ws].
  pose proof (ess_bounds _ Wp Ws) as Eb.
  assert (HNr : 0 < INR (pt_N s)) by (apply lt_0_INR; auto).
  assert (Dec : c = true <-> 0 < thr /\ ess (map lin wa) < thr * INR (pt_N s)).
  { unfold Reqb in Ec. destruct (Req_EM_T thr 0) as [->|Hn].
    - inversion Ec; subst. split; [discriminate|lra].
    - inversion Ec as [E]. simpl xltb. split.
      + intros E1. apply Rltb_true in E1. split; auto. nra.
      + intros [_ E1]. apply Rltb_true. auto. }
  destruct c.
  - destruct Hc as (-> & Hres & _). split; [tauto|]. split; [discriminate|]. intros _.
    unfold pa_resample in Hres. cbn [lw part] in Hres.
    destruct (live_max _ Lsh) as (m2 & Hm2 & _). unfold bind at 1, lift at 1 in Hres. rewrite Hm2 in Hres.
    cbv zeta in Hres. apply bind_ok in Hres. destruct Hres as (ind' & wr & Hsm & Hres).
    rewrite sampleM_resample in Hsm by auto.
    apply bind_ok in Hres. destruct Hres as (np & wz & _ & Hres). apply ret_ok in Hres. inversion Hres; subst; clear Hres.
    destruct (sampleM_spec _ _ _ _ _ _ Hg Hsm) as (r & Hr' & Hnp). exists r. split; auto.
    rewrite <- Hnp. symmetry.
    replace (map lin (map (fun x => xsub x (Fin m)) wa)) with (map (Rmult (exp (- m))) (map lin wa)).
    { apply sample_scale; [apply exp_pos|split; auto]. }
    rewrite !map_map. apply map_ext_in. intros x Hx. destruct Lwa as [LL _].
    rewrite Forall_forall in LL. rewrite lin_xsub_fin by auto. lra.
  - destruct Hc as (-> & _ & Ea & _). split; [split; [discriminate|intros Q; apply Dec in Q; discriminate]|].
    split; auto. discriminate.
Qed.

(** ** C17, C10, C12: one step of the bootstrap filter on a Markov model *)
Lemma take_seq {A} (l : list A) : take l (seq 0 (length l)) = Ok l.
Proof.
  destruct (take_ok l (seq 0 (length l)) (seq_range _)) as [r E].
  rewrite E. f_equal. apply take_firstn in E. destruct E as [-> _]. apply firstn_all.
Qed.

Lemma maybe_resample_parts {W P U Y V} (b : bmodel W P U Y V) g thr (pa pa1 : papprox P) fl anc w w1 N :
  pa_wf N pa ->
  maybe_resample (full_of_basic b) g thr pa w = Ok ((pa1, fl, anc), w1) ->
  take (part pa) anc = Ok (part pa1).
Proof.
  intros (L1 & L2 & L3) H. unfold maybe_resample in H.
  assert (Q : take (part pa) (seq 0 (num pa)) = Ok (part pa)) by (rewrite L3, <- L1; apply take_seq).
  destruct (Rltb 0 thr).
  - apply bind_ok in H. destruct H as (ne & w2 & _ & H). destruct (xltb _ _).
    + apply bind_ok in H. destruct H as ([pa2 ind] & w3 & H1 & H). apply ret_ok in H. inversion H; subst; clear H.
      unfold pa_resample in H1. cbn [full_of_basic m_copy] in H1. unfold def_copy in H1. minv H1. cbn [part fst snd]. auto.
    + apply ret_ok in H. inversion H; subst. auto.
  - apply ret_ok in H. inversion H; subst. auto.
Qed.

Theorem C17_bootstrap_step : forall W P U Y V (b : bmodel W P U Y V) (g : rng W)
    (s s' : ptraj P U Y) u y fl w w' thr pre old new,
  rng_ok g -> shape_ok (full_of_basic b) -> reachable (full_of_basic b) g s -> pt_f s = FPF thr ->
  pt_forward (full_of_basic b) g s u y w = Ok ((s', fl), w') ->
  pt_traj s' = pre ++ [old; new] ->
  let k := length pre in
  let prior := prior_lw fl (pt_N s) (lw (st_pa old)) in
  exists parts v p ll w1 w2 w3,
    take (part (st_pa old)) (st_anc new) = Ok parts /\
    b_noise b parts (cell_of u) k w1 = Ok (v, w2) /\
    b_update b parts (cell_of u) k v w2 = Ok (p, w3) /\
    b_measure b p (cell_of y) (k + 1) w3 = Ok ((part (st_pa new), ll), w') /\
    (live (lw (st_pa old)) -> Forall logish ll -> survivor prior ll ->
       bayes prior ll (lw (st_pa new)) /\ rescaled (lw (st_pa new)) /\
       exists off, woff (st_pa new) = Fin off /\
         total (lw (st_pa new)) * exp off =
         rsum (map (fun ab => lin (fst ab) * lin (snd ab)) (combine prior ll))).
Proof.
  intros W P U Y V b g s s' u y fl w w' thr pre old new Hg Hsh Hr Hf H Ht k prior.
  destruct (forward_setup _ g Hg Hsh _ _ _ _ _ _ _ _ _ _ Hr H Ht)
    as (uv & yv & tv & w1 & Fwf & Nwf & HN & Hff & Nu & Ny & Nt & Nt1 & Eu & Ey & Ett & _).
  rewrite Hf in Hff. cbn [filter_forward] in Hff.
  assert (Hw : pa_wf (pt_N s) (mkPA (part (st_pa old)) (lw (st_pa old)) (pt_N s) (Fin 0))).
  { apply old_pa_wf. eapply old_wf; eauto. }
  destruct (pf_forward_sem _ g _ _ _ _ _ _ _ pre old _ _ _ _ _ Fwf eq_refl Hff)
        as (pa1 & w2 & v & w3 & p & w4 & p' & ll & Hm & Hn & Hu & Hme & Ha).
  fold k in Hn, Hu, Hme, Nu, Ny, Nt, Nt1.
  pose proof (maybe_resample_parts _ _ _ _ _ _ _ _ _ _ Hw Hm) as Hpt. cbn [part] in Hpt.
  simpl in Hn, Hu, Hme. unfold def_noise in Hn. unfold def_update in Hu. unfold def_measure in Hme.
  rewrite idx_last_app, (idx_last_firstn _ _ _ Nu), (idx_last_firstn _ _ _ Nt) in Hn.
  rewrite (idx_last_firstn _ _ _ Nu), (idx_last_firstn _ _ _ Nt) in Hu.
  rewrite (idx_last_firstn _ _ _ Ny), (idx_last_firstn _ _ _ Nt1) in Hme.
  unfold bind, lift in Hn, Hu, Hme. rewrite Hpt in Hn.
  pose proof (add_weights_shape _ _ _ Ha) as (Ep & _). cbn [part] in Ep.
  exists (part pa1), v, p, ll, w2, w3, w4. split; auto. split; auto. split; auto. rewrite Ep. split; auto.
  intros Hl Hll Hs.
  destruct (maybe_resample_sem _ g Hg _ _ _ _ _ _ _ _ Hw Hl Hm) as (_ & El & _ & B & C).
  cbn [lw] in El. fold prior in El.
  pose proof (add_weights_bayes (mkPA p' (lw pa1) (num pa1) (woff pa1)) (st_pa new) ll) as X.
  cbn [lw woff] in X. rewrite El in X.
  destruct X as (X1 & X2 & X3 & X4); auto.
  { unfold prior. apply prior_logish. apply Hl. }
  { rewrite <- El. destruct pa1; exact Ha. }
  split; auto. split; auto.
  assert (E0 : woff pa1 = Fin 0).
  { destruct fl; [apply C; auto|]. destruct (B eq_refl) as (-> & _). reflexivity. }
  destruct (X4 0 E0) as (o' & Eo & Et). exists o'. split; auto. rewrite Et, exp_0. lra.
Qed.

Lemma avg_uniform c : 0 < c -> forall n ll, length ll = n ->
  rsum (map (fun ab => lin (fst ab) * lin (snd ab)) (combine (repeat (Fin (- ln c)) n) ll)) = rsum (map lin ll) / c.
Proof.
  intros Hc. induction n as [|n IH]; intros [|a ll] B; simpl in B; try discriminate; simpl; [lra|].
  unfold rsum in IH. rewrite IH by lia. rewrite exp_Ropp, exp_ln by auto. unfold rsum. field. lra.
Qed.

(** ** C12: over a whole forward call *)
Theorem C12_forward_likelihood : forall W P U Y V (b : bmodel W P U Y V) (g : rng W)
    (s s' : ptraj P U Y) u y fl w w' thr pre old new,
  rng_ok g -> shape_ok (full_of_basic b) -> reachable (full_of_basic b) g s -> pt_f s = FPF thr ->
  pt_forward (full_of_basic b) g s u y w = Ok ((s', fl), w') ->
  pt_traj s' = pre ++ [old; new] -> live (lw (st_pa old)) ->
  exists p ll w1,
    b_measure b p (cell_of y) (length pre + 1) w1 = Ok ((part (st_pa new), ll), w') /\
    (Forall logish ll -> survivor (prior_lw fl (pt_N s) (lw (st_pa old))) ll ->
     exists off, woff (st_pa new) = Fin off /\
       (* resampled: plain average of the likelihoods *)
       (fl = true -> total (lw (st_pa new)) * exp off = rsum (map lin ll) / INR (pt_N s)) /\
       (* not resampled: weighted average, up to the normalisation of the old weights *)
       (fl = false -> total (lw (st_pa new)) * exp off / total (lw (st_pa old)) =
          rsum (map (fun ab => lin (fst ab) / total (lw (st_pa old)) * lin (snd ab))
                    (combine (lw (st_pa old)) ll)))).
Proof.
  intros W P U Y V b g s s' u y fl w w' thr pre old new Hg Hsh Hr Hf H Ht Hl.
  pose proof (C17_bootstrap_step _ _ _ _ _ b g s s' u y fl w w' thr pre old new Hg Hsh Hr Hf H Ht) as X.
  cbv zeta in X. destruct X as (parts & v & p & ll & w1 & w2 & w3 & _ & _ & _ & Hme & X).
  destruct (forward_setup _ g Hg Hsh _ _ _ _ _ _ _ _ _ _ Hr H Ht)
    as (uv & yv & tv & wz & Fwf & Nwf & HN & _).
  exists p, ll, w3. split; auto. intros Hll Hs.
  destruct (X Hl Hll Hs) as (B & _ & off & E1 & E2). exists off. split; auto.
  destruct B as (_ & B & _). split; intros ->; simpl prior_lw in *.
  - rewrite E2. rewrite repeat_length in B.
    assert (HNr : 0 < INR (pt_N s)) by (apply lt_0_INR; auto).
    apply avg_uniform; auto.
  - rewrite E2. pose proof (live_total _ Hl). unfold Rdiv at 1. rewrite Rmult_comm, <- rsum_map_scale.
    apply rsum_ext. intros [a c] _. simpl. field. lra.
Qed.

(** ** C22 *)
Lemma zipw_xsub_lin ly lx lq sm ll : Forall logish ly -> Forall logish lx ->
  Forall (fun q => exists r, q = Fin r) lq ->
  zipw xadd ly lx = Ok sm -> zipw xsub sm lq = Ok ll ->
  Forall logish ll /\ length ll = length lq /\ length ll = length ly /\ length ll = length lx /\
  forall i, (i < length ll)%nat ->
    lin (nth i ll NInf) = lin (nth i ly NInf) * lin (nth i lx NInf) / lin (nth i lq NInf).
Proof.
  revert lx lq sm ll. induction ly as [|a ly IH]; intros [|b lx] lq sm ll Hy Hx Hq E1 E2; simpl in E1; try discriminate.
  - inversion E1; subst. destruct lq; simpl in E2; [|discriminate]. inversion E2; subst.
    repeat split; auto. simpl. intros; lia.
  - destruct (zipw xadd ly lx) as [sm'|] eqn:E; simpl in E1; [|discriminate]. inversion E1; subst; clear E1.
    destruct lq as [|q lq]; simpl in E2; [discriminate|].
    destruct (zipw xsub sm' lq) as [ll'|] eqn:E'; simpl in E2; [|discriminate]. inversion E2; subst; clear E2.
    inversion Hy; inversion Hx; inversion Hq; subst.
    destruct (IH lx lq sm' ll' ltac:(auto) ltac:(auto) ltac:(auto) E E') as (F & A & B & C & D).
    match goal with Q : exists r, q = Fin r |- _ => destruct Q as [r ->] end.
    split; [|split; [simpl; lia|split; [simpl; lia|split; [simpl; lia|]]]].
    + constructor; auto. apply logish_xsub_fin. apply logish_xadd; auto.
    + intros [|i] Hi; simpl in *.
      * rewrite lin_xsub_fin by (apply logish_xadd; auto). rewrite lin_xadd by auto.
        rewrite exp_Ropp. reflexivity.
      * apply D. lia.
Qed.

(** [parts] are the resampled (or unchanged) particles, [pn] the proposed ones; [lq],
    [lx], [ly] the log densities the model returned for proposal, transition and
    measurement. *)
Theorem C22_sir_weights : forall W P U Y V (b : bmodel W P U Y V) (g : rng W)
    (s s' : ptraj P U Y) u y fl w w' thr pre old new,
  rng_ok g -> shape_ok (full_of_basic b) -> reachable (full_of_basic b) g s -> pt_f s = FSIR thr ->
  pt_forward (full_of_basic b) g s u y w = Ok ((s', fl), w') ->
  pt_traj s' = pre ++ [old; new] ->
  let k := length pre in
  let prior := prior_lw fl (pt_N s) (lw (st_pa old)) in
  exists parts pn lq lx ly w1 w2 w3 w4,
    take (part (st_pa old)) (st_anc new) = Ok parts /\
    b_qsample b parts (cell_of u) (cell_of y) k w1 = Ok (pn, w2) /\
    b_logp_q b parts pn (cell_of u) (cell_of y) k w2 = Ok (lq, w3) /\
    b_xnext b parts pn (cell_of u) k w3 = Ok (lx, w4) /\
    b_measure b pn (cell_of y) (k + 1) w4 = Ok ((part (st_pa new), ly), w') /\
    (live (lw (st_pa old)) -> Forall logish ly -> Forall logish lx ->
     Forall (fun q => exists r, q = Fin r) lq ->
     exists ratio, length ratio = pt_N s /\
       (forall i, (i < pt_N s)%nat ->
          lin (nth i ratio NInf) = lin (nth i ly NInf) * lin (nth i lx NInf) / lin (nth i lq NInf)) /\
       (survivor prior ratio ->
          bayes prior ratio (lw (st_pa new)) /\ rescaled (lw (st_pa new)))).
Proof.
  intros W P U Y V b g s s' u y fl w w' thr pre old new Hg Hsh Hr Hf H Ht k prior.
  destruct (forward_setup _ g Hg Hsh _ _ _ _ _ _ _ _ _ _ Hr H Ht)
    as (uv & yv & tv & w1 & Fwf & Nwf & HN & Hff & Nu & Ny & Nt & Nt1 & Eu & Ey & Ett & _).
  rewrite Hf in Hff. cbn [filter_forward] in Hff.
  assert (Hw : pa_wf (pt_N s) (mkPA (part (st_pa old)) (lw (st_pa old)) (pt_N s) (Fin 0))).
  { apply old_pa_wf. eapply old_wf; eauto. }
  destruct (sir_forward_sem _ g _ _ _ _ _ _ _ pre old _ _ _ _ _ _ _ _ _ Fwf eq_refl Nu Ny Nt Nt1 Hff)
    as (pa1 & w2 & pn & w3 & lq & w4 & lx & w5 & p' & ly & ll & pa2 & Hm & Hq & Hlq & Hlx & Hly & (sm & Hs1 & Hs2) & Ha & Enew).
  pose proof (maybe_resample_parts _ _ _ _ _ _ _ _ _ _ Hw Hm) as Hpt. cbn [part] in Hpt.
  simpl in Hq, Hlq, Hlx, Hly.
  exists (part pa1), pn, lq, lx, ly, w2, w3, w4, w5.
  rewrite Enew. cbn [part lw]. repeat (split; [assumption|]).
  intros Hl L1 L2 L3.
  destruct (zipw_xsub_lin _ _ _ _ _ L1 L2 L3 Hs1 Hs2) as (Fl & A & B & C & D).
  pose proof (add_weights_shape _ _ _ Ha) as (_ & _ & La & Lb).
  destruct (maybe_resample_sem _ g Hg _ _ _ _ _ _ _ _ Hw Hl Hm) as (_ & El & _ & _).
  cbn [lw] in El. fold prior in El.
  assert (Lp : length prior = pt_N s).
  { unfold prior. apply prior_length. apply Hw. }
  exists ll. split; [rewrite Lb, El; auto|]. split.
  { intros i Hi. apply D. rewrite Lb, El, Lp. auto. }
  intros Hs. rewrite <- El in *.
  destruct (add_weights_bayes pa1 pa2 ll) as (X1 & X2 & _); auto.
  rewrite El. unfold prior. apply prior_logish. apply Hl.
Qed.

Lemma nth_repeat_lt {A} (a d : A) n j : (j < n)%nat -> nth j (repeat a n) d = a.
Proof. revert j. induction n; intros [|j] H; simpl; auto; try lia. apply IHn. lia. Qed.

(** ** C21 *)
Lemma normalise_scores c w (score : nat -> R) n : length w = n -> 0 < c ->
  (forall i, (i < n)%nat -> lin (nth i w NInf) = c * score i) ->
  rsum (map lin w) = c * rsum (map score (seq 0 n)).
Proof.
  intros L Hc H. rewrite <- rsum_map_scale. f_equal.
  apply nth_error_ext. intros k. rewrite !nth_error_map.
  destruct (nth_error w k) as [a|] eqn:Ea.
  - assert (Hk : (k < n)%nat) by (rewrite <- L; apply nth_error_Some; congruence).
    rewrite (nth_error_nth' _ 0%nat) by (rewrite seq_length; auto). rewrite seq_nth by auto. simpl. f_equal.
    rewrite <- H by auto. rewrite (nth_error_nth _ _ _ Ea). auto.
  - apply nth_error_None in Ea. rewrite (proj2 (nth_error_None (seq 0 n) k)); auto. rewrite seq_length. lia.
Qed.

Lemma fin_logish l : Forall (fun q => exists r, q = Fin r) l -> Forall logish l.
Proof. intros H. eapply Forall_impl; [|exact H]. intros q [r ->]. exact I. Qed.

Lemma nth_map_sub w m i : (i < length w)%nat ->
  nth i (map (fun x => xsub x m) w) NInf = xsub (nth i w NInf) m.
Proof.
  intros H. rewrite nth_indep with (d' := xsub NInf m) by (rewrite map_length; auto).
  apply (map_nth (fun x => xsub x m)).
Qed.

Lemma nth_logish w i : Forall logish w -> logish (nth i w NInf).
Proof.
  intros H. destruct (nth_in_or_default i w NInf) as [Hin| ->]; [|exact I].
  rewrite Forall_forall in H. auto.
Qed.

Lemma zipw_nth_d (f : xr -> xr -> xr) a b r i : zipw f a b = Ok r -> (i < length a)%nat ->
  nth i r NInf = f (nth i a NInf) (nth i b NInf).
Proof.
  intros E Hi. destruct (zipw_length _ _ _ _ E) as [L1 L2].
  destruct (nth_error a i) as [x|] eqn:Ea; [|apply nth_error_None in Ea; lia].
  destruct (nth_error b i) as [y|] eqn:Eb; [|apply nth_error_None in Eb; lia].
  rewrite (nth_error_nth _ _ _ (zipw_nth _ _ _ _ E i x y Ea Eb)), (nth_error_nth _ _ _ Ea), (nth_error_nth _ _ _ Eb). auto.
Qed.

Theorem C21_auxiliary_weights : forall W P U Y V (mdl : fmodel W P U Y V) (g : rng W)
    (s s' : ptraj P U Y) u y fl w w' thr pre old new,
  rng_ok g -> shape_ok mdl -> reachable mdl g s -> pt_f s = FAPF thr ->
  pt_forward mdl g s u y w = Ok ((s', fl), w') ->
  pt_traj s' = pre ++ [old; new] ->
  y <> None /\
  exists l1 w1 w2 uv yv tv p ll w3,
    m_stage1 mdl (part (st_pa old)) (cell_of u) (cell_of y) (length pre) w1 = Ok (l1, w2) /\
    m_measure mdl (pre ++ [old]) (st_anc new) p uv yv tv w3 = Ok ((part (st_pa new), ll), w') /\
    idx_last yv = Ok (cell_of y) /\ idx_last tv = Ok (length pre + 1)%nat /\
    (live (lw (st_pa old)) -> Forall (fun q => exists r, q = Fin r) l1 -> Forall logish ll ->
     let score i := (if fl then 1 else lin (nth i (lw (st_pa old)) NInf) * lin (nth i l1 NInf)) *
                    lin (nth i ll NInf) / lin (nth (nth i (st_anc new) 0%nat) l1 NInf) in
     (exists i, (i < pt_N s)%nat /\ 0 < score i) ->
     forall i, (i < pt_N s)%nat ->
       nweight (lw (st_pa new)) i = score i / rsum (map score (seq 0 (pt_N s)))).
Proof.
  intros W P U Y V mdl g s s' u y fl w w' thr pre old new Hg Hsh Hr Hf H Ht.
  destruct (forward_setup mdl g Hg Hsh _ _ _ _ _ _ _ _ _ _ Hr H Ht)
    as (uv & yv & tv & w1 & Fwf & Nwf & HN & Hff & Nu & Ny & Nt & Nt1 & Eu & Ey & Ett & _).
  rewrite Hf in Hff. cbn [filter_forward] in Hff.
  destruct (apf_forward_sem mdl g _ _ _ _ _ _ _ pre old _ _ _ _ _ _ _ _ Fwf eq_refl Nu Ny Nt Hff)
    as (Hy & l1 & w0 & wa & ma & pa1 & w2 & la & v & w3 & p & w4 & p' & ll & pa2 & wf & mf &
        Hs1 & Hwa & Hma & Hc & _ & _ & Hme & Ha & Hwf & Hmf & Enew).
  split; [intros ->; apply Hy; reflexivity|].
  exists l1, w1, w0, uv, (firstn (length pre + 1 + 1) yv), (firstn (length pre + 1 + 1) tv), p, ll, w4.
  pose proof (add_weights_shape _ _ _ Ha) as (Ep & En2 & La2 & Lll). cbn [part lw num] in Ep, En2, La2, Lll.
  assert (Epart : part (st_pa new) = p') by (rewrite Enew; exact Ep).
  assert (Elw : lw (st_pa new) = map (fun x => xsub x mf) wf) by (rewrite Enew; reflexivity).
  split; [exact Hs1|]. rewrite Epart, Elw. split; [exact Hme|].
  split; [apply idx_last_firstn; auto|]. split; [apply idx_last_firstn; auto|].
  intros Hl Hl1 Hll score (i0 & Hi0 & Hpos) i Hi.
  apply old_wf in Fwf. destruct Fwf as (Lp & Lw & _).
  set (N := pt_N s) in *.
  destruct (zipw_length _ _ _ _ Hwa) as [Lwa Ll1]. rewrite Lw in Lwa.
  pose proof (fin_logish _ Hl1) as Hl1'.
  assert (Hsv : survivor (lw (st_pa old)) l1).
  { destruct Hl as [_ (r & Hin)]. apply In_nth_error in Hin. destruct Hin as [j Hj].
    destruct (nth_error l1 j) as [q|] eqn:Eq.
    - rewrite Forall_forall in Hl1. destruct (Hl1 q (nth_error_In _ _ Eq)) as [q' ->]. exists j, r, q'. auto.
    - apply nth_error_None in Eq. assert (j < length (lw (st_pa old)))%nat by (apply nth_error_Some; congruence). lia. }
  pose proof (survivor_live _ _ _ (proj1 Hl) Hl1' Hsv Hwa) as Lwal.
  destruct (live_max _ Lwal) as (m & Em & _). rewrite Em in Hma. inversion Hma; subst ma; clear Hma.
  destruct Nwf as (NW1 & NW2 & NW3 & NW4 & NW5).
  (* the weights entering the measurement, and the stored first-stage weights *)
  assert (Q : exists c0, 0 < c0 /\ length (lw pa1) = N /\ Forall logish (lw pa1) /\ length la = N /\
     Forall (fun q => exists r, q = Fin r) la /\
     (forall j, (j < N)%nat -> lin (nth j (lw pa1) NInf) =
        c0 * (if fl then 1 else lin (nth j (lw (st_pa old)) NInf) * lin (nth j l1 NInf))) /\
     (forall j, (j < N)%nat -> nth j la NInf = nth (nth j (st_anc new) 0%nat) l1 NInf)).
  { cbv zeta in Hc. destruct Hc as (c & _ & Hc). destruct c.
    - destruct Hc as (-> & Hres & Htk).
      unfold pa_resample in Hres. minv Hres. cbn [lw].
      exists (1 / INR N). assert (HNr : 0 < INR N) by (apply lt_0_INR; auto).
      split; [apply Rdiv_lt_0_compat; lra|]. unfold uniform_lw. split; [apply repeat_length|].
      split; [apply Forall_forall; intros x Hx; apply repeat_spec in Hx; subst; exact I|].
      pose proof (take_length _ _ _ Htk) as Lt. split; [congruence|]. split.
      { apply Forall_forall. intros x Hx. apply In_nth_error in Hx. destruct Hx as [j Hj].
        destruct (nth_error (st_anc new) j) as [a1|] eqn:Ea.
        - rewrite (take_nth _ _ _ Htk _ _ Ea) in Hj. apply nth_error_In in Hj. rewrite Forall_forall in Hl1. auto.
        - apply nth_error_None in Ea. assert (j < length la)%nat by (apply nth_error_Some; congruence). lia. }
      split.
      + intros j Hj. rewrite nth_repeat_lt by auto. simpl lin. rewrite exp_ln by (apply Rdiv_lt_0_compat; lra). lra.
      + intros j Hj. destruct (nth_error (st_anc new) j) as [a1|] eqn:Ea; [|apply nth_error_None in Ea; lia].
        rewrite (nth_error_nth _ _ _ Ea). pose proof (take_nth _ _ _ Htk _ _ Ea) as E.
        destruct (nth_error l1 a1) as [q|] eqn:Eq.
        * rewrite (nth_error_nth _ _ _ Eq). apply nth_error_nth. auto.
        * apply nth_error_None in E. lia.
    - destruct Hc as (-> & -> & Ean & -> & ->). cbn [lw].
      exists (exp (- m)). split; [apply exp_pos|]. split; [rewrite map_length; auto|].
      split; [apply Forall_map; eapply Forall_impl; [|exact (proj1 Lwal)]; intros; apply logish_xsub_fin; auto|].
      split; [congruence|]. split; auto. split.
      + intros j Hj. rewrite nth_map_sub by lia. rewrite lin_xsub_fin by (apply nth_logish; apply Lwal).
        rewrite (zipw_nth_d _ _ _ _ _ Hwa) by lia.
        rewrite lin_xadd by (apply nth_logish; auto; apply Hl). lra.
      + intros j Hj. rewrite Ean, seq_nth by auto. auto. }
  destruct Q as (c0 & Hc0 & Lpa1 & Gpa1 & Lla & Gla & Q1 & Q2).
  (* a survivor of the measurement *)
  assert (Hsv2 : survivor (lw pa1) ll).
  { unfold score in Hpos. set (q := lin (nth (nth i0 (st_anc new) 0%nat) l1 NInf)) in *.
    assert (Hq : 0 < q).
    { unfold q. rewrite <- Q2 by auto. rewrite Forall_forall in Gla.
      destruct (Gla (nth i0 la NInf)) as [r ->]; [apply nth_In; lia|]. apply exp_pos. }
    assert (Hpos2 : 0 < (c0 * (if fl then 1 else lin (nth i0 (lw (st_pa old)) NInf) * lin (nth i0 l1 NInf))) * lin (nth i0 ll NInf)).
    { apply Rmult_lt_compat_r with (r := q) in Hpos; auto. unfold Rdiv in Hpos.
      rewrite Rmult_assoc, Rinv_l, Rmult_1_r, Rmult_0_l in Hpos by lra. rewrite Rmult_assoc.
      apply Rmult_lt_0_compat; auto. }
    rewrite <- Q1 in Hpos2 by auto.
    pose proof (lin_nonneg (nth i0 (lw pa1) NInf)). pose proof (lin_nonneg (nth i0 ll NInf)).
    destruct (lin_pos_fin (nth i0 (lw pa1) NInf)) as [ra Era]; [nra|].
    destruct (lin_pos_fin (nth i0 ll NInf)) as [rb Erb]; [nra|].
    exists i0, ra, rb. rewrite <- Era, <- Erb. split; apply nth_error_nth'; lia. }
  destruct (add_weights_live (mkPA p' (lw pa1) (num pa1) (woff pa1)) _ _ Gpa1 Hll Hsv2 Ha)
    as (R1 & R2 & R3 & R4 & R5 & R6 & c & R7 & R8). cbn [lw] in *.
  destruct (zipw_length _ _ _ _ Hwf) as [Lwf Lwf2].
  assert (F2 : forall j, (j < N)%nat -> lin (nth j wf NInf) = c0 * exp (- c) * score j).
  { intros j Hj. rewrite (zipw_nth_d _ _ _ _ _ Hwf) by lia.
    rewrite Forall_forall in Gla. destruct (Gla (nth j la NInf)) as [r Er]; [apply nth_In; lia|].
    rewrite Er. rewrite lin_xsub_fin by (apply nth_logish; apply R2).
    destruct (nth_error (lw pa1) j) as [xa|] eqn:Exa; [|apply nth_error_None in Exa; lia].
    destruct (nth_error ll j) as [xb|] eqn:Exb; [|apply nth_error_None in Exb; lia].
    rewrite (nth_error_nth _ _ _ (R8 j xa xb Exa Exb)).
    assert (Ga : logish xa) by (rewrite Forall_forall in Gpa1; apply Gpa1; eapply nth_error_In; eauto).
    assert (Gb : logish xb) by (rewrite Forall_forall in Hll; apply Hll; eapply nth_error_In; eauto).
    rewrite lin_xsub_fin by (apply logish_xadd; auto). rewrite lin_xadd by auto.
    pose proof (Q1 j Hj) as E. rewrite (nth_error_nth _ _ _ Exa) in E. rewrite E.
    unfold score. rewrite (nth_error_nth _ _ _ Exb), <- Q2, Er by auto. simpl lin.
    rewrite (exp_Ropp r). pose proof (exp_pos r). unfold Rdiv. ring. }
  assert (Gwf : Forall logish wf).
  { apply Forall_forall. intros x Hx. apply In_nth_error in Hx. destruct Hx as [j Hj].
    destruct (nth_error_zipw_inv _ _ _ _ _ _ Hwf Hj) as (xa & xb & Exa & Exb & ->).
    rewrite Forall_forall in Gla. destruct (Gla xb (nth_error_In _ _ Exb)) as [r ->].
    apply logish_xsub_fin. destruct R2 as [R2 _]. rewrite Forall_forall in R2. apply R2. eapply nth_error_In; eauto. }
  assert (Lwfl : live wf).
  { split; auto. assert (Hp0 : 0 < lin (nth i0 wf NInf)).
    { rewrite F2 by auto. apply Rmult_lt_0_compat; [|exact Hpos]. apply Rmult_lt_0_compat; [auto|apply exp_pos]. }
    destruct (lin_pos_fin _ Hp0) as [r Er].
    exists r. rewrite <- Er. apply nth_In. lia. }
  destruct (live_max _ Lwfl) as (m2 & Em2 & _). rewrite Em2 in Hmf. inversion Hmf; subst mf; clear Hmf.
  assert (F3 : forall j, (j < N)%nat -> lin (nth j (map (fun x => xsub x (Fin m2)) wf) NInf) =
      exp (- m2) * (c0 * exp (- c)) * score j).
  { intros j Hj. rewrite nth_map_sub by lia. rewrite lin_xsub_fin by (apply nth_logish; auto).
    rewrite F2 by auto. lra. }
  assert (Hcc : 0 < exp (- m2) * (c0 * exp (- c))).
  { repeat apply Rmult_lt_0_compat; auto; apply exp_pos. }
  unfold nweight, total. rewrite F3 by auto.
  rewrite (normalise_scores _ _ score N) with (2 := Hcc); auto; [|rewrite map_length; lia].
  assert (0 < rsum (map score (seq 0 N))).
  { apply rsum_pos.
    - apply Forall_map, Forall_forall. intros j Hj. apply in_seq in Hj.
      apply Rmult_le_reg_l with (1 := Hcc). rewrite Rmult_0_r, <- F3 by lia. apply lin_nonneg.
    - apply Exists_exists. exists (score i0). split; auto. apply in_map. apply in_seq. lia. }
  generalize dependent (exp (- m2) * (c0 * exp (- c))). intros cc _ Hcc. field. split; lra.
Qed.

(** Without a measurement the call cannot succeed. *)
Theorem C21_needs_measurement : forall W P U Y V (mdl : fmodel W P U Y V) (g : rng W)
    (s : ptraj P U Y) u w thr,
  rng_ok g -> shape_ok mdl -> reachable mdl g s -> pt_f s = FAPF thr ->
  exists e, pt_forward mdl g s u None w = Err e.
Proof.
  intros W P U Y V mdl g s u w thr Hg Hsh Hr Hf.
  destruct (pt_forward mdl g s u None w) as [[[s' b] w']|e] eqn:H; [|eauto]. exfalso.
  destruct (reachable_inv mdl g Hg Hsh _ Hr) as [_ (l & B)].
  destruct (pt_forward_inv mdl g _ _ _ _ _ _ _ _ B H)
    as (tr & uv & yv & tv & w1 & pa & anc & k & Htr & Lk & Hff & Et & Nu & Ny & Nt & _).
  assert (Hne : tr <> []) by (intros ->; simpl in Lk; lia).
  destruct (exists_last Hne) as (pre & old & ->).
  rewrite app_assoc_reverse in Et. simpl in Et.
  destruct (C21_auxiliary_weights _ _ _ _ _ mdl g s s' u None b w w' thr pre old _ Hg Hsh Hr Hf H Et) as (E & _).
  congruence.
Qed.

(** ** C17: filter 'PFY' *)
(** Without preallocation the vectors never run ahead of the steps taken. *)
Lemma pfy_T_step {W P U Y V} (mdl : fmodel W P U Y V) g (s s' : ptraj P U Y) l o w w' :
  book s l -> using_pfy (pt_f s) = true -> (pt_T s <= pt_ind1 s)%nat ->
  pt_step mdl g s o w = Ok (s', w') ->
  (pt_T s' <= pt_ind1 s')%nat /\ pt_f s' = pt_f s.
Proof.
  intros B Hp HT H. destruct o as [u y|y]; simpl in H.
  - apply bind_ok in H. destruct H as ([s1 b] & w1 & H & H2). apply ret_ok in H2. inversion H2; subst; clear H2. simpl.
    unfold pt_forward in H. apply bind_ok in H. destruct H as ([tr k] & w2 & Hk & H).
    rewrite if4 in H. cbv beta iota zeta in H. minv H. destruct a as [[pa bb] anc]. minv H. simpl.
    split; auto. destruct (Nat.leb_spec (pt_T s) (k + 1)); [lia|].
    destruct l as [us ys]. destruct B as (B1 & B2 & _).
    destruct (pt_traj s); [minv Hk; simpl in B1; lia|]. destruct (pt_ind1 s); minv Hk. lia.
  - unfold pt_measure in H. rewrite if4 in H. cbv beta iota zeta in H. rewrite Hp in H. minv H. simpl.
    split; auto. destruct (Nat.leb_spec (pt_T s) (pt_ind1 s)); lia.
Qed.

Lemma pfy_T_run {W P U Y V} (mdl : fmodel W P U Y V) g ops : forall (s s' : ptraj P U Y) l w w',
  book s l -> using_pfy (pt_f s) = true -> (pt_T s <= pt_ind1 s)%nat ->
  pt_run mdl g s ops w = Ok (s', w') -> (pt_T s' <= pt_ind1 s')%nat.
Proof.
  induction ops as [|o ops IH]; intros s s' l w w' B Hp HT H; simpl in H.
  - apply ret_ok in H. inversion H; subst; auto.
  - apply bind_ok in H. destruct H as (s1 & w1 & H1 & H).
    destruct (pfy_T_step _ _ _ _ _ _ _ _ B Hp HT H1) as [A E].
    assert (Hr1 : pt_run mdl g s [o] w = Ok (s1, w1)) by (simpl; unfold bind; rewrite H1; reflexivity).
    destruct (book_run mdl g [o] _ _ _ _ _ B Hr1) as [B1 _].
    eapply IH; eauto. rewrite E. auto.
Qed.

Lemma pfy_vectors {W P U Y V} (mdl : fmodel W P U Y V) g (s s' : ptraj P U Y) l u y b w w' :
  book s l -> (pt_T s <= pt_ind1 s)%nat ->
  pt_forward mdl g s u y w = Ok ((s', b), w') ->
  length (pt_y s') = length (pt_traj s') /\ length (pt_t s') = length (pt_traj s').
Proof.
  intros B HT H. destruct l as [us ys]. destruct B as (B1 & B2 & _).
  unfold pt_forward in H. apply bind_ok in H. destruct H as ([tr k] & w2 & Hk & H).
  assert (A : (pt_T s <= k + 1)%nat /\ length tr = (k + 1)%nat).
  { destruct (pt_traj s) eqn:Et; [minv Hk; simpl in *; lia|]. destruct (pt_ind1 s); minv Hk. simpl in *. lia. }
  destruct A as [A Lt]. rewrite (proj2 (Nat.leb_le _ _) A) in H. minv H. destruct a as [[pa bb] anc]. minv H. simpl.
  apply upd_length in Hl0, Hl1. rewrite resize_length in Hl0; rewrite resize_length in Hl1. rewrite app_length. cbn [length]. lia.
Qed.

Lemma idx_last_at {A} (l : list A) k a : length l = (k + 1)%nat -> nth_error l k = Some a -> idx_last l = Ok a.
Proof.
  intros L H. rewrite <- (firstn_all l), L. apply idx_last_firstn. auto.
Qed.

Theorem C17_pfy_step : forall W P U Y V (b : bmodel W P U Y V) (g : rng W) N r name o s0 ops w0 w00
    (s s' : ptraj P U Y) u y fl w w' thr pre old new,
  rng_ok g -> shape_ok (full_of_basic b) ->
  pt_init N r 0 name o None = Ok s0 -> pt_run (full_of_basic b) g s0 ops w0 = Ok (s, w00) ->
  pt_f s = FPFY thr ->
  pt_forward (full_of_basic b) g s u y w = Ok ((s', fl), w') ->
  pt_traj s' = pre ++ [old; new] ->
  let k := length pre in
  let prior := prior_lw fl (pt_N s) (lw (st_pa old)) in
  exists parts ll w1 w2,
    take (part (st_pa old)) (st_anc new) = Ok parts /\
    b_propose_y b (pt_N s) (cell_of y) (k + 1) w1 = Ok (part (st_pa new), w2) /\
    b_xnext b parts (part (st_pa new)) (cell_of u) k w2 = Ok (ll, w') /\
    (live (lw (st_pa old)) -> Forall logish ll -> survivor prior ll ->
       bayes prior ll (lw (st_pa new)) /\ rescaled (lw (st_pa new))).
Proof.
  intros W P U Y V b g N r name o s0 ops w0 w00 s s' u y fl w w' thr pre old new Hg Hsh Hi Hrun Hf H Ht k prior.
  assert (Hr : reachable (full_of_basic b) g s) by (exists N, r, name, o, None, s0, ops, w0, w00; auto).
  pose proof (book_init _ _ _ _ _ _ Hi) as B0.
  destruct (book_run _ g ops _ _ _ _ _ B0 Hrun) as [B Ef].
  assert (HT0 : (pt_T s0 <= pt_ind1 s0)%nat).
  { unfold pt_init in Hi. simpl in Hi. minv Hi. inversion Hi. simpl. lia. }
  assert (HT : (pt_T s <= pt_ind1 s)%nat).
  { eapply (pfy_T_run _ g ops s0 s); [exact B0| |exact HT0|exact Hrun]. rewrite <- Ef, Hf. reflexivity. }
  destruct (pfy_vectors _ _ _ _ _ _ _ _ _ _ B HT H) as [Ly Ltv].
  destruct (forward_setup _ g Hg Hsh _ _ _ _ _ _ _ _ _ _ Hr H Ht)
    as (uv & yv & tv & w1 & Fwf & Nwf & HN & Hff & Nu & Ny & Nt & Nt1 & Eu & Ey & Ett & _).
  rewrite Hf in Hff. cbn [filter_forward] in Hff. fold k in Hff, Nu, Ny, Nt, Nt1.
  rewrite Ey, Ht, app_length in Ly. rewrite Ett, Ht, app_length in Ltv. simpl in Ly, Ltv. fold k in Ly, Ltv.
  assert (Eyl : idx_last yv = Ok (cell_of y)) by (apply (idx_last_at _ (k + 1)); [lia|auto]).
  assert (Etl : idx_last tv = Ok (k + 1)%nat) by (apply (idx_last_at _ (k + 1)); [lia|auto]).
  destruct (pfy_forward_sem _ g Hsh _ _ _ _ _ _ pre old _ _ _ _ _ _ _ Fwf eq_refl Eyl Etl Hff)
    as (cp & w2 & pa1 & w3 & pn & w4 & pp & pind & ll & Hcp & Hm & Hpr & Hpp & Hpi & Hx & Ha).
  simpl in Hcp, Hpr, Hx. apply ret_ok in Hcp. inversion Hcp; subst cp w2; clear Hcp.
  assert (Hw : pa_wf (pt_N s) (mkPA (part (st_pa old)) (lw (st_pa old)) (pt_N s) (Fin 0))).
  { apply old_pa_wf. eapply old_wf; eauto. }
  pose proof (maybe_resample_shape _ g Hg Hsh _ _ _ _ _ _ _ _ Hw Hm) as [(Lp1 & _) _].
  rewrite Lp1 in Hpr.
  pose proof (sh_propose_y _ Hsh _ _ _ _ _ _ Hpr) as Lpn.
  pose proof (add_weights_shape _ _ _ Ha) as (Ep & _). cbn [part] in Ep.
  unfold def_xnext1 in Hx. rewrite <- Lpn, take_seq in Hx. fold k in Hx.
  apply idx_ok in Nu, Nt. unfold bind, lift in Hx. rewrite Nu, Nt in Hx.
  exists pp, ll, w3, w4. rewrite Ep. repeat (split; [assumption|]).
  intros Hl Hll Hs.
  destruct (maybe_resample_sem _ g Hg _ _ _ _ _ _ _ _ Hw Hl Hm) as (_ & El & _).
  cbn [lw] in El. fold prior in El.
  pose proof (add_weights_bayes (mkPA pn (lw pa1) (num pa1) (woff pa1)) (st_pa new) ll) as X.
  cbn [lw woff] in X. rewrite El in X.
  destruct X as (X1 & X2 & _); auto.
  { unfold prior. apply prior_logish. apply Hl. }
  { rewrite <- El. destruct pa1; exact Ha. }
Qed.

(** With a preallocated [T] the proposal is drawn for the last preallocated slot: in
    this run (one step, T = 5, the model proposes its time stamp) the proposal receives
    time 4 although the step taken is step 1. *)
Theorem C17_pfy_preallocated_refuted :
  exists (s0 : ptraj R R R) s b,
    pt_init 1 0 0 "PFY" FONone (Some 5%nat) = Ok s0 /\
    pt_forward walk_full (const_rng 0) s0 None (Some 3) tt = Ok ((s, b), tt) /\
    length (pt_traj s) = 2%nat /\
    exists st, nth_error (pt_traj s) 1 = Some st /\ part (st_pa st) = [4].
Proof.
  eexists _, _, _. split; [reflexivity|]. split.
  - unfold pt_forward. cbn. unfold bind, lift. cbn.
    unfold maybe_resample. rewrite (proj2 (Rltb_false 0 0)) by lra. cbn. reflexivity.
  - cbn. split; auto. eexists. split; [reflexivity|]. cbn. f_equal. lra.
Qed.

(** The hypotheses of the theorems above hold in a run of every filter they mention
    (two particles, two steps; [walk] is the model of ExampleModel.v). *)
Example C09_C22_instance : forall name,
  In name ["PF"; "PFY"; "SIR"; "APF"]%string ->
  exists (s0 s1 s' : ptraj R R R) b w1 w', pt_init 2 (1/2) 0 name FONone None = Ok s0 /\
    reachable walk_full (const_rng (1/2)) s1 /\ pt_f s1 = pt_f s0 /\
    pt_forward walk_full (const_rng (1/2)) s1 (Some 1) (Some 2) w1 = Ok ((s', b), w') /\
    exists pre old new, pt_traj s' = pre ++ [old; new] /\ live (lw (st_pa old)).
Proof.
  intros name Hin.
  assert (Q : exists s0 : ptraj R R R, pt_init 2 (1/2) 0 name FONone None = Ok s0 /\ pt_traj s0 = [] /\
     pt_N s0 = 2%nat /\ filter_ready (pt_f s0) 2 /\ Forall (op_ready (pt_f s0)) [Fwd (Some 1) (Some 2)] /\
     (forall w st w1, initial_step walk_full (pt_f s0) 2 w = Ok (st, w1) -> live (lw (st_pa st)))).
  { simpl in Hin. repeat (destruct Hin as [<-|Hin]; [eexists; split; [reflexivity|];
      split; [reflexivity|]; split; [reflexivity|]; split; [exact I|]; split; [repeat constructor|];
      intros w st w1 Hs; cbn in Hs; unfold bind in Hs; cbn in Hs; inversion Hs; subst;
      (split; [repeat constructor|eexists; left; reflexivity])|]). contradiction. }
  destruct Q as (s0 & Hi & Et & EN & Hrd & Hop & Hlive).
  assert (Hg : rng_ok (const_rng (1/2))) by (apply const_rng_ok; unfold unit_draw; lra).
  destruct (C15_never_raises unit R R R (list R) walk_full (const_rng (1/2)) 2 (1/2) name FONone None s0
      [Fwd (Some 1) (Some 2)] tt) as (s' & w' & Hrun & _); auto; [apply walk_total; lia|].
  simpl in Hrun. apply bind_ok in Hrun. destruct Hrun as (s2 & w2 & Hrun & E). apply ret_ok in E. inversion E; subst; clear E.
  apply bind_ok in Hrun. destruct Hrun as ([s3 b] & w3 & Hrun & E). apply ret_ok in E. inversion E; subst; clear E.
  exists s0, s0, s3, b, tt, w3. split; auto.
  assert (Hr : reachable walk_full (const_rng (1/2)) s0).
  { exists 2%nat, (1/2), name, FONone, None, s0, [], tt, tt. split; auto. }
  split; auto. split; auto. split; auto.
  destruct (reachable_inv _ _ Hg walk_shape _ Hr) as [_ (l & B)].
  destruct (pt_forward_inv _ _ _ _ _ _ _ _ _ _ B Hrun)
    as (tr & uv & yv & tv & w1 & pa & anc & k & [(Hne & _)|(_ & st0 & Hini & ->)] & Lk & _ & Etr & _); [congruence|].
  exists [], st0, (mkStep pa anc). split; auto. rewrite EN in Hini. eapply Hlive; eauto.
Qed.

Print Assumptions C09_resampled_iff.
Print Assumptions C21_auxiliary_weights.
Print Assumptions C22_sir_weights.
