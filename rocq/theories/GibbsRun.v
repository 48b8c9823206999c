(** Proofs for C82, part 2: what the calls of one iteration compute. *)
From Coquelicot Require Import Coquelicot.
From Coq Require Import ZArith String Reals Lra Lia List Arith.
From Verif Require Import Base XR SampleModel SampleSpec SampleProofs PAModel WeightSpec WeightProofs
  FilterModel TrajModel FilterSpec FilterProofs TrajProofs FilterTotal Prop_Sample Prop_Weights FilterSem Prop_Law Prop_Filter Prop_Cond
  SmoothModel SmoothSpec SmoothProofs SmoothBsi SmoothRs SmoothLaw SmoothPath Prop_Smooth EvidenceSpec Evidence FfbsiSpec Ffbsi GibbsSpec.
Import ListNotations.
Open Scope R_scope.

Section Call.
Context {P U Y V : Type}.
Variables (m : ssm P U Y V) (ld : P -> cell U -> nat -> P -> R) (x0 : list P) (dv : V).
Hypothesis HN : (0 < length x0)%nat.
Variables (anc : bool) (ref : list P).
Notation N := (length x0).
Notation bm := (gibbs_model m ld x0 dv).
Notation mdl := (full_of_basic bm).
Notation g := (gibbs_rng (V := V)).
Notation ct := (cond_path ref).
Definition gfilt : filt P := if anc then FCPFAS ct else FCPF ct.

Lemma gibbs_rng_ok : rng_ok g.
Proof.
  split; [|intros n w; apply Permutation.Permutation_refl]. intros [[|r l] vs]; unfold gibbs_rng, unit_draw; cbn [rand fst snd]; [lra|].
  unfold unit_of. repeat (destruct (Rle_dec _ _) || destruct (Rlt_dec _ _)); lra.
Qed.

Lemma gibbs_total : total_ok N mdl.
Proof.
  constructor; cbn [m_create m_copy m_copy_all m_noise m_update m_measure m_xnext1 m_stage1 m_qsample m_logp_q m_logp_xnext m_meas1 m_propose_y full_of_basic
    b_create b_noise b_update b_measure b_xnext b_stage1 b_qsample b_logp_q b_propose_y gibbs_model]; intros.
  - rewrite Nat.eqb_refl. apply runs_ret. reflexivity.
  - unfold def_copy. apply runs_lift. destruct (take_ok p i) as [q E]; [rewrite H; auto|]. exists q. split; auto. apply take_length in E. lia.
  - apply runs_ret. auto.
  - unfold def_noise. destruct (exists_last H) as (tr' & st & ->). eapply runs_lift_bind; [apply idx_last_app|].
    apply Forall_app in H0. destruct H0 as [_ H0]. inversion H0; subst. destruct H6 as (L & _).
    destruct (take_ok (part (st_pa st)) a) as [q E]; [rewrite L; auto|]. eapply runs_lift_bind; [exact E|].
    destruct (exists_last H2) as (u' & x & ->). eapply runs_lift_bind; [apply idx_last_app|].
    destruct (exists_last H3) as (t' & z & ->). eapply runs_lift_bind; [apply idx_last_app|].
    intros w. cbn. eauto.
  - unfold def_update. destruct (exists_last H0) as (u' & x & ->). eapply runs_lift_bind; [apply idx_last_app|].
    destruct (exists_last H1) as (t' & z & ->). eapply runs_lift_bind; [apply idx_last_app|].
    apply runs_ret. rewrite map_length, combine_length, seq_length. lia.
  - unfold def_measure. destruct (exists_last H0) as (u' & x & ->). eapply runs_lift_bind; [apply idx_last_app|].
    destruct (exists_last H1) as (t' & z & ->). eapply runs_lift_bind; [apply idx_last_app|].
    apply runs_ret. cbn. rewrite map_length. auto.
  - unfold def_xnext1. destruct (take_ok fp fi) as [q E]; [auto|]. eapply runs_lift_bind; [exact E|].
    destruct (idx_lt u k) as [x Ex]; [auto|]. eapply runs_lift_bind; [exact Ex|].
    destruct (idx_lt t k) as [z Ez]; [auto|]. eapply runs_lift_bind; [exact Ez|].
    apply runs_ret. rewrite map_length, combine_length. apply take_length in E. lia.
  - apply runs_ret. rewrite map_length. auto.
  - apply runs_ret. auto.
  - apply runs_ret. rewrite map_length. auto.
  - apply runs_ret. rewrite map_length, combine_length. lia.
  - apply runs_ret. cbn. rewrite map_length. auto.
  - rewrite Nat.eqb_refl. apply runs_ret. reflexivity.
Qed.

(** Finite log weights. *)
Definition finw (w : list xr) : Prop := Forall (fun x => exists q, x = Fin q) w.
Lemma finw_live w : finw w -> w <> [] -> live w.
Proof.
  intros F Hne. split.
  - eapply Forall_impl; [|exact F]. intros x [q ->]. exact I.
  - destruct w as [|x w]; [congruence|]. inversion F as [|? ? [q Hq] _]; subst. exists q. simpl; auto.
Qed.

Record gready (s : ptraj P U Y) : Prop := {
  gr_N : pt_N s = N; gr_f : pt_f s = gfilt; gr_book : exists l, book s l; gr_wf : traj_wf N (pt_traj s);
  gr_last : forall pre st, pt_traj s = pre ++ [st] -> finw (lw (st_pa st)) }.

(** The initial step. *)
Definition first_of (c0 : P) : tstep P := mkStep (mkPA (removelast x0 ++ [c0]) (repeat (Fin (- ln (INR N))) N) N (Fin 0)) (seq 0 N).
Definition gstart (s : ptraj P U Y) (pre : list (tstep P)) (old : tstep P) : Prop :=
  pt_traj s = pre ++ [old] \/ pt_traj s = [] /\ pre = [] /\ exists c0, nth_error ref 0 = Some c0 /\ old = first_of c0.

Lemma removelast_length {A} (l : list A) : length (removelast l) = (length l - 1)%nat.
Proof. induction l as [|a [|b l] IH]; [reflexivity|reflexivity|]. change (removelast (a :: b :: l)) with (a :: removelast (b :: l)). cbn [length] in *. lia. Qed.

Lemma nth_cond k x : nth_error ref k = Some x -> nth_error ct k = Some (mkStep (mkPA [x] [Fin 0] 1 (Fin 0)) [0%nat]).
Proof. intros H. unfold cond_path. rewrite nth_error_map, H. reflexivity. Qed.

Lemma initial_call c0 w : nth_error ref 0 = Some c0 -> initial_step mdl gfilt N w = Ok (first_of c0, w).
Proof.
  intros H0. apply nth_cond in H0. apply idx_ok in H0.
  assert (L : length (removelast x0 ++ [c0]) = N) by (rewrite app_length, removelast_length; simpl; lia).
  assert (E : pa_init (removelast x0 ++ [c0]) None = Ok (mkPA (removelast x0 ++ [c0]) (repeat (Fin (- ln (INR N))) N) N (Fin 0))).
  { unfold pa_init. rewrite L. destruct (removelast x0 ++ [c0]) eqn:E; [simpl in L; lia|reflexivity]. }
  assert (C : create_initial mdl gfilt N w = Ok (removelast x0 ++ [c0], w)).
  { unfold gfilt. destruct anc; cbn [create_initial full_of_basic m_create b_create gibbs_model]; rewrite Nat.eqb_refl; unfold bind at 1, ret;
      unfold bind at 1, lift at 1; rewrite H0; unfold bind, lift; cbn; unfold upd_last; destruct x0; [simpl in HN; lia|reflexivity|simpl in HN; lia|reflexivity]. }
  unfold initial_step, bind at 1. rewrite C. unfold bind, lift. rewrite E. reflexivity.
Qed.

Lemma gstart_fin s pre old : gready s -> gstart s pre old -> finw (lw (st_pa old)).
Proof.
  intros H [E|(_ & _ & c0 & _ & ->)]; [apply (gr_last _ H _ _ E)|]. cbn. apply Forall_forall. intros x Hx. apply repeat_spec in Hx. eauto.
Qed.
Lemma gstart_wf s pre old : gready s -> gstart s pre old -> Forall (step_wf N) (pre ++ [old]).
Proof.
  intros H [E|(_ & -> & c0 & _ & ->)]; [rewrite <- E; apply (gr_wf _ H)|]. constructor; [|constructor].
  repeat split; cbn [first_of st_pa part lw num st_anc]; rewrite ?repeat_length, ?seq_length, ?app_length, ?removelast_length; cbn [length]; try lia. apply seq_range.
Qed.

Lemma sample_call w n r l vs : live w -> 0 < r < 1 ->
  sampleM g (exp_norm w) n (r :: l, vs) = match np_sample (map Fin (map lin w)) n r with Ok i => Ok (i, (l, vs)) | Err e => Err e end.
Proof.
  intros Hl Hr. destruct (exp_norm_fin w Hl) as (c & Hc & Ec).
  assert (Hne : map Fin (map (Rmult c) (map lin w)) <> []) by (pose proof (live_nonempty _ Hl); destruct w; simpl; congruence).
  rewrite Ec, sampleM_draw by exact Hne. cbn [rand gibbs_rng fst snd]. rewrite unit_of_in by exact Hr.
  rewrite sample_scale; auto. apply weights_ok_lin; auto.
Qed.

(** Weight times transition density of each particle. *)
Definition cwts (old : tstep P) u k x' : list R :=
  map (fun xw => exp (ld (fst xw) u k x') * lin (snd xw)) (combine (part (st_pa old)) (lw (st_pa old))).

(** After adding log likelihoods. *)
Lemma added (pa pa' : papprox P) (h : P -> R) : finw (lw pa) -> lw pa <> [] -> length (part pa) = length (lw pa) ->
  add_weights pa (map (fun x => Fin (h x)) (part pa)) = Ok pa' ->
  part pa' = part pa /\ finw (lw pa') /\ exists c, 0 < c /\
    map lin (lw pa') = map (fun xw => c * (lin (snd xw) * exp (h (fst xw)))) (combine (part pa) (lw pa)).
Proof.
  intros F Hne L Ha. set (lls := map (fun x => Fin (h x)) (part pa)) in *.
  pose proof (finw_live _ F Hne) as Hl.
  assert (Hll : Forall logish lls) by (apply Forall_forall; intros x Hx; apply in_map_iff in Hx; destruct Hx as (z & <- & _); exact I).
  assert (Hs : survivor (lw pa) lls).
  { destruct Hl as [_ [q Hq]]. apply In_nth_error in Hq. destruct Hq as [i Hi].
    destruct (nth_error (part pa) i) as [x|] eqn:Ex.
    2:{ apply nth_error_None in Ex. rewrite L in Ex. apply nth_error_None in Ex. congruence. }
    exists i, q, (h x). split; auto. unfold lls. rewrite nth_error_map, Ex. reflexivity. }
  destruct (add_weights_live _ _ _ (proj1 Hl) Hll Hs Ha) as (_ & _ & L1 & L2 & Ep & _ & c & _ & Hc).
  assert (Nx : forall i, (i < length (lw pa))%nat -> exists x q, nth_error (part pa) i = Some x /\ nth_error (lw pa) i = Some (Fin q) /\
     nth_error (lw pa') i = Some (Fin (q + h x - c))).
  { intros i Hi. destruct (nth_error (part pa) i) as [x|] eqn:Ex; [|apply nth_error_None in Ex; lia].
    destruct (nth_error (lw pa) i) as [z|] eqn:Ez; [|apply nth_error_None in Ez; lia].
    assert (Q : exists q, z = Fin q) by (apply (proj1 (Forall_forall _ _) F); eapply nth_error_In; eauto). destruct Q as [q ->].
    exists x, q. split; auto. split; auto.
    assert (El : nth_error lls i = Some (Fin (h x))) by (unfold lls; rewrite nth_error_map, Ex; reflexivity).
    rewrite (Hc i _ _ Ez El). reflexivity. }
  split; auto. split.
  - apply Forall_forall. intros z Hz. apply In_nth_error in Hz. destruct Hz as [i Hi].
    assert (Q : (i < length (lw pa'))%nat) by (apply nth_error_Some; congruence). rewrite L1 in Q.
    destruct (Nx i Q) as (x & q & _ & _ & E). rewrite E in Hi. injection Hi as <-. eauto.
  - exists (exp (- c)). split; [apply exp_pos|]. apply nth_error_ext. intros i. rewrite !nth_error_map.
    destruct (Nat.lt_ge_cases i (length (lw pa))) as [Hi|Hi].
    + destruct (Nx i Hi) as (x & q & E1 & E2 & E3). rewrite E3, (nth_error_combine_ok _ _ _ _ _ E1 E2). cbn. f_equal.
      rewrite <- !exp_plus. f_equal. ring.
    + rewrite !(proj2 (nth_error_None _ _)); auto; rewrite ?combine_length; lia.
Qed.

(** What a forward call with these draws computes: [anc0] are the ancestors of the free particles, [c] that of the conditioned one, [from]
    the particles they name. *)
Definition computed (old : tstep P) (u : option U) (y : option Y) (k : nat) (x' : P) (r1 r2 : R) (vs : list V) (new : tstep P) : Prop :=
  exists anc0 c from,
    np_sample (map Fin (map lin (lw (st_pa old)))) (N - 1) r1 = Ok anc0 /\
    (if anc then np_sample (map Fin (cwts old (cell_of u) k x')) 1 r2 = Ok [c] else c = (N - 1)%nat) /\
    st_anc new = anc0 ++ [c] /\ take (part (st_pa old)) (anc0 ++ [c]) = Ok from /\
    part (st_pa new) = removelast (map (fun ix => move m (snd ix) (cell_of u) k (nth (fst ix) vs dv)) (combine (seq 0 (length from)) from)) ++ [x'] /\
    exists q, 0 < q /\ map lin (lw (st_pa new)) = map (fun x => q * lik m x y (k + 1)) (part (st_pa new)).

Lemma tail_call pre old uv yv tv u y x' ancs pa from w r : 
  Forall (step_wf N) (pre ++ [old]) -> nth_error ref (length pre + 1) = Some x' ->
  nth_error uv (length pre) = Some (cell_of u) -> nth_error yv (length pre + 1) = Some (cell_of y) ->
  nth_error tv (length pre) = Some (length pre) -> nth_error tv (length pre + 1) = Some (length pre + 1)%nat ->
  take (part (st_pa old)) ancs = Ok from -> length ancs = N -> pa_init from None = Ok pa ->
  cpf_tail mdl ct (pre ++ [old]) ancs yv uv tv (length pre) pa w = Ok r ->
  exists pa', r = ((pa', true, ancs), w) /\ finw (lw pa') /\
    part pa' = removelast (map (fun ix => move m (snd ix) (cell_of u) (length pre) (nth (fst ix) (snd w) dv)) (combine (seq 0 (length from)) from)) ++ [x'] /\
    exists q, 0 < q /\ map lin (lw pa') = map (fun x => q * lik m x y (length pre + 1)) (part pa').
Proof.
  intros Fw Hx Nu Ny Nt Nt1 Ht La Hpa H. pose proof (take_length _ _ _ Ht) as Lf. apply nth_cond in Hx. apply idx_ok in Hx.
  assert (Epa : pa = mkPA from (repeat (Fin (- ln (INR N))) N) N (Fin 0)).
  { unfold pa_init in Hpa. rewrite <- La, <- Lf. destruct from; [simpl in Lf; lia|]. inversion Hpa. reflexivity. }
  subst pa. clear Hpa. unfold cpf_tail, pf_update in H. cbn [full_of_basic m_noise m_update part lw num woff] in H.
  unfold def_noise, def_update in H. rewrite idx_last_app in H.
  rewrite (idx_last_firstn _ _ _ Nu), (idx_last_firstn _ _ _ Nt) in H.
  unfold bind at 2, bind at 2, bind at 2, lift at 1 in H. 
  set (moved := map (fun ix => move m (snd ix) (cell_of u) (length pre) (nth (fst ix) (snd w) dv)) (combine (seq 0 (length from)) from)).
  assert (Lm : length moved = N) by (unfold moved; rewrite map_length, combine_length, seq_length; lia).
  match type of H with bind ?mm _ _ = _ => assert (E1 : mm w = Ok (mkPA moved (repeat (Fin (- ln (INR N))) N) N (Fin 0), w)) end.
  { unfold bind, lift, ret. rewrite Ht. cbn [b_noise gibbs_model b_update]. reflexivity. }
  unfold bind at 1 in H. rewrite E1 in H. clear E1.
  unfold bind at 1, lift at 1 in H. rewrite Hx in H. unfold bind at 1, lift at 1 in H. cbn [idx nth_error st_pa part] in H. cbn in H.
  set (pp := removelast moved ++ [x']) in *.
  assert (Eup : upd_last moved x' = Ok pp) by (unfold upd_last; destruct moved; [simpl in Lm; lia|reflexivity]).
  assert (Lp : length pp = N) by (unfold pp; rewrite app_length, removelast_length; simpl; lia).
  unfold bind at 1, lift at 1 in H. rewrite Eup in H. unfold bind at 1, lift at 1 in H. rewrite (proj2 (idx_ok _ _ _) Ny) in H.
  assert (Q : 0 < INR N) by (apply lt_0_INR; exact HN).
  assert (Fin0 : finw (repeat (Fin (- ln (INR N))) N)) by (apply Forall_forall; intros z Hz; apply repeat_spec in Hz; eauto).
  assert (Rl : forall (f : P -> R) n l, length l = n -> map lin (repeat (Fin (- ln (INR N))) n) = map (fun _ : P => / INR N) l).
  { intros f0 n l <-. induction l as [|a l IH]; [reflexivity|]. cbn [length repeat map lin]. rewrite IH, exp_Ropp, exp_ln by exact Q. reflexivity. }
  destruct y as [y|]; cbn [cell_of is_none] in H.
  - unfold bind at 1, pf_measure in H. cbn [full_of_basic m_measure part] in H. unfold def_measure in H.
    rewrite (idx_last_firstn _ _ _ Ny), (idx_last_firstn _ _ _ Nt1) in H. unfold bind, lift, ret in H. cbn [gibbs_model b_measure fst snd part lw num woff] in H.
    unfold ret in H. cbn [fst snd] in H.
    destruct (add_weights _ _) as [pa'|e] eqn:Ea in H; [|discriminate]. injection H as <-.
    destruct (added (mkPA pp (repeat (Fin (- ln (INR N))) N) N (Fin 0)) pa' (fun x => ll m x (CVal y) (length pre + 1))) as (Ep & Hf & c & Hc & Ew); auto.
    + cbn [lw]. intros E. apply (f_equal (@length xr)) in E. rewrite repeat_length in E. simpl in E. lia.
    + cbn [part lw]. rewrite repeat_length. auto.
    + cbn [part lw] in *. exists pa'. split; auto. split; auto. split; auto. exists (c * / INR N).
      split; [apply Rmult_lt_0_compat; auto; apply Rinv_0_lt_compat; auto|]. rewrite Ew, Ep. cbn [lik cell_of].
      clear - Lp Rl Q. rewrite <- Lp at 2. clear Lp. generalize pp. intros l. induction l as [|a l IH]; [reflexivity|].
      cbn [length repeat combine map fst snd lin]. rewrite IH. f_equal. rewrite exp_Ropp, exp_ln by exact Q. ring.
  - injection H as <-. eexists. split; [reflexivity|]. cbn [lw part]. split; auto. split; auto. exists (/ INR N). split; [apply Rinv_0_lt_compat; auto|].
    rewrite (Rl (fun _ => 0) N pp Lp). apply map_ext. intros x. unfold lik. ring.
Qed.

Lemma fwd_call s pre old u y x' r1 r2 vs : gready s -> gstart s pre old -> nth_error ref (length pre + 1) = Some x' -> 0 < r1 < 1 -> 0 < r2 < 1 ->
  exists s' w' new, pt_forward mdl g s u y ([r1; r2], vs) = Ok ((s', true), w') /\ gready s' /\
    pt_traj s' = (pre ++ [old]) ++ [new] /\ computed old u y (length pre) x' r1 r2 vs new.
Proof.
  intros Hrd Hst Hx Hr1 Hr2. destruct (gr_book _ Hrd) as [l B].
  assert (Lt : (length (pt_traj s) <= length pre + 1)%nat) by (destruct Hst as [E|(E & -> & _)]; rewrite E, ?app_length; simpl; lia).
  assert (T : exists s' fl w', pt_forward mdl g s u y ([r1; r2], vs) = Ok ((s', fl), w') /\ pt_N s' = N /\ pt_f s' = pt_f s /\ traj_wf N (pt_traj s')).
  { assert (Q1 : filter_ready (pt_f s) (length (snd (ledger_step (using_pfy (pt_f s)) l (Fwd u y))))).
    { rewrite (gr_f _ Hrd).
      assert (Q : forall k, (k < length (snd (ledger_step (using_pfy gfilt) l (Fwd u y))))%nat -> exists st, nth_error ct k = Some st /\ part (st_pa st) <> []).
      { intros k Hk. assert (Hk' : (k < length ref)%nat).
        { assert (length pre + 1 < length ref)%nat by (apply nth_error_Some; congruence).
          destruct l as [us ys]. destruct B as (B1 & _). cbn [ledger_step] in Hk. destruct ys as [|y0 ys]; cbn [snd] in Hk; rewrite ?app_length in Hk; simpl in Hk, B1; lia. }
        destruct (nth_error ref k) as [x|] eqn:Ex; [|apply nth_error_None in Ex; lia]. apply nth_cond in Ex. rewrite Ex. eexists. split; [reflexivity|]. discriminate. }
      unfold gfilt in *. destruct anc; exact Q. }
    assert (Q2 : op_ready (pt_f s) (Fwd u y)) by (rewrite (gr_f _ Hrd); unfold gfilt; destruct anc; exact I).
    destruct (pt_forward_total mdl g gibbs_rng_ok N HN gibbs_total s l u y (gr_N _ Hrd) B (gr_wf _ Hrd) Q1 Q2 ([r1; r2], vs)) as ([s' fl] & w' & H & EN' & Ef' & Hwf').
    exists s', fl, w'. auto. }
  destruct T as (s' & fl & w' & H & EN' & Ef' & Hwf').
  destruct (pt_forward_inv mdl g s s' l u y fl _ w' B H) as (tr & uv & yv & tv & w1 & pa & ancs & k & Htr & Lk & Hff & Ht & Nu & Ny & Nt & Nt1 & _).
  rewrite (gr_f _ Hrd), (gr_N _ Hrd) in *.
  assert (X : tr = pre ++ [old] /\ w1 = ([r1; r2], vs)).
  { destruct Htr as [(Hne & -> & ->)|(E & st0 & Hi & ->)].
    - destruct Hst as [E|(E & _)]; [auto|congruence].
    - destruct Hst as [E'|(_ & -> & c0 & H0 & ->)]; [rewrite E in E'; destruct pre; discriminate|].
      rewrite (initial_call c0 _ H0) in Hi. inversion Hi; subst; auto. }
  destruct X as [-> ->]. assert (k = length pre) by (rewrite app_length in Lk; simpl in Lk; lia). subst k. clear Htr Lk.
  pose proof (gstart_wf _ _ _ Hrd Hst) as Fwf. pose proof (old_wf _ _ _ Fwf) as Owf. destruct Owf as (W1 & W2 & W3 & W4 & W5).
  pose proof (gstart_fin _ _ _ Hrd Hst) as Ff.
  assert (Hne : lw (st_pa old) <> []) by (intros E; rewrite E in W2; simpl in W2; lia).
  pose proof (finw_live _ Ff Hne) as Hl.
  destruct (sample_valid (map lin (lw (st_pa old))) (N - 1) r1 (weights_ok_lin _ Hl) ltac:(unfold unit_draw; lra)) as (anc0 & Es & La & Fa & _).
  rewrite map_length, W2 in Fa.
  assert (Fin_call : forall c vs', vs' = vs -> (c < N)%nat -> 
     (if anc then np_sample (map Fin (cwts old (cell_of u) (length pre) x')) 1 r2 = Ok [c] else c = (N - 1)%nat) ->
     (exists l', (do cp <- m_copy mdl (part (st_pa old)) (anc0 ++ [c]) ; do pa0 <- lift (pa_init cp None) ;
       cpf_tail mdl ct (pre ++ [old]) (anc0 ++ [c]) yv uv tv (length pre) pa0) (l', vs') = Ok ((pa, fl, ancs), w')) ->
     exists s' w' new, pt_forward mdl g s u y ([r1; r2], vs) = Ok ((s', true), w') /\ gready s' /\
       pt_traj s' = (pre ++ [old]) ++ [new] /\ computed old u y (length pre) x' r1 r2 vs new).
  { intros c vs' -> Hc Hcond (l' & Hrun).
    assert (Lac : length (anc0 ++ [c]) = N) by (rewrite app_length, La; simpl; lia).
    destruct (take_ok (part (st_pa old)) (anc0 ++ [c])) as [from Hfrom].
    { rewrite W1. apply Forall_app. split; auto. }
    unfold bind at 1 in Hrun. cbn [full_of_basic m_copy] in Hrun. unfold def_copy, lift at 1 in Hrun. rewrite Hfrom in Hrun.
    apply bind_ok in Hrun. destruct Hrun as (pa0 & w2 & Hp & Hrun). apply lift_ok in Hp. destruct Hp as (pa0' & Hp & E). inversion E; subst pa0' w2; clear E.
    destruct (tail_call pre old uv yv tv u y x' _ _ from _ _ Fwf Hx Nu Ny Nt Nt1 Hfrom Lac Hp Hrun) as (pa' & E & Hfin & Epart & Hq).
    inversion E; subst pa' fl ancs w'. clear E. cbn [snd] in Epart.
    exists s', (l', vs), (mkStep pa (anc0 ++ [c])). split; [exact H|]. split.
    - constructor; auto.
      + destruct (book_forward mdl g _ _ _ _ _ _ _ _ B H) as [B' _]. eauto.
      + intros pre2 st2 E2. rewrite Ht in E2. apply app_inj_tail in E2. destruct E2 as [_ <-]. exact Hfin.
    - split; [exact Ht|]. exists anc0, c, from. cbn [st_anc st_pa]. repeat (split; [auto|]). exact Hq. }
  assert (W2' : take (lw (st_pa old)) (seq 0 N) = Ok (lw (st_pa old))) by (rewrite <- W2; apply take_all).
  assert (W1' : take (part (st_pa old)) (seq 0 N) = Ok (part (st_pa old))) by (rewrite <- W1; apply take_all).
  assert (W4' : take (st_anc old) (seq 0 N) = Ok (st_anc old)) by (rewrite <- W4; apply take_all).
  unfold gfilt in Hff. destruct anc eqn:Ea; cbn [filter_forward] in Hff.
  - unfold cpfas_forward in Hff. rewrite idx_last_app in Hff. unfold bind at 1, lift at 1 in Hff. cbv zeta in Hff. rewrite W1 in Hff.
    unfold bind at 1 in Hff. rewrite (sample_call _ _ _ _ _ Hl Hr1), Es in Hff.
    rewrite idx_app_mid in Hff. unfold bind at 1, lift at 1 in Hff. rewrite W1' in Hff. unfold bind at 1, lift at 1 in Hff.
    rewrite W4' in Hff. unfold bind at 1, lift at 1 in Hff.
    pose proof (nth_cond _ _ Hx) as Hc. apply idx_ok in Hc. rewrite Hc in Hff. unfold bind at 1, lift at 1 in Hff. cbn [st_pa part] in Hff.
    set (lt := map (fun x => Fin (ld x (cell_of u) (length pre) x')) (part (st_pa old))).
    match type of Hff with bind ?mm _ _ = _ => assert (E1 : mm ([r2], vs) = Ok (lt, ([r2], vs))) end.
    { cbn [full_of_basic m_xnext1]. unfold def_xnext1. rewrite (take_zeros [x'] x' N eq_refl). unfold bind, lift.
      rewrite (proj2 (idx_ok _ _ _) Nu), (proj2 (idx_ok _ _ _) Nt). cbn [gibbs_model b_xnext]. unfold ret. f_equal. f_equal.
      unfold lt. rewrite <- W1. clear. induction (part (st_pa old)) as [|a p IH]; [reflexivity|]. cbn [length repeat combine map fst snd]. rewrite IH. reflexivity. }
    unfold bind at 1 in Hff. rewrite E1 in Hff. clear E1. rewrite W2' in Hff. unfold bind at 1, lift at 1 in Hff.
    apply bind_ok in Hff. destruct Hff as (c & w3 & Hca & Hff).
    assert (Hlt : Forall logish lt) by (apply Forall_forall; intros z Hz; apply in_map_iff in Hz; destruct Hz as (q & <- & _); exact I).
    assert (Hsv : survivor (lw (st_pa old)) lt).
    { destruct Hl as [_ [q Hq]]. apply In_nth_error in Hq. destruct Hq as [i Hi].
      destruct (nth_error (part (st_pa old)) i) as [x|] eqn:Ex.
      2:{ apply nth_error_None in Ex. assert (i < length (lw (st_pa old)))%nat by (apply nth_error_Some; congruence). lia. }
      exists i, q, (ld x (cell_of u) (length pre) x'). split; auto. unfold lt. rewrite nth_error_map, Ex. reflexivity. }
    assert (Ewt : wtimes lt (lw (st_pa old)) = cwts old (cell_of u) (length pre) x').
    { unfold wtimes, cwts, lt. clear. generalize (lw (st_pa old)). induction (part (st_pa old)) as [|a p IH]; intros [|b q]; try reflexivity.
      cbn [map combine fst snd lin]. rewrite IH. reflexivity. }
    assert (Hcc : np_sample (map Fin (cwts old (cell_of u) (length pre) x')) 1 r2 = Ok [c] /\ snd w3 = vs).
    { rewrite <- Ewt. unfold cond_ancestor in Hca.
      apply bind_ok in Hca. destruct Hca as (z & s1 & Hz & Hca). apply lift_ok in Hz. destruct Hz as (z' & Hz & E). inversion E; subst; clear E.
      pose proof (zip_live _ _ _ Hz Hlt (proj1 Hl) Hsv) as Lz. pose proof (zip_lin _ _ _ Hz Hlt (proj1 Hl)) as Ez.
      apply bind_ok in Hca. destruct Hca as (mm & s2 & Hm & Hca). apply lift_ok in Hm. destruct Hm as (m' & Hm & E). inversion E; subst; clear E.
      destruct (live_max _ Lz) as (m0 & Em0 & _). rewrite Em0 in Hm. inversion Hm; subst; clear Hm. cbv zeta in Hca.
      assert (Lsh : live (map (fun x => xsub x (Fin m0)) z')).
      { replace (map (fun x => xsub x (Fin m0)) z') with (map (fun x => xadd x (Fin (- m0))) z') by reflexivity. apply live_shift; auto. }
      unfold bind at 1 in Hca. rewrite (sample_call _ _ _ _ _ Lsh Hr2) in Hca.
      replace (map lin (map (fun x => xsub x (Fin m0)) z')) with (map (Rmult (exp (- m0))) (map lin z')) in Hca
        by (symmetry; apply (lin_shift (- m0)); apply Lz).
      rewrite sample_scale in Hca by (auto using exp_pos, weights_ok_lin). rewrite <- Ez.
      destruct (np_sample (map Fin (map lin z')) 1 r2) as [i|e] eqn:En; [|discriminate].
      destruct (np_sample_range _ _ r2 i ltac:(unfold unit_draw; lra) En) as [Li _].
      destruct i as [|c' [|]]; simpl in Li; try discriminate. cbn in Hca. unfold lift in Hca. cbn in Hca. inversion Hca; subst. auto. }
    destruct Hcc as [Hc1 Hvs]. destruct w3 as [l' vs'']. cbn [snd] in Hvs. subst vs''.
    destruct (np_sample_range _ _ r2 [c] ltac:(unfold unit_draw; lra) Hc1) as [_ Fc].
    apply (Fin_call c vs); auto.
    + inversion Fc; subst. unfold cwts in *. rewrite !map_length, combine_length, W1, W2, Nat.min_id in *. auto.
    + exists l'. exact Hff.
  - unfold cpf_forward in Hff. rewrite idx_app_mid in Hff. unfold bind at 1, lift at 1 in Hff. cbv zeta in Hff.
    rewrite idx_last_app in Hff. unfold bind at 1, lift at 1 in Hff. rewrite W1 in Hff.
    unfold bind at 1 in Hff. rewrite (sample_call _ _ _ _ _ Hl Hr1), Es in Hff.
    apply (Fin_call (N - 1)%nat vs); auto; [lia|]. exists [r2]. exact Hff.
Qed.

Lemma meas_call s pre old y w : gready s -> gstart s pre old -> (length pre < length ref)%nat ->
  exists s' pa, pt_measure mdl s y w = Ok (s', w) /\ gready s' /\ pt_traj s' = pre ++ [mkStep pa (st_anc old)] /\
    part pa = part (st_pa old) /\
    exists c, 0 < c /\ map lin (lw pa) = map (fun xw => c * (lin (snd xw) * exp (ll m (fst xw) (cell_of y) (length pre)))) (combine (part (st_pa old)) (lw (st_pa old))).
Proof.
  intros Hrd Hst Hlen. destruct (gr_book _ Hrd) as [l B].
  assert (Lt : (length (pt_traj s) <= length pre + 1)%nat) by (destruct Hst as [E|(E & -> & _)]; rewrite E, ?app_length; simpl; lia).
  assert (T : exists s' w', pt_measure mdl s y w = Ok (s', w') /\ pt_N s' = N /\ pt_f s' = pt_f s /\ traj_wf N (pt_traj s')).
  { assert (Q1 : filter_ready (pt_f s) (length (snd (ledger_step (using_pfy (pt_f s)) l (Meas y))))).
    { rewrite (gr_f _ Hrd). assert (Eu : using_pfy gfilt = false) by (unfold gfilt; destruct anc; reflexivity). rewrite Eu.
      assert (Q : forall k, (k < length (snd (ledger_step false l (Meas y))))%nat -> exists st, nth_error ct k = Some st /\ part (st_pa st) <> []).
      { intros k Hk. assert (Hk' : (k < length ref)%nat).
        { destruct l as [us ys]. destruct B as (B1 & _). cbn [ledger_step] in Hk. destruct ys as [|y0 ys]; cbn [snd] in Hk; [simpl in Hk; lia|].
          unfold set_last in Hk. rewrite app_length, removelast_length in Hk. simpl in Hk, B1. lia. }
        destruct (nth_error ref k) as [x|] eqn:Ex; [|apply nth_error_None in Ex; lia]. apply nth_cond in Ex. rewrite Ex. eexists. split; [reflexivity|]. discriminate. }
      unfold gfilt in *. destruct anc; exact Q. }
    destruct (pt_measure_total mdl N HN gibbs_total s l y (gr_N _ Hrd) B (gr_wf _ Hrd) Q1 w) as (s' & w' & H & EN' & Ef' & Hwf').
    exists s', w'. auto. }
  destruct T as (s' & w' & H & EN' & Ef' & Hwf'). rewrite (gr_f _ Hrd) in Ef'.
  destruct (book_measure mdl _ _ _ _ _ _ B H) as [B' _].
  pose proof (gstart_wf _ _ _ Hrd Hst) as Fwf. pose proof (old_wf _ _ _ Fwf) as Owf. destruct Owf as (W1 & W2 & W3 & W4 & W5).
  pose proof (gstart_fin _ _ _ Hrd Hst) as Ff.
  assert (Hne : lw (st_pa old) <> []) by (intros E; rewrite E in W2; simpl in W2; lia).
  assert (X : w' = w /\ exists pa, pt_traj s' = pre ++ [mkStep pa (st_anc old)] /\
     add_weights (st_pa old) (map (fun x => Fin (ll m x (cell_of y) (length pre))) (part (st_pa old))) = Ok pa).
  { clear Ef' EN' Hwf' B'. unfold pt_measure in H. rewrite if4 in H. cbv beta iota zeta in H. rewrite (gr_f _ Hrd), (gr_N _ Hrd) in H.
    assert (Eu : using_pfy gfilt = false) by (unfold gfilt; destruct anc; reflexivity). rewrite Eu in H.
    apply bind_ok in H. destruct H as ([tr ind] & w0 & H0 & H).
    assert (E0 : tr = pre ++ [old] /\ ind = length pre /\ w0 = w).
    { destruct Hst as [E|(E & -> & c0 & Hc0 & ->)]; rewrite E in H0.
      - destruct l as [us ys]. destruct B as (B1 & B2 & _). rewrite E, app_length in B1. simpl in B1.
        assert (Ei : pt_ind1 s = S (length pre)) by lia. rewrite Ei in H0. destruct (pre ++ [old]) eqn:Ea; [destruct pre; discriminate|].
        apply ret_ok in H0. inversion H0; auto.
      - apply bind_ok in H0. destruct H0 as (st & w2 & H0 & H1). rewrite (initial_call c0 _ Hc0) in H0. inversion H0; subst. apply ret_ok in H1. inversion H1; subst; auto. }
    destruct E0 as (-> & -> & ->).
    apply bind_ok in H; destruct H as (yv & wa & Hy & H); apply lift_ok in Hy; destruct Hy as (yv' & Hy & Ey); inversion Ey; subst yv' wa; clear Ey.
    apply bind_ok in H; destruct H as (tv & wa & Htv & H); apply lift_ok in Htv; destruct Htv as (tv' & Htv & Et); inversion Et; subst tv' wa; clear Et.
    rewrite idx_last_app in H. unfold lift in H at 1. unfold bind in H at 1.
    apply bind_ok in H; destruct H as (pa & w1 & Hme & H).
    apply bind_ok in H; destruct H as (tr' & wa & Hup & H); apply lift_ok in Hup; destruct Hup as (tr'' & Hup & Et); inversion Et; subst tr'' wa; clear Et.
    apply ret_ok in H. inversion H; subst; clear H. cbn [pt_traj].
    pose proof (upd_nth _ _ _ _ Hy (length pre)) as Ny. pose proof (upd_nth _ _ _ _ Htv (length pre)) as Nt.
    rewrite Nat.eqb_refl in Ny, Nt.
    unfold pf_measure in Hme. cbn [full_of_basic m_measure] in Hme. unfold def_measure in Hme.
    rewrite (idx_last_firstn _ _ _ Ny), (idx_last_firstn _ _ _ Nt) in Hme. cbn in Hme. unfold bind, lift, ret in Hme. cbn [fst snd] in Hme.
    assert (Eup : tr' = pre ++ [mkStep pa (st_anc old)]).
    { unfold upd_last in Hup. rewrite removelast_last in Hup. destruct (pre ++ [old]) eqn:E; [destruct pre; discriminate|]. inversion Hup; auto. }
    subst tr'. 
    destruct (add_weights _ _) eqn:Ea in Hme; [|discriminate]. inversion Hme; subst; clear Hme. split; [reflexivity|]. exists pa. split; [reflexivity|].
    rewrite <- Ea. destruct (st_pa old); reflexivity. }
  destruct X as (-> & pa & Ht & Ha).
  destruct (added (st_pa old) pa (fun x => ll m x (cell_of y) (length pre)) Ff Hne ltac:(congruence) Ha) as (Ep & Hfin & Hc).
  exists s', pa. split; [exact H|]. split.
  { constructor; auto; [eauto|]. intros pre2 st2 E2. rewrite Ht in E2. apply app_inj_tail in E2. destruct E2 as [_ <-]. exact Hfin. }
  split; [exact Ht|]. split; [exact Ep|]. exact Hc.
Qed.

Lemma ready_init thr T name s0 : pt_init N thr 0 name (FODict (Some ct)) T = Ok s0 -> (name = if anc then "cpfas" else "cpf")%string ->
  gready s0 /\ pt_traj s0 = [].
Proof.
  intros H En. pose proof (book_init _ _ _ _ _ _ H) as B.
  assert (E : pt_N s0 = N /\ pt_f s0 = gfilt /\ pt_traj s0 = []).
  { unfold pt_init, gfilt in *. subst name. destruct T as [[|n]|]; simpl in H; try discriminate; destruct anc; simpl in H; inversion H; subst; auto. }
  destruct E as (E1 & E2 & E3). split; auto. constructor; auto; [eauto| |].
  - rewrite E3. split; [constructor|]. intros st Hst. discriminate.
  - intros pre st E. rewrite E3 in E. destruct pre; discriminate.
Qed.
End Call.

(** ** The recorded path ending in particle [i] *)
Section Trace.
Context {P : Type}.
Fixpoint trace (rt : list (tstep P)) (i : nat) : list P :=
  match rt with
  | [] => []
  | st :: rest => trace rest (nth i (st_anc st) 0%nat) ++ match nth_error (part (st_pa st)) i with Some x => [x] | None => [] end
  end.
Definition path (tr : list (tstep P)) (i : nat) : list P := trace (rev tr) i.
Lemma path_snoc tr st i : path (tr ++ [st]) i = path tr (nth i (st_anc st) 0%nat) ++ match nth_error (part (st_pa st)) i with Some x => [x] | None => [] end.
Proof. unfold path. rewrite rev_app_distr. reflexivity. Qed.

Lemma visits_path : forall (tr out : list (tstep P)) p j, lineage tr p -> visits tr p out j -> tr <> [] -> trajectory out j = path tr (p (length tr - 1)%nat).
Proof.
  induction tr as [|st tr IH] using rev_ind; intros out p j Hl (L & Hv) Hne; [congruence|].
  destruct (exists_last (l := out)) as (out' & so & ->); [destruct out; [rewrite app_length in L; simpl in L; lia|discriminate]|].
  rewrite !app_length in L. simpl in L.
  rewrite path_snoc. unfold trajectory. rewrite flat_map_app. cbn [flat_map]. rewrite app_nil_r. rewrite app_length. simpl.
  replace (length tr + 1 - 1)%nat with (length tr) by lia.
  destruct (Hv (length tr) st so) as (x & Hx & Hx').
  { rewrite nth_error_app2, Nat.sub_diag by lia. reflexivity. }
  { replace (length tr) with (length out') by lia. rewrite nth_error_app2, Nat.sub_diag by lia. reflexivity. }
  rewrite Hx, Hx'. f_equal. destruct tr as [|st0 tr0].
  - destruct out'; [reflexivity|simpl in L; lia].
  - pose proof (Hl (length tr0) st) as Hl0. assert (E : nth_error ((st0 :: tr0) ++ [st]) (S (length tr0)) = Some st).
    { rewrite nth_error_app2 by (simpl; lia). simpl. rewrite Nat.sub_diag. reflexivity. }
    apply Hl0 in E. change (length (st0 :: tr0)) with (S (length tr0)). rewrite (nth_error_nth _ _ 0%nat E).
    specialize (IH out' p j). replace (length (st0 :: tr0) - 1)%nat with (length tr0) in IH by (simpl; lia). apply IH; [| |discriminate].
    + intros k st' Hk. apply (Hl k st'). rewrite nth_error_app1; auto. apply nth_error_Some. congruence.
    + split; [lia|]. intros k s1 s2 H1 H2. apply (Hv k s1 s2); rewrite nth_error_app1; auto; apply nth_error_Some; congruence.
Qed.
End Trace.
