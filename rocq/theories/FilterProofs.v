From Coq Require Import Reals Lra Lia List Arith.
From Verif Require Import Base XR SampleModel SampleSpec SampleProofs PAModel WeightSpec WeightProofs
  FilterModel TrajModel FilterSpec.
Import ListNotations.
Open Scope R_scope.

Lemma idx_last_In {A} (l : list A) a : idx_last l = Ok a -> In a l.
Proof. intros H. apply idx_last_nth in H. eapply nth_error_In; eauto. Qed.

Lemma idx_In {A} (l : list A) i a : idx l i = Ok a -> In a l.
Proof. intros H. apply idx_ok in H. eapply nth_error_In; eauto. Qed.

Lemma idx_last_app {A} (l : list A) a : idx_last (l ++ [a]) = Ok a.
Proof. unfold idx_last. rewrite rev_app_distr. reflexivity. Qed.

Lemma upd_last_ok {A} (l : list A) a r : upd_last l a = Ok r ->
  l <> [] /\ r = removelast l ++ [a] /\ length r = length l.
Proof.
  intros H. assert (Hne : l <> []) by (destruct l; [discriminate|congruence]).
  assert (E : r = removelast l ++ [a]) by (destruct l; simpl in *; congruence).
  split; auto. split; auto. subst r. destruct (exists_last Hne) as (l' & z & ->).
  rewrite removelast_last, !app_length. reflexivity.
Qed.

Lemma upd_last_some {A} (l : list A) a : l <> [] -> upd_last l a = Ok (removelast l ++ [a]).
Proof. destruct l; [congruence|reflexivity]. Qed.

Lemma set_last_row_ok {P} (l rows r : list P) : set_last_row l rows = Ok r ->
  exists c, rows = [c] /\ l <> [] /\ r = removelast l ++ [c] /\ length r = length l.
Proof.
  unfold set_last_row. destruct rows as [|c [|? ?]]; try discriminate.
  intros H. apply upd_last_ok in H. exists c. tauto.
Qed.

Lemma pa_init_some {P} (p : list P) w pa : pa_init p (Some w) = Ok pa ->
  pa = mkPA p w (length p) (Fin 0).
Proof. simpl. intros H; inversion H; auto. Qed.

Lemma pa_init_none {P} (p : list P) pa : pa_init p None = Ok pa ->
  p <> [] /\ pa = mkPA p (repeat (Fin (- ln (INR (length p)))) (length p)) (length p) (Fin 0).
Proof. destruct p; simpl; [discriminate|]. intros H; inversion H; split; auto. congruence. Qed.

Lemma seq_range N : Forall (fun a => (a < N)%nat) (seq 0 N).
Proof. apply Forall_forall. intros a H. apply in_seq in H. lia. Qed.

Definition pa_wf {P} (N : nat) (pa : papprox P) : Prop :=
  length (part pa) = N /\ length (lw pa) = N /\ num pa = N.
Definition anc_wf (N : nat) (a : list nat) : Prop := length a = N /\ Forall (fun a => (a < N)%nat) a.

Lemma anc_wf_seq N : anc_wf N (seq 0 N).
Proof. split; [apply seq_length|apply seq_range]. Qed.

Lemma exp_norm_length w : length (exp_norm w) = length w.
Proof. unfold exp_norm. rewrite !map_length. auto. Qed.

Section Shape.
Context {W P U Y V : Type}.
Variable mdl : fmodel W P U Y V.
Variable g : rng W.
Hypothesis Hg : rng_ok g.
Hypothesis Hm : shape_ok mdl.

Lemma pa_resample_shape (pa : papprox P) n s pa' ind s' :
  pa_resample g (m_copy mdl) pa n s = Ok ((pa', ind), s') ->
  pa_wf n pa' /\ length ind = n /\ Forall (fun i => (i < length (lw pa))%nat) ind.
Proof.
  unfold pa_resample. intros H. minv H.
  apply sampleM_range in Hm0; auto. rewrite !map_length in Hm0. destruct Hm0 as [L F].
  apply (sh_copy mdl Hm) in Hm1.
  repeat split; simpl; auto.
  - congruence.
  - unfold uniform_lw. apply repeat_length.
Qed.

Lemma maybe_resample_shape thr (pa : papprox P) N s pa' b anc s' : pa_wf N pa ->
  maybe_resample mdl g thr pa s = Ok ((pa', b, anc), s') ->
  pa_wf N pa' /\ anc_wf N anc.
Proof.
  intros (L1 & L2 & L3) H. unfold maybe_resample in H.
  destruct (Rltb 0 thr).
  - minv H. destruct (xltb _ _).
    + minv H. destruct a as [pa'' ind]. simpl in *.
      apply pa_resample_shape in Hm0. rewrite L2, L3 in Hm0. unfold anc_wf. tauto.
    + minv H. rewrite L3. split; [repeat split; auto|apply anc_wf_seq].
  - minv H. rewrite L3. split; [repeat split; auto|apply anc_wf_seq].
Qed.

Lemma pf_update_shape tr anc u y t k (pa : papprox P) N s pa' s' : pa_wf N pa ->
  pf_update mdl tr anc u y t k pa s = Ok (pa', s') -> pa_wf N pa'.
Proof.
  intros (L1 & L2 & L3) H. unfold pf_update in H. minv H.
  apply (sh_update mdl Hm) in Hm1. repeat split; simpl; congruence.
Qed.

Lemma pf_measure_shape tr anc u y t k (pa : papprox P) N s pa' s' : pa_wf N pa ->
  pf_measure mdl tr anc pa u y t k s = Ok (pa', s') -> pa_wf N pa'.
Proof.
  intros (L1 & L2 & L3) H. unfold pf_measure in H. minv H.
  destruct a as [p w]. apply (sh_measure mdl Hm) in Hm0.
  inversion H; subst. apply add_weights_shape in Hl. simpl in Hl.
  destruct Hl as (A & B & C & D). repeat split; try congruence.
  rewrite A. tauto.
Qed.

Lemma cond_ancestor_range wt w s i s' : cond_ancestor g wt w s = Ok (i, s') -> (i < length w)%nat.
Proof.
  unfold cond_ancestor. intros H. minv H.
  inversion H; subst. apply idx_In in Hl1. apply sampleM_range in Hm0; auto.
  destruct Hm0 as [_ F]. rewrite exp_norm_length, map_length in F.
  apply zipw_length in Hl. rewrite Forall_forall in F. apply F in Hl1. lia.
Qed.

Variable N : nat.
Hypothesis HN : (0 < N)%nat.

Lemma anc_app anc0 i : length anc0 = (N - 1)%nat -> Forall (fun a => (a < N)%nat) anc0 -> (i < N)%nat ->
  anc_wf N (anc0 ++ [i]).
Proof.
  intros L F Hi. split.
  - rewrite app_length. simpl. lia.
  - apply Forall_app. split; auto.
Qed.

Lemma wf_step_of (tr : list (tstep P)) st : Forall (step_wf N) tr -> In st tr -> step_wf N st.
Proof. intros H Hin. rewrite Forall_forall in H. auto. Qed.

Ltac wf_last :=
  repeat match goal with
  | H : idx_last ?tr = Ok ?st, F : Forall (step_wf _) ?tr |- _ =>
      let X := fresh "X" in
      pose proof (wf_step_of tr st F (idx_last_In tr st H)) as X; clear H
  | H : idx ?tr _ = Ok ?st, F : Forall (step_wf _) ?tr |- _ =>
      let X := fresh "X" in
      pose proof (wf_step_of tr st F (idx_In tr _ st H)) as X; clear H
  | H : pa_init _ (Some _) = Ok ?x |- _ => apply pa_init_some in H; subst x
  end.
Ltac wf_open :=
  repeat match goal with H : step_wf N _ |- _ => destruct H as (? & ? & ? & ? & ?) end.

Lemma pf_forward_shape thr (tr : list (tstep P)) y u t k s pa b anc s' : Forall (step_wf N) tr ->
  pf_forward mdl g thr tr y u t k s = Ok ((pa, b, anc), s') -> pa_wf N pa /\ anc_wf N anc.
Proof.
  intros F H. unfold pf_forward in H. minv H. wf_last.
  destruct a as [[pa1 b1] anc1]. minv H. wf_open.
  apply maybe_resample_shape with (N := N) in Hm0; [|repeat split; auto].
  destruct Hm0 as [A B].
  eapply pf_update_shape in Hm1; eauto. eapply pf_measure_shape in Hm2; eauto.
Qed.

Lemma sir_forward_shape thr (tr : list (tstep P)) y u t k s pa b anc s' : Forall (step_wf N) tr ->
  sir_forward mdl g thr tr y u t k s = Ok ((pa, b, anc), s') -> pa_wf N pa /\ anc_wf N anc.
Proof.
  intros F H. unfold sir_forward in H. minv H. wf_last.
  destruct a as [[pa1 b1] anc1]. minv H. wf_open.
  apply maybe_resample_shape with (N := N) in Hm0; [|repeat split; auto].
  destruct Hm0 as [A B]. split; auto.
  apply (sh_qsample mdl Hm) in Hm1. destruct a2 as [p2 w2].
  apply (sh_meas1 mdl Hm) in Hm4. destruct A as (A1 & A2 & A3).
  match goal with Ha : add_weights _ _ = Ok _ |- _ => apply add_weights_shape in Ha;
    destruct Ha as (B1 & B2 & B3 & B4) end.
  repeat split; simpl in *; try congruence. destruct Hm4. congruence.
Qed.

Lemma pfy_forward_shape thr (tr : list (tstep P)) y u t k s pa b anc s' : Forall (step_wf N) tr ->
  pfy_forward mdl g N thr tr y u t k s = Ok ((pa, b, anc), s') -> pa_wf N pa /\ anc_wf N anc.
Proof.
  intros F H. unfold pfy_forward in H. minv H. wf_last.
  destruct a0 as [[pa1 b1] anc1]. minv H. wf_last. wf_open.
  apply (sh_copy_all mdl Hm) in Hm0.
  apply maybe_resample_shape with (N := N) in Hm1; [|repeat split; simpl; congruence].
  destruct Hm1 as [(A1 & A2 & A3) B]. split; auto.
  apply (sh_propose_y mdl Hm) in Hm2.
  match goal with Ha : add_weights _ _ = Ok _ |- _ => apply add_weights_shape in Ha;
    destruct Ha as (B1 & B2 & B3 & B4) end.
  repeat split; simpl in *; congruence.
Qed.

Lemma cpf_tail_shape ct tr anc y u t k (pa : papprox P) s pa' b anc' s' : pa_wf N pa ->
  cpf_tail mdl ct tr anc y u t k pa s = Ok ((pa', b, anc'), s') ->
  pa_wf N pa' /\ anc' = anc.
Proof.
  intros Hpa H. unfold cpf_tail in H. minv H.
  eapply pf_update_shape in Hm0; eauto. destruct Hm0 as (A1 & A2 & A3).
  apply upd_last_ok in Hl1. destruct Hl1 as (_ & _ & L).
  assert (Q : pa_wf N (mkPA b2 (lw a) (num a) (woff a))) by (repeat split; simpl; congruence).
  destruct (is_none b3).
  - minv H. auto.
  - minv H. eapply pf_measure_shape in Hm0; eauto.
Qed.

Lemma cpf_forward_shape ct (tr : list (tstep P)) y u t k s pa b anc s' : Forall (step_wf N) tr ->
  cpf_forward mdl g ct tr y u t k s = Ok ((pa, b, anc), s') -> pa_wf N pa /\ anc_wf N anc.
Proof.
  intros F H. unfold cpf_forward in H. minv H. wf_last. wf_open.
  apply sampleM_range in Hm0; auto. rewrite exp_norm_length in Hm0. destruct Hm0 as [L R].
  apply (sh_copy mdl Hm) in Hm1. rewrite app_length in Hm1. simpl in Hm1.
  apply pa_init_none in Hl1. destruct Hl1 as [_ ->].
  apply cpf_tail_shape in H.
  - destruct H as [A ->]. split; auto. apply anc_app; try lia.
    eapply Forall_impl; [|exact R]. intros; simpl in *; lia.
  - repeat split; simpl; try lia. rewrite repeat_length. lia.
Qed.

Lemma cpfas_forward_shape ct (tr : list (tstep P)) y u t k s pa b anc s' : Forall (step_wf N) tr ->
  cpfas_forward mdl g ct tr y u t k s = Ok ((pa, b, anc), s') -> pa_wf N pa /\ anc_wf N anc.
Proof.
  intros F H. unfold cpfas_forward in H. minv H. wf_last. wf_open.
  apply sampleM_range in Hm0; auto. rewrite exp_norm_length in Hm0. destruct Hm0 as [L R].
  apply cond_ancestor_range in Hm2.
  match goal with Ha : take (lw _) _ = Ok _ |- _ => apply take_length in Ha; rewrite seq_length in Ha end.
  apply (sh_copy mdl Hm) in Hm3. rewrite app_length in Hm3. simpl in Hm3.
  match goal with Ha : pa_init _ None = Ok _ |- _ => apply pa_init_none in Ha; destruct Ha as [_ ->] end.
  apply cpf_tail_shape in H.
  - destruct H as [A ->]. split; auto. apply anc_app; try lia.
    eapply Forall_impl; [|exact R]. intros; simpl in *; lia.
  - repeat split; simpl; try lia. rewrite repeat_length. lia.
Qed.

Lemma cpfyas_forward_shape ct (tr : list (tstep P)) y u t k s pa b anc s' : Forall (step_wf N) tr ->
  cpfyas_forward mdl g N ct tr y u t k s = Ok ((pa, b, anc), s') -> pa_wf N pa /\ anc_wf N anc.
Proof.
  intros F H. unfold cpfyas_forward in H. minv H. wf_last. wf_open.
  apply sampleM_range in Hm0; auto. rewrite exp_norm_length in Hm0. destruct Hm0 as [L R].
  apply cond_ancestor_range in Hm2.
  match goal with Ha : take (lw _) _ = Ok _ |- _ => apply take_length in Ha; rewrite seq_length in Ha end.
  apply (sh_propose_y mdl Hm) in Hm3.
  match goal with Ha : set_last_row _ _ = Ok _ |- _ => apply set_last_row_ok in Ha;
    destruct Ha as (c & _ & _ & _ & L3) end.
  apply (sh_xnext1 mdl Hm) in Hm4.
  match goal with Ha : take _ (_ ++ [_]) = Ok ?x, Hb : length _ = length ?x |- _ =>
     pose proof (take_length _ _ _ Ha) as L4 end.
  rewrite app_length in L4. simpl in L4.
  split.
  - repeat split; simpl; try lia. rewrite map_length. lia.
  - apply anc_app; try lia. eapply Forall_impl; [|exact R]. intros; simpl in *; lia.
Qed.

Lemma csiras_forward_shape ct (tr : list (tstep P)) y u t k s pa b anc s' : Forall (step_wf N) tr ->
  csiras_forward mdl g ct tr y u t k s = Ok ((pa, b, anc), s') -> pa_wf N pa /\ anc_wf N anc.
Proof.
  intros F H. unfold csiras_forward in H. minv H. wf_last. wf_open.
  apply sampleM_range in Hm0; auto. rewrite exp_norm_length in Hm0. destruct Hm0 as [L R].
  apply cond_ancestor_range in Hm2.
  match goal with Ha : take (lw _) _ = Ok _ |- _ => apply take_length in Ha; rewrite seq_length in Ha end.
  apply (sh_copy mdl Hm) in Hm3. rewrite app_length in Hm3. simpl in Hm3.
  match goal with Ha : pa_init _ None = Ok _ |- _ => apply pa_init_none in Ha; destruct Ha as [_ ->] end.
  apply (sh_qsample mdl Hm) in Hm4. simpl in Hm4.
  match goal with Ha : upd_last _ _ = Ok _ |- _ => apply upd_last_ok in Ha; destruct Ha as (_ & _ & L3) end.
  destruct a6 as [p6 w6]. apply (sh_meas1 mdl Hm) in Hm7.
  repeat match goal with Ha : zipw _ _ _ = Ok _ |- _ => apply zipw_length in Ha end.
  simpl in *.
  split.
  - repeat split; simpl; lia.
  - apply anc_app; try lia. eapply Forall_impl; [|exact R]. intros; simpl in *; lia.
Qed.

Lemma apf_forward_shape thr (tr : list (tstep P)) y u t k s pa b anc s' : Forall (step_wf N) tr ->
  apf_forward mdl g thr tr y u t k s = Ok ((pa, b, anc), s') -> pa_wf N pa /\ anc_wf N anc.
Proof.
  intros F H. unfold apf_forward in H. minv H. wf_last.
  destruct a as [pa1 l1].
  assert (A : pa_wf N pa1).
  { destruct (is_none b2).
    - minv Hm0. wf_open. repeat split; auto.
    - minv Hm0. wf_open. simpl in *. repeat match goal with Ha : zipw _ _ _ = Ok _ |- _ => apply zipw_length in Ha end.
      repeat split; simpl; rewrite ?map_length; lia. }
  clear Hm0. minv H. destruct a0 as [[[pa2 b3] anc2] l2].
  assert (B : pa_wf N pa2 /\ anc_wf N anc2).
  { destruct a.
    - minv Hm1. destruct a as [pa3 i3]. simpl in *.
      apply pa_resample_shape in Hm2. destruct A as (A1 & A2 & A3). rewrite A2, A3 in Hm2.
      destruct l1; minv Hm1. unfold anc_wf. tauto.
    - minv Hm1. destruct A as (A1 & A2 & A3). rewrite A3. split; [repeat split; auto|apply anc_wf_seq]. }
  clear Hm1. minv H. destruct B as [B1 B2].
  eapply pf_update_shape in Hm1; eauto. eapply pf_measure_shape in Hm2; eauto.
  destruct l2; [|minv H]. minv H. destruct Hm2 as (C1 & C2 & C3).
  match goal with Ha : zipw _ _ _ = Ok _ |- _ => apply zipw_length in Ha end.
  split; auto. repeat split; simpl; rewrite ?map_length; lia.
Qed.

Lemma filter_forward_shape f (tr : list (tstep P)) y u t k s pa b anc s' : Forall (step_wf N) tr ->
  filter_forward mdl g f N tr y u t k s = Ok ((pa, b, anc), s') -> pa_wf N pa /\ anc_wf N anc.
Proof.
  destruct f; simpl; intros F H;
  eauto using pf_forward_shape, apf_forward_shape, pfy_forward_shape, sir_forward_shape,
    cpfyas_forward_shape, cpfas_forward_shape, cpf_forward_shape, csiras_forward_shape.
Qed.

Lemma create_initial_shape f s p s' : create_initial mdl f N s = Ok (p, s') -> length p = N.
Proof.
  destruct f; simpl; intros H; try (apply (sh_create mdl Hm) in H; exact H);
  minv H; apply (sh_create mdl Hm) in Hm0;
  inversion H; subst;
  match goal with Ha : upd_last _ _ = Ok _ |- _ => apply upd_last_ok in Ha end; lia.
Qed.

Lemma initial_step_shape f s st s' : initial_step mdl f N s = Ok (st, s') ->
  step_wf N st /\ st_anc st = seq 0 N.
Proof.
  unfold initial_step. intros H. minv H. apply create_initial_shape in Hm0.
  apply pa_init_none in Hl. destruct Hl as [_ ->]. simpl. split; auto.
  repeat split; simpl; auto.
  - rewrite repeat_length; auto.
  - apply seq_length.
  - apply seq_range.
Qed.

(** The trajectory-level invariant (C15). *)
Lemma traj_wf_snoc tr (st : tstep P) : tr <> [] -> traj_wf N tr -> step_wf N st -> traj_wf N (tr ++ [st]).
Proof.
  intros Hne [A B] C. split.
  - apply Forall_app; auto.
  - intros st0 H. rewrite nth_error_app1 in H; auto. destruct tr; [congruence|simpl; lia].
Qed.

Lemma pt_forward_wf (s : ptraj P U Y) u y w s' b w' : pt_N s = N -> traj_wf N (pt_traj s) ->
  pt_forward mdl g s u y w = Ok ((s', b), w') ->
  traj_wf N (pt_traj s') /\ pt_N s' = N /\ pt_f s' = pt_f s /\
  exists tr0 st, pt_traj s' = tr0 ++ [st] /\
    (tr0 = pt_traj s \/ (pt_traj s = [] /\ exists st0, tr0 = [st0])).
Proof.
  intros EN Hwf H. unfold pt_forward in H. rewrite EN in H; clear EN. apply bind_ok in H. destruct H as ([tr ind] & w1 & H1 & H).
  assert (A : traj_wf N tr /\ tr <> [] /\ (tr = pt_traj s \/ (pt_traj s = [] /\ exists st0, tr = [st0]))).
  { destruct (pt_traj s) eqn:Etr.
    - minv H1. apply initial_step_shape in Hm0. destruct Hm0 as [A B].
      split; [|split; [congruence|right; eauto]]. split; auto. simpl. intros st E. inversion E; subst; auto.
    - destruct (pt_ind1 s); minv H1. split; auto. split; [congruence|auto]. }
  clear H1. destruct A as (A & Ane & Aeq).
  destruct (Nat.leb (pt_T s) (ind + 1)); minv H; destruct a as [[pa b3] anc]; minv H;
  apply filter_forward_shape in Hm0; try apply A;
  simpl; (split; [apply traj_wf_snoc; auto; destruct Hm0 as [(? & ? & ?) (? & ?)]; repeat split; auto|]);
  repeat split; eauto.
Qed.

Lemma traj_wf_upd_last tr (st : tstep P) st' : traj_wf N (tr ++ [st]) -> step_wf N st' ->
  st_anc st' = st_anc st -> traj_wf N (tr ++ [st']).
Proof.
  intros [A B] C E. apply Forall_app in A. destruct A as [A1 A2]. split.
  - apply Forall_app; auto.
  - intros st0 H. destruct tr; simpl in *.
    + inversion H; subst. rewrite E. apply B. auto.
    + apply B. auto.
Qed.

Lemma pt_measure_wf (s : ptraj P U Y) y w s' w' : pt_N s = N -> traj_wf N (pt_traj s) ->
  pt_measure mdl s y w = Ok (s', w') ->
  traj_wf N (pt_traj s') /\ pt_N s' = N /\ pt_f s' = pt_f s.
Proof.
  intros EN Hwf H. unfold pt_measure in H. rewrite EN in H; clear EN.
  set (q := if Nat.leb (pt_T s) (pt_ind1 s) then _ else _) in H.
  destruct q as [[[uv yv] tv] TT].
  destruct (using_pfy (pt_f s)) eqn:Ef.
  - minv H. simpl.
    assert (A : pa_wf N a).
    { destruct (pt_f s); try discriminate; simpl in Hm0.
      - unfold pfy_measure in Hm0. minv Hm0.
        apply (sh_propose_y mdl Hm) in Hm1. apply pa_init_none in Hl3. destruct Hl3 as [_ ->].
        inversion Hm0; subst. repeat split; simpl; try congruence. rewrite repeat_length. congruence.
      - unfold cpfyas_measure in Hm0. minv Hm0.
        apply (sh_propose_y mdl Hm) in Hm1.
        match goal with Ha : set_last_row _ _ = Ok _ |- _ => apply set_last_row_ok in Ha;
          destruct Ha as (c & _ & _ & _ & L3) end.
        match goal with Ha : pa_init _ None = Ok _ |- _ => apply pa_init_none in Ha; destruct Ha as [_ ->] end.
        inversion Hm0; subst. repeat split; simpl; try congruence. rewrite repeat_length. congruence. }
    repeat split; auto.
    + apply Forall_app. split; [apply Hwf|]. constructor; auto. destruct A as (? & ? & ?).
      pose proof (anc_wf_seq N) as [? ?]. repeat split; auto.
    + intros st E. destruct (pt_traj s) as [|st0 tr] eqn:Etr; simpl in E.
      * inversion E; subst. auto.
      * apply Hwf. simpl. auto.
  - apply bind_ok in H. destruct H as ([tr ind] & w1 & H1 & H).
    assert (A : traj_wf N tr).
    { destruct (pt_traj s) eqn:Etr.
      - minv H1. apply initial_step_shape in Hm0. destruct Hm0 as [A B].
        split; auto. simpl. intros st E. inversion E; subst; auto.
      - destruct (pt_ind1 s); minv H1. auto. }
    clear H1. minv H. simpl. split; [|split; auto].
    apply upd_last_ok in Hl2. destruct Hl2 as (Hne & -> & _).
    destruct (exists_last Hne) as (tr' & st & ->). rewrite removelast_last.
    rewrite idx_last_app in Hl1. inversion Hl1; subst b1.
    assert (Hst : step_wf N st) by (apply (wf_step_of _ _ (proj1 A)); apply in_or_app; simpl; auto).
    destruct Hst as (S1 & S2 & S3 & S4 & S5).
    apply pf_measure_shape with (N := N) in Hm0; [|repeat split; auto].
    destruct Hm0 as (M1 & M2 & M3).
    eapply (traj_wf_upd_last tr' st (mkStep a (st_anc st))); auto. repeat split; auto.
Qed.

Lemma pt_run_wf ops : forall (s : ptraj P U Y) w s' w', pt_N s = N -> traj_wf N (pt_traj s) ->
  pt_run mdl g s ops w = Ok (s', w') -> traj_wf N (pt_traj s').
Proof.
  induction ops as [|o ops IH]; intros s w s' w' EN Hwf H; simpl in H.
  - minv H. auto.
  - apply bind_ok in H. destruct H as (s1 & w1 & H1 & H). destruct o as [u y|y]; simpl in H1.
    + apply bind_ok in H1. destruct H1 as ([s2 b] & w2 & H1 & H2). apply ret_ok in H2.
      inversion H2; subst s1 w1. apply pt_forward_wf in H1; auto.
      eapply IH; [| |exact H]; tauto.
    + apply pt_measure_wf in H1; auto. eapply IH; [| |exact H]; tauto.
Qed.
End Shape.
