(** Filters never raise on models meeting the total contract. *)
From Coq Require Import Reals Lra Lia List Arith.
From Verif Require Import Base XR SampleModel SampleSpec SampleProofs PAModel WeightSpec WeightProofs
  FilterModel TrajModel FilterSpec FilterProofs TrajProofs.
Import ListNotations.
Open Scope nat_scope.

Section Rules.
Context {W : Type}.
Lemma runs_ret {A} (a : A) (Q : A -> Prop) : Q a -> runs (W := W) (ret a) Q.
Proof. intros H s. exists a, s. auto. Qed.
Lemma runs_bind {A B} (m : M W A) (f : A -> M W B) (Q : A -> Prop) (R : B -> Prop) :
  runs m Q -> (forall a, Q a -> runs (f a) R) -> runs (bind m f) R.
Proof.
  intros Hm Hf s. destruct (Hm s) as (a & s1 & E & Ha). destruct (Hf a Ha s1) as (b & s2 & E2 & Hb).
  exists b, s2. split; auto. unfold bind. rewrite E. auto.
Qed.
Lemma runs_lift {A} (x : res A) (Q : A -> Prop) : (exists a, x = Ok a /\ Q a) -> runs (W := W) (lift x) Q.
Proof. intros (a & -> & H) s. exists a, s. auto. Qed.
Lemma runs_weaken {A} (m : M W A) (Q R : A -> Prop) : runs m Q -> (forall a, Q a -> R a) -> runs m R.
Proof. intros H HR s. destruct (H s) as (a & s' & E & Ha). eauto. Qed.
Lemma runs_lift_bind {A B} (x : res A) (f : A -> M W B) (R : B -> Prop) a :
  x = Ok a -> runs (f a) R -> runs (bind (lift x) f) R.
Proof. intros E H. eapply runs_bind; [apply runs_lift; exists a; split; [exact E|exact (eq_refl a)]|]. cbv beta. intros ? ->; auto. Qed.
End Rules.

(* [lia] after reducing the beta-redexes left by the [runs] rules *)
Ltac lia := cbv beta in *; Lia.lia.

Section Total.
Context {W P U Y V : Type}.
Variable mdl : fmodel W P U Y V.
Variable g : rng W.
Hypothesis Hg : rng_ok g.
Variable N : nat.
Hypothesis HN : 0 < N.
Hypothesis Hm : total_ok N mdl.

Lemma runs_sampleM w n : w <> [] ->
  runs (sampleM g w n) (fun l => length l = n /\ Forall (fun i => i < length w) l).
Proof.
  intros Hw s. destruct (sampleM_ok g w n s Hw) as (l & s' & E). exists l, s'. split; auto.
  eapply sampleM_range; eauto.
Qed.

Lemma ne_len {A} (l : list A) : 0 < length l -> l <> [].
Proof. destruct l; simpl; [Lia.lia|congruence]. Qed.

Lemma runs_resample (pa : papprox P) : pa_wf N pa ->
  runs (pa_resample g (m_copy mdl) pa N)
    (fun r => pa_wf N (fst r) /\ anc_wf N (snd r)).
Proof.
  intros (L1 & L2 & L3). unfold pa_resample.
  destruct (xmax_ok (lw pa)) as [m Em]; [apply ne_len; lia|].
  eapply runs_lift_bind; [exact Em|]. eapply runs_bind.
  - apply runs_sampleM. apply ne_len. rewrite !map_length. lia.
  - intros ind [Li Fi]. rewrite !map_length, L2 in Fi. eapply runs_bind.
    + apply (to_copy N mdl Hm); auto.
    + intros np Lnp. apply runs_ret. split; [|split; auto]. repeat split; simpl; auto.
      unfold uniform_lw. apply repeat_length.
Qed.

Lemma runs_maybe thr (pa : papprox P) : pa_wf N pa ->
  runs (maybe_resample mdl g thr pa)
    (fun r => let '(pa', _, anc) := r in pa_wf N pa' /\ anc_wf N anc).
Proof.
  intros Hpa. pose proof Hpa as (L1 & L2 & L3). unfold maybe_resample. rewrite L3.
  destruct (Rltb 0 thr).
  - unfold calc_Neff, neff_of. destruct (xmax_ok (lw pa)) as [m Em]; [apply ne_len; lia|].
    rewrite Em. cbn [rbind]. eapply runs_lift_bind; [reflexivity|].
    destruct (xltb _ _).
    + eapply runs_bind; [apply runs_resample; auto|]. cbv beta. intros [pa' ind] H. apply runs_ret. simpl in *. tauto.
    + apply runs_ret. split; auto. apply anc_wf_seq.
  - apply runs_ret. split; auto. apply anc_wf_seq.
Qed.

Lemma pa_init_none_wf (p : list P) : length p = N -> exists pa, pa_init p None = Ok pa /\ pa_wf N pa.
Proof.
  intros L. destruct p as [|x p]; [simpl in L; Lia.lia|]. eexists. split; [reflexivity|].
  repeat split; auto. simpl. rewrite repeat_length. auto.
Qed.

Lemma upd_last_wf (p : list P) c : length p = N -> exists p', upd_last p c = Ok p' /\ length p' = N.
Proof.
  intros L. assert (p <> []) by (apply ne_len; Lia.lia). rewrite upd_last_some by auto. eexists. split; [reflexivity|].
  destruct (exists_last H) as (l & z & ->). rewrite removelast_last. rewrite !app_length in *. auto.
Qed.

Lemma set_last_row_wf (p rows : list P) : length p = N -> length rows = 1 ->
  exists p', set_last_row p rows = Ok p' /\ length p' = N.
Proof. intros L Lr. destruct rows as [|c [|? ?]]; try discriminate. simpl. apply upd_last_wf; auto. Qed.

Lemma firstn_ne {A} n (l : list A) : 0 < n -> 0 < length l -> firstn n l <> [].
Proof. intros H1 H2. apply ne_len. rewrite firstn_length. Lia.lia. Qed.

Lemma runs_measure0 (uv : list (cell U)) (yv : list (cell Y)) tv k' tr anc (pa : papprox P) :
  0 < length yv -> 0 < length tv -> pa_wf N pa ->
  runs (pf_measure mdl tr anc pa uv yv tv k') (pa_wf N).
Proof.
  intros Ly Lt (L1 & L2 & L3). unfold pf_measure. eapply runs_bind.
  - apply (to_measure N mdl Hm); auto; apply firstn_ne; Lia.lia.
  - intros [p w] [Lp Lw]. simpl in *. apply runs_lift.
    destruct (add_weights_ok (mkPA p (lw pa) (num pa) (woff pa)) w) as [pa' E].
    + apply ne_len. Lia.lia.
    + simpl. Lia.lia.
    + exists pa'. split; auto. apply add_weights_shape in E. simpl in E. destruct E as (E1 & E2 & E3 & E4).
      repeat split; rewrite ?E1; Lia.lia.
Qed.

Variables (uvec : list (cell U)) (yvec : list (cell Y)) (tvec : list nat) (k : nat).
Hypothesis Hu : k < length uvec.
Hypothesis Hy : k + 1 < length yvec.
Hypothesis Ht : k + 1 < length tvec.


Lemma runs_update tr anc (pa : papprox P) : tr <> [] -> Forall (step_wf N) tr -> anc_wf N anc -> pa_wf N pa ->
  runs (pf_update mdl tr anc uvec yvec tvec k pa)
    (fun pa' => pa_wf N pa' /\ lw pa' = lw pa /\ woff pa' = woff pa).
Proof.
  intros Hne F [_ Ha] (L1 & L2 & L3). unfold pf_update. eapply runs_bind.
  - apply (to_noise N mdl Hm); auto; apply firstn_ne; lia.
  - intros v _. eapply runs_bind.
    + apply (to_update N mdl Hm); auto; apply firstn_ne; lia.
    + intros p Lp. apply runs_ret. repeat split; auto.
Qed.

Lemma runs_measure k' tr anc (pa : papprox P) : pa_wf N pa ->
  runs (pf_measure mdl tr anc pa uvec yvec tvec k') (pa_wf N).
Proof. intros H. apply runs_measure0; auto; lia. Qed.

Lemma last_ok tr : tr <> [] -> Forall (step_wf N) tr -> exists st : tstep P, idx_last tr = Ok st /\ step_wf N st.
Proof.
  intros Hne F. destruct (exists_last Hne) as (l & st & ->). exists st. rewrite idx_last_app. split; auto.
  apply Forall_app in F. destruct F as [_ F]. inversion F; auto.
Qed.

Variable tr : list (tstep P).
Hypothesis Ltr : length tr = k + 1.
Hypothesis Ftr : Forall (step_wf N) tr.

Definition post (r : papprox P * bool * list nat) : Prop :=
  let '(pa', _, anc) := r in pa_wf N pa' /\ anc_wf N anc.

Lemma tr_ne : tr <> [].
Proof. apply ne_len. lia. Qed.

Lemma cur_ok : exists st : tstep P, idx tr k = Ok st /\ step_wf N st.
Proof.
  destruct (idx_lt tr k) as [st E]; [lia|]. exists st. split; auto.
  eapply wf_step_of; eauto. eapply idx_In; eauto.
Qed.

Ltac last_step st Ew :=
  destruct (last_ok tr tr_ne Ftr) as (st & Ew & ?);
  eapply runs_lift_bind; [exact Ew|].

Lemma pf_forward_total thr : runs (pf_forward mdl g thr tr yvec uvec tvec k) post.
Proof.
  unfold pf_forward. destruct (last_ok tr tr_ne Ftr) as (st & Ew & S1 & S2 & S3 & S4 & S5).
  eapply runs_lift_bind; [exact Ew|]. eapply runs_lift_bind; [reflexivity|].
  eapply runs_bind; [apply runs_maybe; repeat split; auto|].
  intros [[pa b] anc] [Hpa Ha]. eapply runs_bind; [apply runs_update; auto using tr_ne|].
  intros pa2 (Hpa2 & _). eapply runs_bind; [apply runs_measure; auto|].
  intros pa3 Hpa3. apply runs_ret. split; auto.
Qed.

Lemma idx_ok_ex {A} (l : list A) i : i < length l -> exists a, idx l i = Ok a.
Proof. apply idx_lt. Qed.

Lemma sir_forward_total thr : runs (sir_forward mdl g thr tr yvec uvec tvec k) post.
Proof.
  unfold sir_forward. destruct (last_ok tr tr_ne Ftr) as (st & Ew & S1 & S2 & S3 & S4 & S5).
  eapply runs_lift_bind; [exact Ew|]. eapply runs_lift_bind; [reflexivity|].
  eapply runs_bind; [apply runs_maybe; repeat split; auto|].
  intros [[pa b] anc] [Hpa Ha]. pose proof Hpa as (L1 & L2 & L3).
  destruct (idx_lt uvec k) as [u Eu]; [lia|]. eapply runs_lift_bind; [exact Eu|].
  destruct (idx_lt yvec (k + 1)) as [y Ey]; [lia|]. eapply runs_lift_bind; [exact Ey|].
  destruct (idx_lt tvec k) as [t Et]; [lia|]. eapply runs_lift_bind; [exact Et|].
  destruct (idx_lt tvec (k + 1)) as [t1 Et1]; [lia|]. eapply runs_lift_bind; [exact Et1|].
  eapply runs_bind; [apply (to_qsample N mdl Hm); auto|]. cbv beta. intros pn Lpn.
  eapply runs_bind; [apply (to_logp_q N mdl Hm); auto|]. cbv beta. intros qw Lqw.
  eapply runs_bind; [apply (to_logp_xnext N mdl Hm); auto|]. cbv beta. intros nw Lnw.
  eapply runs_bind; [apply (to_meas1 N mdl Hm); auto|]. cbv beta. intros [p yw] [Lp Lyw]. simpl in Lp, Lyw. cbn [snd fst].
  destruct (zipw_ok xadd yw nw) as [z1 Ez1]; [lia|]. eapply runs_lift_bind; [exact Ez1|].
  apply zipw_length in Ez1.
  destruct (zipw_ok xsub z1 qw) as [z2 Ez2]; [lia|]. eapply runs_lift_bind; [exact Ez2|].
  apply zipw_length in Ez2.
  destruct (add_weights_ok pa z2) as [pa' E]; [apply ne_len; lia|lia|].
  eapply runs_lift_bind; [exact E|]. apply add_weights_shape in E. destruct E as (E1 & E2 & E3 & E4).
  apply runs_ret. split; auto. repeat split; simpl; lia.
Qed.

Lemma apf_forward_total thr : (forall y, nth_error yvec (k + 1) = Some y -> y <> CNone) ->
  runs (apf_forward mdl g thr tr yvec uvec tvec k) post.
Proof.
  intros Hny. unfold apf_forward. destruct (last_ok tr tr_ne Ftr) as (st & Ew & S1 & S2 & S3 & S4 & S5).
  eapply runs_lift_bind; [exact Ew|]. eapply runs_lift_bind; [reflexivity|]. cbn [part lw num woff].
  destruct (idx_lt yvec (k + 1)) as [y Ey]; [lia|]. eapply runs_lift_bind; [exact Ey|].
  apply idx_ok in Ey. apply Hny in Ey. destruct (is_none y) eqn:En; [destruct y; [congruence|discriminate|discriminate]|].
  eapply runs_bind with (Q := fun pl => pa_wf N (fst pl) /\ exists l, snd pl = Some l /\ length l = N).
  { destruct (idx_lt uvec k) as [u Eu]; [lia|]. eapply runs_lift_bind; [exact Eu|].
    destruct (idx_lt tvec k) as [t Et]; [lia|]. eapply runs_lift_bind; [exact Et|].
    eapply runs_bind; [apply (to_stage1 N mdl Hm); auto|]. cbv beta. intros l1 Ll1.
    destruct (zipw_ok xadd (lw (st_pa st)) l1) as [z1 Ez1]; [lia|]. eapply runs_lift_bind; [exact Ez1|].
    apply zipw_length in Ez1.
    destruct (xmax_ok z1) as [m Em]; [apply ne_len; lia|]. eapply runs_lift_bind; [exact Em|].
    apply runs_ret. split; [|exists l1; auto]. repeat split; simpl; rewrite ?map_length; lia. }
  intros [pa l1] [Hpa (l & El1 & Ll)]. cbn in El1. subst l1. cbn [fst snd] in *. pose proof Hpa as (L1 & L2 & L3).
  eapply runs_bind with (Q := fun _ => True).
  { destruct (Reqb thr 0); [apply runs_ret; auto|].
    unfold calc_Neff, neff_of. destruct (xmax_ok (lw pa)) as [m Em]; [apply ne_len; lia|].
    rewrite Em. cbn [rbind]. eapply runs_lift_bind; [reflexivity|]. apply runs_ret; auto. }
  intros c _.
  eapply runs_bind with (Q := fun r => let '(pa', _, anc, l') := r in
      pa_wf N pa' /\ anc_wf N anc /\ exists l2, l' = Some l2 /\ length l2 = N).
  { destruct c.
    - rewrite L3. eapply runs_bind; [apply runs_resample; auto|]. cbv beta. intros [pa' ind] [Hpa' [Li Fi]]. cbn [fst snd] in *.
      destruct (take_ok l ind) as [l2 E2]; [rewrite Ll; auto|]. eapply runs_lift_bind; [exact E2|].
      apply runs_ret. split; auto. split; [split; auto|]. exists l2. split; auto. apply take_length in E2. lia.
    - apply runs_ret. rewrite L3. split; auto. split; [apply anc_wf_seq|]. eauto. }
  intros [[[pa2 b] anc] l2] (Hpa2 & Ha & l3 & -> & Ll3).
  eapply runs_bind; [apply runs_update; auto using tr_ne|]. cbv beta. intros pa3 (Hpa3 & _).
  eapply runs_bind; [apply runs_measure; auto|]. cbv beta. intros pa4 (M1 & M2 & M3).
  destruct (zipw_ok xsub (lw pa4) l3) as [z1 Ez1]; [lia|]. eapply runs_lift_bind; [exact Ez1|].
  apply zipw_length in Ez1.
  destruct (xmax_ok z1) as [m Em]; [apply ne_len; lia|]. eapply runs_lift_bind; [exact Em|].
  apply runs_ret. split; auto. repeat split; simpl; rewrite ?map_length; lia.
Qed.

Lemma take_seq_N {A} (l : list A) : length l = N -> take l (seq 0 N) = Ok l.
Proof. intros <-. apply take_seq. Qed.

Lemma take_anc_ok {A} (l : list A) anc : length l = N -> anc_wf N anc -> exists r, take l anc = Ok r /\ length r = N.
Proof.
  intros L [La Fa]. destruct (take_ok l anc) as [r E]; [rewrite L; auto|]. exists r. split; auto.
  apply take_length in E. lia.
Qed.

Lemma pfy_forward_total thr : runs (pfy_forward mdl g N thr tr yvec uvec tvec k) post.
Proof.
  unfold pfy_forward. destruct (last_ok tr tr_ne Ftr) as (st & Ew & S1 & S2 & S3 & S4 & S5).
  eapply runs_lift_bind; [exact Ew|].
  eapply runs_bind; [apply (to_copy_all N mdl Hm); auto|]. cbv beta. intros cp Lcp.
  eapply runs_lift_bind; [reflexivity|].
  eapply runs_bind; [apply runs_maybe; repeat split; auto|].
  intros [[pa b] anc] [Hpa Ha]. pose proof Hpa as (L1 & L2 & L3).
  assert (Z : forall A (l : list A), 0 < length l -> exists a, idx_last l = Ok a).
  { intros A l Hl. destruct (exists_last (ne_len l Hl)) as (l' & a & ->). exists a. apply idx_last_app. }
  destruct (Z _ yvec) as [y Ey]; [lia|]. eapply runs_lift_bind; [exact Ey|].
  destruct (Z _ tvec) as [t Et]; [lia|]. eapply runs_lift_bind; [exact Et|].
  rewrite L1. eapply runs_bind; [apply (to_propose_y N mdl Hm); auto|]. cbv beta. intros pn Lpn.
  destruct cur_ok as (cur & Ec & C1 & C2 & C3 & C4 & C5). eapply runs_lift_bind; [exact Ec|].
  destruct (take_anc_ok (part (st_pa cur)) anc C1 Ha) as (pp & Ep & Lpp). eapply runs_lift_bind; [exact Ep|].
  destruct (take_anc_ok (st_anc cur) anc C4 Ha) as (pi & Epi & Lpi). eapply runs_lift_bind; [exact Epi|].
  eapply runs_bind; [apply (to_xnext1 N mdl Hm); auto; try lia|].
  - apply seq_length.
  - rewrite Lpn. apply seq_range.
  - intros wn Lwn.
    destruct (add_weights_ok (mkPA pn (lw pa) (num pa) (woff pa)) wn) as [pa' E];
      [apply ne_len; lia|simpl; lia|].
    eapply runs_lift_bind; [exact E|]. apply add_weights_shape in E. simpl in E. destruct E as (E1 & E2 & E3 & E4).
    apply runs_ret. split; auto. repeat split; rewrite ?E1; lia.
Qed.

Lemma exp_norm_ne w : w <> [] -> exp_norm w <> [].
Proof. intros H. apply ne_len. rewrite exp_norm_length. destruct w; [congruence|simpl; lia]. Qed.

Lemma runs_anc0 (st : tstep P) : step_wf N st ->
  runs (sampleM g (exp_norm (lw (st_pa st))) (N - 1))
    (fun l => length l = N - 1 /\ Forall (fun i => i < N) l).
Proof.
  intros (S1 & S2 & S3 & S4 & S5). eapply runs_weaken; [apply runs_sampleM; apply exp_norm_ne; apply ne_len; lia|].
  intros l. rewrite exp_norm_length, S2. auto.
Qed.

Lemma runs_cond wt w : length wt = N -> length w = N -> runs (cond_ancestor g wt w) (fun i => i < N).
Proof.
  intros L1 L2. unfold cond_ancestor.
  destruct (zipw_ok xadd wt w) as [z Ez]; [lia|]. eapply runs_lift_bind; [exact Ez|].
  apply zipw_length in Ez.
  destruct (xmax_ok z) as [m Em]; [apply ne_len; lia|]. eapply runs_lift_bind; [exact Em|].
  eapply runs_bind; [apply runs_sampleM; apply exp_norm_ne; apply ne_len; rewrite map_length; lia|].
  intros l [Ll Fl]. rewrite exp_norm_length, map_length in Fl. destruct l as [|i l]; [discriminate|].
  apply runs_lift. exists i. split; auto. inversion Fl; subst. lia.
Qed.

Definition ct_ok (ct : list (tstep P)) (j : nat) : Prop :=
  exists st, nth_error ct j = Some st /\ part (st_pa st) <> [].

Lemma runs_copy_anc (p : list P) anc : length p = N -> anc_wf N anc ->
  runs (m_copy mdl p anc) (fun l => length l = N).
Proof. intros L [La Fa]. apply (to_copy N mdl Hm); auto. Qed.

Lemma tail_total ct anc (pa : papprox P) : ct_ok ct (k + 1) -> anc_wf N anc -> pa_wf N pa ->
  runs (cpf_tail mdl ct tr anc yvec uvec tvec k pa) post.
Proof.
  intros (cst & Ec & Hc) Ha Hpa. unfold cpf_tail.
  eapply runs_bind; [apply runs_update; auto using tr_ne|]. cbv beta. intros pa2 ((A1 & A2 & A3) & _).
  eapply runs_lift_bind; [apply idx_ok; exact Ec|].
  destruct (part (st_pa cst)) as [|c0 cr]; [congruence|]. eapply runs_lift_bind; [reflexivity|].
  destruct (upd_last_wf (part pa2) c0 A1) as (p' & Ep & Lp). eapply runs_lift_bind; [exact Ep|].
  destruct (idx_lt yvec (k + 1)) as [y Ey]; [lia|]. eapply runs_lift_bind; [exact Ey|].
  assert (Q : pa_wf N (mkPA p' (lw pa2) (num pa2) (woff pa2))) by (repeat split; auto).
  destruct (is_none y).
  - apply runs_ret. split; auto.
  - eapply runs_bind; [apply runs_measure; exact Q|]. cbv beta. intros pa3 H3. apply runs_ret. split; auto.
Qed.

Lemma cpf_forward_total ct : ct_ok ct (k + 1) -> runs (cpf_forward mdl g ct tr yvec uvec tvec k) post.
Proof.
  intros Hc. unfold cpf_forward. destruct cur_ok as (cur & Ec & Hcur). eapply runs_lift_bind; [exact Ec|].
  destruct (last_ok tr tr_ne Ftr) as (st & Ew & Hst). eapply runs_lift_bind; [exact Ew|].
  pose proof Hcur as (C1 & _). rewrite C1. pose proof Hst as (S1 & _).
  eapply runs_bind; [apply runs_anc0; auto|]. cbv beta. intros anc0 [La Fa].
  assert (Ha : anc_wf N (anc0 ++ [N - 1])) by (apply anc_app; auto; lia).
  eapply runs_bind; [apply runs_copy_anc; auto|]. cbv beta. intros cp Lcp.
  destruct (pa_init_none_wf cp Lcp) as (pa & Ep & Hpa). eapply runs_lift_bind; [exact Ep|].
  apply tail_total; auto.
Qed.

Lemma repeat_range n m : 0 < m -> Forall (fun a => a < m) (repeat 0 n).
Proof. intros H. apply Forall_forall. intros x Hx. apply repeat_spec in Hx. subst. auto. Qed.

Lemma cpfas_forward_total ct : ct_ok ct (k + 1) -> runs (cpfas_forward mdl g ct tr yvec uvec tvec k) post.
Proof.
  intros Hc. unfold cpfas_forward.
  destruct (last_ok tr tr_ne Ftr) as (st & Ew & Hst). eapply runs_lift_bind; [exact Ew|].
  pose proof Hst as (S1 & S2 & _). rewrite S1.
  eapply runs_bind; [apply runs_anc0; auto|]. cbv beta. intros anc0 [La Fa].
  destruct cur_ok as (cur & Ec & Hcur). eapply runs_lift_bind; [exact Ec|].
  pose proof Hcur as (C1 & C2 & C3 & C4 & C5).
  eapply runs_lift_bind; [apply take_seq_N; auto|]. eapply runs_lift_bind; [apply take_seq_N; auto|].
  pose proof Hc as (cst & Ecs & Hcs). eapply runs_lift_bind; [apply idx_ok; exact Ecs|].
  eapply runs_bind; [apply (to_xnext1 N mdl Hm); auto; try lia|].
  - apply repeat_length.
  - apply repeat_range. destruct (part (st_pa cst)); [congruence|simpl; lia].
  - intros wt Lwt. eapply runs_lift_bind; [apply take_seq_N; auto|].
    eapply runs_bind; [apply runs_cond; auto|]. cbv beta. intros ci Hci.
    assert (Ha : anc_wf N (anc0 ++ [ci])) by (apply anc_app; auto; lia).
    eapply runs_bind; [apply runs_copy_anc; auto|]. cbv beta. intros cp Lcp.
    destruct (pa_init_none_wf cp Lcp) as (pa & Ep & Hpa). eapply runs_lift_bind; [exact Ep|].
    apply tail_total; auto.
Qed.

Lemma csiras_forward_total ct : ct_ok ct (k + 1) -> runs (csiras_forward mdl g ct tr yvec uvec tvec k) post.
Proof.
  intros Hc. unfold csiras_forward.
  destruct (last_ok tr tr_ne Ftr) as (st & Ew & Hst). eapply runs_lift_bind; [exact Ew|].
  pose proof Hst as (S1 & S2 & _). rewrite S1.
  eapply runs_bind; [apply runs_anc0; auto|]. cbv beta. intros anc0 [La Fa].
  destruct cur_ok as (cur & Ec & Hcur). eapply runs_lift_bind; [exact Ec|].
  pose proof Hcur as (C1 & C2 & C3 & C4 & C5).
  pose proof Hc as (cst & Ecs & Hcs). eapply runs_lift_bind; [apply idx_ok; exact Ecs|].
  destruct (take_ok (part (st_pa cst)) (repeat 0 N)) as [nx Enx].
  { apply repeat_range. destruct (part (st_pa cst)); [congruence|simpl; lia]. }
  eapply runs_lift_bind; [exact Enx|]. apply take_length in Enx. rewrite repeat_length in Enx.
  destruct (idx_lt uvec k) as [u Eu]; [lia|]. eapply runs_lift_bind; [exact Eu|].
  destruct (idx_lt tvec k) as [t Et]; [lia|]. eapply runs_lift_bind; [exact Et|].
  eapply runs_bind; [apply (to_logp_xnext N mdl Hm); auto|]. cbv beta. intros wt Lwt.
  eapply runs_lift_bind; [apply take_seq_N; auto|].
  eapply runs_bind; [apply runs_cond; auto|]. cbv beta. intros ci Hci.
  assert (Ha : anc_wf N (anc0 ++ [ci])) by (apply anc_app; auto; lia).
  eapply runs_bind; [apply runs_copy_anc; auto|]. cbv beta. intros cp Lcp.
  destruct (pa_init_none_wf cp Lcp) as (pa & Ep & (P1 & P2 & P3)). eapply runs_lift_bind; [exact Ep|].
  destruct (idx_lt yvec (k + 1)) as [y Ey]; [lia|]. eapply runs_lift_bind; [exact Ey|].
  eapply runs_bind; [apply (to_qsample N mdl Hm); auto|]. cbv beta. intros pn Lpn.
  destruct (part (st_pa cst)) as [|c0 cr]; [congruence|]. eapply runs_lift_bind; [reflexivity|].
  destruct (upd_last_wf pn c0 Lpn) as (p' & Ep' & Lp'). eapply runs_lift_bind; [exact Ep'|].
  eapply runs_bind; [apply (to_logp_q N mdl Hm); auto|]. cbv beta. intros qw Lqw.
  eapply runs_bind; [apply (to_logp_xnext N mdl Hm); auto|]. cbv beta. intros nw Lnw.
  destruct (idx_lt tvec (k + 1)) as [t1 Et1]; [lia|]. eapply runs_lift_bind; [exact Et1|].
  eapply runs_bind; [apply (to_meas1 N mdl Hm); auto|]. cbv beta. intros [p yw] [Lp Lyw]. simpl in Lp, Lyw. cbn [snd fst].
  destruct (zipw_ok xadd yw nw) as [z1 Ez1]; [lia|]. eapply runs_lift_bind; [exact Ez1|].
  apply zipw_length in Ez1.
  destruct (zipw_ok xsub z1 qw) as [z2 Ez2]; [lia|]. eapply runs_lift_bind; [exact Ez2|].
  apply zipw_length in Ez2. apply runs_ret. split; auto. repeat split; simpl; lia.
Qed.

Definition ct_ok1 (ct : list (tstep P)) (j : nat) : Prop :=
  exists st, nth_error ct j = Some st /\ length (part (st_pa st)) = 1.

Lemma cpfyas_forward_total ct : ct_ok1 ct (k + 1) -> runs (cpfyas_forward mdl g N ct tr yvec uvec tvec k) post.
Proof.
  intros Hc. unfold cpfyas_forward.
  destruct cur_ok as (cur & Ec & Hcur). eapply runs_lift_bind; [exact Ec|].
  pose proof Hcur as (C1 & C2 & C3 & C4 & C5).
  eapply runs_bind; [apply runs_anc0; auto|]. cbv beta. intros anc0 [La Fa].
  eapply runs_lift_bind; [apply take_seq_N; auto|]. eapply runs_lift_bind; [apply take_seq_N; auto|].
  pose proof Hc as (cst & Ecs & Hcs). eapply runs_lift_bind; [apply idx_ok; exact Ecs|].
  eapply runs_bind; [apply (to_xnext1 N mdl Hm); auto; try lia|].
  - apply repeat_length.
  - apply repeat_range. lia.
  - intros wt Lwt. eapply runs_lift_bind; [apply take_seq_N; auto|].
    eapply runs_bind; [apply runs_cond; auto|]. cbv beta. intros ci Hci.
    assert (Ha : anc_wf N (anc0 ++ [ci])) by (apply anc_app; auto; lia).
    destruct (idx_lt yvec (k + 1)) as [y Ey]; [lia|]. eapply runs_lift_bind; [exact Ey|].
    destruct (idx_lt tvec (k + 1)) as [t1 Et1]; [lia|]. eapply runs_lift_bind; [exact Et1|].
    eapply runs_bind; [apply (to_propose_y N mdl Hm); auto|]. cbv beta. intros pn Lpn.
    destruct (set_last_row_wf pn _ Lpn Hcs) as (pn' & Epn & Lpn'). eapply runs_lift_bind; [exact Epn|].
    destruct (last_ok tr tr_ne Ftr) as (st & Ew & S1 & S2 & _). eapply runs_lift_bind; [exact Ew|].
    destruct (take_anc_ok (part (st_pa st)) _ S1 Ha) as (pp & Ep & Lpp). eapply runs_lift_bind; [exact Ep|].
    destruct (take_anc_ok (st_anc cur) _ C4 Ha) as (pi & Epi & Lpi). eapply runs_lift_bind; [exact Epi|].
    eapply runs_bind; [apply (to_xnext1 N mdl Hm); auto; try lia|].
    + apply seq_length.
    + rewrite Lpn'. apply seq_range.
    + intros wn Lwn. destruct (xmax_ok wn) as [m Em]; [apply ne_len; lia|]. eapply runs_lift_bind; [exact Em|].
      eapply runs_lift_bind; [reflexivity|]. apply runs_ret. split; auto.
      repeat split; simpl; rewrite ?map_length; lia.
Qed.

Lemma forward_total f : filter_ready f (k + 2) ->
  (match f with FAPF _ => forall y, nth_error yvec (k + 1) = Some y -> y <> CNone | _ => True end) ->
  runs (filter_forward mdl g f N tr yvec uvec tvec k) post.
Proof.
  assert (Q : k + 1 < k + 2) by lia.
  destruct f; simpl; intros Hr Hap; auto using pf_forward_total, apf_forward_total, pfy_forward_total,
   sir_forward_total; specialize (Hr (k + 1) Q).
  - apply cpfyas_forward_total; auto.
  - apply cpfas_forward_total; auto.
  - apply cpf_forward_total; auto.
  - apply csiras_forward_total; auto.
Qed.
End Total.

Section RunTotal.
Context {W P U Y V : Type}.
Variable mdl : fmodel W P U Y V.
Variable g : rng W.
Hypothesis Hg : rng_ok g.
Variable N : nat.
Hypothesis HN : 0 < N.
Hypothesis Hm : total_ok N mdl.

Lemma initial_step_total f n : 0 < n -> filter_ready f n ->
  runs (initial_step mdl f N) (fun st => step_wf N st /\ st_anc st = seq 0 N).
Proof.
  intros Hn Hr. unfold initial_step. eapply runs_bind with (Q := fun p => length p = N).
  - assert (Q : forall ct, ct_ok ct 0 ->
      runs (do p <- m_create mdl N; do cst <- lift (idx ct 0); do c0 <- lift (idx (part (st_pa cst)) 0);
            lift (upd_last p c0)) (fun p => length p = N)).
    { intros ct (st & Ect & Hne). eapply runs_bind; [apply (to_create N mdl Hm)|]. cbv beta. intros p Lp.
      eapply runs_lift_bind; [apply idx_ok; exact Ect|].
      destruct (part (st_pa st)) as [|c cr]; [congruence|]. eapply runs_lift_bind; [reflexivity|].
      apply runs_lift. apply upd_last_wf; auto. }
    destruct f; simpl in *; try apply (to_create N mdl Hm); apply Q; destruct (Hr 0 Hn) as (st & E & H);
    exists st; split; auto. intros E0. rewrite E0 in H. discriminate.
  - intros p Lp. destruct (pa_init_none_wf N HN p Lp) as (pa & E & A1 & A2 & A3).
    eapply runs_lift_bind; [exact E|]. apply runs_ret. split; auto. repeat split; simpl; auto.
    + apply seq_length.
    + apply seq_range.
Qed.

(** One forward call. *)
Lemma pt_forward_total (s : ptraj P U Y) l u y : pt_N s = N -> book s l -> traj_wf N (pt_traj s) ->
  filter_ready (pt_f s) (length (snd (ledger_step (using_pfy (pt_f s)) l (Fwd u y)))) ->
  op_ready (pt_f s) (Fwd u y) ->
  runs (pt_forward mdl g s u y) (fun r => pt_N (fst r) = N /\ pt_f (fst r) = pt_f s /\ traj_wf N (pt_traj (fst r))).
Proof.
  intros EN B Hwf Hr Hop. unfold pt_forward. rewrite EN. destruct l as [us ys].
  destruct B as (B1 & B2 & B3 & B4 & B5 & B6 & B7 & B8 & B9 & B10 & B11).
  eapply runs_bind with (Q := fun p => traj_wf N (fst p) /\ length (fst p) = snd p + 1 /\
      length (fst p) + 1 = length (snd (ledger_step (using_pfy (pt_f s)) (us, ys) (Fwd u y))) /\
      (ys = [] \/ length ys = snd p + 1)).
  { destruct (pt_traj s) as [|st0 tr0] eqn:Etr.
    - destruct ys; [|discriminate]. eapply runs_bind; [eapply initial_step_total; [|exact Hr]; simpl; lia|].
      intros st (S1 & S2). apply runs_ret. simpl. split; [|split; [auto|split; auto]].
      split; auto. intros st' E. inversion E; subst; auto.
    - destruct ys as [|y0 ys]; [discriminate|]. destruct (pt_ind1 s) as [|i] eqn:Ei; [discriminate|].
      apply runs_ret. simpl. rewrite app_length. simpl in *.
      split; auto. split; [lia|]. split; [lia|]. lia. }
  intros [tr ind] (Hwf' & Ltr & Lled & Hys). cbn [fst snd] in *. rewrite if4. cbv beta iota.
  set (uv := if Nat.leb (pt_T s) (ind + 1) then resize CZero (ind + 1) (pt_u s) else pt_u s).
  set (yv := if Nat.leb (pt_T s) (ind + 1) then resize CZero (ind + 2) (pt_y s) else pt_y s).
  set (tv := if Nat.leb (pt_T s) (ind + 1) then resize 0 (ind + 2) (pt_t s) else pt_t s).
  assert (Lv : ind < length uv /\ ind + 1 < length yv /\ ind + 1 < length tv).
  { unfold uv, yv, tv. destruct (Nat.leb_spec (pt_T s) (ind + 1)); rewrite ?resize_length; lia. }
  destruct Lv as (Lu & Ly & Lt). clearbody uv yv tv.
  destruct (upd_ok uv ind (cell_of u) Lu) as [uv' Eu]. eapply runs_lift_bind; [exact Eu|].
  destruct (upd_ok yv (ind + 1) (cell_of y) Ly) as [yv' Ey]. eapply runs_lift_bind; [exact Ey|].
  destruct (upd_ok tv (ind + 1) (ind + 1) Lt) as [tv' Et]. eapply runs_lift_bind; [exact Et|].
  rewrite <- (upd_length _ _ _ _ Eu) in Lu. pose proof (upd_length _ _ _ _ Ey) as Ly'.
  pose proof (upd_length _ _ _ _ Et) as Lt'.
  eapply runs_bind; [eapply forward_total with (N := N); auto; try lia|].
  - apply Hwf'.
  - rewrite <- Lled, Ltr in Hr. replace (ind + 2) with (ind + 1 + 1) by lia. exact Hr.
  - destruct (pt_f s); auto. simpl in Hop. destruct y as [y|]; [|contradiction].
    intros c Hc. rewrite (upd_nth _ _ _ _ Ey), Nat.eqb_refl in Hc. inversion Hc; subst. simpl. congruence.
  - intros [[pa b] anc] [(P1 & P2 & P3) [A1 A2]]. apply runs_ret. simpl. repeat split; auto.
    + apply Forall_app. split; [apply Hwf'|]. constructor; auto. repeat split; auto.
    + intros st E. rewrite nth_error_app1 in E by lia. apply Hwf'; auto.
Qed.

Lemma pt_measure_total (s : ptraj P U Y) l y : pt_N s = N -> book s l -> traj_wf N (pt_traj s) ->
  filter_ready (pt_f s) (length (snd (ledger_step (using_pfy (pt_f s)) l (Meas y)))) ->
  runs (pt_measure mdl s y) (fun s' => pt_N s' = N /\ pt_f s' = pt_f s /\ traj_wf N (pt_traj s')).
Proof.
  intros EN B Hwf Hr. unfold pt_measure. rewrite EN. destruct l as [us ys].
  destruct B as (B1 & B2 & B3 & B4 & B5 & B6 & B7 & B8 & B9 & B10 & B11).
  rewrite if4. cbv beta iota. rewrite B2. set (n := length ys) in *.
  set (uv := if Nat.leb (pt_T s) n then resize CZero (n + 1) (pt_u s) else pt_u s).
  set (yv := if Nat.leb (pt_T s) n then resize CZero (n + 1) (pt_y s) else pt_y s).
  set (tv := if Nat.leb (pt_T s) n then resize 0 (n + 1) (pt_t s) else pt_t s).
  assert (Lv : n < length yv /\ n < length tv).
  { unfold yv, tv. destruct (Nat.leb_spec (pt_T s) n); rewrite ?resize_length; lia. }
  destruct Lv as (Ly & Lt). clearbody uv yv tv.
  destruct (using_pfy (pt_f s)) eqn:Ef.
  - destruct (upd_ok yv n (cell_of y) Ly) as [yv' Ey]. eapply runs_lift_bind; [exact Ey|].
    destruct (upd_ok tv n n Lt) as [tv' Et]. eapply runs_lift_bind; [exact Et|].
    pose proof (upd_length _ _ _ _ Ey) as Ly'. pose proof (upd_length _ _ _ _ Et) as Lt'.
    eapply runs_bind with (Q := pa_wf N).
    + assert (Hn : length (snd (ledger_step true (us, ys) (Meas y))) = n + 1).
      { unfold n. destruct ys; simpl; rewrite ?app_length; simpl; lia. }
      rewrite Hn in Hr.
      destruct (idx_lt yv' n) as [yy Eyy]; [lia|]. destruct (idx_lt tv' n) as [tt Ett]; [lia|].
      destruct (pt_f s); try discriminate.
      * unfold pfy_measure. eapply runs_lift_bind; [exact Eyy|]. eapply runs_lift_bind; [exact Ett|].
        eapply runs_bind; [apply (to_propose_y N mdl Hm)|]. cbv beta. intros p Lp.
        apply runs_lift. apply pa_init_none_wf; auto.
      * unfold cpfyas_measure. eapply runs_lift_bind; [exact Eyy|]. eapply runs_lift_bind; [exact Ett|].
        eapply runs_bind; [apply (to_propose_y N mdl Hm)|]. cbv beta. intros p Lp.
        destruct (Hr n) as (cst & Ec & Lc); [lia|]. eapply runs_lift_bind; [apply idx_ok; exact Ec|].
        destruct (set_last_row_wf N HN p _ Lp Lc) as (p' & Ep' & Lp'). eapply runs_lift_bind; [exact Ep'|].
        apply runs_lift. apply pa_init_none_wf; auto.
    + intros pa (P1 & P2 & P3). apply runs_ret. simpl. repeat split; auto.
      * apply Forall_app. split; [apply Hwf|]. constructor; auto. repeat split; simpl; auto.
        -- apply seq_length.
        -- apply seq_range.
      * intros st E. destruct (pt_traj s) as [|st0 tr] eqn:Etr; simpl in E.
        -- inversion E; subst. auto.
        -- apply Hwf. simpl. auto.
  - eapply runs_bind with (Q := fun p => traj_wf N (fst p) /\ fst p <> [] /\ snd p <= n).
    { destruct (pt_traj s) as [|st0 tr0] eqn:Etr.
      - destruct ys; [|discriminate]. eapply runs_bind; [eapply initial_step_total; [|exact Hr]; simpl; lia|].
        intros st (S1 & S2). apply runs_ret. simpl. split; [|split; [congruence|auto with arith]].
        split; auto. intros st' E. inversion E; subst; auto.
      - fold n in B1. destruct n as [|i]; [discriminate|].
        apply runs_ret. cbn [fst snd]. split; auto. split; [congruence|lia]. }
    intros [tr ind] (Hwf' & Hne & Hind). cbn [fst snd] in *.
    destruct (upd_ok yv ind (cell_of y)) as [yv' Ey]; [lia|]. eapply runs_lift_bind; [exact Ey|].
    destruct (upd_ok tv ind ind) as [tv' Et]; [lia|]. eapply runs_lift_bind; [exact Et|].
    pose proof (upd_length _ _ _ _ Ey) as Ly'. pose proof (upd_length _ _ _ _ Et) as Lt'.
    destruct (exists_last Hne) as (tr' & st & ->).
    eapply runs_lift_bind; [apply idx_last_app|].
    assert (Hst : step_wf N st) by (apply (wf_step_of N _ _ (proj1 Hwf')); apply in_or_app; simpl; auto).
    pose proof Hst as (S1 & S2 & S3 & S4 & S5).
    eapply runs_bind.
    + apply (runs_measure0 mdl N HN Hm uv yv' tv'); try lia. repeat split; auto.
    + intros pa (P1 & P2 & P3). eapply runs_lift_bind.
      * apply upd_last_some. auto.
      * rewrite removelast_last. apply runs_ret. simpl. split; auto. split; auto.
        eapply traj_wf_upd_last; eauto. repeat split; auto.
Qed.

Lemma ledger_step_mono pfy (l : @ledger U Y) o : length (snd l) <= length (snd (ledger_step pfy l o)).
Proof.
  destruct l as [us ys]. destruct o as [u y|y]; destruct ys as [|y0 ys]; simpl; try lia.
  - rewrite app_length. lia.
  - destruct pfy; simpl.
    + rewrite app_length. lia.
    + rewrite set_last_length by congruence. simpl. lia.
Qed.

Lemma ledger_mono pfy ops : forall (l : @ledger U Y), length (snd l) <= length (snd (fold_left (ledger_step pfy) ops l)).
Proof.
  induction ops as [|o ops IH]; intros l; simpl; auto.
  etransitivity; [apply (ledger_step_mono pfy l o)|apply IH].
Qed.

Lemma filter_ready_le (f : filt P) n m : n <= m -> filter_ready f m -> filter_ready f n.
Proof. intros H. destruct f; simpl; auto; intros Hr k Hk; apply Hr; lia. Qed.

Lemma pt_run_total ops : forall (s : ptraj P U Y) l, pt_N s = N -> book s l -> traj_wf N (pt_traj s) ->
  filter_ready (pt_f s) (length (snd (fold_left (ledger_step (using_pfy (pt_f s))) ops l))) ->
  Forall (op_ready (pt_f s)) ops ->
  runs (pt_run mdl g s ops) (fun s' => traj_wf N (pt_traj s')).
Proof.
  induction ops as [|o ops IH]; intros s l EN B Hwf Hr Hop; simpl.
  - apply runs_ret. auto.
  - pose proof (Forall_inv Hop) as Ho. pose proof (Forall_inv_tail Hop) as Hops. simpl in Hr.
    assert (Hr1 : filter_ready (pt_f s) (length (snd (ledger_step (using_pfy (pt_f s)) l o)))).
    { eapply filter_ready_le; [|exact Hr]. apply ledger_mono. }
    intros w. destruct o as [u y|y]; simpl pt_step.
    + destruct (pt_forward_total s l u y EN B Hwf Hr1 Ho w) as ([s1 b] & w1 & E1 & A1 & A2 & A3). simpl in A1, A2, A3.
      destruct (book_forward mdl g _ _ _ _ _ _ _ _ B E1) as [B1 _].
      destruct (IH s1 _ A1 B1 A3) with (s := w1) as (s2 & w2 & E2 & Q2); try (rewrite A2; auto).
      exists s2, w2. split; auto. unfold bind. rewrite E1. simpl. auto.
    + destruct (pt_measure_total s l y EN B Hwf Hr1 w) as (s1 & w1 & E1 & A1 & A2 & A3).
      destruct (book_measure mdl _ _ _ _ _ _ B E1) as [B1 _].
      destruct (IH s1 _ A1 B1 A3) with (s := w1) as (s2 & w2 & E2 & Q2); try (rewrite A2; auto).
      exists s2, w2. split; auto. unfold bind. rewrite E1. simpl. auto.
Qed.
End RunTotal.
