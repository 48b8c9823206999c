(** C19, C20: the conditional filters. *)
From Coq Require Import String Bool Reals Lra Lia List Arith.
From Verif Require Import Base XR SampleModel SampleSpec SampleProofs PAModel WeightSpec WeightProofs
  FilterModel TrajModel FilterSpec FilterProofs TrajProofs FilterTotal ExampleModel Prop_Weights
  FilterSem Prop_Sample Prop_Filter Prop_Live.
Import ListNotations.
Open Scope R_scope.

(** The state of the conditioning trajectory at step [k]: its (first) particle. *)
Definition cond_state {P} (ct : list (tstep P)) (k : nat) (c : P) : Prop :=
  exists cst, nth_error ct k = Some cst /\ nth_error (part (st_pa cst)) 0 = Some c.

(** The last entry of an array. *)
Definition last_is {A} (l : list A) (a : A) : Prop := nth_error l (length l - 1) = Some a.

(** Models whose measurement callbacks do not write to the particles they are given. *)
Definition measure_pure {W P U Y V} (m : fmodel W P U Y V) : Prop :=
  (forall tr a p u y t s l w s', m_measure m tr a p u y t s = Ok ((l, w), s') -> l = p) /\
  (forall p y t s l w s', m_meas1 m p y t s = Ok ((l, w), s') -> l = p).

Lemma last_is_app {A} (l : list A) a : last_is (l ++ [a]) a.
Proof.
  unfold last_is. rewrite app_length. simpl. rewrite nth_error_app2 by lia.
  replace (length l + 1 - 1 - length l)%nat with 0%nat by lia. reflexivity.
Qed.

Lemma upd_last_is {A} (l r : list A) a : upd_last l a = Ok r -> last_is r a.
Proof. unfold upd_last. destruct l; [discriminate|]. intros E. injection E as <-. apply last_is_app. Qed.

Section Pin.
Context {W P U Y V : Type}.
Variable mdl : fmodel W P U Y V.
Variable g : rng W.
Hypothesis Hpure : measure_pure mdl.

(** Decomposition of a measure call (filters that measure the current step). *)
Lemma pt_measure_inv (s s' : ptraj P U Y) y w w' :
  pt_measure mdl s y w = Ok (s', w') -> using_pfy (pt_f s) = false ->
  exists pre old new w0 p' uv yv tv ll pa,
    pt_traj s' = pre ++ [new] /\ new = mkStep pa (st_anc old) /\
    (pt_traj s = pre ++ [old] \/
     pt_traj s = [] /\ pre = [] /\ initial_step mdl (pt_f s) (pt_N s) w = Ok (old, w0)) /\
    m_measure mdl (pre ++ [old]) (st_anc old) (part (st_pa old)) uv yv tv w0 = Ok ((p', ll), w') /\
    add_weights (mkPA p' (lw (st_pa old)) (num (st_pa old)) (woff (st_pa old))) ll = Ok pa.
Proof.
  intros H Ef. unfold pt_measure in H. rewrite if4 in H. cbv beta iota zeta in H. rewrite Ef in H.
  apply bind_ok in H. destruct H as ([tr ind] & w0 & H0 & H).
  apply bind_ok in H; destruct H as (yv & wa & Hy & H); apply lift_ok in Hy; destruct Hy as (yv' & Hy & Ey); inversion Ey; subst yv' wa; clear Ey.
  apply bind_ok in H; destruct H as (tv & wa & Htv & H); apply lift_ok in Htv; destruct Htv as (tv' & Htv & Et); inversion Et; subst tv' wa; clear Et.
  apply bind_ok in H; destruct H as (old & wa & Hlast & H); apply lift_ok in Hlast; destruct Hlast as (old' & Hlast & Et); inversion Et; subst old' wa; clear Et.
  apply bind_ok in H; destruct H as (pa & w1 & Hme & H).
  apply bind_ok in H; destruct H as (tr' & wa & Hup & H); apply lift_ok in Hup; destruct Hup as (tr'' & Hup & Et); inversion Et; subst tr'' wa; clear Et.
  apply ret_ok in H. inversion H; subst; clear H. cbn [pt_traj].
  unfold pf_measure in Hme. apply bind_ok in Hme. destruct Hme as ([p' ll] & w3 & Hmm & Hme).
  apply lift_ok in Hme. destruct Hme as (pa' & Ha & E). inversion E; subst; clear E. cbn [fst snd] in Ha.
  assert (Etr : exists pre, tr = pre ++ [old]).
  { unfold idx_last in Hlast. destruct (rev tr) as [|x l] eqn:E; [discriminate|]. inversion Hlast; subst.
    exists (rev l). rewrite <- (rev_involutive tr), E. reflexivity. }
  destruct Etr as [pre ->].
  assert (Eup : tr' = pre ++ [mkStep pa' (st_anc old)]).
  { unfold upd_last in Hup. rewrite removelast_last in Hup. destruct (pre ++ [old]) eqn:E; [destruct pre; discriminate|].
    inversion Hup; auto. }
  subst tr'.
  exists pre, old, (mkStep pa' (st_anc old)), w0.
  do 6 eexists. split; [reflexivity|]. split; [reflexivity|]. split; [|split; [exact Hmm|exact Ha]].
  destruct (pt_traj s) as [|st tr] eqn:E.
  - right. apply bind_ok in H0. destruct H0 as (st & w2 & H0 & H1). apply ret_ok in H1. inversion H1; subst.
    destruct pre as [|x pre]; [|destruct pre; discriminate]. inversion H2; subst. auto.
  - left. destruct (pt_ind1 s); [discriminate|]. apply ret_ok in H0. inversion H0; auto.
Qed.

(** Decomposition of a measure call for filters that create a step from the measurement. *)
Lemma pt_measure_pfy_inv (s s' : ptraj P U Y) y w w' :
  pt_measure mdl s y w = Ok (s', w') -> using_pfy (pt_f s) = true ->
  exists pa yv tv w1, pt_traj s' = pt_traj s ++ [mkStep pa (seq 0 (pt_N s))] /\
    (match pt_f s with
     | FCPFYAS ct => cpfyas_measure mdl (pt_N s) ct yv tv (pt_ind1 s)
     | _ => pfy_measure mdl (pt_N s) yv tv (pt_ind1 s)
     end) w1 = Ok (pa, w').
Proof.
  intros H Ef. unfold pt_measure in H. rewrite if4 in H. cbv beta iota zeta in H. rewrite Ef in H.
  apply bind_ok in H; destruct H as (yv & wa & Hy & H); apply lift_ok in Hy; destruct Hy as (yv' & Hy & Ey); inversion Ey; subst yv' wa; clear Ey.
  apply bind_ok in H; destruct H as (tv & wa & Htv & H); apply lift_ok in Htv; destruct Htv as (tv' & Htv & Et); inversion Et; subst tv' wa; clear Et.
  apply bind_ok in H; destruct H as (pa & w1 & Hme & H). apply ret_ok in H. inversion H; subst; clear H.
  cbn [pt_traj]. exists pa, yv, tv, w. split; auto.
Qed.

Definition pinned (ct : list (tstep P)) (k : nat) (p : list P) : Prop :=
  exists c, cond_state ct k c /\ last_is p c.

Lemma post_pf_measure_part tr anc uv yv tv k pa :
  post (pf_measure mdl tr anc pa uv yv tv k) (fun pa' => part pa' = part pa).
Proof.
  unfold pf_measure. apply post_bind with (Q1 := fun r => fst r = part pa).
  - intros s [p w] s' E. apply (proj1 Hpure) in E. auto.
  - intros [p w] Hp. apply post_lift. intros pa' E. apply add_weights_shape in E. cbn [fst part] in *. destruct E; congruence.
Qed.

Definition pin_fwd (ct : list (tstep P)) (k : nat) (r : @fwd_result P) : Prop := pinned ct k (part (fst (fst r))).

Lemma post_tail ct tr anc yv uv tv k pa : post (cpf_tail mdl ct tr anc yv uv tv k pa) (pin_fwd ct (k + 1)).
Proof.
  unfold cpf_tail. apply post_any. intros pa1.
  apply post_bind with (Q1 := fun cst => nth_error ct (k + 1) = Some cst).
  { apply post_lift. intros c E. apply idx_ok; auto. }
  intros cst Hc. apply post_bind with (Q1 := fun c => nth_error (part (st_pa cst)) 0 = Some c).
  { apply post_lift. intros c E. apply idx_ok; auto. }
  intros c H0. apply post_bind with (Q1 := fun p => last_is p c).
  { apply post_lift. intros p E. eapply upd_last_is; eauto. }
  intros p Hp. cbv zeta. apply post_any. intros y.
  assert (Hpin : pinned ct (k + 1) p) by (exists c; split; [exists cst; auto|auto]).
  destruct (is_none y); [apply post_ret; exact Hpin|].
  eapply post_bind; [apply post_pf_measure_part|]. intros pa2 E2. cbn [part] in E2. apply post_ret.
  unfold pin_fwd. cbn [fst]. rewrite E2. auto.
Qed.

Lemma post_set_last_row ct k cst p : nth_error ct k = Some cst ->
  post (@lift W _ (set_last_row p (part (st_pa cst)))) (pinned ct k).
Proof.
  intros Hc. apply post_lift. intros r E. unfold set_last_row in E.
  destruct (part (st_pa cst)) as [|c [|c2 l]] eqn:Ep; try discriminate.
  exists c. split; [exists cst; rewrite Ep; auto|eapply upd_last_is; eauto].
Qed.

Lemma post_pinned_forward f ct N tr yv uv tv k :
  (f = FCPF ct \/ f = FCPFAS ct \/ f = FCPFYAS ct \/ f = FCSIRAS ct) ->
  post (filter_forward mdl g f N tr yv uv tv k) (pin_fwd ct (k + 1)).
Proof.
  intros [-> | [-> | [-> | ->]]]; cbn [filter_forward].
  - unfold cpf_forward. do 5 (cbv zeta; apply post_any; intros ?). apply post_tail.
  - unfold cpfas_forward. do 11 (cbv zeta; apply post_any; intros ?). apply post_tail.
  - unfold cpfyas_forward. do 4 (cbv zeta; apply post_any; intros ?).
    apply post_bind with (Q1 := fun cst => nth_error ct (k + 1) = Some cst).
    { apply post_lift. intros c E. apply idx_ok; auto. }
    intros cst Hc. do 6 (cbv zeta; apply post_any; intros ?).
    eapply post_bind; [apply post_set_last_row; exact Hc|]. intros p Hp.
    do 5 (cbv zeta; apply post_any; intros ?). apply post_bind with (Q1 := fun pa => part pa = p).
    { apply post_lift. intros pa E. unfold pa_init in E. injection E as <-. reflexivity. }
    intros pa Ep. apply post_ret. unfold pin_fwd. cbn [fst part]. rewrite Ep. auto.
  - unfold csiras_forward. do 3 (cbv zeta; apply post_any; intros ?).
    apply post_bind with (Q1 := fun cst => nth_error ct (k + 1) = Some cst).
    { apply post_lift. intros c E. apply idx_ok; auto. }
    intros cst Hc. do 10 (cbv zeta; apply post_any; intros ?).
    apply post_bind with (Q1 := fun c => nth_error (part (st_pa cst)) 0 = Some c).
    { apply post_lift. intros c E. apply idx_ok; auto. }
    intros c H0. apply post_bind with (Q1 := fun p => last_is p c).
    { apply post_lift. intros p E. eapply upd_last_is; eauto. }
    intros p Hp. do 3 (cbv zeta; apply post_any; intros ?).
    apply post_bind with (Q1 := fun r => fst r = p).
    { intros s [l w] s' E. apply (proj2 Hpure) in E. auto. }
    intros [l w] El. cbn [fst] in El. subst l. do 2 (apply post_any; intros ?). apply post_ret.
    unfold pin_fwd. cbn [fst part]. exists c. split; [exists cst; auto|auto].
Qed.

Lemma post_pinned_initial f ct N : (f = FCPF ct \/ f = FCPFAS ct \/ f = FCPFYAS ct) ->
  post (initial_step mdl f N) (fun st => pinned ct 0 (part (st_pa st))).
Proof.
  intros Hf. unfold initial_step. apply post_bind with (Q1 := pinned ct 0).
  - destruct Hf as [-> | [-> | ->]]; cbn [create_initial];
    (apply post_any; intros p;
     apply post_bind with (Q1 := fun cst => nth_error ct 0 = Some cst);
     [apply post_lift; intros c E; apply idx_ok; auto|];
     intros cst Hc; apply post_bind with (Q1 := fun c => nth_error (part (st_pa cst)) 0 = Some c);
     [apply post_lift; intros c E; apply idx_ok; auto|];
     intros c H0; apply post_lift; intros p' E; exists c; split; [exists cst; auto|eapply upd_last_is; eauto]).
  - intros p Hp. apply post_bind with (Q1 := fun pa => part pa = p).
    { apply post_lift. intros pa E. unfold pa_init in E. destruct p; [discriminate|]. injection E as <-. reflexivity. }
    intros pa Ep. apply post_ret. cbn [st_pa]. rewrite Ep. auto.
Qed.

(** Every step from [k0] on has its last particle pinned. *)
Definition pins (ct : list (tstep P)) (k0 : nat) (tr : list (tstep P)) : Prop :=
  forall k st, (k0 <= k)%nat -> nth_error tr k = Some st -> pinned ct k (part (st_pa st)).

Lemma pins_snoc ct k0 tr st : pins ct k0 tr -> ((k0 <= length tr)%nat -> pinned ct (length tr) (part (st_pa st))) ->
  pins ct k0 (tr ++ [st]).
Proof.
  intros H Hs k st' Hk E. rewrite nth_error_snoc in E.
  destruct (Nat.eqb_spec k (length tr)); [|eauto]. inversion E; subst. auto.
Qed.

Lemma pin_step f ct k0 (s s' : ptraj P U Y) l o w w' : book s l -> pt_f s = f ->
  ((f = FCPF ct \/ f = FCPFAS ct \/ f = FCPFYAS ct) /\ k0 = 0%nat \/ f = FCSIRAS ct /\ k0 = 1%nat) ->
  pins ct k0 (pt_traj s) -> pt_step mdl g s o w = Ok (s', w') -> pins ct k0 (pt_traj s').
Proof.
  intros B Ef Hf Hp H.
  assert (Hi : forall st w0 w1, initial_step mdl (pt_f s) (pt_N s) w0 = Ok (st, w1) -> pins ct k0 [st]).
  { intros st w0 w1 E. intros k st' Hk Hn. destruct Hf as [[Hf ->]|[_ ->]].
    - destruct k as [|[|k]]; simpl in Hn; try discriminate. inversion Hn; subst.
      eapply (post_pinned_initial (pt_f s)); eauto.
    - destruct k as [|[|k]]; simpl in Hn; try discriminate. lia. }
  assert (Hf4 : f = FCPF ct \/ f = FCPFAS ct \/ f = FCPFYAS ct \/ f = FCSIRAS ct) by tauto.
  destruct o as [u y|y]; cbn [pt_step] in H.
  - apply bind_ok in H. destruct H as ([s1 b] & w1 & H & H2). apply ret_ok in H2. inversion H2; subst; clear H2. cbn [fst].
    destruct (pt_forward_inv mdl g _ _ _ _ _ _ _ _ B H) as
      (tr & uv & yv & tv & w2 & pa & anc & k & Htr & Lk & Hff & Et & _).
    rewrite Et. apply pins_snoc.
    + destruct Htr as [(_ & -> & _)|(_ & st0 & E & ->)]; eauto.
    + intros _. rewrite Lk. apply (post_pinned_forward _ ct _ _ _ _ _ _ Hf4 _ _ _ Hff).
  - destruct (using_pfy (pt_f s)) eqn:Eu.
    + destruct (pt_measure_pfy_inv _ _ _ _ _ H Eu) as (pa & yv & tv & w1 & Et & Hme). rewrite Et.
      apply pins_snoc; auto. intros _. cbn [st_pa].
      destruct l as [us ys]. destruct B as (B1 & B2 & _). rewrite B1, <- B2.
      assert (E : f = FCPFYAS ct) by (subst f; destruct Hf4 as [E|[E|[E|E]]]; rewrite E in Eu; try discriminate; auto).
      rewrite Ef, E in Hme. revert Hme.
      match goal with |- ?m w1 = Ok (pa, w') -> _ => cut (post m (fun pa => pinned ct (pt_ind1 s) (part pa))); [intros HH Hme; exact (HH _ _ _ Hme)|] end.
      unfold cpfyas_measure. do 3 (apply post_any; intros ?).
      apply post_bind with (Q1 := fun cst => nth_error ct (pt_ind1 s) = Some cst).
      { apply post_lift. intros c E1. apply idx_ok; auto. }
      intros cst Hc. eapply post_bind; [apply post_set_last_row; exact Hc|]. intros p Hpp.
      apply post_lift. intros pa' E1. unfold pa_init in E1. destruct p; [discriminate|]. injection E1 as <-. exact Hpp.
    + destruct (pt_measure_inv _ _ _ _ _ H Eu) as
        (pre & old & new & w0 & p' & uv & yv & tv & ll & pa & Et & -> & Hold & Hmm & Ha).
      rewrite Et. apply (proj1 Hpure) in Hmm. subst p'. apply add_weights_shape in Ha. destruct Ha as (Ep & _).
      cbn [part] in Ep.
      assert (Hq : pins ct k0 (pre ++ [old])).
      { destruct Hold as [E|(E & -> & Hini)]; [rewrite <- E; auto|]. simpl. eauto. }
      intros k st Hk Hn. rewrite nth_error_snoc in Hn.
      destruct (Nat.eqb_spec k (length pre)).
      2:{ apply (Hq k st Hk). pose proof (nth_error_None_lt _ _ _ Hn). rewrite nth_error_app1 by lia. auto. }
      { inversion Hn; subst. cbn [st_pa]. rewrite Ep.
        apply (Hq (length pre) old Hk). rewrite nth_error_app2, Nat.sub_diag by lia. reflexivity. }
Qed.

Lemma pin_run f ct k0 ops : forall (s s' : ptraj P U Y) l w w', book s l -> pt_f s = f ->
  ((f = FCPF ct \/ f = FCPFAS ct \/ f = FCPFYAS ct) /\ k0 = 0%nat \/ f = FCSIRAS ct /\ k0 = 1%nat) ->
  pins ct k0 (pt_traj s) -> pt_run mdl g s ops w = Ok (s', w') -> pins ct k0 (pt_traj s') /\ pt_f s' = f.
Proof.
  induction ops as [|o ops IH]; intros s s' l w w' B Ef Hf Hp H; simpl in H.
  - apply ret_ok in H. inversion H; subst. auto.
  - apply bind_ok in H. destruct H as (s1 & w1 & H1 & H).
    assert (B1 : pt_run mdl g s [o] w = Ok (s1, w1)) by (simpl; unfold bind; rewrite H1; reflexivity).
    destruct (book_run mdl g _ _ _ _ _ _ B B1) as [B2 _].
    pose proof (pt_step_N mdl g _ _ _ _ _ H1) as [_ E1]. rewrite Ef in E1.
    eapply IH; [exact B2|exact E1|exact Hf| |exact H]. exact (pin_step f ct k0 s s1 l o w w1 B Ef Hf Hp H1).
Qed.
End Pin.

(** ** C19: with CPF, CPFAS and CPFYAS the last particle of every stored step is the
    conditioning trajectory's state at that step; with CSIRAS the same from step 1 on. *)
Theorem C19_conditioned_path : forall W P U Y V (mdl : fmodel W P U Y V) (g : rng W)
    (s : ptraj P U Y) ct k st,
  measure_pure mdl -> reachable mdl g s ->
  (pt_f s = FCPF ct \/ pt_f s = FCPFAS ct \/ pt_f s = FCPFYAS ct \/ pt_f s = FCSIRAS ct /\ (1 <= k)%nat) ->
  nth_error (pt_traj s) k = Some st ->
  exists c, cond_state ct k c /\ last_is (part (st_pa st)) c.
Proof.
  intros W P U Y V mdl g s ct k st Hp (N & r & name & o & T & s0 & ops & w0 & w1 & Hi & Hr) Hf Hk.
  assert (E0 : pt_traj s0 = []).
  { unfold pt_init in Hi. destruct T; simpl in Hi;
    repeat match type of Hi with context [match ?x with _ => _ end] => destruct x; simpl in Hi; try discriminate end;
    minv Hi; inversion Hi; auto. }
  assert (Ef : pt_f s = pt_f s0).
  { clear - Hr. revert s0 w0 Hr. induction ops as [|a ops IH]; intros s0 w0 Hr; simpl in Hr.
    - apply ret_ok in Hr. inversion Hr; auto.
    - apply bind_ok in Hr. destruct Hr as (s2 & w2 & H1 & H2). apply pt_step_N in H1. apply IH in H2. destruct H1; congruence. }
  assert (N0 : forall k0, pins ct k0 (pt_traj s0)).
  { intros k0 k' st' _ E. rewrite E0 in E. destruct k'; discriminate. }
  pose proof (book_init _ _ _ _ _ _ Hi) as B.
  destruct Hf as [Hf|[Hf|[Hf|[Hf Hk1]]]]; rewrite Ef in Hf;
  [ destruct (pin_run mdl g Hp _ ct 0%nat ops _ _ _ _ _ B Hf ltac:(tauto) (N0 _) Hr) as [A _]
  | destruct (pin_run mdl g Hp _ ct 0%nat ops _ _ _ _ _ B Hf ltac:(tauto) (N0 _) Hr) as [A _]
  | destruct (pin_run mdl g Hp _ ct 0%nat ops _ _ _ _ _ B Hf ltac:(tauto) (N0 _) Hr) as [A _]
  | destruct (pin_run mdl g Hp _ ct 1%nat ops _ _ _ _ _ B Hf ltac:(tauto) (N0 _) Hr) as [A _] ];
  eapply A; eauto; lia.
Qed.

Section Anc.
Context {W P U Y V : Type}.
Variable mdl : fmodel W P U Y V.
Variable g : rng W.
Hypothesis Hg : rng_ok g.
Hypothesis Hsh : shape_ok mdl.

Lemma post_tail_anc ct tr anc yv uv tv k pa :
  post (cpf_tail mdl ct tr anc yv uv tv k pa) (fun r => snd r = anc).
Proof.
  unfold cpf_tail. do 4 (apply post_any; intros ?). cbv zeta. apply post_any. intros y.
  destruct (is_none y); [apply post_ret; reflexivity|]. apply post_any. intros ?. apply post_ret. reflexivity.
Qed.

Definition anc_inv (N : nat) (tr : list (tstep P)) : Prop :=
  Forall (fun st => last_is (st_anc st) (N - 1)%nat) tr.

Lemma last_seq N : (0 < N)%nat -> last_is (seq 0 N) (N - 1)%nat.
Proof.
  intros H. destruct N as [|n]; [lia|]. rewrite seq_S. replace (S n - 1)%nat with n by lia. apply last_is_app.
Qed.

Lemma initial_anc f N w st w' : initial_step mdl f N w = Ok (st, w') -> st_anc st = seq 0 N.
Proof.
  intros H. unfold initial_step in H. apply bind_ok in H. destruct H as (p & w1 & _ & H).
  apply bind_ok in H. destruct H as (pa & w2 & _ & H). apply ret_ok in H. inversion H; auto.
Qed.

Lemma anc_step (s s' : ptraj P U Y) ct o w w' : reachable mdl g s -> pt_f s = FCPF ct ->
  anc_inv (pt_N s) (pt_traj s) -> pt_step mdl g s o w = Ok (s', w') -> anc_inv (pt_N s) (pt_traj s').
Proof.
  intros Hr Ef Hi H. destruct o as [u y|y]; cbn [pt_step] in H.
  - apply bind_ok in H. destruct H as ([s1 b] & w1 & H & H2). apply ret_ok in H2. inversion H2; subst; clear H2. cbn [fst].
    destruct (reachable_inv mdl g Hg Hsh _ Hr) as [_ (l & B)].
    destruct (pt_forward_inv mdl g _ _ _ _ _ _ _ _ B H) as
      (tr & uv & yv & tv & w2 & pa & anc & k & Htr & Lk & _ & Et & _).
    destruct (exists_last (l := tr)) as (pre & old & ->). { intros ->. simpl in Lk. lia. }
    rewrite <- app_assoc in Et. cbn [app] in Et.
    destruct (forward_setup mdl g Hg Hsh _ _ _ _ _ _ _ _ _ _ Hr H Et) as
      (uv1 & yv1 & tv1 & w3 & Fw & Wn & HN & Hff & _ & _ & _ & _ & _ & _ & _ & Hold).
    assert (Ho : anc_inv (pt_N s) (pre ++ [old])).
    { destruct Hold as [(E & _)|(E & -> & Hini)]; [rewrite <- E; auto|]. simpl.
      apply initial_anc in Hini. constructor; [|constructor]. rewrite Hini. apply last_seq; auto. }
    rewrite Et. change [old; mkStep pa anc] with ([old] ++ [mkStep pa anc]). rewrite app_assoc.
    apply Forall_app. split; [exact Ho|]. constructor; [|constructor]. cbn [st_anc st_pa] in *.
    rewrite Ef in Hff. cbn [filter_forward] in Hff. unfold cpf_forward in Hff. rewrite idx_app_mid in Hff.
    unfold bind at 1, lift at 1 in Hff. cbv zeta in Hff.
    assert (L : length (part (st_pa old)) = pt_N s) by (apply old_wf in Fw; apply Fw).
    rewrite L in Hff. rewrite idx_last_app in Hff. unfold bind at 1, lift at 1 in Hff.
    apply bind_ok in Hff. destruct Hff as (a0 & w4 & _ & Hff).
    apply bind_ok in Hff. destruct Hff as (cp & w5 & _ & Hff).
    apply bind_ok in Hff. destruct Hff as (pa0 & w6 & _ & Hff).
    apply post_tail_anc in Hff. cbn [snd] in Hff. subst anc. apply last_is_app.
  - destruct (pt_measure_inv mdl _ _ _ _ _ H ltac:(rewrite Ef; reflexivity)) as
        (pre & old & new & w0 & p' & uv & yv & tv & ll & pa & Et & -> & Hold & Hmm & Ha).
    assert (Ho : anc_inv (pt_N s) (pre ++ [old])).
    { destruct Hold as [E|(E & -> & Hini)]; [rewrite <- E; auto|]. simpl.
      assert (HN : (0 < pt_N s)%nat).
      { destruct (pt_N s) eqn:EN; [|lia]. exfalso. eapply initial_zero; eauto. }
      apply initial_anc in Hini. constructor; [|constructor]. rewrite Hini. apply last_seq; auto. }
    rewrite Et. apply Forall_app in Ho. destruct Ho as [H1 H2]. apply Forall_app. split; auto.
    inversion H2; subst. constructor; auto.
Qed.
End Anc.

(** With CPF the ancestor of the last particle is the last particle of the previous step,
    at every step: following ancestors from it stays on the conditioned path. *)
Theorem C19_cpf_ancestor : forall W P U Y V (mdl : fmodel W P U Y V) (g : rng W)
    (s : ptraj P U Y) ct k st,
  rng_ok g -> shape_ok mdl -> reachable mdl g s -> pt_f s = FCPF ct ->
  nth_error (pt_traj s) k = Some st -> last_is (st_anc st) (pt_N s - 1)%nat.
Proof.
  intros W P U Y V mdl g s ct k st Hg Hsh (N & r & name & o & T & s0 & ops & w0 & w1 & Hi & Hr) Hf Hk.
  assert (E0 : pt_traj s0 = []).
  { unfold pt_init in Hi. destruct T; simpl in Hi;
    repeat match type of Hi with context [match ?x with _ => _ end] => destruct x; simpl in Hi; try discriminate end;
    minv Hi; inversion Hi; auto. }
  assert (A : forall ops2 ops1 sa wa, pt_run mdl g s0 ops1 w0 = Ok (sa, wa) -> anc_inv (pt_N sa) (pt_traj sa) ->
     pt_run mdl g sa ops2 wa = Ok (s, w1) -> anc_inv (pt_N s) (pt_traj s)).
  { induction ops2 as [|a ops2 IH]; intros ops1 sa wa H1 HA H2; simpl in H2.
    - apply ret_ok in H2. inversion H2; subst. auto.
    - apply bind_ok in H2. destruct H2 as (sb & wb & H3 & H2).
      assert (Efa : pt_f sa = pt_f s).
      { clear - H3 H2. assert (G : forall l (x y : ptraj P U Y) u v, pt_run mdl g x l u = Ok (y, v) -> pt_f y = pt_f x).
        { induction l as [|o l IHl]; intros x y u v E; simpl in E.
          - apply ret_ok in E. inversion E; auto.
          - apply bind_ok in E. destruct E as (z & u1 & E1 & E2). apply pt_step_N in E1. apply IHl in E2. destruct E1; congruence. }
        apply G in H2. apply pt_step_N in H3. destruct H3; congruence. }
      pose proof (pt_step_N mdl g _ _ _ _ _ H3) as [EN _].
      eapply (IH (ops1 ++ [a]) sb wb); [eapply reachable_step; eauto| |exact H2].
      rewrite EN. eapply anc_step; eauto; [|rewrite Efa; exact Hf]. repeat eexists; eauto. }
  specialize (A ops [] s0 w0 eq_refl ltac:(rewrite E0; constructor) Hr).
  unfold anc_inv in A. rewrite Forall_forall in A. apply (A st). eapply nth_error_In; eauto.
Qed.

(** ** C20 *)
Section CondAnc.
Context {W : Type}.
Variable g : rng W.
Hypothesis Hg : rng_ok g.

Lemma exp_norm_fin w : live w -> exists c, 0 < c /\ exp_norm w = map Fin (map (Rmult c) (map lin w)).
Proof.
  intros H. pose proof (live_total w H) as Ht. unfold exp_norm.
  rewrite map_exp by apply H. rewrite xsum_fin. fold (total w).
  exists (/ total w). split; [apply Rinv_0_lt_compat; auto|].
  rewrite map_xdiv by lra. rewrite !map_map. apply map_ext. intros x. f_equal. unfold Rdiv. apply Rmult_comm.
Qed.

Lemma sample_exp_norm w n s l s' : live w -> sampleM g (exp_norm w) n s = Ok (l, s') ->
  exists r, unit_draw r /\ np_sample (map Fin (map lin w)) n r = Ok l.
Proof.
  intros H E. destruct (exp_norm_fin w H) as (c & Hc & Ec). rewrite Ec in E.
  destruct (sampleM_spec _ _ _ _ _ _ Hg E) as (r & Hr & Hs). exists r. split; auto.
  rewrite sample_scale in Hs; auto. apply weights_ok_lin; auto.
Qed.

(** Weight times transition density. *)
Definition wtimes (lt w : list xr) : list R := map (fun ab => lin (fst ab) * lin (snd ab)) (combine lt w).

Lemma zip_lin lt w z : zipw xadd lt w = Ok z -> Forall logish lt -> Forall logish w ->
  map lin z = wtimes lt w.
Proof.
  unfold wtimes. revert w z. induction lt as [|a lt IH]; intros [|b w] z E H1 H2; simpl in E; try discriminate.
  - inversion E. reflexivity.
  - destruct (zipw xadd lt w) as [z'|] eqn:E'; simpl in E; [|discriminate]. inversion E; subst.
    inversion H1; subst. inversion H2; subst. simpl. f_equal; [apply lin_xadd; auto|]. apply IH; auto.
Qed.

Lemma zip_live lt w z : zipw xadd lt w = Ok z -> Forall logish lt -> Forall logish w -> survivor w lt -> live z.
Proof.
  intros E H1 H2 (i & a & b & Ha & Hb). split.
  - eapply zipw_Forall; [|exact E|exact H1|exact H2]. intros. apply logish_xadd; auto.
  - exists (b + a). pose proof (zipw_nth xadd lt w z E i (Fin b) (Fin a) Hb Ha) as Hz. eapply nth_error_In; eauto.
Qed.

Lemma cond_ancestor_sem lt w s i s' : Forall logish lt -> Forall logish w -> survivor w lt ->
  cond_ancestor g lt w s = Ok (i, s') ->
  weights_ok (wtimes lt w) /\ exists r, unit_draw r /\ np_sample (map Fin (wtimes lt w)) 1 r = Ok [i].
Proof.
  intros H1 H2 Hs H. unfold cond_ancestor in H.
  apply bind_ok in H. destruct H as (z & s1 & Hz & H). apply lift_ok in Hz. destruct Hz as (z' & Hz & E). inversion E; subst; clear E.
  pose proof (zip_live _ _ _ Hz H1 H2 Hs) as Lz. pose proof (zip_lin _ _ _ Hz H1 H2) as Ez.
  apply bind_ok in H. destruct H as (m & s2 & Hm & H). apply lift_ok in Hm. destruct Hm as (m' & Hm & E). inversion E; subst; clear E.
  destruct (live_max _ Lz) as (m0 & Em0 & _). rewrite Em0 in Hm. inversion Hm; subst; clear Hm. cbv zeta in H.
  apply bind_ok in H. destruct H as (l & s3 & Hl & H). apply lift_ok in H. destruct H as (i' & Hi & E). inversion E; subst; clear E.
  assert (Lsh : live (map (fun x => xsub x (Fin m0)) z')).
  { replace (map (fun x => xsub x (Fin m0)) z') with (map (fun x => xadd x (Fin (- m0))) z') by reflexivity.
    apply live_shift; auto. }
  destruct (sample_exp_norm _ _ _ _ _ Lsh Hl) as (r & Hr & Hn).
  replace (map lin (map (fun x => xsub x (Fin m0)) z')) with (map (Rmult (exp (- m0))) (map lin z')) in Hn
    by (symmetry; apply (lin_shift (- m0)); apply Lz).
  rewrite sample_scale in Hn by (auto using exp_pos, weights_ok_lin). rewrite <- Ez.
  split; [apply weights_ok_lin; auto|]. exists r. split; auto. rewrite Hn.
  destruct (np_sample_range _ _ _ _ Hr Hn) as [Ll _].
  destruct l as [|x [|y l]]; simpl in Ll; try discriminate. apply idx_ok in Hi. simpl in Hi. inversion Hi; auto.
Qed.
End CondAnc.

(** [last] is distributed as weight times transition density, the other N-1 indices as
    the weights: each is the output of systematic resampling (C02, C03) for some draw. *)
Definition ancestors_law (w lt : list xr) (N : nat) (anc : list nat) : Prop :=
  exists anc0 i r1 r2, anc = anc0 ++ [i] /\ unit_draw r1 /\ unit_draw r2 /\
    np_sample (map Fin (map lin w)) (N - 1) r1 = Ok anc0 /\
    weights_ok (wtimes lt w) /\ np_sample (map Fin (wtimes lt w)) 1 r2 = Ok [i].

Section C20.
Context {W P U Y V : Type}.
Variable b : bmodel W P U Y V.
Variable g : rng W.
Hypothesis Hg : rng_ok g.
Notation mdl := (full_of_basic b).
Hypothesis Hsh : shape_ok mdl.

Lemma firstn_mid {A} (pre : list A) a : firstn (length pre) (pre ++ [a]) = pre.
Proof. rewrite firstn_app, Nat.sub_diag, firstn_all. simpl. apply app_nil_r. Qed.

Lemma take_all {A} (l : list A) : take l (seq 0 (length l)) = Ok l.
Proof.
  destruct (take_ok l (seq 0 (length l)) (seq_range _)) as [r E]. rewrite E. f_equal.
  pose proof (take_length _ _ _ E) as L. rewrite seq_length in L.
  apply nth_error_ext. intros k. destruct (Nat.lt_ge_cases k (length l)) as [Hk|Hk].
  - rewrite (take_nth _ _ _ E k k); auto. rewrite nth_error_nth' with (d := 0%nat) by (rewrite seq_length; auto).
    rewrite seq_nth by auto. reflexivity.
  - rewrite !(proj2 (nth_error_None _ _)) by lia. reflexivity.
Qed.

Lemma take_zeros {A} (l : list A) c n : nth_error l 0 = Some c -> take l (repeat 0%nat n) = Ok (repeat c n).
Proof.
  intros H. apply idx_ok in H. induction n as [|n IH]; simpl; auto. rewrite H. simpl. rewrite IH. reflexivity.
Qed.

Lemma cond_forward (s s' : ptraj P U Y) u y fl w w' ct pre old new :
  reachable mdl g s -> (pt_f s = FCPFAS ct \/ pt_f s = FCPFYAS ct \/ pt_f s = FCSIRAS ct) ->
  pt_forward mdl g s u y w = Ok ((s', fl), w') -> pt_traj s' = pre ++ [old; new] ->
  exists c lt w1 w2,
    cond_state ct (length pre + 1) c /\
    b_xnext b (part (st_pa old)) (repeat c (pt_N s)) (cell_of u) (length pre) w1 = Ok (lt, w2) /\
    (live (lw (st_pa old)) -> Forall logish lt -> survivor (lw (st_pa old)) lt ->
     ancestors_law (lw (st_pa old)) lt (pt_N s) (st_anc new)).
Proof.
  intros Hr Ef H Hp.
  destruct (forward_setup mdl g Hg Hsh _ _ _ _ _ _ _ _ _ _ Hr H Hp) as
    (uv & yv & tv & w1 & Fw & Wn & HN & Hff & Nu & Ny & Nt & Nt1 & _).
  apply old_wf in Fw. destruct Fw as (L1 & L2 & L3 & L4 & L5).
  apply idx_ok in Nu, Nt.
  assert (HC : forall st0 cst lt wa wb anc0 r1s wc wd i,
     nth_error ct (length pre + 1) = Some cst -> st_pa st0 = st_pa old ->
     sampleM g (exp_norm (lw (st_pa old))) (pt_N s - 1) r1s = Ok (anc0, wa) ->
     (exists nx, take (part (st_pa cst)) (repeat 0%nat (pt_N s)) = Ok nx /\
        b_xnext b (part (st_pa old)) nx (cell_of u) (length pre) wb = Ok (lt, wc)) ->
     cond_ancestor g lt (lw (st_pa old)) wc = Ok (i, wd) ->
     st_anc new = anc0 ++ [i] ->
     exists c lt w1 w2,
    cond_state ct (length pre + 1) c /\
    b_xnext b (part (st_pa old)) (repeat c (pt_N s)) (cell_of u) (length pre) w1 = Ok (lt, w2) /\
    (live (lw (st_pa old)) -> Forall logish lt -> survivor (lw (st_pa old)) lt ->
     ancestors_law (lw (st_pa old)) lt (pt_N s) (st_anc new))).
  { intros st0 cst lt wa wb anc0 r1s wc wd i Hc _ H1 (nx & Hnx & Hx) H2 Ea.
    destruct (nth_error (part (st_pa cst)) 0) as [c|] eqn:Ec.
    2:{ destruct (part (st_pa cst)); [|discriminate]. destruct (pt_N s); [lia|]. discriminate. }
    rewrite (take_zeros _ c _ Ec) in Hnx. inversion Hnx; subst nx.
    exists c, lt, wb, wc. split; [exists cst; auto|]. split; [exact Hx|].
    intros Hl Hlt Hs. destruct (sample_exp_norm g Hg _ _ _ _ _ Hl H1) as (r1 & Hr1 & E1).
    destruct (cond_ancestor_sem g Hg _ _ _ _ _ Hlt (proj1 Hl) Hs H2) as (Hwo & r2 & Hr2 & E2).
    exists anc0, i, r1, r2. rewrite Ea. auto 10. }
  assert (T1 : take (part (st_pa old)) (seq 0 (pt_N s)) = Ok (part (st_pa old))) by (rewrite <- L1; apply take_all).
  assert (T2 : take (lw (st_pa old)) (seq 0 (pt_N s)) = Ok (lw (st_pa old))) by (rewrite <- L2; apply take_all).
  assert (T3 : take (st_anc old) (seq 0 (pt_N s)) = Ok (st_anc old)) by (rewrite <- L4; apply take_all).
  destruct Ef as [Ef|[Ef|Ef]]; rewrite Ef in Hff; cbn [filter_forward] in Hff.
  - unfold cpfas_forward in Hff. rewrite idx_last_app in Hff. unfold bind at 1, lift at 1 in Hff. cbv zeta in Hff.
    rewrite L1 in Hff. apply bind_ok in Hff. destruct Hff as (anc0 & wa & Hs1 & Hff).
    rewrite idx_app_mid in Hff. unfold bind at 1, lift at 1 in Hff.
    rewrite T1 in Hff. unfold bind at 1, lift at 1 in Hff. rewrite T3 in Hff. unfold bind at 1, lift at 1 in Hff.
    apply bind_ok in Hff. destruct Hff as (cst & wz & Hc & Hff). apply lift_ok in Hc. destruct Hc as (cst' & Hc & E). inversion E; subst; clear E.
    apply idx_ok in Hc.
    apply bind_ok in Hff. destruct Hff as (lt & wc & Hx & Hff).
    rewrite T2 in Hff. unfold bind at 1, lift at 1 in Hff.
    apply bind_ok in Hff. destruct Hff as (i & wd & Hca & Hff).
    apply bind_ok in Hff. destruct Hff as (cp & w5 & _ & Hff).
    apply bind_ok in Hff. destruct Hff as (pa0 & w6 & _ & Hff).
    apply post_tail_anc in Hff. cbn [snd] in Hff.
    cbn [full_of_basic m_xnext1] in Hx. unfold def_xnext1 in Hx.
    apply bind_ok in Hx. destruct Hx as (nx & wy & Hnx & Hx). apply lift_ok in Hnx. destruct Hnx as (nx' & Hnx & E). inversion E; subst; clear E.
    rewrite Nu in Hx. unfold bind at 1, lift at 1 in Hx. rewrite Nt in Hx. unfold bind at 1, lift at 1 in Hx.
    eapply (HC old cst'); eauto.
  - unfold cpfyas_forward in Hff. rewrite idx_app_mid in Hff. unfold bind at 1, lift at 1 in Hff.
    apply bind_ok in Hff. destruct Hff as (anc0 & wa & Hs1 & Hff).
    rewrite T1 in Hff. unfold bind at 1, lift at 1 in Hff. rewrite T3 in Hff. unfold bind at 1, lift at 1 in Hff.
    apply bind_ok in Hff. destruct Hff as (cst & wz & Hc & Hff). apply lift_ok in Hc. destruct Hc as (cst' & Hc & E). inversion E; subst; clear E.
    apply idx_ok in Hc.
    apply bind_ok in Hff. destruct Hff as (lt & wc & Hx & Hff).
    rewrite T2 in Hff. unfold bind at 1, lift at 1 in Hff.
    apply bind_ok in Hff. destruct Hff as (i & wd & Hca & Hff). cbv zeta in Hff.
    assert (Ea : st_anc new = anc0 ++ [i]).
    { do 10 (apply bind_ok in Hff; let x := fresh "x" in let y := fresh "y" in destruct Hff as (x & y & _ & Hff)).
      apply ret_ok in Hff. inversion Hff; auto. }
    cbn [full_of_basic m_xnext1] in Hx. unfold def_xnext1 in Hx.
    apply bind_ok in Hx. destruct Hx as (nx & wy & Hnx & Hx). apply lift_ok in Hnx. destruct Hnx as (nx' & Hnx & E). inversion E; subst; clear E.
    rewrite Nu in Hx. unfold bind at 1, lift at 1 in Hx. rewrite Nt in Hx. unfold bind at 1, lift at 1 in Hx.
    eapply (HC old cst'); eauto.
  - unfold csiras_forward in Hff. rewrite idx_last_app in Hff. unfold bind at 1, lift at 1 in Hff. cbv zeta in Hff.
    rewrite L1 in Hff. apply bind_ok in Hff. destruct Hff as (anc0 & wa & Hs1 & Hff).
    rewrite idx_app_mid in Hff. unfold bind at 1, lift at 1 in Hff.
    apply bind_ok in Hff. destruct Hff as (cst & wz & Hc & Hff). apply lift_ok in Hc. destruct Hc as (cst' & Hc & E). inversion E; subst; clear E.
    apply idx_ok in Hc.
    apply bind_ok in Hff. destruct Hff as (nx & wy & Hnx & Hff). apply lift_ok in Hnx. destruct Hnx as (nx' & Hnx & E). inversion E; subst; clear E.
    rewrite Nu in Hff. unfold bind at 1, lift at 1 in Hff. rewrite Nt in Hff. unfold bind at 1, lift at 1 in Hff.
    apply bind_ok in Hff. destruct Hff as (lt & wc & Hx & Hff).
    rewrite T2 in Hff. unfold bind at 1, lift at 1 in Hff.
    apply bind_ok in Hff. destruct Hff as (i & wd & Hca & Hff). cbv zeta in Hff.
    assert (Ea : st_anc new = anc0 ++ [i]).
    { do 12 (apply bind_ok in Hff; let x := fresh "x" in let y := fresh "y" in destruct Hff as (x & y & _ & Hff)).
      apply ret_ok in Hff. inversion Hff; auto. }
    cbn [full_of_basic m_logp_xnext] in Hx.
    eapply (HC old cst'); eauto.
Qed.
End C20.

(** ** C20: in one forward() call of CPFAS, CPFYAS or CSIRAS for a model using the default
    callbacks: with [c] the conditioned state at the new step and [lt] the model's log
    transition densities from each particle of step k to [c], the ancestor of the last
    particle is drawn proportionally to weight times transition density and the other
    N-1 ancestors from the weights. *)
Theorem C20_ancestor_law : forall W P U Y V (b : bmodel W P U Y V) (g : rng W)
    (s s' : ptraj P U Y) u y fl w w' ct pre old new,
  rng_ok g -> shape_ok (full_of_basic b) -> reachable (full_of_basic b) g s ->
  (pt_f s = FCPFAS ct \/ pt_f s = FCPFYAS ct \/ pt_f s = FCSIRAS ct) ->
  pt_forward (full_of_basic b) g s u y w = Ok ((s', fl), w') -> pt_traj s' = pre ++ [old; new] ->
  exists c lt w1 w2,
    cond_state ct (length pre + 1) c /\
    b_xnext b (part (st_pa old)) (repeat c (pt_N s)) (cell_of u) (length pre) w1 = Ok (lt, w2) /\
    (live (lw (st_pa old)) -> Forall logish lt -> survivor (lw (st_pa old)) lt ->
     ancestors_law (lw (st_pa old)) lt (pt_N s) (st_anc new)).
Proof. intros. eapply cond_forward; eauto. Qed.

(** The law of the drawn conditional ancestor as a probability: over the uniform draw r2,
    index [i] is the result exactly on an interval whose length is its share of weight
    times transition density. *)
Theorem C20_ancestor_probability : forall (w lt : list xr) i x r2,
  weights_ok (wtimes lt w) -> 0 < r2 < 1 -> nth_error (wtimes lt w) i = Some x ->
  (np_sample (map Fin (wtimes lt w)) 1 r2 = Ok [i] <->
   psum (wtimes lt w) i / rsum (wtimes lt w) < r2 <=
   psum (wtimes lt w) i / rsum (wtimes lt w) + x / rsum (wtimes lt w)).
Proof. intros. apply C03_sample_one_interval; auto. Qed.

(** CSIRAS does not pin the first step. *)
Theorem C19_csiras_first_step_refuted :
  ~ (forall W P U Y V (mdl : fmodel W P U Y V) (g : rng W) (s : ptraj P U Y) ct k st,
      measure_pure mdl -> shape_ok mdl -> rng_ok g -> reachable mdl g s -> pt_f s = FCSIRAS ct ->
      nth_error (pt_traj s) k = Some st ->
      exists c, cond_state ct k c /\ last_is (part (st_pa st)) c).
Proof.
  intros H.
  assert (A : exists (s0 s : ptraj R R R) st, pt_init 2 0 0 "CSIRAS" (FODict (Some cond3)) None = Ok s0 /\
    pt_run walk_full (const_rng 0) s0 [Meas None] tt = Ok (s, tt) /\ pt_f s = FCSIRAS cond3 /\
    nth_error (pt_traj s) 0 = Some st /\ part (st_pa st) = [0; 0]).
  { do 3 eexists. split; [reflexivity|]. split; [cbn; unfold bind, lift, ret, def_measure; cbn; reflexivity|].
    split; [reflexivity|]. split; reflexivity. }
  destruct A as (s0 & s & st & Hi & Hr & Ef & Hn & Ep).
  destruct (H _ _ _ _ _ walk_full (const_rng 0) s cond3 0%nat st) as (c & (cst & Hc & Hc0) & Hl); auto.
  - split; simpl.
    + intros tr a p u y t s1 l w s2 E. unfold def_measure in E. minv E. simpl in E. minv E. auto.
    + intros p y t s1 l w s2 E. apply ret_ok in E. inversion E; auto.
  - apply walk_shape.
  - apply const_rng_ok. unfold unit_draw. lra.
  - repeat eexists; eauto.
  - simpl in Hc. inversion Hc; subst cst. simpl in Hc0. inversion Hc0; subst c.
    rewrite Ep in Hl. unfold last_is in Hl. simpl in Hl. inversion Hl. lra.
Qed.

Lemma walk_pure : measure_pure walk_full.
Proof.
  split; simpl.
  - intros tr a p u y t s1 l w s2 E. unfold def_measure in E. minv E. simpl in E. minv E. auto.
  - intros p y t s1 l w s2 E. apply ret_ok in E. inversion E; auto.
Qed.

(** Instances: a history of any kind with the three conditioned filters. *)
Example C19_instance : forall name s0 s ops k st, In name ["CPF"; "cpfas"; "CpfYas"]%string ->
  pt_init 4 0 0 name (FODict (Some cond3)) None = Ok s0 ->
  pt_run walk_full (const_rng (1/3)) s0 ops tt = Ok (s, tt) ->
  nth_error (pt_traj s) k = Some st ->
  exists c, cond_state cond3 k c /\ last_is (part (st_pa st)) c.
Proof.
  intros name s0 s ops k st Hin Hi Hr Hn.
  assert (Ef : pt_f s = pt_f s0).
  { clear - Hr. assert (G : forall l (x y : ptraj R R R) u v, pt_run walk_full (const_rng (1/3)) x l u = Ok (y, v) -> pt_f y = pt_f x).
    { induction l as [|o l IHl]; intros x y u v E; simpl in E.
      - apply ret_ok in E. inversion E; auto.
      - apply bind_ok in E. destruct E as (z & u1 & E1 & E2). apply pt_step_N in E1. apply IHl in E2. destruct E1; congruence. }
    eapply G; eauto. }
  eapply (C19_conditioned_path _ _ _ _ _ walk_full (const_rng (1/3)) s cond3 k st walk_pure).
  - repeat eexists; eauto.
  - rewrite Ef. destruct Hin as [<-|[<-|[<-|[]]]]; simpl in Hi; inversion Hi; simpl; auto.
  - exact Hn.
Qed.

Example C20_instance : forall name, In name ["CPFAS"; "CPFYAS"; "CSIRAS"]%string ->
  exists (s0 s' : ptraj R R R) b w',
    pt_init 2 (1/2) 0 name (FODict (Some cond3)) None = Ok s0 /\
    reachable walk_full (const_rng (1/2)) s0 /\
    (pt_f s0 = FCPFAS cond3 \/ pt_f s0 = FCPFYAS cond3 \/ pt_f s0 = FCSIRAS cond3) /\
    pt_forward walk_full (const_rng (1/2)) s0 (Some 1) (Some 2) tt = Ok ((s', b), w') /\
    exists pre old new, pt_traj s' = pre ++ [old; new] /\ live (lw (st_pa old)).
Proof.
  intros name Hin.
  assert (Q : exists s0 : ptraj R R R, pt_init 2 (1/2) 0 name (FODict (Some cond3)) None = Ok s0 /\ pt_traj s0 = [] /\
     pt_N s0 = 2%nat /\ filter_ready (pt_f s0) 2 /\ Forall (op_ready (pt_f s0)) [Fwd (Some 1) (Some 2)] /\
     (pt_f s0 = FCPFAS cond3 \/ pt_f s0 = FCPFYAS cond3 \/ pt_f s0 = FCSIRAS cond3)).
  { destruct Hin as [<-|[<-|[<-|[]]]]; eexists; (split; [reflexivity|]); (split; [reflexivity|]);
      (split; [reflexivity|]);
      (split; [intros [|[|k]] Hk; [eexists; split; [reflexivity|try reflexivity; discriminate]|eexists; split; [reflexivity|try reflexivity; discriminate]|lia]|]);
      (split; [repeat constructor|]); simpl; auto. }
  destruct Q as (s0 & Hi & Et & EN & Hrd & Hop & Hf).
  assert (Hg : rng_ok (const_rng (1/2))) by (apply const_rng_ok; unfold unit_draw; lra).
  assert (Hl2 : (length (snd (replay (using_pfy (pt_f s0)) [Fwd (Some 1) (Some 2)])) = 2)%nat) by reflexivity.
  destruct (Prop_Traj.C15_never_raises unit R R R (list R) walk_full (const_rng (1/2)) 2 (1/2) name _ None s0
      [Fwd (Some 1) (Some 2)] tt Hg (walk_total 2 ltac:(lia)) ltac:(lia) Hi) as (s' & w' & Hrun & _); auto.
  simpl in Hrun. apply bind_ok in Hrun. destruct Hrun as (s2 & w2 & Hrun & E). apply ret_ok in E. inversion E; subst; clear E.
  apply bind_ok in Hrun. destruct Hrun as ([s3 b] & w3 & Hrun & E). apply ret_ok in E. inversion E; subst; clear E.
  exists s0, s3, b, w3. split; auto.
  assert (Hr : reachable walk_full (const_rng (1/2)) s0).
  { exists 2%nat, (1/2), name, (FODict (Some cond3)), None, s0, [], tt, tt. split; auto. }
  split; auto. split; auto. split; auto.
  destruct (reachable_inv _ _ Hg walk_shape _ Hr) as [_ (l & B)].
  destruct (pt_forward_inv _ _ _ _ _ _ _ _ _ _ B Hrun)
    as (tr & uv & yv & tv & w1 & pa & anc & k & [(Hne & _)|(_ & st0 & Hini & ->)] & Lk & _ & Etr & _); [congruence|].
  exists [], st0, (mkStep pa anc). split; auto. eapply initial_live; eauto.
Qed.

Print Assumptions C19_conditioned_path.
Print Assumptions C19_cpf_ancestor.
Print Assumptions C20_ancestor_law.
