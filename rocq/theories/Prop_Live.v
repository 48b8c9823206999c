(** C11: weights never become NaN as long as one particle survives. *)
From Coq Require Import String Bool Reals Lra Lia List Arith.
From Verif Require Import Base XR SampleModel SampleSpec SampleProofs PAModel WeightSpec WeightProofs
  FilterModel TrajModel FilterSpec FilterProofs TrajProofs FilterTotal ExampleModel Prop_Weights
  FilterSem Prop_Filter.
Import ListNotations.
Open Scope R_scope.

(** Ordinary floating point numbers: neither NaN nor infinite. *)
Definition finite (w : list xr) : Prop := Forall (fun x => exists r, x = Fin r) w.

(** Contract: every log-density a model method returns is an ordinary number. *)
Record finite_ok {W P U Y V} (m : fmodel W P U Y V) : Prop := {
  fi_measure : forall tr a p u y t s l w s', m_measure m tr a p u y t s = Ok ((l, w), s') -> finite w;
  fi_xnext1 : forall p tr pi fp fi u y t k s w s',
      m_xnext1 m p tr pi fp fi u y t k s = Ok (w, s') -> finite w;
  fi_stage1 : forall p u y t s w s', m_stage1 m p u y t s = Ok (w, s') -> finite w;
  fi_logp_q : forall p q u y t s w s', m_logp_q m p q u y t s = Ok (w, s') -> finite w;
  fi_logp_xnext : forall p q u t s w s', m_logp_xnext m p q u t s = Ok (w, s') -> finite w;
  fi_meas1 : forall p y t s l w s', m_meas1 m p y t s = Ok ((l, w), s') -> finite w }.

(** Contract: measurement log-likelihoods are ordinary numbers or -inf. *)
Definition measure_logish {W P U Y V} (m : fmodel W P U Y V) : Prop :=
  forall tr a p u y t s l w s', m_measure m tr a p u y t s = Ok ((l, w), s') -> Forall logish w.

(** Postconditions. *)
Definition post {W A} (m : M W A) (Q : A -> Prop) : Prop :=
  forall s a s', m s = Ok (a, s') -> Q a.

Lemma post_bind {W A B} (m : M W A) (f : A -> M W B) Q1 Q :
  post m Q1 -> (forall a, Q1 a -> post (f a) Q) -> post (bind m f) Q.
Proof.
  intros H1 H2 s b s' H. apply bind_ok in H. destruct H as (a & s1 & Ha & H). eapply H2; eauto.
Qed.
Lemma post_any {W A B} (m : M W A) (f : A -> M W B) Q :
  (forall a, post (f a) Q) -> post (bind m f) Q.
Proof. intros H. apply post_bind with (Q1 := fun _ => True); auto. intros s a s' _. exact I. Qed.
Lemma post_ret {W A} (a : A) (Q : A -> Prop) : Q a -> post (@ret W A a) Q.
Proof. intros H s b s' E. apply ret_ok in E. inversion E; subst; auto. Qed.
Lemma post_lift {W A} (x : res A) (Q : A -> Prop) : (forall a, x = Ok a -> Q a) -> post (@lift W A x) Q.
Proof. intros H s b s' E. apply lift_ok in E. destruct E as (a & E & E2). inversion E2; subst; auto. Qed.
Lemma post_raise {W A} e (Q : A -> Prop) : post (@raise W A e) Q.
Proof. intros s b s' E. discriminate. Qed.

Lemma fin_xmax w m : finite w -> xmax w = Ok m -> exists r, m = Fin r.
Proof.
  intros H E. assert (Hne : w <> []) by (intros ->; discriminate).
  assert (HL : Forall logish w) by (eapply Forall_impl; [|exact H]; intros x [r ->]; exact I).
  apply (xmax_fin w m HL E). destruct H as [|x w [r ->] _]; [congruence|]. exists r. simpl. auto.
Qed.
Lemma fin_shift w m : finite w -> (exists r, m = Fin r) -> finite (map (fun x => xsub x m) w).
Proof.
  intros H [r ->]. apply Forall_map. eapply Forall_impl; [|exact H]. intros x [a ->]. simpl. eauto.
Qed.
Lemma fin_zip f a b c : (forall x y, exists r, f (Fin x) (Fin y) = Fin r) ->
  zipw f a b = Ok c -> finite a -> finite b -> finite c.
Proof.
  intros Hf E Ha Hb. eapply zipw_Forall; [|exact E|exact Ha|exact Hb].
  intros x y [r ->] [q ->]. apply Hf.
Qed.
Lemma fin_add x y : exists r, xadd (Fin x) (Fin y) = Fin r. Proof. simpl; eauto. Qed.
Lemma fin_sub x y : exists r, xsub (Fin x) (Fin y) = Fin r. Proof. simpl; eauto. Qed.
Lemma fin_repeat r n : finite (repeat (Fin r) n).
Proof. apply Forall_forall. intros x Hx. apply repeat_spec in Hx. eauto. Qed.

Section Finite.
Context {W P U Y V : Type}.
Variable mdl : fmodel W P U Y V.
Variable g : rng W.
Hypothesis Hf : finite_ok mdl.

Definition fpa (pa : papprox P) : Prop := finite (lw pa).
Definition fstep (st : tstep P) : Prop := finite (lw (st_pa st)).

Lemma fpa_add pa pa' nw : fpa pa -> finite nw -> add_weights pa nw = Ok pa' -> fpa pa'.
Proof.
  unfold fpa, add_weights. intros H Hn E.
  destruct (xmax nw) as [m|] eqn:Em; [|discriminate]. cbn [rbind] in E.
  destruct (zipw xadd (lw pa) _) as [w|] eqn:Ew; [|discriminate]. cbn [rbind] in E.
  destruct (xmax w) as [m2|] eqn:Em2; [|discriminate]. cbn [rbind] in E.
  inversion E; subst; clear E. cbn [lw].
  assert (Fw : finite w) by (eapply (fin_zip _ _ _ _ fin_add Ew); auto; apply fin_shift; auto; eapply fin_xmax; eauto).
  apply fin_shift; auto. eapply fin_xmax; eauto.
Qed.

Lemma fpa_init p o pa : (forall w, o = Some w -> finite w) -> pa_init p o = Ok pa -> fpa pa.
Proof.
  unfold pa_init, fpa. intros H E. destruct o as [w|].
  - inversion E; subst. simpl. auto.
  - destruct p as [|p0 p]; [discriminate|]. injection E as <-.
    exact (fin_repeat (- ln (INR (length (p0 :: p)))) (length (p0 :: p))).
Qed.

Definition ffwd (r : @fwd_result P) : Prop := fpa (fst (fst r)).

Lemma post_resample pa n : post (pa_resample g (m_copy mdl) pa n) (fun r => fpa (fst r)).
Proof.
  unfold pa_resample. apply post_any. intros m. cbv zeta. apply post_any. intros i. apply post_any. intros p.
  apply post_ret. unfold fpa. cbn [lw fst]. apply fin_repeat.
Qed.

Lemma post_maybe thr pa : fpa pa -> post (maybe_resample mdl g thr pa) ffwd.
Proof.
  intros H. unfold maybe_resample. destruct (Rltb 0 thr); [|apply post_ret; auto].
  apply post_any. intros ne. destruct (xltb _ _); [|apply post_ret; auto].
  eapply post_bind; [apply post_resample|]. intros [pa' i] Hp. apply post_ret. auto.
Qed.

Lemma post_update tr anc uv yv tv k pa : fpa pa -> post (pf_update mdl tr anc uv yv tv k pa) fpa.
Proof.
  intros H. unfold pf_update. apply post_any. intros v. apply post_any. intros p. apply post_ret. auto.
Qed.

Lemma post_pf_measure tr anc uv yv tv k pa : fpa pa -> post (pf_measure mdl tr anc pa uv yv tv k) fpa.
Proof.
  intros H. unfold pf_measure. eapply post_bind with (Q1 := fun r => finite (snd r)).
  - intros s [p w] s' E. eapply (fi_measure mdl Hf); eauto.
  - intros [p w] Hw. apply post_lift. intros pa' E. eapply fpa_add; [|exact Hw|exact E]. auto.
Qed.

Lemma post_last tr : Forall fstep tr -> post (@lift W _ (idx_last tr)) fstep.
Proof.
  intros H. apply post_lift. intros st E. unfold idx_last in E. destruct (rev tr) as [|a l] eqn:Er; [discriminate|].
  inversion E; subst. rewrite Forall_forall in H. apply H. apply in_rev. rewrite Er. simpl. auto.
Qed.
Lemma post_idx tr k : Forall fstep tr -> post (@lift W _ (idx tr k)) fstep.
Proof.
  intros H. apply post_lift. intros st E. apply idx_ok in E. apply nth_error_In in E.
  rewrite Forall_forall in H. auto.
Qed.

Lemma post_cpf_tail ct tr anc yv uv tv k pa : fpa pa -> post (cpf_tail mdl ct tr anc yv uv tv k pa) ffwd.
Proof.
  intros H. unfold cpf_tail. eapply post_bind; [apply post_update; eauto|]. intros pa1 H1.
  do 3 (apply post_any; intros ?). cbv zeta. apply post_any. intros y. destruct (is_none y).
  - apply post_ret. auto.
  - eapply post_bind; [apply post_pf_measure; exact H1|]. intros pa2 H2. apply post_ret. auto.
Qed.

Lemma init_post p : post (@lift W _ (@pa_init P p None)) fpa.
Proof. apply post_lift. intros pa E. eapply fpa_init; eauto. discriminate. Qed.

Lemma post_forward f N tr yv uv tv k : Forall fstep tr ->
  post (filter_forward mdl g f N tr yv uv tv k) ffwd.
Proof.
  intros Ht. destruct f; cbn [filter_forward].
  - unfold pf_forward. eapply post_bind; [apply post_last; exact Ht|]. intros last Hlast.
    apply post_bind with (Q1 := fpa). { apply post_lift. intros pa E. eapply fpa_init; eauto. intros w Ew. inversion Ew; subst. auto. }
    intros pa Hpa. eapply post_bind; [apply post_maybe; auto|]. intros [[pa1 b] anc] H1.
    eapply post_bind; [apply post_update; exact H1|]. intros pa2 H2.
    eapply post_bind; [apply post_pf_measure; exact H2|]. intros pa3 H3. apply post_ret. auto.
  - unfold apf_forward. eapply post_bind; [apply post_last; exact Ht|]. intros last Hlast.
    apply post_bind with (Q1 := fpa). { apply post_lift. intros pa E. eapply fpa_init; eauto. intros w Ew. inversion Ew; subst. auto. }
    intros pa Hpa. apply post_any. intros y.
    apply post_bind with (Q1 := fun r => fpa (fst r) /\ forall l, snd r = Some l -> finite l).
    { destruct (is_none y); [apply post_ret; split; [auto|discriminate]|].
      do 2 (apply post_any; intros ?). apply post_bind with (Q1 := finite).
      - intros s w s' E. eapply (fi_stage1 mdl Hf); eauto.
      - intros l1 Hl1. apply post_bind with (Q1 := finite).
        + apply post_lift. intros c E. eapply (fin_zip _ _ _ _ fin_add E); auto.
        + intros w Hw. apply post_bind with (Q1 := fun m => exists r, m = Fin r).
          * apply post_lift. intros m E. eapply fin_xmax; eauto.
          * intros m Hm. apply post_ret. split; [|cbn [snd]; congruence]. unfold fpa. cbn [lw fst].
            apply fin_shift; auto. }
    intros [pa1 l1] [Hp Hl]. cbn [fst snd] in *. apply post_any. intros c.
    apply post_bind with (Q1 := fun r => fpa (fst (fst (fst r))) /\ forall l, snd r = Some l -> finite l).
    { destruct c; [|apply post_ret; auto]. eapply post_bind; [apply post_resample|]. intros [pa2 i] Hp2.
      destruct l1 as [l|]; [|apply post_raise]. apply post_bind with (Q1 := finite).
      - apply post_lift. intros l' E. cbn [snd] in E. eapply take_Forall; [exact E|]. apply Hl; auto.
      - intros l' Hl'. apply post_ret. cbn [fst snd]. split; auto. congruence. }
    intros [[[pa2 b] anc] l2] [H1 H2]. cbn [fst snd] in *.
    eapply post_bind; [apply post_update; exact H1|]. intros pa3 H3.
    eapply post_bind; [apply post_pf_measure; exact H3|]. intros pa4 H4.
    destruct l2 as [l|]; [|apply post_raise]. apply post_bind with (Q1 := finite).
    { apply post_lift. intros c' E. eapply (fin_zip _ _ _ _ fin_sub E); auto. }
    intros w Hw. apply post_bind with (Q1 := fun m => exists r, m = Fin r).
    { apply post_lift. intros m E. eapply fin_xmax; eauto. }
    intros m Hm. apply post_ret. unfold ffwd, fpa. cbn [fst lw]. apply fin_shift; auto.
  - unfold pfy_forward. eapply post_bind; [apply post_last; exact Ht|]. intros last Hlast.
    apply post_any. intros cp. apply post_bind with (Q1 := fpa). { apply post_lift. intros pa E. eapply fpa_init; eauto. intros w Ew. inversion Ew; subst. auto. }
    intros pa Hpa. eapply post_bind; [apply post_maybe; auto|]. intros [[pa1 b] anc] H1.
    do 6 (apply post_any; intros ?). apply post_bind with (Q1 := finite).
    { intros s w s' E. eapply (fi_xnext1 mdl Hf); eauto. }
    intros wn Hwn. apply post_bind with (Q1 := fpa).
    { apply post_lift. intros pa' E. eapply fpa_add; [|exact Hwn|exact E]. auto. }
    intros pa' Hpa'. apply post_ret. auto.
  - unfold sir_forward. eapply post_bind; [apply post_last; exact Ht|]. intros last Hlast.
    apply post_bind with (Q1 := fpa). { apply post_lift. intros pa E. eapply fpa_init; eauto. intros w Ew. inversion Ew; subst. auto. }
    intros pa Hpa. eapply post_bind; [apply post_maybe; auto|]. intros [[pa1 b] anc] H1.
    do 5 (apply post_any; intros ?). apply post_bind with (Q1 := finite).
    { intros s w s' E. eapply (fi_logp_q mdl Hf); eauto. }
    intros qw Hqw. apply post_bind with (Q1 := finite).
    { intros s w s' E. eapply (fi_logp_xnext mdl Hf); eauto. }
    intros nw Hnw. apply post_bind with (Q1 := fun r => finite (snd r)).
    { intros s [p w] s' E. eapply (fi_meas1 mdl Hf); eauto. }
    intros [p yw] Hyw. apply post_bind with (Q1 := finite).
    { apply post_lift. intros c E. eapply (fin_zip _ _ _ _ fin_add E); auto. }
    intros sm Hs. apply post_bind with (Q1 := finite).
    { apply post_lift. intros c E. eapply (fin_zip _ _ _ _ fin_sub E); auto. }
    intros w Hw. apply post_bind with (Q1 := fpa).
    { apply post_lift. intros pa' E. eapply fpa_add; [|exact Hw|exact E]. auto. }
    intros pa' Hpa'. apply post_ret. auto.
  - unfold cpfyas_forward. do 15 (cbv zeta; apply post_any; intros ?).
    apply post_bind with (Q1 := finite).
    { intros s w s' E. eapply (fi_xnext1 mdl Hf); eauto. }
    intros wn Hwn. apply post_bind with (Q1 := fun m => exists r, m = Fin r).
    { apply post_lift. intros m E. eapply fin_xmax; eauto. }
    intros m Hm. apply post_bind with (Q1 := fpa).
    { apply post_lift. intros pa E. eapply fpa_init; [|exact E]. intros w Ew. inversion Ew; subst. apply fin_shift; auto. }
    intros pa Hpa. apply post_ret. auto.
  - unfold cpfas_forward. do 10 (cbv zeta; apply post_any; intros ?).
    eapply post_bind; [apply init_post|]. intros pa Hpa. apply post_cpf_tail; auto.
  - unfold cpf_forward. do 4 (cbv zeta; apply post_any; intros ?).
    eapply post_bind; [apply init_post|]. intros pa Hpa. apply post_cpf_tail; auto.
  - unfold csiras_forward. do 11 (cbv zeta; apply post_any; intros ?).
    eapply post_bind; [apply init_post|]. intros pa Hpa.
    do 4 (apply post_any; intros ?). apply post_bind with (Q1 := finite).
    { intros s w s' E. eapply (fi_logp_q mdl Hf); eauto. }
    intros qw Hqw. apply post_bind with (Q1 := finite).
    { intros s w s' E. eapply (fi_logp_xnext mdl Hf); eauto. }
    intros nw Hnw. apply post_any. intros t1. apply post_bind with (Q1 := fun r => finite (snd r)).
    { intros s [p w] s' E. eapply (fi_meas1 mdl Hf); eauto. }
    intros [p yw] Hyw. apply post_bind with (Q1 := finite).
    { apply post_lift. intros c E. eapply (fin_zip _ _ _ _ fin_add E); auto. }
    intros sm Hs. apply post_bind with (Q1 := finite).
    { apply post_lift. intros c E. eapply (fin_zip _ _ _ _ fin_sub E); auto. }
    intros w Hw. apply post_ret. auto.
Qed.

Lemma post_initial f N : post (initial_step mdl f N) fstep.
Proof.
  unfold initial_step. apply post_any. intros p. eapply post_bind; [apply init_post|].
  intros pa Hpa. apply post_ret. auto.
Qed.

Definition ftraj (s : ptraj P U Y) : Prop := Forall fstep (pt_traj s).

Lemma post_start (s : ptraj P U Y) : ftraj s ->
  post (match pt_traj s with
            | [] => do st <- initial_step mdl (pt_f s) (pt_N s) ; ret ([st], 0%nat)
            | tr => match pt_ind1 s with
                    | O => raise IndexError
                    | S i => ret (tr, i)
                    end
            end) (fun ti => Forall fstep (fst ti)).
Proof.
  unfold ftraj. intros H. destruct (pt_traj s) as [|st tr] eqn:E.
  - eapply post_bind; [apply post_initial|]. intros st Hst. apply post_ret. simpl. auto.
  - destruct (pt_ind1 s); [apply post_raise|]. apply post_ret. auto.
Qed.

Lemma post_step (s : ptraj P U Y) o : ftraj s -> post (pt_step mdl g s o) ftraj.
Proof.
  intros H. destruct o as [u y|y]; cbn [pt_step].
  - apply post_bind with (Q1 := fun r => ftraj (fst r)); [|intros [s' b] H'; apply post_ret; auto].
    unfold pt_forward. eapply post_bind; [apply post_start; exact H|]. intros [tr ind] Htr. cbn [fst] in Htr.
    rewrite if4. cbv beta iota zeta. do 3 (apply post_any; intros ?).
    eapply post_bind; [apply post_forward; exact Htr|]. intros [[pa b] anc] Hr. apply post_ret.
    unfold ftraj. cbn [fst pt_traj]. apply Forall_app. split; auto.
  - unfold pt_measure. rewrite if4. cbv beta iota zeta. destruct (using_pfy (pt_f s)).
    + do 2 (apply post_any; intros ?). apply post_bind with (Q1 := fpa).
      { destruct (pt_f s); unfold pfy_measure, cpfyas_measure; repeat first [apply init_post | apply post_any; intros ?]. }
      intros pa Hpa. apply post_ret. unfold ftraj. cbn [pt_traj]. apply Forall_app. split; auto.
    + eapply post_bind; [apply post_start; exact H|]. intros [tr ind] Htr. cbn [fst] in Htr.
      do 2 (apply post_any; intros ?). eapply post_bind; [apply post_last; exact Htr|]. intros last Hl.
      eapply post_bind; [apply post_pf_measure; exact Hl|]. intros pa Hpa.
      apply post_bind with (Q1 := Forall fstep).
      { apply post_lift. intros tr' E. unfold upd_last in E. destruct tr as [|t0 tr]; [discriminate|].
        remember (t0 :: tr) as tr1. inversion E; subst tr'.
        apply Forall_app. split; [|repeat constructor; auto].
        rewrite (app_removelast_last t0) in Htr by (subst; congruence). apply Forall_app in Htr. tauto. }
      intros tr' Htr'. apply post_ret. auto.
Qed.

Lemma post_run ops : forall s : ptraj P U Y, ftraj s -> post (pt_run mdl g s ops) ftraj.
Proof.
  induction ops as [|o ops IH]; intros s H; simpl.
  - apply post_ret. auto.
  - eapply post_bind; [apply post_step; exact H|]. auto.
Qed.
End Finite.

(** ** C11, models with finite log-densities: with any of the eight filters, after any
    history of forward() and measure() calls, every stored weight of every step is an
    ordinary number (no NaN, no infinity). *)
Theorem C11_finite_weights : forall W P U Y V (mdl : fmodel W P U Y V) (g : rng W) (s : ptraj P U Y) st,
  finite_ok mdl -> reachable mdl g s -> In st (pt_traj s) -> finite (lw (st_pa st)).
Proof.
  intros W P U Y V mdl g s st Hf (N & r & name & o & T & s0 & ops & w0 & w1 & Hi & Hr) Hin.
  assert (E0 : pt_traj s0 = []).
  { unfold pt_init in Hi. destruct T; simpl in Hi;
    repeat match type of Hi with context [match ?x with _ => _ end] => destruct x; simpl in Hi; try discriminate end;
    minv Hi; inversion Hi; auto. }
  assert (F : ftraj s). { eapply (post_run mdl g Hf ops s0); [|exact Hr]. unfold ftraj. rewrite E0. constructor. }
  unfold ftraj in F. rewrite Forall_forall in F. apply (F st Hin).
Qed.

Lemma walk_finite : finite_ok walk_full.
Proof.
  assert (A : forall (l : list R) (f : R -> xr), (forall x, exists r, f x = Fin r) -> finite (map f l)).
  { intros l f H. apply Forall_map, Forall_forall. intros x _. destruct (H x); eauto. }
  constructor; simpl; intros.
  - unfold def_measure in H. minv H. simpl in H. minv H. apply A. intros x. unfold ll_of.
    match goal with |- exists r, match ?c with _ => _ end = _ => destruct c; eauto end.
  - unfold def_xnext1 in H. minv H. simpl in H. minv H. apply A. eauto.
  - apply ret_ok in H. inversion H. apply A. eauto.
  - apply ret_ok in H. inversion H. apply A. eauto.
  - apply ret_ok in H. inversion H. apply A. eauto.
  - apply ret_ok in H. inversion H. apply A. intros x. unfold ll_of. destruct y; eauto.
Qed.

Example C11_finite_instance : forall ops (s0 s : ptraj R R R) w,
  pt_init 3 (1/2) 0 "CPFAS" (FODict (Some cond3)) None = Ok s0 ->
  pt_run walk_full (const_rng (1/2)) s0 ops tt = Ok (s, w) ->
  forall st, In st (pt_traj s) -> finite (lw (st_pa st)).
Proof.
  intros ops s0 s w Hi Hr st Hin. eapply C11_finite_weights; eauto using walk_finite.
  repeat eexists; eauto.
Qed.

(** ** Likelihoods that may be zero: the bootstrap filter *)
Section Dead.
Context {W P U Y V : Type}.
Variable mdl : fmodel W P U Y V.
Variable g : rng W.

Lemma neff_nan w : all_nan w -> exists e, neff_of w = Ok e /\ e = NaN.
Proof.
  intros [Hne HN]. destruct (xmax_ok w Hne) as [m Hm]. unfold neff_of. rewrite Hm. cbn [rbind].
  eexists. split; [reflexivity|].
  destruct w as [|x w]; [congruence|]. inversion HN; subst.
  assert (A : forall l, xsum (NaN :: l) = NaN).
  { intros l. unfold xsum. simpl. induction l; simpl; auto. }
  change (map (fun x => xexp (xsub x m)) (NaN :: w)) with (NaN :: map (fun x => xexp (xsub x m)) w).
  rewrite A. cbn [map]. change (xmul (xdiv NaN NaN) (xdiv NaN NaN)) with NaN. rewrite A. reflexivity.
Qed.

Lemma maybe_nan thr (pa pa' : papprox P) b anc w w' : all_nan (lw pa) ->
  maybe_resample mdl g thr pa w = Ok ((pa', b, anc), w') -> pa' = pa /\ b = false.
Proof.
  intros H E. unfold maybe_resample in E. destruct (Rltb 0 thr).
  - apply bind_ok in E. destruct E as (ne & w1 & H1 & E). apply lift_ok in H1. destruct H1 as (ne' & H1 & E1).
    inversion E1; subst; clear E1. unfold calc_Neff in H1. destruct (neff_nan _ H) as (e & He & ->).
    rewrite He in H1. inversion H1; subst. cbn [xltb] in E. apply ret_ok in E. inversion E; auto.
  - apply ret_ok in E. inversion E; auto.
Qed.

Hypothesis Hg : rng_ok g.
Hypothesis Hsh : shape_ok mdl.
Hypothesis Hm : measure_logish mdl.

Lemma prior_nonempty b N w : (0 < N)%nat -> length w = N -> prior_lw b N w <> [].
Proof. intros H L E. pose proof (prior_length b N w L) as A. rewrite E in A. simpl in A. lia. Qed.

(** One forward call of the bootstrap filter. *)
Lemma pf_forward_dead (s s' : ptraj P U Y) u y b w w' thr pre old new :
  reachable mdl g s -> pt_f s = FPF thr ->
  pt_forward mdl g s u y w = Ok ((s', b), w') -> pt_traj s' = pre ++ [old; new] ->
  exists p uv yv tv w1 ll,
    m_measure mdl (pre ++ [old]) (st_anc new) p uv yv tv w1 = Ok ((part (st_pa new), ll), w') /\
    idx_last yv = Ok (cell_of y) /\ idx_last tv = Ok (length pre + 1)%nat /\
    Forall logish ll /\
    (live (lw (st_pa old)) ->
       (survivor (prior_lw b (pt_N s) (lw (st_pa old))) ll -> rescaled (lw (st_pa new)) /\ live (lw (st_pa new))) /\
       (~ survivor (prior_lw b (pt_N s) (lw (st_pa old))) ll -> all_nan (lw (st_pa new)))) /\
    (all_nan (lw (st_pa old)) -> b = false /\ all_nan (lw (st_pa new))).
Proof.
  intros Hr Ef H Hp.
  destruct (forward_setup mdl g Hg Hsh _ _ _ _ _ _ _ _ _ _ Hr H Hp) as
    (uv & yv & tv & w1 & Fw & Wn & HN & Hff & Nu & Ny & Nt & Nt1 & _).
  rewrite Ef in Hff. cbn [filter_forward] in Hff.
  destruct (pf_forward_sem mdl g _ _ _ _ _ _ _ _ _ _ _ _ _ _ Fw eq_refl Hff) as
    (pa1 & w2 & v & w3 & p & w4 & p' & ll & H1 & H2 & H3 & H4 & H5).
  pose proof (add_weights_shape _ _ _ H5) as (Ep & _). cbn [part] in Ep. rewrite Ep.
  pose proof (Hm _ _ _ _ _ _ _ _ _ _ H4) as Hll.
  pose proof (old_wf _ _ _ Fw) as Wo.
  exists p, uv, (firstn (length pre + 1 + 1) yv), (firstn (length pre + 1 + 1) tv), w4, ll.
  split; [exact H4|]. split; [apply idx_last_firstn; auto|]. split; [apply idx_last_firstn; auto|]. split; [auto|].
  split.
  - intros Hlive. destruct (maybe_resample_sem mdl g Hg _ _ _ _ _ _ _ _ (old_pa_wf _ _ (Fin 0) Wo) Hlive H1) as (_ & El & _).
    cbn [lw] in El. rewrite <- El.
    assert (L1 : Forall logish (lw pa1)) by (rewrite El; apply prior_logish; apply Hlive).
    split; intros Hs.
    + destruct (add_weights_live _ _ _ (L1 : Forall logish (lw (mkPA p' (lw pa1) (num pa1) (woff pa1)))) Hll Hs H5) as (A & B & _). auto.
    + eapply (add_weights_dead (mkPA p' (lw pa1) (num pa1) (woff pa1))); [exact L1|exact Hll|exact Hs|exact H5].
  - intros Hnan. destruct (maybe_nan _ _ _ _ _ _ _ (Hnan : all_nan (lw (mkPA (part (st_pa old)) (lw (st_pa old)) (pt_N s) (Fin 0)))) H1) as [-> ->].
    split; auto. eapply add_weights_nan; [|exact H5]. auto.
Qed.

(** One measure call. *)
Lemma pf_measure_dead (s s' : ptraj P U Y) y w w' :
  reachable mdl g s -> pt_measure mdl s y w = Ok (s', w') -> using_pfy (pt_f s) = false ->
  exists pre old new w0 p' uv yv tv ll,
    pt_traj s' = pre ++ [new] /\
    (pt_traj s = pre ++ [old] \/
     pt_traj s = [] /\ pre = [] /\ initial_step mdl (pt_f s) (pt_N s) w = Ok (old, w0)) /\
    m_measure mdl (pre ++ [old]) (st_anc old) (part (st_pa old)) uv yv tv w0 = Ok ((p', ll), w') /\
    Forall logish ll /\
    (live (lw (st_pa old)) ->
       (survivor (lw (st_pa old)) ll -> rescaled (lw (st_pa new)) /\ live (lw (st_pa new))) /\
       (~ survivor (lw (st_pa old)) ll -> all_nan (lw (st_pa new)))) /\
    (all_nan (lw (st_pa old)) -> all_nan (lw (st_pa new))).
Proof.
  intros Hr H Ef. unfold pt_measure in H. rewrite if4 in H. cbv beta iota zeta in H. rewrite Ef in H.
  apply bind_ok in H. destruct H as ([tr ind] & w0 & H0 & H).
  apply bind_ok in H; destruct H as (yv & wa & Hy & H); apply lift_ok in Hy; destruct Hy as (yv' & Hy & Ey); inversion Ey; subst yv' wa; clear Ey.
  apply bind_ok in H; destruct H as (tv & wa & Htv & H); apply lift_ok in Htv; destruct Htv as (tv' & Htv & Et); inversion Et; subst tv' wa; clear Et.
  apply bind_ok in H; destruct H as (old & wa & Hlast & H); apply lift_ok in Hlast; destruct Hlast as (old' & Hlast & Et); inversion Et; subst old' wa; clear Et.
  apply bind_ok in H; destruct H as (pa & w1 & Hme & H).
  apply bind_ok in H; destruct H as (tr' & wa & Hup & H); apply lift_ok in Hup; destruct Hup as (tr'' & Hup & Et); inversion Et; subst tr'' wa; clear Et.
  apply ret_ok in H. inversion H; subst; clear H. cbn [pt_traj].
  unfold pf_measure in Hme. apply bind_ok in Hme. destruct Hme as ([p' ll] & w3 & Hmm & Hme).
  apply lift_ok in Hme. destruct Hme as (pa' & Ha & E). inversion E; subst; clear E. cbn [fst snd] in Ha.
  assert (Etr : exists pre, tr = pre ++ [old]).
  { unfold idx_last in Hlast. destruct (rev tr) as [|x l] eqn:E; [discriminate|]. inversion Hlast; subst.
    exists (rev l). rewrite <- (rev_involutive tr), E. reflexivity. }
  destruct Etr as [pre ->].
  assert (Eup : tr' = pre ++ [mkStep pa' (st_anc old)]).
  { unfold upd_last in Hup. rewrite removelast_last in Hup. destruct (pre ++ [old]) eqn:E; [destruct pre; discriminate|].
    inversion Hup; auto. }
  subst tr'.
  pose proof (Hm _ _ _ _ _ _ _ _ _ _ Hmm) as Hll.
  exists pre, old, (mkStep pa' (st_anc old)), w0.
  do 5 eexists. split; [reflexivity|]. split; [|split; [exact Hmm|split; [exact Hll|]]].
  - destruct (pt_traj s) as [|st tr] eqn:E.
    + right. apply bind_ok in H0. destruct H0 as (st & w2 & H0 & H1). apply ret_ok in H1. inversion H1; subst.
      destruct pre as [|x pre]; [|destruct pre; discriminate]. inversion H2; subst. auto.
    + left. destruct (pt_ind1 s); [discriminate|]. apply ret_ok in H0. inversion H0; auto.
  - cbn [st_pa]. split.
    + intros Hlive. split; intros Hs.
      * destruct (add_weights_live _ _ _ ((proj1 Hlive) : Forall logish (lw (mkPA p' (lw (st_pa old)) (num (st_pa old)) (woff (st_pa old))))) Hll Hs Ha) as (A & B & _). auto.
      * eapply (add_weights_dead (mkPA p' (lw (st_pa old)) (num (st_pa old)) (woff (st_pa old)))); [apply Hlive|exact Hll|exact Hs|exact Ha].
    + intros Hn. eapply add_weights_nan; [|exact Ha]. exact Hn.
Qed.

Lemma initial_live f N w st w' : initial_step mdl f N w = Ok (st, w') -> live (lw (st_pa st)).
Proof.
  intros H. unfold initial_step in H. apply bind_ok in H. destruct H as (p & w1 & _ & H).
  apply bind_ok in H. destruct H as (pa & w2 & H1 & H). apply lift_ok in H1. destruct H1 as (pa' & H1 & E). inversion E; subst; clear E.
  apply ret_ok in H. inversion H; subst; clear H. cbn [st_pa]. unfold pa_init in H1.
  destruct p as [|a p]; [discriminate|]. injection H1 as <-. cbn [lw length repeat]. split.
  - constructor; [exact I|]. apply Forall_forall. intros x Hx. apply repeat_spec in Hx. subst. exact I.
  - eexists. left. reflexivity.
Qed.
End Dead.

(** A call after which no particle is left: the model returned log-likelihoods [ll] such
    that every particle whose weight before the measurement was non-zero got likelihood
    zero.  [old] is the step the measurement builds on. *)
Definition extinction {W P U Y V} (mdl : fmodel W P U Y V) (s1 : ptraj P U Y) : Prop :=
  exists old b ll tr anc p uv yv tv w p' w',
    (In old (pt_traj s1) \/ pt_traj s1 = [] /\ exists w0 w1, initial_step mdl (pt_f s1) (pt_N s1) w0 = Ok (old, w1)) /\
    m_measure mdl tr anc p uv yv tv w = Ok ((p', ll), w') /\
    Forall logish ll /\ live (prior_lw b (pt_N s1) (lw (st_pa old))) /\
    ~ survivor (prior_lw b (pt_N s1) (lw (st_pa old))) ll.

Section History.
Context {W P U Y V : Type}.
Variable mdl : fmodel W P U Y V.
Variable g : rng W.
Hypothesis Hg : rng_ok g.
Hypothesis Hsh : shape_ok mdl.
Hypothesis Hm : measure_logish mdl.

Definition all_live (s : ptraj P U Y) : Prop := Forall (fun st => live (lw (st_pa st))) (pt_traj s).

Lemma step_live (s s' : ptraj P U Y) o w w' thr : reachable mdl g s -> pt_f s = FPF thr -> all_live s ->
  pt_step mdl g s o w = Ok (s', w') -> all_live s' \/ extinction mdl s.
Proof.
  intros Hr Ef Hl H. destruct o as [u y|y]; cbn [pt_step] in H.
  - apply bind_ok in H. destruct H as ([s1 b] & w1 & H & H2). apply ret_ok in H2. inversion H2; subst; clear H2. cbn [fst] in *.
    destruct (reachable_inv mdl g Hg Hsh _ Hr) as [Hwf (l & B)].
    destruct (pt_forward_inv mdl g _ _ _ _ _ _ _ _ B H) as
      (tr & uv & yv & tv & w2 & pa & anc & k & Htr & Lk & Hf & Et & _).
    destruct (exists_last (l := tr)) as (pre & old & ->). { intros ->. simpl in Lk. lia. }
    rewrite <- app_assoc in Et. cbn [app] in Et.
    assert (Lold : live (lw (st_pa old)) /\ Forall (fun st => live (lw (st_pa st))) pre).
    { destruct Htr as [(_ & E & _)|(_ & st0 & Hi & E)].
      - unfold all_live in Hl. rewrite <- E in Hl. apply Forall_app in Hl. destruct Hl as [A1 A2]. inversion A2; auto.
      - destruct pre as [|x pre]; [|destruct pre; discriminate]. inversion E; subst. split; auto.
        eapply initial_live; eauto. }
    destruct (forward_setup mdl g Hg Hsh _ _ _ _ _ _ _ _ _ _ Hr H Et) as (_ & _ & _ & w3 & Fw & _ & _ & _ & _ & _ & _ & _ & _ & _ & _ & Hold).
    destruct (pf_forward_dead mdl g Hg Hsh Hm _ _ _ _ _ _ _ _ _ _ _ Hr Ef H Et) as
      (p & uv' & yv' & tv' & w4 & ll & Hmm & _ & _ & Hll & Hd & _).
    destruct (Hd (proj1 Lold)) as [D1 D2].
    destruct (survivor_dec (prior_lw b (pt_N s) (lw (st_pa old))) ll) as [Hs|Hs].
    + left. unfold all_live. rewrite Et. apply Forall_app. split; [apply Lold|].
      constructor; [apply Lold|]. constructor; [apply D1; auto|constructor].
    + right. exists old, b, ll. do 9 eexists. split; [|split; [exact Hmm|split; [exact Hll|split; [|exact Hs]]]].
      * destruct Hold as [(E & _)|(E & _ & Hi)]; [left; rewrite E; apply in_or_app; simpl; auto|].
        right. split; eauto.
      * apply prior_live; [apply Lold|]. apply old_wf in Fw. apply Fw.
  - destruct (pf_measure_dead mdl g Hm _ _ _ _ _ Hr H ltac:(rewrite Ef; reflexivity)) as
      (pre & old & new & w0 & p' & uv & yv & tv & ll & Et & Hold & Hmm & Hll & Hd & _).
    assert (Lold : live (lw (st_pa old)) /\ Forall (fun st => live (lw (st_pa st))) pre).
    { destruct Hold as [E|(E & -> & Hi)].
      - unfold all_live in Hl. rewrite E in Hl. apply Forall_app in Hl. destruct Hl as [A1 A2]. inversion A2; auto.
      - split; auto. eapply initial_live; eauto. }
    destruct (Hd (proj1 Lold)) as [D1 D2].
    destruct (survivor_dec (lw (st_pa old)) ll) as [Hs|Hs].
    + left. unfold all_live. rewrite Et. apply Forall_app. split; [apply Lold|].
      constructor; [apply D1; auto|constructor].
    + right. exists old, false, ll. do 9 eexists. split; [|split; [exact Hmm|split; [exact Hll|split; [|exact Hs]]]].
      * destruct Hold as [E|(E & _ & Hi)]; [left; rewrite E; apply in_or_app; simpl; auto|].
        right. split; eauto.
      * apply Lold.
Qed.

Lemma reachable_step (s s' : ptraj P U Y) o w w' : forall N r name oo T s0 ops w0,
  pt_init N r 0 name oo T = Ok s0 -> pt_run mdl g s0 ops w0 = Ok (s, w) ->
  pt_step mdl g s o w = Ok (s', w') -> pt_run mdl g s0 (ops ++ [o]) w0 = Ok (s', w').
Proof.
  intros N r name oo T s0 ops. revert s0. clear. intros s0 w0 _ H1 H2.
  revert s0 w0 H1. induction ops as [|a ops IH]; intros s0 w0 H1; simpl in *.
  - apply ret_ok in H1. inversion H1; subst. unfold bind. rewrite H2. reflexivity.
  - apply bind_ok in H1. destruct H1 as (s1 & w1 & Ha & H1). unfold bind. rewrite Ha. apply IH. auto.
Qed.

Lemma run_live N r name oo T s0 thr : pt_init N r 0 name oo T = Ok s0 -> pt_f s0 = FPF thr ->
  forall ops0 w0 s w, pt_run mdl g s0 ops0 w0 = Ok (s, w) -> pt_f s = FPF thr -> all_live s ->
  forall ops s' w', pt_run mdl g s ops w = Ok (s', w') ->
  all_live s' \/
  exists ops1 o ops2 s1 s2 w1 w2, ops = ops1 ++ o :: ops2 /\
    pt_run mdl g s ops1 w = Ok (s1, w1) /\ pt_step mdl g s1 o w1 = Ok (s2, w2) /\
    all_live s1 /\ extinction mdl s1.
Proof.
  intros Hi Ef0 ops0 w0 s w Hr Ef Hl ops. revert ops0 w0 s w Hr Ef Hl.
  induction ops as [|o ops IH]; intros ops0 w0 s w Hr Ef Hl s' w' H; simpl in H.
  - apply ret_ok in H. inversion H; subst. auto.
  - apply bind_ok in H. destruct H as (s1 & w1 & Ha & H).
    assert (Hrs : reachable mdl g s) by (repeat eexists; eauto).
    destruct (step_live _ _ _ _ _ _ Hrs Ef Hl Ha) as [Hl1|Hx].
    + assert (Ef1 : pt_f s1 = FPF thr) by (apply pt_step_N in Ha; destruct Ha; congruence).
      destruct (IH (ops0 ++ [o]) w0 s1 w1 (reachable_step _ _ _ _ _ _ _ _ _ _ _ _ _ Hi Hr Ha) Ef1 Hl1 _ _ H)
        as [A|(ops1 & o' & ops2 & sa & sb & wa & wb & -> & R1 & R2 & R3)]; [auto|].
      right. exists (o :: ops1), o', ops2, sa, sb, wa, wb. split; auto. split; [|auto].
      simpl. unfold bind. rewrite Ha. auto.
    + right. exists [], o, ops, s, s1, w, w1. repeat split; auto.
Qed.
End History.

(** ** C11: over any history of forward() and measure() calls of the bootstrap filter with
    log-likelihoods that are ordinary numbers or -inf, either every stored step has weights
    that are ordinary numbers or -inf with at least one ordinary number (so no NaN, no +inf),
    or at some call every particle of non-zero weight was given likelihood zero. *)
Theorem C11_nan_only_after_extinction : forall W P U Y V (mdl : fmodel W P U Y V) (g : rng W)
    N r oo T s0 ops w0 (s : ptraj P U Y) w,
  rng_ok g -> shape_ok mdl -> measure_logish mdl ->
  pt_init N r 0 "PF" oo T = Ok s0 -> pt_run mdl g s0 ops w0 = Ok (s, w) ->
  (forall st, In st (pt_traj s) -> live (lw (st_pa st))) \/
  exists ops1 o ops2 s1 s2 w1 w2, ops = ops1 ++ o :: ops2 /\
    pt_run mdl g s0 ops1 w0 = Ok (s1, w1) /\ pt_step mdl g s1 o w1 = Ok (s2, w2) /\
    (forall st, In st (pt_traj s1) -> live (lw (st_pa st))) /\ extinction mdl s1.
Proof.
  intros W P U Y V mdl g N r oo T s0 ops w0 s w Hg Hsh Hm Hi Hr.
  assert (E0 : pt_traj s0 = [] /\ pt_f s0 = FPF r).
  { unfold pt_init in Hi. destruct T; simpl in Hi;
    repeat match type of Hi with context [match ?x with _ => _ end] => destruct x; simpl in Hi; try discriminate end;
    minv Hi; inversion Hi; auto. }
  destruct E0 as [E0 Ef].
  destruct (run_live mdl g Hg Hsh Hm _ _ _ _ _ _ _ Hi Ef [] w0 s0 w0 eq_refl Ef ltac:(unfold all_live; rewrite E0; constructor) ops s w Hr)
    as [A|(ops1 & o & ops2 & s1 & s2 & w1 & w2 & E & R1 & R2 & R3 & R4)].
  - left. unfold all_live in A. rewrite Forall_forall in A. auto.
  - right. exists ops1, o, ops2, s1, s2, w1, w2.
    unfold all_live in R3. rewrite Forall_forall in R3. auto 10.
Qed.

(** After a forward() call with a survivor the largest log-weight is 0 and nothing is NaN;
    without one every weight is NaN; and once all weights are NaN no later forward() call
    resamples or leaves any weight other than NaN. *)
Theorem C11_forward_step : forall W P U Y V (mdl : fmodel W P U Y V) (g : rng W)
    (s s' : ptraj P U Y) u y b w w' thr pre old new,
  rng_ok g -> shape_ok mdl -> measure_logish mdl -> reachable mdl g s -> pt_f s = FPF thr ->
  pt_forward mdl g s u y w = Ok ((s', b), w') -> pt_traj s' = pre ++ [old; new] ->
  exists p uv yv tv w1 ll,
    m_measure mdl (pre ++ [old]) (st_anc new) p uv yv tv w1 = Ok ((part (st_pa new), ll), w') /\
    idx_last yv = Ok (cell_of y) /\ idx_last tv = Ok (length pre + 1)%nat /\
    Forall logish ll /\
    (live (lw (st_pa old)) ->
       (survivor (prior_lw b (pt_N s) (lw (st_pa old))) ll -> rescaled (lw (st_pa new)) /\ live (lw (st_pa new))) /\
       (~ survivor (prior_lw b (pt_N s) (lw (st_pa old))) ll -> all_nan (lw (st_pa new)))) /\
    (all_nan (lw (st_pa old)) -> b = false /\ all_nan (lw (st_pa new))).
Proof. intros. eapply pf_forward_dead; eauto. Qed.

(** Resampling a particle set whose weights are all NaN silently copies particle 0 to every
    particle. *)
Theorem C11_resample_after_extinction : forall W P (g : rng W) (pa : papprox P) (n : nat) (s : W) p0,
  all_nan (lw pa) -> nth_error (part pa) 0 = Some p0 ->
  exists s', pa_resample g def_copy pa n s =
    Ok ((mkPA (repeat p0 n) (uniform_lw n) n (Fin 0), repeat 0%nat n), s').
Proof.
  intros W P g pa n s p0 [Hne HN] H0. unfold pa_resample.
  destruct (xmax_ok _ Hne) as [m Em].
  assert (E1 : map xexp (map (fun x => xsub x m) (lw pa)) = repeat NaN (length (lw pa))).
  { clear Em Hne. induction (lw pa) as [|x w IH]; auto. inversion HN; subst. simpl. f_equal. auto. }
  unfold bind at 1, lift at 1. rewrite Em. cbv zeta. rewrite E1.
  assert (C : forall k a, a = NaN -> xcumsum_from a (repeat NaN k) = repeat NaN k).
  { induction k as [|k IH]; intros a ->; simpl; auto. f_equal. apply IH. auto. }
  assert (Ec : idx_last (xcumsum (repeat NaN (length (lw pa)))) = Ok NaN).
  { destruct (lw pa) as [|x w]; [congruence|]. unfold xcumsum. simpl.
    replace (xcumsum_from _ (repeat NaN (length w))) with (repeat NaN (length w)) by (symmetry; apply C; reflexivity).
    change (NaN :: repeat NaN (length w)) with (repeat NaN (S (length w))).
    replace (repeat NaN (S (length w))) with (repeat NaN (length w) ++ [NaN]).
    - apply idx_last_app.
    - symmetry. apply repeat_cons. }
  unfold bind at 1, sampleM, lift. unfold bind at 1. rewrite Ec. destruct (draw_total g s) as (r & s1 & Hd).
  unfold bind at 1. rewrite Hd. rewrite (sample_nan_total _ _ _ Ec).
  unfold bind, def_copy, lift. exists s1.
  replace (take (part pa) (repeat 0%nat n)) with (Ok (repeat p0 n)); [reflexivity|].
  symmetry. clear - H0. apply idx_ok in H0. induction n as [|n IH]; simpl; auto. rewrite H0. simpl. rewrite IH. auto.
Qed.

(** Non-trivial instances: a model whose likelihood is zero at particles >= 1. *)
Definition wall : fmodel unit R R R (list R) :=
  full_of_basic (mkBasic (b_create walk) (b_noise walk) (b_update walk)
    (fun p y t => ret (p, map (fun x => if Rltb x 1 then Fin 0 else NInf) p))
    (b_xnext walk) (b_stage1 walk) (b_qsample walk) (b_logp_q walk) (b_propose_y walk)).

Lemma wall_logish : measure_logish wall.
Proof.
  intros tr a p u y t s l w s' H. simpl in H. unfold def_measure in H. minv H. simpl in H. minv H.
  apply Forall_map, Forall_forall. intros x _. destruct (Rltb x 1); exact I.
Qed.

Lemma wall_shape : shape_ok wall.
Proof.
  constructor; simpl; intros.
  - apply ret_ok in H. inversion H. apply repeat_length.
  - unfold def_copy in H. apply lift_ok in H. destruct H as (a & E & E2). inversion E2; subst.
    eapply take_length; eauto.
  - apply ret_ok in H. inversion H; auto.
  - unfold def_update in H. minv H. simpl in H. minv H. apply map_length.
  - unfold def_measure in H. minv H. simpl in H. minv H. rewrite map_length. auto.
  - unfold def_xnext1 in H. minv H. simpl in H. minv H. apply map_length.
  - apply ret_ok in H. inversion H. apply map_length.
  - apply ret_ok in H. inversion H. auto.
  - apply ret_ok in H. inversion H. apply map_length.
  - apply ret_ok in H. inversion H. apply map_length.
  - apply ret_ok in H. inversion H. rewrite map_length. auto.
  - apply ret_ok in H. inversion H. apply repeat_length.
Qed.

Example C11_wall_extinct : exists s0 s b st,
  pt_init 2 0 0 "PF" FONone None = Ok s0 /\
  pt_forward wall (const_rng 0) s0 (Some 1) None tt = Ok ((s, b), tt) /\
  nth_error (pt_traj s) 1 = Some st /\ all_nan (lw (st_pa st)).
Proof.
  do 4 eexists. split; [reflexivity|]. split.
  - unfold pt_forward, filter_forward, pf_forward, maybe_resample, pf_update, pf_measure.
    cbn -[Rltb]. unfold bind, lift, ret, def_noise, def_update, def_measure. cbn -[Rltb].
    rewrite (proj2 (Rltb_false 0 0)) by lra. cbn -[Rltb]. unfold bind, lift, ret. cbn -[Rltb].
    rewrite !(proj2 (Rltb_false (0+1) 1)) by lra. cbn -[Rltb]. reflexivity.
  - split; [reflexivity|]. simpl. split; [discriminate|]. constructor; [reflexivity|constructor; [reflexivity|constructor]].
Qed.

Print Assumptions C11_finite_weights.
Print Assumptions C11_nan_only_after_extinction.
Print Assumptions C11_forward_step.
Print Assumptions C11_resample_after_extinction.
