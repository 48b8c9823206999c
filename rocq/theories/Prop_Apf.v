(** C12, auxiliary particle filter: the offset it stores is not the one the bootstrap filter stores, so the likelihood cannot be
    recovered from it. *)
From Coq Require Import String Bool Reals Lra Lia List Arith.
From Verif Require Import Base XR SampleModel SampleSpec SampleProofs PAModel WeightSpec WeightProofs
  FilterModel TrajModel FilterSpec FilterProofs TrajProofs FilterTotal FilterSem ExampleModel Prop_Weights Prop_Traj Prop_Filter EvidenceSpec Evidence SmoothBsi.
Import ListNotations.
Open Scope R_scope.

(** [x] is the largest of [h 0], ..., [h (n-1)]. *)
Definition greatest (n : nat) (h : nat -> R) (x : R) : Prop :=
  (exists i, (i < n)%nat /\ h i = x) /\ forall i, (i < n)%nat -> h i <= x.

Lemma greatest_of l m : Forall logish l -> In (Fin m) l -> Forall (fun x => xle x (Fin m)) l ->
  greatest (length l) (fun i => lin (nth i l NInf)) (exp m).
Proof.
  intros HL Hin HF. split.
  - apply In_nth with (d := NInf) in Hin. destruct Hin as (i & Hi & E). exists i. rewrite E. auto.
  - intros i Hi. rewrite Forall_forall in HF, HL. pose proof (HF _ (nth_In l NInf Hi)) as A. pose proof (HL _ (nth_In l NInf Hi)) as B.
    destruct (nth i l NInf) as [| | |r]; simpl in *; try tauto; [left; apply exp_pos|].
    destruct A as [A|A]; [left; apply exp_increasing; auto|right; congruence].
Qed.
Lemma greatest_scale n h h' c x : 0 < c -> (forall i, (i < n)%nat -> h' i = c * h i) -> greatest n h' x -> greatest n h (x / c).
Proof.
  intros Hc E [(i & Hi & Hx) HG]. split.
  - exists i. split; auto. rewrite <- Hx, E by auto. field. lra.
  - intros j Hj. specialize (HG j Hj). rewrite E in HG by auto. apply Rmult_le_reg_l with c; auto. unfold Rdiv.
    rewrite (Rmult_comm x), <- Rmult_assoc, Rinv_r, Rmult_1_l by lra. lra.
Qed.
Lemma total_seq l : total l = rsum (map (fun i => lin (nth i l NInf)) (seq 0 (length l))).
Proof.
  unfold total. rewrite (rsum_seq (map lin l)), map_length. apply rsum_ext. intros i Hi. apply in_seq in Hi.
  rewrite nth_indep with (d' := lin NInf) by (rewrite map_length; lia). rewrite map_nth. reflexivity.
Qed.

(** One step of 'APF' that does not resample, w the old weights, a the first stage weights, b the likelihoods (all linear). The stored
    weights are w b, scaled so that the largest is 1; the offset is the largest of w a b over the largest of w a. So what weights and
    offset together represent is the sum of w b times a factor of maxima; for the bootstrap filter that factor is 1. *)
Theorem C12_auxiliary_offset : forall W P U Y V (mdl : fmodel W P U Y V) (g : rng W)
    (s s' : ptraj P U Y) u y w w' thr pre old new,
  rng_ok g -> shape_ok mdl -> reachable mdl g s -> pt_f s = FAPF thr ->
  pt_forward mdl g s u y w = Ok ((s', false), w') ->
  pt_traj s' = pre ++ [old; new] -> live (lw (st_pa old)) ->
  exists l1 w1 w2 uv yv tv p ll w3,
    m_stage1 mdl (part (st_pa old)) (cell_of u) (cell_of y) (length pre) w1 = Ok (l1, w2) /\
    m_measure mdl (pre ++ [old]) (st_anc new) p uv yv tv w3 = Ok ((part (st_pa new), ll), w') /\
    idx_last yv = Ok (cell_of y) /\ idx_last tv = Ok (length pre + 1)%nat /\
    (Forall (fun q => exists r, q = Fin r) l1 -> Forall logish ll -> survivor (lw (st_pa old)) ll ->
     let wt i := lin (nth i (lw (st_pa old)) NInf) in
     let a i := lin (nth i l1 NInf) in
     let b i := lin (nth i ll NInf) in
     exists A B C,
       greatest (pt_N s) (fun i => wt i * a i) A /\
       greatest (pt_N s) (fun i => wt i * a i * b i) B /\
       greatest (pt_N s) (fun i => wt i * b i) C /\
       0 < A /\ 0 < B /\ 0 < C /\
       woff (st_pa new) = Fin (ln (B / A)) /\
       (forall i, (i < pt_N s)%nat -> lin (nth i (lw (st_pa new)) NInf) = wt i * b i / C) /\
       total (lw (st_pa new)) * lin (woff (st_pa new)) = B / (A * C) * rsum (map (fun i => wt i * b i) (seq 0 (pt_N s)))).
Proof.
  intros W P U Y V mdl g s s' u y w w' thr pre old new Hg Hsh Hr Hf H Ht Hl.
  destruct (forward_setup mdl g Hg Hsh _ _ _ _ _ _ _ _ _ _ Hr H Ht)
    as (uv & yv & tv & w1 & Fwf & Nwf & HN & Hff & Nu & Ny & Nt & Nt1 & Eu & Ey & Ett & _).
  rewrite Hf in Hff. cbn [filter_forward] in Hff.
  destruct (apf_forward_sem mdl g _ _ _ _ _ _ _ pre old _ _ _ _ _ _ _ _ Fwf eq_refl Nu Ny Nt Hff)
    as (Hy & l1 & w0 & wa & ma & pa1 & w2 & la & v & w3 & p & w4 & p' & ll & pa2 & wf & mf &
        Hs1 & Hwa & Hma & Hc & _ & _ & Hme & Ha & Hwf & Hmf & Enew).
  exists l1, w1, w0, uv, (firstn (length pre + 1 + 1) yv), (firstn (length pre + 1 + 1) tv), p, ll, w4.
  pose proof (add_weights_shape _ _ _ Ha) as (Ep & En2 & La2 & Lll). cbn [part lw num] in Ep, En2, La2, Lll.
  assert (Epart : part (st_pa new) = p') by (rewrite Enew; exact Ep).
  assert (Elw : lw (st_pa new) = map (fun x => xsub x mf) wf) by (rewrite Enew; reflexivity).
  assert (Eoff : woff (st_pa new) = woff pa2) by (rewrite Enew; reflexivity).
  split; [exact Hs1|]. rewrite Epart, Elw, Eoff. split; [exact Hme|].
  split; [apply idx_last_firstn; auto|]. split; [apply idx_last_firstn; auto|].
  intros Hl1 Hll Hsv0 wt a b.
  apply old_wf in Fwf. destruct Fwf as (Lp & Lw & _).
  set (N := pt_N s) in *. cbv zeta in Hc. destruct Hc as (c & _ & Hc). destruct c; [destruct Hc as (Hc & _); discriminate|].
  destruct Hc as (_ & E1 & Ean & _ & ->). subst pa1. cbn [lw num woff] in *.
  destruct (zipw_length _ _ _ _ Hwa) as [Lwa Ll1]. rewrite Lw in Lwa.
  pose proof (fin_logish _ Hl1) as Hl1'.
  assert (Fl1 : forall i, (i < N)%nat -> exists r, nth i l1 NInf = Fin r).
  { intros i Hi. rewrite Forall_forall in Hl1. apply Hl1, nth_In. lia. }
  assert (Hsv1 : survivor (lw (st_pa old)) l1).
  { destruct Hsv0 as (i & q & q' & Q1 & Q2). destruct (Fl1 i) as [r Er].
    - rewrite <- Lw. apply nth_error_Some. congruence.
    - exists i, q, r. split; auto. assert (Hi : (i < length l1)%nat) by (rewrite <- Ll1, Lwa, <- Lw; apply nth_error_Some; congruence).
      rewrite (nth_error_nth' l1 NInf Hi). congruence. }
  pose proof (survivor_live _ _ _ (proj1 Hl) Hl1' Hsv1 Hwa) as Lwal.
  destruct (live_max _ Lwal) as (m & Em & Im & Fm). rewrite Em in Hma. inversion Hma; subst ma; clear Hma.
  assert (Llog : forall i, logish (nth i (lw (st_pa old)) NInf)) by (intros; apply nth_logish; apply Hl).
  assert (Awa : forall i, (i < N)%nat -> lin (nth i wa NInf) = wt i * a i).
  { intros i Hi. rewrite (zipw_nth_d _ _ _ _ _ Hwa) by lia. rewrite lin_xadd; auto. apply nth_logish; auto. }
  set (sh := map (fun x => xsub x (Fin m)) wa) in *.
  assert (Lsh : length sh = N) by (unfold sh; rewrite map_length; lia).
  assert (Gsh : Forall logish sh).
  { unfold sh. apply Forall_map. eapply Forall_impl; [|apply Lwal]. intros z Hz. apply logish_xsub_fin; auto. }
  assert (Ash : forall i, (i < N)%nat -> lin (nth i sh NInf) = wt i * a i * exp (- m)).
  { intros i Hi. unfold sh. rewrite nth_map_sub by lia. rewrite lin_xsub_fin by (apply nth_logish; apply Lwal). rewrite Awa by auto. reflexivity. }
  assert (Hsv2 : survivor sh ll).
  { destruct Hsv0 as (i & q & q' & Q1 & Q2).
    assert (Hi : (i < N)%nat) by (rewrite <- Lw; apply nth_error_Some; congruence).
    destruct (lin_pos_fin (nth i sh NInf)) as [r Er].
    { rewrite Ash by auto. unfold wt, a. rewrite (nth_error_nth _ _ _ Q1). destruct (Fl1 i Hi) as [r ->]. cbn [lin].
      repeat apply Rmult_lt_0_compat; apply exp_pos. }
    exists i, r, q'. split; auto. rewrite <- Er. apply nth_error_nth'. lia. }
  destruct (add_weights_live (mkPA p' sh N (Fin 0)) _ _ Gsh Hll Hsv2 Ha)
    as (R1 & R2 & R3 & R4 & R5 & R6 & c & R7 & R8). cbn [lw woff] in *.
  assert (A2 : forall i, (i < N)%nat -> lin (nth i (lw pa2) NInf) = wt i * a i * b i * exp (- (m + c))).
  { intros i Hi. assert (I1 : (i < length sh)%nat) by lia. assert (I2 : (i < length ll)%nat) by (rewrite <- R4, R3; lia).
    rewrite (nth_error_nth _ _ _ (R8 i _ _ (nth_error_nth' sh NInf I1) (nth_error_nth' ll NInf I2))).
    rewrite lin_xsub_fin by (apply logish_xadd; apply nth_logish; auto). rewrite lin_xadd by (apply nth_logish; auto). rewrite Ash by auto.
    fold (b i). rewrite Ropp_plus_distr, exp_plus. ring. }
  destruct (zipw_length _ _ _ _ Hwf) as [Lwf Lwf2].
  assert (Awf : forall i, (i < N)%nat -> lin (nth i wf NInf) = wt i * b i * exp (- (m + c))).
  { intros i Hi. rewrite (zipw_nth_d _ _ _ _ _ Hwf) by lia. destruct (Fl1 i Hi) as [r Er]. rewrite Er.
    rewrite lin_xsub_fin by (apply nth_logish; apply R2). rewrite A2 by auto. unfold a. rewrite Er. cbn [lin].
    rewrite (exp_Ropp r). pose proof (exp_pos r). field. lra. }
  assert (Gwf : Forall logish wf).
  { apply Forall_forall. intros x Hx. apply In_nth_error in Hx. destruct Hx as [j Hj].
    destruct (nth_error_zipw_inv _ _ _ _ _ _ Hwf Hj) as (xa & xb & Exa & Exb & ->).
    rewrite Forall_forall in Hl1. destruct (Hl1 xb (nth_error_In _ _ Exb)) as [r ->].
    apply logish_xsub_fin. destruct R2 as [R2 _]. rewrite Forall_forall in R2. apply R2. eapply nth_error_In; eauto. }
  assert (Lwfl : live wf).
  { split; auto. destruct Hsv0 as (i & q & q' & Q1 & Q2).
    assert (Hi : (i < N)%nat) by (rewrite <- Lw; apply nth_error_Some; congruence).
    destruct (lin_pos_fin (nth i wf NInf)) as [r Er].
    { rewrite Awf by auto. unfold wt, b. rewrite (nth_error_nth _ _ _ Q1), (nth_error_nth _ _ _ Q2). cbn [lin].
      repeat apply Rmult_lt_0_compat; apply exp_pos. }
    exists r. rewrite <- Er. apply nth_In. lia. }
  destruct (live_max _ Lwfl) as (m2 & Em2 & Im2 & Fm2). rewrite Em2 in Hmf. inversion Hmf; subst mf; clear Hmf.
  exists (exp m), (exp (m + c)), (exp (m + c + m2)).
  assert (G1 : greatest N (fun i => wt i * a i) (exp m)).
  { pose proof (greatest_of wa m (proj1 Lwal) Im Fm) as G. rewrite Lwa in G.
    replace (exp m) with (exp m / 1) by field. refine (greatest_scale _ _ _ 1 _ Rlt_0_1 _ G). intros i Hi. rewrite Awa by auto. ring. }
  assert (G2 : greatest N (fun i => wt i * a i * b i) (exp (m + c))).
  { pose proof (greatest_of (lw pa2) 0 (proj1 R2) (proj2 R1) (proj1 R1)) as G. rewrite R3, Lsh in G.
    replace (exp (m + c)) with (exp 0 / exp (- (m + c))) by (rewrite exp_0, exp_Ropp; pose proof (exp_pos (m + c)); field; lra).
    refine (greatest_scale _ _ _ _ _ (exp_pos _) _ G). intros i Hi. rewrite A2 by auto. ring. }
  assert (G3 : greatest N (fun i => wt i * b i) (exp (m + c + m2))).
  { pose proof (greatest_of wf m2 (proj1 Lwfl) Im2 Fm2) as G. replace (length wf) with N in G by lia.
    replace (exp (m + c + m2)) with (exp m2 / exp (- (m + c))) by (rewrite exp_Ropp, (exp_plus (m + c)); pose proof (exp_pos (m + c)); field; lra).
    refine (greatest_scale _ _ _ _ _ (exp_pos _) _ G). intros i Hi. rewrite Awf by auto. ring. }
  assert (Ew : forall i, (i < N)%nat -> lin (nth i (map (fun x => xsub x (Fin m2)) wf) NInf) = wt i * b i / exp (m + c + m2)).
  { intros i Hi. rewrite nth_map_sub by lia. rewrite lin_xsub_fin by (apply nth_logish; auto). rewrite Awf by auto.
    rewrite (exp_plus (m + c)), !exp_Ropp. pose proof (exp_pos (m + c)). pose proof (exp_pos m2). field. lra. }
  split; [exact G1|]. split; [exact G2|]. split; [exact G3|].
  repeat split; try apply exp_pos.
  - rewrite R7. cbn [xadd]. f_equal. rewrite (exp_plus m c). replace (exp m * exp c / exp m) with (exp c) by (field; pose proof (exp_pos m); lra).
    rewrite ln_exp. ring.
  - exact Ew.
  - rewrite total_seq, map_length. replace (length wf) with N by lia.
    rewrite (rsum_ext _ (fun i => / exp (m + c + m2) * (wt i * b i))).
    2:{ intros i Hi. apply in_seq in Hi. rewrite Ew by lia. unfold Rdiv. ring. }
    rewrite rsum_map_scale, R7. cbn [xadd lin]. rewrite !exp_plus. rewrite exp_0.
    pose proof (exp_pos m). pose proof (exp_pos c). pose proof (exp_pos m2). field. lra.
Qed.

(** Hence the equation of C12_forward_likelihood is false for 'APF', already on the first step and when first stage weights and
    likelihoods are all 1: with two particles weights and offset represent 2, not 1. *)
Definition flat : ssm R unit unit R := mkSSM (fun x _ _ v => x + v) (fun _ _ _ => 0).

Theorem C12_auxiliary_refuted : exists (b : bmodel (call_world (V := R)) R unit unit (list R)) (g : rng (call_world (V := R)))
    (s0 s s' : ptraj R unit unit) y w0 w w' p ll w1 pre old new,
  rng_ok g /\ total_ok 2 (full_of_basic b) /\ shape_ok (full_of_basic b) /\
  pt_init 2 0 0 "APF" FONone None = Ok s0 /\ reachable (full_of_basic b) g s /\ pt_run (full_of_basic b) g s0 [] w0 = Ok (s, w) /\
  pt_forward (full_of_basic b) g s None y w = Ok ((s', false), w') /\ pt_traj s' = pre ++ [old; new] /\
  live (lw (st_pa old)) /\ b_measure b p (cell_of y) (length pre + 1) w1 = Ok ((part (st_pa new), ll), w') /\
  Forall logish ll /\ survivor (lw (st_pa old)) ll /\
  total (lw (st_pa new)) * lin (woff (st_pa new)) / total (lw (st_pa old)) <>
    rsum (map (fun ab => lin (fst ab) / total (lw (st_pa old)) * lin (snd ab)) (combine (lw (st_pa old)) ll)).
Proof.
  destruct (pt_init (P := R) (U := unit) (Y := unit) 2 0 0 "APF" FONone None) as [s0|e] eqn:Hi; [|discriminate].
  assert (E0 : pt_traj s0 = [] /\ pt_N s0 = 2%nat /\ pt_f s0 = FAPF 0) by (inversion Hi; auto).
  destruct E0 as (Et & EN & Ef).
  set (b := ssm_model flat [0; 0] 0). set (W0 := (0, [0; 0]) : call_world (V := R)).
  assert (HN : (0 < length [0; 0])%nat) by (simpl; lia).
  pose proof (call_rng_ok (V := R)) as Hg.
  pose proof (ssm_total flat [0; 0] 0 HN) as Htot. pose proof (ssm_shape flat [0; 0] 0) as Hsh.
  destruct (C15_never_raises _ _ _ _ _ (full_of_basic b) call_rng 2 0 "APF" FONone None s0 [Fwd None (Some tt)] W0 Hg Htot ltac:(lia) Hi) as (s1 & w' & Hrun & _).
  { rewrite Ef. exact I. }
  { rewrite Ef. repeat constructor. }
  simpl in Hrun. apply bind_ok in Hrun. destruct Hrun as (s2 & w2 & Hrun & E). apply ret_ok in E. inversion E; subst; clear E.
  apply bind_ok in Hrun. destruct Hrun as ([s3 fl] & w3 & Hrun & E). apply ret_ok in E. inversion E; subst; clear E. cbn [fst] in *.
  specialize (Hsh HN).
  assert (Hr : reachable (full_of_basic b) call_rng s0).
  { exists 2%nat, 0, "APF"%string, FONone, None, s0, [], W0, W0. split; auto. }
  destruct (reachable_inv _ _ Hg Hsh _ Hr) as [_ (l & B)].
  destruct (pt_forward_inv _ _ _ _ _ _ _ _ _ _ B Hrun)
    as (tr & uv & yv & tv & w1 & pa & anc & k & [(Hne & _)|(_ & st0 & Hini & ->)] & Lk & _ & Etr & _); [congruence|].
  assert (Est : st0 = mkStep (mkPA [0; 0] [Fin (ln (1 / 2)); Fin (ln (1 / 2))] 2 (Fin 0)) [0%nat; 1%nat]).
  { rewrite EN, Ef in Hini. cbn in Hini. unfold bind in Hini. cbn in Hini. replace (ln (1 / 2)) with (- ln (1 + 1)) by (replace (1 / 2) with (/ (1 + 1)) by lra; rewrite ln_Rinv; lra).
    inversion Hini. reflexivity. }
  set (st1 := mkStep pa anc) in *. set (h := ln (1 / 2)) in *.
  assert (Eh : exp h = 1 / 2) by (apply exp_ln; lra).
  assert (Hl : live (lw (st_pa st0))) by (rewrite Est; split; [repeat constructor|exists h; left; reflexivity]).
  (* no resampling: the threshold is 0 *)
  destruct (C09_auxiliary _ _ _ _ _ (full_of_basic b) call_rng s0 s3 None (Some tt) fl W0 w3 0 [] st0 st1 Hg Hsh Hr Ef Hrun Etr (proj1 Hl)) as (l1 & wa & wb & Hs1 & Hno).
  assert (El1 : l1 = [Fin 0; Fin 0]) by (rewrite Est in Hs1; cbn in Hs1; apply ret_ok in Hs1; inversion Hs1; reflexivity).
  assert (Hfl : fl = false).
  { destruct fl; auto. destruct Hno as ((Hno & _) & _).
    - rewrite El1. repeat constructor.
    - rewrite Est, El1. exists 0%nat, h, 0. split; reflexivity.
    - destruct (Hno eq_refl). lra. }
  rewrite Hfl in Hrun.
  destruct (C12_auxiliary_offset _ _ _ _ _ (full_of_basic b) call_rng s0 s3 None (Some tt) W0 w3 0 [] st0 st1 Hg Hsh Hr Ef Hrun Etr Hl)
    as (l1' & wc & wd & uv' & yv' & tv' & p & ll & we & Hs1' & Hme & Hyv & Htv & Hoff).
  rewrite Est in Hs1'. cbn in Hs1'. apply ret_ok in Hs1'. inversion Hs1'; subst l1' wd; clear Hs1'.
  assert (Hbm : b_measure b p (cell_of (Some tt)) (0 + 1) we = Ok ((part (st_pa st1), ll), w3)).
  { cbn [full_of_basic m_measure] in Hme. unfold def_measure in Hme. rewrite Hyv, Htv in Hme. exact Hme. }
  assert (Ell : ll = map (fun _ => Fin 0) (part (st_pa st1))).
  { cbn in Hbm. apply ret_ok in Hbm. inversion Hbm. reflexivity. }
  assert (Lp : length (part (st_pa st1)) = 2%nat).
  { destruct (forward_setup (full_of_basic b) call_rng Hg Hsh _ _ _ _ _ _ _ [] st0 st1 Hr Hrun Etr) as (q1 & q2 & q3 & q4 & Fwf & Nwf & _).
    rewrite <- EN. exact (proj1 Nwf). }
  assert (El2 : ll = [Fin 0; Fin 0]).
  { rewrite Ell. destruct (part (st_pa st1)) as [|x1 [|x2 [|]]]; try discriminate. reflexivity. }
  assert (Gll : Forall logish ll) by (rewrite El2; repeat constructor).
  assert (Sv : survivor (lw (st_pa st0)) ll) by (rewrite El2, Est; exists 0%nat, h, 0; split; reflexivity).
  destruct Hoff as (A & B' & C & HA & HB & HC & PA & PB & PC & _ & _ & Hmass); auto.
  { repeat constructor; eexists; reflexivity. }
  exists b, call_rng, s0, s0, s3, (Some tt), W0, W0, w3, p, ll, we, [], st0, st1.
  split; [exact Hg|]. split; [exact Htot|]. split; [exact Hsh|]. split; [reflexivity|]. split; [exact Hr|]. split; [reflexivity|].
  split; [exact Hrun|]. split; [exact Etr|]. split; [exact Hl|]. split; [exact Hbm|]. split; [exact Gll|]. split; [exact Sv|].
  assert (Half : forall n (f : nat -> R) X, n = 2%nat -> (forall i, (i < 2)%nat -> f i = 1 / 2) -> greatest n f X -> X = 1 / 2).
  { intros n f X -> E [(i & Hi' & <-) _]. auto. }
  assert (T2 : forall i, (i < 2)%nat -> lin (nth i [Fin h; Fin h] NInf) = 1 / 2 /\ lin (nth i [Fin 0; Fin 0] NInf) = 1).
  { intros [|[|i]] Hi'; [| |lia]; cbn [nth lin]; rewrite Eh, exp_0; auto. }
  rewrite Est in HA, HB, HC, Hmass. rewrite El2 in HB, HC, Hmass. cbn [st_pa lw] in HA, HB, HC, Hmass.
  apply Half in HA; [|exact EN|intros i Hi'; destruct (T2 i Hi') as [-> E]; cbn [map part] in *; rewrite E; lra].
  apply Half in HB; [|exact EN|intros i Hi'; destruct (T2 i Hi') as [-> E]; cbn [map part] in *; rewrite E; lra].
  apply Half in HC; [|exact EN|intros i Hi'; destruct (T2 i Hi') as [-> E]; rewrite E; lra].
  rewrite Hmass, Est, El2, HA, HB, HC, EN. unfold total. cbn [st_pa lw map rsum fold_right seq combine nth lin fst snd]. rewrite Eh, exp_0. lra.
Qed.

(** The hypotheses of C12_auxiliary_offset hold in that run. *)
Example C12_auxiliary_instance : exists (b : bmodel (call_world (V := R)) R unit unit (list R)) g (s0 s' : ptraj R unit unit) w w' pre old new,
  rng_ok g /\ shape_ok (full_of_basic b) /\ reachable (full_of_basic b) g s0 /\ pt_f s0 = FAPF 0 /\
  pt_forward (full_of_basic b) g s0 None (Some tt) w = Ok ((s', false), w') /\ pt_traj s' = pre ++ [old; new] /\ live (lw (st_pa old)).
Proof.
  destruct C12_auxiliary_refuted as (b & g & s0 & s & s' & y & w0 & w & w' & p & ll & w1 & pre & old & new & Hg & Ht & Hs & Hi & Hr & H0 & Hf & E & Hl & _).
  inversion H0; subst. destruct y as [[]|].
  - exists b, g, s, s', w, w', pre, old, new. assert (Ef : pt_f s = FAPF 0) by (inversion Hi; reflexivity).
    repeat (split; [assumption|]). assumption.
  - exfalso. assert (Ef : pt_f s = FAPF 0) by (inversion Hi; reflexivity).
    destruct (C21_auxiliary_weights _ _ _ _ _ _ _ _ _ _ _ _ _ _ _ _ _ _ Hg Hs Hr Ef Hf E) as [Hy _]. congruence.
Qed.

Print Assumptions C12_auxiliary_offset.
Print Assumptions C12_auxiliary_refuted.
