(** Proofs for C88: the ancestral lines of the bootstrap filter are properly weighted for the smoothing distribution. *)
From Coquelicot Require Import Coquelicot.
From Coq Require Import ZArith String Reals Lra Lia List Arith.
From Verif Require Import Base XR SampleModel SampleSpec SampleProofs PAModel WeightSpec WeightProofs
  FilterModel TrajModel FilterSpec FilterProofs TrajProofs FilterTotal Prop_Sample Prop_Weights FilterSem Prop_Law Prop_Filter EvidenceSpec Evidence PathSpec.
Import ListNotations.
Open Scope R_scope.

(** ** Lines *)
Lemma lines_snoc {P} (tr : list (tstep P)) st :
  lines (tr ++ [st]) = map (fun xa => nth (snd xa) (lines tr) [] ++ [fst xa]) (combine (part (st_pa st)) (st_anc st)).
Proof. unfold lines. rewrite fold_left_app. reflexivity. Qed.
Lemma lines_length {P} N (tr : list (tstep P)) st : step_wf N st -> length (lines (tr ++ [st])) = N.
Proof. intros (A & _ & _ & B & _). rewrite lines_snoc, map_length, combine_length. lia. Qed.
Lemma lines_end {P} (tr : list (tstep P)) st i l : nth_error (lines (tr ++ [st])) i = Some l ->
  exists x past, nth_error (part (st_pa st)) i = Some x /\ l = past ++ [x].
Proof.
  rewrite lines_snoc, nth_error_map. destruct (nth_error _ i) as [[x a]|] eqn:E; [|discriminate]. intros H. injection H as <-.
  apply nth_error_combine in E. destruct E as [E _]. eauto.
Qed.

Section Step.
Context {P U Y V : Type}.
Variables (m : ssm P U Y V) (noise : (V -> R) -> R) (x0 : list P) (dv : V).
Hypothesis Hav : average noise.
Hypothesis HN : (0 < length x0)%nat.
Notation N := (length x0).
Notation bm := (ssm_model m x0 dv).
Notation mdl := (full_of_basic bm).
Notation g := (call_rng (V := V)).
Notation first_step := (first_step x0).
Notation start := (@start P U Y x0).
Notation ready := (@ready P U Y x0).

(** Weighted mean over the lines ending in the step [old]. *)
Definition lmean (pre : list (tstep P)) (old : tstep P) (phi : list P -> R) : R :=
  rsum (map (fun hw => lin (snd hw) * phi (fst hw)) (combine (lines (pre ++ [old])) (lw (st_pa old)))) / total (lw (st_pa old)).

Lemma line_mean_snoc (s : ptraj P U Y) pre old phi : pt_traj s = pre ++ [old] -> line_mean x0 s phi = lmean pre old phi.
Proof. intros E. unfold line_mean. rewrite E, rev_app_distr. reflexivity. Qed.

Lemma line_mean_start (s : ptraj P U Y) pre old phi : start s pre old -> line_mean x0 s phi = lmean pre old phi.
Proof.
  intros [E|(E & -> & ->)]; [apply line_mean_snoc; auto|]. unfold line_mean, lmean. rewrite E. cbn [rev app].
  rewrite (first_total x0 HN). unfold Rdiv. rewrite Rinv_1, Rmult_1_r, Rmult_comm, <- rsum_map_scale.
  apply rsum_nth.
  - rewrite combine_length. change [first_step] with ([] ++ [first_step]). rewrite lines_snoc, map_length, combine_length.
    unfold Evidence.first_step. cbn [st_pa st_anc part lw]. rewrite repeat_length, seq_length. lia.
  - intros i x [l q] Hx H'. apply nth_error_combine in H'. destruct H' as [H1 H2].
    apply nth_error_In, repeat_spec in H2. subst q. cbn [fst snd lin]. rewrite (first_share x0 HN).
    change [first_step] with ([] ++ [first_step]) in H1. rewrite lines_snoc, nth_error_map in H1.
    destruct (nth_error _ i) as [[x' a]|] eqn:E1 in H1; [|discriminate]. injection H1 as <-. apply nth_error_combine in E1. destruct E1 as [E1 _].
    cbn [st_pa part Evidence.first_step] in E1. rewrite Hx in E1. injection E1 as <-. cbn [fst snd lines fold_left]. destruct a; reflexivity.
Qed.

(** The weights of [pa'], one by one. *)
Lemma reweighted_each (pa pa' : papprox P) y t o : live (lw pa) -> length (part pa) = length (lw pa) -> woff pa = Fin o ->
  add_weights pa (map (fun x => Fin (ll m x y t)) (part pa)) = Ok pa' ->
  part pa' = part pa /\ live (lw pa') /\ length (lw pa') = length (lw pa) /\ exists o', woff pa' = Fin o' /\
  forall i x q q', nth_error (part pa) i = Some x -> nth_error (lw pa) i = Some q -> nth_error (lw pa') i = Some q' ->
    lin q' * exp o' = exp o * (lin q * exp (ll m x y t)).
Proof.
  intros Hl L Ho Ha. set (lls := map (fun x => Fin (ll m x y t)) (part pa)) in *.
  assert (Hll : Forall logish lls) by (apply Forall_forall; intros x Hx; apply in_map_iff in Hx; destruct Hx as (z & <- & _); exact I).
  assert (Hs : survivor (lw pa) lls).
  { destruct Hl as [_ [q Hq]]. apply In_nth_error in Hq. destruct Hq as [i Hi].
    destruct (nth_error (part pa) i) as [x|] eqn:Ex.
    2:{ apply nth_error_None in Ex. rewrite L in Ex. apply nth_error_None in Ex. congruence. }
    exists i, q, (ll m x y t). split; auto. unfold lls. rewrite nth_error_map, Ex. reflexivity. }
  destruct (add_weights_live pa _ _ (proj1 Hl) Hll Hs Ha) as (R1 & R2 & R3 & R4 & R5 & R6 & c & R7 & R8).
  pose proof (add_weights_shape _ _ _ Ha) as (Ep & _).
  split; auto. split; auto. split; auto. exists (o + c). split; [rewrite R7, Ho; reflexivity|].
  intros i x q q' Hx Hq Hq'.
  assert (El : nth_error lls i = Some (Fin (ll m x y t))) by (unfold lls; rewrite nth_error_map, Hx; reflexivity).
  rewrite (R8 i _ _ Hq El) in Hq'. injection Hq' as <-.
  assert (Gq : logish q) by (destruct Hl as [Hl _]; rewrite Forall_forall in Hl; apply Hl; eapply nth_error_In; eauto).
  rewrite lin_xsub_fin by (apply logish_xadd; [exact Gq|exact I]). rewrite lin_xadd by (auto; exact I). cbn [lin].
  rewrite exp_plus, (exp_Ropp c). pose proof (exp_pos c). field. lra.
Qed.

(** Weighted sums over values [h] attached to the particles. *)
Lemma reweighted_values (pa pa' : papprox P) y t o (h : list R) : live (lw pa) -> length (part pa) = length (lw pa) -> woff pa = Fin o ->
  length h = length (lw pa) ->
  add_weights pa (map (fun x => Fin (ll m x y t)) (part pa)) = Ok pa' ->
  mass pa' * (rsum (map (fun hw => lin (snd hw) * fst hw) (combine h (lw pa'))) / total (lw pa')) =
  exp o * rsum (map (fun xwh => lin (snd (fst xwh)) * (exp (ll m (fst (fst xwh)) y t) * snd xwh)) (combine (combine (part pa) (lw pa)) h)).
Proof.
  intros Hl L Ho Lh Ha. destruct (reweighted_each pa pa' y t o Hl L Ho Ha) as (Ep & Hl' & Ll & o' & Ho' & K).
  unfold mass. rewrite Ho'. cbn [lin]. pose proof (live_total _ Hl') as Tp.
  match goal with |- total ?l * ?e * (?s / total ?l) = _ => replace (total l * e * (s / total l)) with (e * s) by (field; lra) end.
  rewrite <- !rsum_map_scale. apply rsum_nth; [rewrite !combine_length; lia|].
  intros i [a q'] [[x q] b] H1 H2. apply nth_error_combine in H1, H2. destruct H1 as [A1 A2], H2 as [B1 B2].
  apply nth_error_combine in B1. destruct B1 as [B0 B1]. rewrite A1 in B2. injection B2 as ->. cbn [fst snd].
  transitivity (lin q' * exp o' * b); [ring|]. rewrite (K i x q q' B0 B1 A2). ring.
Qed.

(** One line's contribution. *)
Definition lgain (u : option U) (y : option Y) k (psi : list P -> R) (path : list P) (v : V) : R :=
  match rev path with
  | x :: _ => exp (ll m (move m x (cell_of u) k v) (cell_of y) (k + 1)) * psi (path ++ [move m x (cell_of u) k v])
  | [] => 0
  end.

Lemma fwd_call thr s pre old u y r vs : ready thr s -> start s pre old ->
  exists s' fl w' anc ls,
    pt_forward mdl g s u y (r, vs) = Ok ((s', fl), w') /\ ready thr s' /\ now s' = (length pre + 1)%nat /\
    (fl = true <-> 0 < thr /\ ess (map lin (lw (st_pa old))) < thr * INR N) /\
    take (lines (pre ++ [old])) anc = Ok ls /\ length ls = N /\ (fl = false -> ls = lines (pre ++ [old])) /\
    (fl = true -> 0 < r < 1 -> np_sample (map Fin (map lin (lw (st_pa old)))) N r = Ok anc) /\
    forall psi, fwd_factor s' fl * line_mean x0 s' psi =
      let xs := combine ls (prior_lw fl N (lw (st_pa old))) in
      rsum (map (fun ix => share fl old (snd (snd ix)) * lgain u y (length pre) psi (fst (snd ix)) (nth (fst ix) vs dv))
        (combine (seq 0 (length xs)) xs)).
Proof.
  intros Hrd Hst. pose proof (call_rng_ok (V := V)) as Hg. destruct (rd_book x0 _ _ Hrd) as [l B].
  assert (T : exists s' fl w', pt_forward mdl g s u y (r, vs) = Ok ((s', fl), w') /\ pt_N s' = N /\ pt_f s' = pt_f s /\ traj_wf N (pt_traj s')).
  { assert (Q1 : filter_ready (pt_f s) (length (snd (ledger_step (using_pfy (pt_f s)) l (Fwd u y))))) by (rewrite (rd_f x0 _ _ Hrd); exact I).
    assert (Q2 : op_ready (pt_f s) (Fwd u y)) by (rewrite (rd_f x0 _ _ Hrd); exact I).
    destruct (pt_forward_total mdl g Hg N HN (ssm_total m x0 dv HN) s l u y (rd_N x0 _ _ Hrd) B (rd_wf x0 _ _ Hrd) Q1 Q2 (r, vs)) as ([s' fl] & w' & H & EN' & Ef' & Hwf').
    exists s', fl, w'. auto. }
  destruct T as (s' & fl & w' & H & EN' & Ef' & Hwf').
  destruct (pt_forward_inv mdl g s s' l u y fl _ w' B H) as (tr & uv & yv & tv & w1 & pa & anc & k & Htr & Lk & Hff & Ht & Nu & Ny & Nt & Nt1 & _).
  rewrite (rd_f x0 _ _ Hrd), (rd_N x0 _ _ Hrd) in *.
  assert (X : tr = pre ++ [old] /\ w1 = (r, vs)).
  { destruct Htr as [(Hne & -> & ->)|(E & st0 & Hi & ->)].
    - destruct Hst as [E|(E & _)]; [auto|congruence].
    - rewrite (initial_call m x0 dv HN) in Hi. inversion Hi; subst. destruct Hst as [E'|(_ & -> & ->)]; [rewrite E in E'; destruct pre; discriminate|auto]. }
  destruct X as [-> ->]. assert (k = length pre) by (rewrite app_length in Lk; simpl in Lk; lia). subst k. clear Htr Lk.
  pose proof (start_wf x0 _ _ _ _ Hrd Hst) as Fwf. pose proof (old_wf _ _ _ Fwf) as Owf.
  destruct (start_live x0 HN _ _ _ _ Hrd Hst) as [Hl _].
  pose proof (old_pa_wf N old (Fin 0) Owf) as Hw.
  cbn [filter_forward] in Hff.
  destruct (pf_forward_sem _ g _ _ _ _ _ _ _ pre old _ _ _ _ _ Fwf eq_refl Hff)
        as (pa1 & w2 & v & w3 & p & w4 & p' & lls & Hm & Hn & Hu & Hme & Ha).
  pose proof (maybe_resample_parts _ _ _ _ _ _ _ _ _ _ Hw Hm) as Hpt. cbn [part] in Hpt.
  destruct (maybe_resample_sem _ g Hg _ _ _ _ _ _ _ _ Hw Hl Hm) as (Hfl & El & En & HB & HC). cbn [lw] in *.
  destruct (maybe_call m x0 dv thr (mkPA (part (st_pa old)) (lw (st_pa old)) N (Fin 0)) pa1 fl anc r vs w2 Hl Hm) as [-> Hs]. cbn [lw num] in Hs.
  simpl in Hn, Hu, Hme. unfold def_noise in Hn. unfold def_update in Hu. unfold def_measure in Hme.
  rewrite idx_last_app, (idx_last_firstn _ _ _ Nu), (idx_last_firstn _ _ _ Nt) in Hn.
  rewrite (idx_last_firstn _ _ _ Nu), (idx_last_firstn _ _ _ Nt) in Hu.
  rewrite (idx_last_firstn _ _ _ Ny), (idx_last_firstn _ _ _ Nt1) in Hme.
  unfold bind, lift in Hn, Hu, Hme. rewrite Hpt in Hn. cbn in Hn, Hu, Hme.
  inversion Hn; subst v w3; clear Hn. inversion Hu; subst p w4; clear Hu. inversion Hme; subst p' lls w'; clear Hme.
  assert (Nwf : step_wf N (mkStep pa anc)).
  { destruct Hwf' as [Q _]. rewrite Ht in Q. apply Forall_app in Q. destruct Q as [_ Q]. inversion Q; auto. }
  assert (Lp : length (part pa1) = N) by (apply take_length in Hpt; rewrite Hpt; apply Nwf).
  set (moved := map _ (combine (seq 0 (length (part pa1))) (part pa1))) in *.
  assert (Lm : length moved = N) by (unfold moved; rewrite map_length, combine_length, seq_length; lia).
  assert (Lpr : length (prior_lw fl N (lw (st_pa old))) = N) by (apply prior_length; apply Owf).
  assert (Hlp : live (prior_lw fl N (lw (st_pa old)))) by (apply prior_live; [exact Hl|apply Owf]).
  assert (E0 : woff pa1 = Fin 0).
  { destruct fl; [apply HC; auto|]. destruct (HB eq_refl) as (-> & _). reflexivity. }
  destruct (reweighted_each (mkPA moved (lw pa1) (num pa1) (woff pa1)) pa (cell_of y) (length pre + 1) 0) as (Epm & Hl' & Llw & o' & Ho' & _); cbn [lw part woff]; auto;
    [rewrite El; auto|rewrite El; lia|].
  cbn [lw part] in Epm, Llw.
  assert (Lanc : length anc = N) by (destruct Nwf as (_ & _ & _ & Q & _); exact Q).
  assert (Ranc : Forall (fun a => (a < N)%nat) anc) by (destruct Nwf as (_ & _ & _ & _ & Q); exact Q).
  pose proof (lines_length N pre old Owf) as Lli.
  destruct (take_ok (lines (pre ++ [old])) anc) as [ls Hls]; [rewrite Lli; exact Ranc|].
  assert (Lls : length ls = N) by (apply take_length in Hls; lia).
  (* the lines of the new particles *)
  assert (LN : forall i l' x' , nth_error ls i = Some l' -> nth_error moved i = Some x' -> nth_error (lines (pt_traj s')) i = Some (l' ++ [x'])).
  { intros i l' x' E1 E2. rewrite Ht, lines_snoc, nth_error_map. cbn [st_pa st_anc]. rewrite Epm.
    destruct (nth_error anc i) as [a|] eqn:Ea. 2:{ apply nth_error_None in Ea. assert (i < length ls)%nat by (apply nth_error_Some; congruence). lia. }
    rewrite (nth_error_combine_ok _ _ _ _ _ E2 Ea). cbn [option_map fst snd]. pose proof (take_nth _ _ _ Hls i a Ea) as E3. rewrite E1 in E3.
    rewrite (nth_error_nth _ _ _ (eq_sym E3)). reflexivity. }
  (* the line of a parent ends in the parent *)
  assert (LP : forall i l' x, nth_error ls i = Some l' -> nth_error (part pa1) i = Some x -> exists past, l' = past ++ [x]).
  { intros i l' x E1 E2. destruct (nth_error anc i) as [a|] eqn:Ea. 2:{ apply nth_error_None in Ea. assert (i < length ls)%nat by (apply nth_error_Some; congruence). lia. }
    pose proof (take_nth _ _ _ Hls i a Ea) as E3. rewrite E1 in E3. symmetry in E3. destruct (lines_end _ _ _ _ E3) as (x1 & past & E4 & ->).
    pose proof (take_nth _ _ _ Hpt i a Ea) as E5. rewrite E2, E4 in E5. injection E5 as ->. eauto. }
  exists s', fl, (r, vs), anc, ls. split; [exact H|]. split.
  { constructor; auto.
    - destruct (book_forward mdl g _ _ _ _ _ _ _ _ B H) as [B' _]. eauto.
    - intros pre2 st2 E2. rewrite Ht in E2. apply app_inj_tail in E2. destruct E2 as [_ <-]. cbn [st_pa]. eauto. }
  split; [unfold now; rewrite Ht, !app_length; simpl; lia|]. split; [exact Hfl|]. split; [exact Hls|]. split; [exact Lls|].
  split.
  { intros E. destruct (HB E) as (_ & Ea & _). rewrite Ea in Hls. rewrite <- Lli in Hls. rewrite take_seq in Hls. congruence. }
  split; [exact Hs|].
  intros psi. rewrite (line_mean_snoc s' (pre ++ [old]) _ psi Ht). unfold lmean. cbn [st_pa]. rewrite <- Ht.
  set (hs := map psi (lines (pt_traj s'))).
  assert (Lnl : length (lines (pt_traj s')) = N) by (rewrite Ht; apply lines_length; exact Nwf).
  assert (Lhs : length hs = N) by (unfold hs; rewrite map_length; exact Lnl).
  replace (rsum (map (fun hw => lin (snd hw) * psi (fst hw)) (combine (lines (pt_traj s')) (lw pa)))) with (rsum (map (fun hw => lin (snd hw) * fst hw) (combine hs (lw pa)))).
  2:{ apply rsum_nth; [rewrite !combine_length; unfold hs; rewrite map_length; reflexivity|]. intros i [a q] [l' q'] H1 H2.
      apply nth_error_combine in H1, H2. destruct H1 as [A1 A2], H2 as [B1 B2]. rewrite A2 in B2. injection B2 as ->.
      unfold hs in A1. rewrite nth_error_map, B1 in A1. injection A1 as <-. reflexivity. }
  unfold fwd_factor. rewrite Ht. rewrite !rev_app_distr. cbn [rev app st_pa].
  set (D := if fl then 1 else total (lw (st_pa old))).
  match goal with |- mass pa / D * ?t = _ => transitivity (mass pa * t / D); [unfold Rdiv; ring|] end.
  rewrite (reweighted_values (mkPA moved (lw pa1) (num pa1) (woff pa1)) pa (cell_of y) (length pre + 1) 0 hs); cbn [lw part woff]; auto;
    [|rewrite El; auto|rewrite El; lia|rewrite El; lia].
  rewrite exp_0, Rmult_1_l. unfold Rdiv. rewrite Rmult_comm, <- rsum_map_scale.
  cbv zeta. set (xs := combine ls (prior_lw fl N (lw (st_pa old)))).
  assert (Lx : length xs = N) by (unfold xs; rewrite combine_length; lia).
  apply rsum_nth; [rewrite !combine_length, seq_length, El; lia|].
  intros i [[x1 q1] h1] [j [l2 q2]] H1 H2. apply nth_error_combine in H1, H2. destruct H1 as [H1 Hh], H2 as [J H2].
  apply nth_error_combine in H1, H2. destruct H1 as [X1 Q1], H2 as [X2 Q2]. apply nth_error_seq0 in J. destruct J as [-> _].
  rewrite El, Q2 in Q1. injection Q1 as <-. pose proof (LN i l2 x1 X2 X1) as E1.
  unfold hs in Hh. rewrite nth_error_map, E1 in Hh. injection Hh as <-.
  unfold moved in X1. rewrite nth_error_map in X1.
  destruct (nth_error (combine (seq 0 (length (part pa1))) (part pa1)) i) as [[j x]|] eqn:E; [|discriminate].
  apply nth_error_combine in E. destruct E as [J X]. apply nth_error_seq0 in J. destruct J as [-> _]. cbn in X1. injection X1 as <-.
  destruct (LP i l2 x X2 X) as [past ->]. cbn [fst snd]. unfold share, lgain, D. rewrite rev_app_distr. cbn [rev app]. unfold Rdiv. ring.
Qed.

Lemma meas_call thr s pre old y w : ready thr s -> start s pre old ->
  exists s', pt_measure mdl s y w = Ok (s', w) /\ ready thr s' /\ now s' = length pre /\
    forall psi, meas_factor s s' * line_mean x0 s' psi =
      lmean pre old (fun path => match rev path with x :: _ => exp (ll m x (cell_of y) (length pre)) * psi path | [] => 0 end).
Proof.
  intros Hrd Hst. destruct (rd_book x0 _ _ Hrd) as [l B].
  assert (T : exists s' w', pt_measure mdl s y w = Ok (s', w') /\ pt_N s' = N /\ pt_f s' = pt_f s /\ traj_wf N (pt_traj s')).
  { assert (Q1 : filter_ready (pt_f s) (length (snd (ledger_step (using_pfy (pt_f s)) l (Meas y))))) by (rewrite (rd_f x0 _ _ Hrd); exact I).
    destruct (pt_measure_total mdl N HN (ssm_total m x0 dv HN) s l y (rd_N x0 _ _ Hrd) B (rd_wf x0 _ _ Hrd) Q1 w) as (s' & w' & H & EN' & Ef' & Hwf').
    exists s', w'. auto. }
  destruct T as (s' & w' & H & EN' & Ef' & Hwf'). rewrite (rd_f x0 _ _ Hrd) in Ef'.
  destruct (book_measure mdl _ _ _ _ _ _ B H) as [B' _].
  pose proof (start_wf x0 _ _ _ _ Hrd Hst) as Fwf. pose proof (old_wf _ _ _ Fwf) as Owf.
  destruct (start_live x0 HN _ _ _ _ Hrd Hst) as [Hl [o Ho]].
  assert (X : w' = w /\ exists pa, pt_traj s' = pre ++ [mkStep pa (st_anc old)] /\
     add_weights (st_pa old) (map (fun x => Fin (ll m x (cell_of y) (length pre))) (part (st_pa old))) = Ok pa).
  { clear Ef' EN' Hwf' B'. unfold pt_measure in H. rewrite if4 in H. cbv beta iota zeta in H. rewrite (rd_f x0 _ _ Hrd), (rd_N x0 _ _ Hrd) in H.
    cbn [using_pfy] in H. apply bind_ok in H. destruct H as ([tr ind] & w0 & H0 & H).
    assert (E0 : tr = pre ++ [old] /\ ind = length pre /\ w0 = w).
    { destruct Hst as [E|(E & -> & ->)]; rewrite E in H0.
      - destruct l as [us ys]. destruct B as (B1 & B2 & _). rewrite E, app_length in B1. simpl in B1.
        assert (Ei : pt_ind1 s = S (length pre)) by lia. rewrite Ei in H0. destruct (pre ++ [old]) eqn:Ea; [destruct pre; discriminate|].
        apply ret_ok in H0. inversion H0; auto.
      - apply bind_ok in H0. destruct H0 as (st & w2 & H0 & H1). rewrite (initial_call m x0 dv HN) in H0. inversion H0; subst. apply ret_ok in H1. inversion H1; subst; auto. }
    destruct E0 as (-> & -> & ->).
    apply bind_ok in H; destruct H as (yv & wa & Hy & H); apply lift_ok in Hy; destruct Hy as (yv' & Hy & Ey); inversion Ey; subst yv' wa; clear Ey.
    apply bind_ok in H; destruct H as (tv & wa & Htv & H); apply lift_ok in Htv; destruct Htv as (tv' & Htv & Et); inversion Et; subst tv' wa; clear Et.
    rewrite idx_last_app in H. unfold lift in H at 1. unfold bind in H at 1.
    apply bind_ok in H; destruct H as (pa & w1 & Hme & H).
    apply bind_ok in H; destruct H as (tr' & wa & Hup & H); apply lift_ok in Hup; destruct Hup as (tr'' & Hup & Et); inversion Et; subst tr'' wa; clear Et.
    apply ret_ok in H. inversion H; subst; clear H. cbn [pt_traj].
    pose proof (upd_nth _ _ _ _ Hy (length pre)) as Ny. pose proof (upd_nth _ _ _ _ Htv (length pre)) as Nt.
    rewrite Nat.eqb_refl in Ny, Nt.
    unfold pf_measure in Hme. cbn [full_of_basic m_measure] in Hme. unfold def_measure in Hme.
    rewrite (idx_last_firstn _ _ _ Ny), (idx_last_firstn _ _ _ Nt) in Hme. cbn in Hme. unfold bind, lift, ret in Hme. cbn [fst snd] in Hme.
    assert (Eup : tr' = pre ++ [mkStep pa (st_anc old)]).
    { unfold upd_last in Hup. rewrite removelast_last in Hup. destruct (pre ++ [old]) eqn:E; [destruct pre; discriminate|]. inversion Hup; auto. }
    subst tr'. 
    destruct (add_weights _ _) eqn:Ea in Hme; [|discriminate]. inversion Hme; subst; clear Hme. split; [reflexivity|]. exists pa. split; [reflexivity|].
    rewrite <- Ea. destruct (st_pa old); reflexivity. }
  destruct X as (-> & pa & Ht & Ha).
  assert (Lo : length (part (st_pa old)) = length (lw (st_pa old))) by (destruct Owf as (-> & -> & _); reflexivity).
  exists s'. split; [exact H|].
  destruct (reweighted_each (st_pa old) pa (cell_of y) (length pre) o Hl Lo Ho Ha) as (Epa & Hl' & Llw & o' & Ho' & _).
  split.
  { constructor; auto; [eauto|]. intros pre2 st2 E2. rewrite Ht in E2. apply app_inj_tail in E2. destruct E2 as [_ <-]. cbn [st_pa]. eauto. }
  split; [unfold now; rewrite Ht, app_length; simpl; lia|].
  intros psi. rewrite (line_mean_snoc s' pre _ psi Ht). unfold lmean at 1. cbn [st_pa].
  assert (Ell : lines (pre ++ [mkStep pa (st_anc old)]) = lines (pre ++ [old])) by (rewrite !lines_snoc; cbn [st_pa st_anc]; rewrite Epa; reflexivity).
  rewrite Ell. set (hs := map psi (lines (pre ++ [old]))).
  pose proof (lines_length N pre old Owf) as Lli. destruct Owf as (O1 & O2 & _).
  assert (Lhs : length hs = N) by (unfold hs; rewrite map_length; exact Lli).
  replace (rsum (map (fun hw => lin (snd hw) * psi (fst hw)) (combine (lines (pre ++ [old])) (lw pa)))) with (rsum (map (fun hw => lin (snd hw) * fst hw) (combine hs (lw pa)))).
  2:{ apply rsum_nth; [rewrite !combine_length; unfold hs; rewrite map_length; reflexivity|]. intros i [a q] [l' q'] H1 H2.
      apply nth_error_combine in H1, H2. destruct H1 as [A1 A2], H2 as [B1 B2]. rewrite A2 in B2. injection B2 as ->.
      unfold hs in A1. rewrite nth_error_map, B1 in A1. injection A1 as <-. reflexivity. }
  unfold meas_factor. rewrite <- (start_mass x0 HN s pre old Hst). rewrite Ht, rev_app_distr. cbn [rev app st_pa].
  pose proof (live_total _ Hl) as Tp.
  match goal with |- mass pa / ?M * ?t = _ => transitivity (mass pa * t / M); [unfold Rdiv; ring|] end.
  rewrite (reweighted_values (st_pa old) pa (cell_of y) (length pre) o hs Hl Lo Ho) by (auto; lia).
  unfold mass. rewrite Ho. cbn [lin]. unfold lmean. pose proof (exp_pos o) as Po.
  match goal with |- exp o * ?A / (total ?l * exp o) = ?B / total ?l => replace (exp o * A / (total l * exp o)) with (A / total l) by (field; split; lra) end.
  f_equal. apply rsum_nth; [rewrite !combine_length; lia|].
  intros i [[x q] h1] [l2 q2] H1 H2. apply nth_error_combine in H1, H2. destruct H1 as [H1 Hh], H2 as [X2 Q2].
  apply nth_error_combine in H1. destruct H1 as [X1 Q1]. rewrite Q1 in Q2. injection Q2 as <-.
  unfold hs in Hh. rewrite nth_error_map, X2 in Hh. injection Hh as <-.
  destruct (lines_end _ _ _ _ X2) as (x' & past & E' & ->). rewrite X1 in E'. injection E' as <-. cbn [fst snd]. rewrite rev_app_distr. reflexivity.
Qed.

(** Average over the noises of one forward call, for a fixed uniform number. *)
Definition lstep_mean u y k (psi : list P -> R) (path : list P) : R := noise (lgain u y k psi path).

Lemma fwd_iid thr s pre old u y r (F : ptraj P U Y -> bool -> R) psi : ready thr s -> start s pre old -> 0 < r < 1 ->
  (forall s' fl, ready thr s' -> now s' = (length pre + 1)%nat -> F s' fl = fwd_factor s' fl * line_mean x0 s' psi) ->
  exists fl anc ls,
    (fl = true <-> 0 < thr /\ ess (map lin (lw (st_pa old))) < thr * INR N) /\
    take (lines (pre ++ [old])) anc = Ok ls /\ length ls = N /\ (fl = false -> ls = lines (pre ++ [old])) /\
    (fl = true -> np_sample (map Fin (map lin (lw (st_pa old)))) N r = Ok anc) /\
    fwd_outcome m noise x0 dv s u y F r =
      rsum (map (fun xq => share fl old (snd xq) * lstep_mean u y (length pre) psi (fst xq)) (combine ls (prior_lw fl N (lw (st_pa old))))).
Proof.
  intros Hrd Hst Hr HF.
  destruct (fwd_call thr s pre old u y r [] Hrd Hst) as (s0 & fl & w0 & anc & parts & _ & _ & _ & Hfl & Htk & Lp & Hnf & Hsm & _).
  exists fl, anc, parts. split; auto. split; auto. split; auto. split; auto. split; auto.
  unfold fwd_outcome. set (xs := combine parts (prior_lw fl N (lw (st_pa old)))).
  assert (Owf : step_wf N old) by (eapply old_wf; eapply (start_wf x0); eauto).
  assert (Lx : length xs = N) by (unfold xs; rewrite combine_length, prior_length; [lia|apply Owf]).
  transitivity (rsum (map (fun x : list P * xr => noise (fun v => share fl old (snd x) * lgain u y (length pre) psi (fst x) v)) xs)).
  2:{ apply rsum_ext. intros x _. unfold lstep_mean. apply (av_scale noise Hav). }
  rewrite <- (iid_sum noise Hav xs dv (fun x v => share fl old (snd x) * lgain u y (length pre) psi (fst x) v)).
  rewrite Lx. apply (av_ext _ (iid_average noise Hav N)). intros vs.
  destruct (fwd_call thr s pre old u y r vs Hrd Hst) as (s1 & fl1 & w1 & anc1 & parts1 & Hc & Hrd1 & Hn1 & Hfl1 & Htk1 & Lp1 & Hnf1 & Hsm1 & Hv).
  rewrite Hc, (HF s1 fl1 Hrd1 Hn1), Hv. cbv zeta.
  assert (fl1 = fl) by (apply Bool.eq_iff_eq_true; rewrite Hfl, Hfl1; reflexivity). subst fl1.
  assert (parts1 = parts).
  { destruct fl; [|rewrite Hnf, Hnf1; auto]. specialize (Hsm eq_refl Hr). specialize (Hsm1 eq_refl Hr). congruence. }
  subst parts1. fold xs. rewrite Lx. reflexivity.
Qed.

(** Average over the uniform number as well. *)
Lemma fwd_average thr s pre old u y (F : ptraj P U Y -> bool -> R) psi : ready thr s -> start s pre old ->
  (forall s' fl, ready thr s' -> now s' = (length pre + 1)%nat -> F s' fl = fwd_factor s' fl * line_mean x0 s' psi) ->
  is_RInt (fwd_outcome m noise x0 dv s u y F) 0 1 (lmean pre old (lstep_mean u y (length pre) psi)).
Proof.
  intros Hrd Hst HF. set (h := lstep_mean u y (length pre) psi).
  assert (Owf : step_wf N old) by (eapply old_wf; eapply (start_wf x0); eauto). destruct Owf as (O1 & O2 & O3 & _).
  assert (Owf : step_wf N old) by (eapply old_wf; eapply (start_wf x0); eauto). pose proof (lines_length N pre old Owf) as Lli. clear Owf.
  destruct (start_live x0 HN _ _ _ _ Hrd Hst) as [Hl _]. pose proof (live_total _ Hl) as Tp.
  assert (Dec : {0 < thr /\ ess (map lin (lw (st_pa old))) < thr * INR N} + {~ (0 < thr /\ ess (map lin (lw (st_pa old))) < thr * INR N)}).
  { destruct (Rlt_dec 0 thr); [|right; tauto]. destruct (Rlt_dec (ess (map lin (lw (st_pa old)))) (thr * INR N)); [left|right]; tauto. }
  assert (HNR : 0 < INR N) by (apply lt_0_INR; exact HN).
  destruct Dec as [Hy|Hn].
  - (* resampling *)
    set (c := fun j => match nth_error (lines (pre ++ [old])) j with Some x => h x / INR N | None => 0 end).
    pose proof (resample_average (map lin (lw (st_pa old))) c) as Q.
    assert (Hok : weights_ok (map lin (lw (st_pa old)))) by (apply weights_ok_lin; exact Hl).
    specialize (Q Hok). rewrite map_length, O2 in Q.
    replace (lmean pre old h) with (INR N * rsum (map (fun j => nth j (map lin (lw (st_pa old))) 0 / rsum (map lin (lw (st_pa old))) * c j) (seq 0 N))).
    + eapply is_RInt_ext; [|exact Q]. intros r Hr. rewrite Rmin_left, Rmax_right in Hr by lra. cbv beta.
      destruct (fwd_iid thr s pre old u y r F psi Hrd Hst Hr HF) as (fl & anc & parts & Hfl & Htk & Lp & _ & Hsm & Hv).
      rewrite Hv. assert (fl = true) by (apply Hfl; exact Hy). subst fl. rewrite (Hsm eq_refl).
      apply rsum_nth.
      * rewrite combine_length, prior_length by exact O2. apply take_length in Htk. lia.
      * intros i a [x q] Ha Hx. apply nth_error_combine in Hx. destruct Hx as [Hx Hq]. cbn [prior_lw] in Hq. apply nth_error_In in Hq.
        apply repeat_spec in Hq. subst q. pose proof (take_nth _ _ _ Htk i a Ha) as E1.
        rewrite Hx in E1. unfold c. rewrite <- E1. unfold share. cbn [fst snd lin].
        rewrite exp_Ropp, exp_ln by exact HNR. fold h. field. lra.
    + unfold lmean. fold (total (lw (st_pa old))). rewrite <- rsum_map_scale. unfold Rdiv. rewrite Rmult_comm, <- rsum_map_scale.
      apply rsum_nth; [rewrite combine_length, seq_length; lia|]. intros i j [x q] Hj Hx. apply nth_error_seq0 in Hj. destruct Hj as [-> _].
      apply nth_error_combine in Hx. destruct Hx as [Hx Hq]. unfold c. rewrite Hx. cbn [fst snd].
      assert (E : nth_error (map lin (lw (st_pa old))) i = Some (lin q)) by (rewrite nth_error_map, Hq; reflexivity).
      rewrite (nth_error_nth _ _ _ E). field. lra.
  - (* no resampling *)
    pose proof (is_RInt_const 0 1 (lmean pre old h)) as Q. unfold scal in Q. simpl in Q. unfold mult in Q. simpl in Q.
    rewrite Rminus_0_r, Rmult_1_l in Q. eapply is_RInt_ext; [|exact Q]. intros r Hr. rewrite Rmin_left, Rmax_right in Hr by lra. cbv beta.
    destruct (fwd_iid thr s pre old u y r F psi Hrd Hst Hr HF) as (fl & anc & parts & Hfl & Htk & Lp & Hnf & _ & Hv).
    rewrite Hv. assert (fl = false) by (destruct fl; auto; exfalso; apply Hn; apply Hfl; auto). subst fl. rewrite (Hnf eq_refl). cbn [prior_lw].
    unfold lmean. unfold Rdiv. rewrite Rmult_comm, <- rsum_map_scale. apply rsum_ext. intros [x q] _. unfold share. cbn [fst snd]. fold h. unfold Rdiv. ring.
Qed.


(** ** All the calls of a history *)
Lemma lmean_ext pre old f h : Forall (step_wf N) (pre ++ [old]) -> (forall past x, f (past ++ [x]) = h (past ++ [x])) -> lmean pre old f = lmean pre old h.
Proof.
  intros Hw E. unfold lmean. f_equal. apply rsum_ext. intros [l q] Hin. apply in_combine_l, In_nth_error in Hin. destruct Hin as [i Hi].
  destruct (lines_end _ _ _ _ Hi) as (x & past & _ & ->). cbn [fst snd]. rewrite E. reflexivity.
Qed.

Lemma line_estimate_mean thr phi ops : forall s, ready thr s -> line_estimate m noise x0 dv ops s phi = line_mean x0 s (path_future m noise (now s) ops phi).
Proof.
  induction ops as [|[u y|y] ops IH]; intros s Hrd; cbn [line_estimate].
  - destruct (start_ex x0 _ _ Hrd) as (pre & old & Hst). reflexivity.
  - destruct (start_ex x0 _ _ Hrd) as (pre & old & Hst). rewrite (start_now x0 HN _ _ _ Hst), (line_mean_start _ _ _ _ Hst).
    transitivity (lmean pre old (lstep_mean u y (length pre) (path_future m noise (length pre + 1) ops phi))).
    + apply is_RInt_unique. apply (fwd_average thr s pre old u y _ (path_future m noise (length pre + 1) ops phi) Hrd Hst).
      intros s' fl Hrd' Hn. rewrite (IH s' Hrd'), Hn. reflexivity.
    + apply lmean_ext; [apply (start_wf x0 _ _ _ _ Hrd Hst)|]. intros past x. unfold lstep_mean, lgain. cbn [path_future]. rewrite rev_app_distr. reflexivity.
  - destruct (start_ex x0 _ _ Hrd) as (pre & old & Hst). rewrite (start_now x0 HN _ _ _ Hst), (line_mean_start _ _ _ _ Hst).
    destruct (meas_call thr s pre old y (0, []) Hrd Hst) as (s' & Hc & Hrd' & Hn & Hv). rewrite Hc, (IH s' Hrd'), Hn, Hv. 
    apply lmean_ext; [apply (start_wf x0 _ _ _ _ Hrd Hst)|]. intros past x. cbn [path_future]. rewrite rev_app_distr. reflexivity.
Qed.

Lemma line_integrable thr phi u y ops s : ready thr s ->
  ex_RInt (fwd_outcome m noise x0 dv s u y (fun s' resampled => fwd_factor s' resampled * line_estimate m noise x0 dv ops s' phi)) 0 1.
Proof.
  intros Hrd. destruct (start_ex x0 _ _ Hrd) as (pre & old & Hst). eexists.
  apply (fwd_average thr s pre old u y _ (path_future m noise (length pre + 1) ops phi) Hrd Hst).
  intros s' fl Hrd' Hn. rewrite (line_estimate_mean thr phi ops s' Hrd'), Hn. reflexivity.
Qed.
End Step.
