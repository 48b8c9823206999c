(** Proofs for C87: the auxiliary particle filter is properly weighted. *)
From Coquelicot Require Import Coquelicot.
From Coq Require Import ZArith String Reals Lra Lia List Arith.
From Verif Require Import Base XR SampleModel SampleSpec SampleProofs PAModel WeightSpec WeightProofs
  FilterModel TrajModel FilterSpec FilterProofs TrajProofs FilterTotal Prop_Sample Prop_Weights FilterSem Prop_Law Prop_Filter EvidenceSpec Evidence ApfSpec.
Import ListNotations.
Open Scope R_scope.

Section Step.
Context {P U Y V : Type}.
Variables (m : ssm P U Y V) (l1 : P -> cell U -> cell Y -> nat -> R) (noise : (V -> R) -> R) (x0 : list P) (dv : V).
Hypothesis Hav : average noise.
Hypothesis HN : (0 < length x0)%nat.
Notation N := (length x0).
Notation bm := (apf_model m l1 x0 dv).
Notation mdl := (full_of_basic bm).
Notation g := (call_rng (V := V)).
Notation first_step := (first_step x0).
Notation start := (@start P U Y x0).
Notation gain := (gain m).

Ltac run_ret := match goal with |- runs _ _ => apply runs_ret end.
Lemma apf_total : total_ok N mdl.
Proof.
  constructor; cbn [m_create m_copy m_copy_all m_noise m_update m_measure m_xnext1 m_stage1 m_qsample m_logp_q m_logp_xnext m_meas1 m_propose_y full_of_basic
    b_create b_noise b_update b_measure b_xnext b_stage1 b_qsample b_logp_q b_propose_y apf_model]; intros.
  - rewrite Nat.eqb_refl. apply runs_ret. reflexivity.
  - unfold def_copy. apply runs_lift. destruct (take_ok p i) as [q E]; [rewrite H; auto|]. exists q. split; auto. apply take_length in E. lia.
  - apply runs_ret. auto.
  - unfold def_noise. destruct (exists_last H) as (tr' & st & ->). eapply runs_lift_bind; [apply idx_last_app|].
    apply Forall_app in H0. destruct H0 as [_ H0]. inversion H0; subst. destruct H6 as (L & _).
    destruct (take_ok (part (st_pa st)) a) as [q E]; [rewrite L; auto|]. eapply runs_lift_bind; [exact E|].
    destruct (exists_last H2) as (u' & x & ->). eapply runs_lift_bind; [apply idx_last_app|].
    destruct (exists_last H3) as (t' & z & ->). eapply runs_lift_bind; [apply idx_last_app|].
    intros w. cbn. eauto.
  - unfold def_update. destruct (exists_last H0) as (u' & x & ->). eapply runs_lift_bind; [apply idx_last_app|].
    destruct (exists_last H1) as (t' & z & ->). eapply runs_lift_bind; [apply idx_last_app|].
    apply runs_ret. rewrite map_length, combine_length, seq_length. lia.
  - unfold def_measure. destruct (exists_last H0) as (u' & x & ->). eapply runs_lift_bind; [apply idx_last_app|].
    destruct (exists_last H1) as (t' & z & ->). eapply runs_lift_bind; [apply idx_last_app|].
    apply runs_ret. cbn. rewrite map_length. auto.
  - unfold def_xnext1. destruct (take_ok fp fi) as [q E]; [auto|]. eapply runs_lift_bind; [exact E|].
    destruct (idx_lt u k) as [x Ex]; [auto|]. eapply runs_lift_bind; [exact Ex|].
    destruct (idx_lt t k) as [z Ez]; [auto|]. eapply runs_lift_bind; [exact Ez|].
    apply runs_ret. rewrite map_length. auto.
  - apply runs_ret. rewrite map_length. auto.
  - apply runs_ret. auto.
  - apply runs_ret. rewrite map_length. auto.
  - apply runs_ret. rewrite map_length. auto.
  - apply runs_ret. cbn. rewrite map_length. auto.
  - rewrite Nat.eqb_refl. apply runs_ret. reflexivity.
Qed.

Lemma apf_shape : shape_ok mdl.
Proof.
  constructor; cbn [m_create m_copy m_copy_all m_noise m_update m_measure m_xnext1 m_stage1 m_qsample m_logp_q m_logp_xnext m_meas1 m_propose_y full_of_basic
    b_create b_noise b_update b_measure b_xnext b_stage1 b_qsample b_logp_q b_propose_y apf_model]; intros.
  - destruct (Nat.eqb_spec N n); [|discriminate]. apply ret_ok in H. inversion H; subst; auto.
  - unfold def_copy in H. apply lift_ok in H. destruct H as (q & E & H). inversion H; subst. apply take_length in E. auto.
  - apply ret_ok in H. inversion H; subst; auto.
  - unfold def_update in H. minv H. cbn in H. inversion H; subst. rewrite map_length, combine_length, seq_length. lia.
  - unfold def_measure in H. minv H. cbn in H. inversion H; subst. rewrite map_length. auto.
  - unfold def_xnext1 in H. minv H. cbn in H. inversion H; subst. rewrite map_length. auto.
  - apply ret_ok in H. inversion H; subst. rewrite map_length; auto.
  - apply ret_ok in H. inversion H; subst. auto.
  - apply ret_ok in H. inversion H; subst. rewrite map_length; auto.
  - apply ret_ok in H. inversion H; subst. rewrite map_length; auto.
  - apply ret_ok in H. inversion H; subst. rewrite map_length; auto.
  - destruct (Nat.eqb_spec N n); [|discriminate]. apply ret_ok in H. inversion H; subst; auto.
Qed.

Lemma apf_initial thr w : initial_step mdl (FAPF thr) N w = Ok (first_step, w).
Proof.
  unfold initial_step. cbn [create_initial full_of_basic m_create b_create apf_model]. rewrite Nat.eqb_refl. unfold bind, ret, lift.
  assert (E : pa_init x0 None = Ok (mkPA x0 (repeat (Fin (- ln (INR N))) N) N (Fin 0))).
  { unfold pa_init. destruct x0; [simpl in HN; lia|reflexivity]. }
  rewrite E. reflexivity.
Qed.

(** What is known about a state of the filter between calls. *)
Record ready (thr : R) (s : ptraj P U Y) : Prop := {
  rd_N : pt_N s = N; rd_f : pt_f s = FAPF thr; rd_book : exists l, book s l; rd_wf : traj_wf N (pt_traj s);
  rd_last : forall pre st, pt_traj s = pre ++ [st] -> live (lw (st_pa st)) /\ exists o, woff (st_pa st) = Fin o }.

Lemma start_live thr s pre old : ready thr s -> start s pre old -> live (lw (st_pa old)) /\ exists o, woff (st_pa old) = Fin o.
Proof. intros H [E|(_ & _ & ->)]; [apply (rd_last _ _ H _ _ E)|]. split; [apply (first_live x0 HN)|]. exists 0. reflexivity. Qed.
Lemma start_wf thr s pre old : ready thr s -> start s pre old -> Forall (step_wf N) (pre ++ [old]).
Proof.
  intros H [E|(_ & -> & ->)]; [rewrite <- E; apply (rd_wf _ _ H)|]. constructor; [|constructor].
  repeat split; simpl; rewrite ?repeat_length, ?seq_length; auto. apply seq_range.
Qed.
(** ** The weights *)

(** Old weights times first stage weights: what the filter resamples with. *)
Definition tilted (old : tstep P) (u : option U) (y : option Y) (k : nat) : list R :=
  map (fun xw => lin (snd xw) * exp (l1 (fst xw) (cell_of u) (cell_of y) k)) (combine (part (st_pa old)) (lw (st_pa old))).

(** The coefficient of one particle (its parent [fst xq], the old weight [snd xq] at its index). *)
Definition tshare (fl : bool) (old : tstep P) u y k (xq : P * xr) : R :=
  if fl then wmean (st_pa old) (fun x => exp (l1 x (cell_of u) (cell_of y) k)) / INR N / exp (l1 (fst xq) (cell_of u) (cell_of y) k)
  else lin (snd xq) / total (lw (st_pa old)).

Lemma tilt_eq (f : P -> R) ps ws :
  map (fun ab => lin (fst ab) * lin (snd ab)) (combine ws (map (fun x => Fin (f x)) ps)) = map (fun xw => lin (snd xw) * exp (f (fst xw))) (combine ps ws).
Proof. revert ps. induction ws as [|w ws IH]; intros [|p ps]; simpl; auto. f_equal. apply IH. Qed.

(** Weights proportional to [d]. *)
Lemma prop_wmean (pa : papprox P) d c psi : 0 < c -> length (part pa) = length (lw pa) -> length d = length (lw pa) -> 0 < total (lw pa) ->
  (forall i q z, nth_error (lw pa) i = Some q -> nth_error d i = Some z -> lin q = c * z) ->
  rsum d * wmean pa psi = rsum (map (fun xz => snd xz * psi (fst xz)) (combine (part pa) d)).
Proof.
  intros Hc L1 L2 Hp H. unfold wmean.
  assert (Et : total (lw pa) = c * rsum d).
  { unfold total. rewrite <- (map_id d). rewrite <- rsum_map_scale. apply rsum_nth; auto. }
  assert (Es : rsum (map (fun xw => lin (snd xw) * psi (fst xw)) (combine (part pa) (lw pa))) = c * rsum (map (fun xz => snd xz * psi (fst xz)) (combine (part pa) d))).
  { rewrite <- rsum_map_scale. apply rsum_nth; [rewrite !combine_length; lia|]. intros i [x q] [x' z] A B.
    apply nth_error_combine in A, B. destruct A as [A1 A2], B as [B1 B2]. rewrite A1 in B1. injection B1 as <-. cbn [fst snd].
    rewrite (H i q z A2 B2). ring. }
  rewrite Es, Et in *. assert (rsum d <> 0) by (intros E; rewrite E in Hp; lra). field. lra.
Qed.

Lemma fwd_call thr s pre old u y0 r vs : ready thr s -> start s pre old ->
  let y := Some y0 in
  exists s' fl w' parts anc,
    pt_forward mdl g s u y (r, vs) = Ok ((s', fl), w') /\ ready thr s' /\ now s' = (length pre + 1)%nat /\
    (fl = true <-> 0 < thr /\ ess (tilted old u y (length pre)) < thr * INR N) /\
    take (part (st_pa old)) anc = Ok parts /\ length parts = N /\ (fl = false -> parts = part (st_pa old)) /\
    (fl = true -> 0 < r < 1 -> np_sample (map Fin (tilted old u y (length pre))) N r = Ok anc) /\
    forall psi, apf_factor m l1 u y s' fl * current x0 s' psi =
      let xs := combine parts (lw (st_pa old)) in
      rsum (map (fun ix => tshare fl old u y (length pre) (snd ix) * gain u y (length pre) psi (fst (snd ix)) (nth (fst ix) vs dv))
        (combine (seq 0 (length xs)) xs)).
Proof.
  intros Hrd Hst y. pose proof (call_rng_ok (V := V)) as Hg. destruct (rd_book _ _ Hrd) as [l B].
  assert (T : exists s' fl w', pt_forward mdl g s u y (r, vs) = Ok ((s', fl), w') /\ pt_N s' = N /\ pt_f s' = pt_f s /\ traj_wf N (pt_traj s')).
  { assert (Q1 : filter_ready (pt_f s) (length (snd (ledger_step (using_pfy (pt_f s)) l (Fwd u y))))) by (rewrite (rd_f _ _ Hrd); exact I).
    assert (Q2 : op_ready (pt_f s) (Fwd u y)) by (rewrite (rd_f _ _ Hrd); exact I).
    destruct (pt_forward_total mdl g Hg N HN apf_total s l u y (rd_N _ _ Hrd) B (rd_wf _ _ Hrd) Q1 Q2 (r, vs)) as ([s' fl] & w' & H & EN' & Ef' & Hwf').
    exists s', fl, w'. auto. }
  destruct T as (s' & fl & w' & H & EN' & Ef' & Hwf').
  destruct (pt_forward_inv mdl g s s' l u y fl _ w' B H) as (tr & uv & yv & tv & w1 & pa & anc & k & Htr & Lk & Hff & Ht & Nu & Ny & Nt & Nt1 & _).
  rewrite (rd_f _ _ Hrd), (rd_N _ _ Hrd) in *.
  assert (X : tr = pre ++ [old] /\ w1 = (r, vs)).
  { destruct Htr as [(Hne & -> & ->)|(E & st0 & Hi & ->)].
    - destruct Hst as [E|(E & _)]; [auto|congruence].
    - rewrite apf_initial in Hi. inversion Hi; subst. destruct Hst as [E'|(_ & -> & ->)]; [rewrite E in E'; destruct pre; discriminate|auto]. }
  destruct X as [-> ->]. assert (k = length pre) by (rewrite app_length in Lk; simpl in Lk; lia). subst k. clear Htr Lk.
  pose proof (start_wf _ _ _ _ Hrd Hst) as Fwf. pose proof (old_wf _ _ _ Fwf) as Owf. destruct Owf as (O1 & O2 & O3 & _).
  destruct (start_live _ _ _ _ Hrd Hst) as [Hl _]. pose proof (live_total _ Hl) as Tp.
  assert (HNr : 0 < INR N) by (apply lt_0_INR; exact HN).
  cbn [filter_forward] in Hff.
  destruct (apf_forward_sem mdl g _ _ _ _ _ _ _ pre old _ _ _ _ _ _ _ _ Fwf eq_refl Nu Ny Nt Hff)
    as (_ & lam & w0 & wa & ma & pa1 & w2 & la & v & w3 & p & w4 & p' & lls & pa2 & wf & mf &
        Hs1 & Hwa & Hma & Hc & Hn & Hu & Hme & Ha & Hwf & Hmf & Enew).
  cbn [full_of_basic m_stage1 b_stage1 apf_model] in Hs1. apply ret_ok in Hs1. inversion Hs1; subst lam w0; clear Hs1.
  set (k := length pre) in *. set (lam := fun x : P => l1 x (cell_of u) (cell_of y) k) in *.
  change (map (fun x => Fin (l1 x (cell_of u) (cell_of y) k)) (part (st_pa old))) with (map (fun x => Fin (lam x)) (part (st_pa old))) in *.
  set (lams := map (fun x => Fin (lam x)) (part (st_pa old))) in *.
  assert (Glam : Forall logish lams) by (apply Forall_forall; intros x Hx; apply in_map_iff in Hx; destruct Hx as (z & <- & _); exact I).
  assert (Hsv : survivor (lw (st_pa old)) lams).
  { destruct Hl as [_ [q Hq]]. apply In_nth_error in Hq. destruct Hq as [i Hi].
    destruct (nth_error (part (st_pa old)) i) as [x|] eqn:Ex.
    2:{ apply nth_error_None in Ex. assert (i < length (lw (st_pa old)))%nat by (apply nth_error_Some; congruence). lia. }
    exists i, q, (lam x). split; auto. unfold lams. rewrite nth_error_map, Ex. reflexivity. }
  pose proof (survivor_live _ _ _ (proj1 Hl) Glam Hsv Hwa) as Lwa.
  assert (Etil : map lin wa = tilted old u y k) by (rewrite (zipw_lin_prod _ _ _ (proj1 Hl) Glam Hwa); apply tilt_eq).
  destruct (live_max _ Lwa) as (mx & Em & _). rewrite Em in Hma. inversion Hma; subst ma; clear Hma.
  set (sh := map (fun x => xsub x (Fin mx)) wa) in *.
  assert (Lsh : live sh) by (unfold sh; replace (map (fun x => xsub x (Fin mx)) wa) with (map (fun x => xadd x (Fin (- mx))) wa) by reflexivity; apply live_shift; auto).
  destruct (zipw_length _ _ _ _ Hwa) as [Lwl _]. rewrite O2 in Lwl.
  assert (Lshl : length sh = N) by (unfold sh; rewrite map_length; lia).
  assert (HW : 0 < wmean (st_pa old) (fun x => exp (lam x))).
  { pose proof (live_total _ Lwa) as Q. unfold total in Q. rewrite Etil in Q. unfold wmean. apply Rdiv_lt_0_compat; [|exact Tp]. exact Q. }
  cbv zeta in Hc. destruct Hc as (c & Ec & Hc). unfold calc_Neff in Ec. cbn [lw] in Ec.
  rewrite neff_fin in Ec by auto. cbn [rbind] in Ec. unfold sh in Ec. rewrite shift_ess in Ec by auto. fold sh in Ec.
  pose proof (weights_ok_lin _ Lwa) as [Wp Ws]. pose proof (ess_bounds _ Wp Ws) as Eb. rewrite Etil in Ec, Wp, Ws, Eb.
  assert (Dec : c = true <-> 0 < thr /\ ess (tilted old u y k) < thr * INR N).
  { unfold Reqb in Ec. destruct (Req_EM_T thr 0) as [->|Hne].
    - inversion Ec; subst. split; [discriminate|lra].
    - inversion Ec as [E]. simpl xltb. split.
      + intros E1. apply Rltb_true in E1. split; auto. nra.
      + intros [_ E1]. apply Rltb_true. auto. }
  assert (Q : fl = c /\ take (part (st_pa old)) anc = Ok (part pa1) /\ w2 = (r, vs) /\ woff pa1 = Fin 0 /\ length (lw pa1) = N /\ Forall logish (lw pa1) /\
     length la = N /\ (fl = false -> part pa1 = part (st_pa old)) /\
     (fl = true -> 0 < r < 1 -> np_sample (map Fin (tilted old u y k)) N r = Ok anc) /\
     exists c0, 0 < c0 /\ forall i x q, nth_error (part pa1) i = Some x -> nth_error (lw (st_pa old)) i = Some q ->
       nth i la NInf = Fin (lam x) /\ lin (nth i (lw pa1) NInf) = c0 * (tshare fl old u y k (x, q) * exp (lam x))).
  { clear Hn Hu Hme Ha Hff. destruct c.
    - destruct Hc as (-> & Hres & Htk). split; [reflexivity|].
      unfold pa_resample in Hres. cbn [lw part] in Hres.
      destruct (live_max _ Lsh) as (m2 & Hm2 & _). unfold bind at 1, lift at 1 in Hres. rewrite Hm2 in Hres.
      cbv zeta in Hres. apply bind_ok in Hres. destruct Hres as (ind' & wr & Hsm & Hres).
      rewrite sampleM_resample in Hsm by auto. rewrite sampleM_draw in Hsm.
      2:{ pose proof (live_nonempty _ Lsh). destruct sh; simpl; congruence. }
      apply bind_ok in Hres. destruct Hres as (np & wz & Hcp & Hres). apply ret_ok in Hres. inversion Hres; subst; clear Hres. try rename ind' into anc.
      cbn [full_of_basic m_copy] in Hcp. unfold def_copy in Hcp. apply lift_ok in Hcp. destruct Hcp as (np' & Htp & E). inversion E; subst; clear E.
      unfold call_rng in Hsm. cbn [rand fst snd] in Hsm.
      destruct (np_sample _ _ _) eqn:En in Hsm; [|discriminate]. inversion Hsm; subst; clear Hsm.
      cbn [part lw num woff]. unfold uniform_lw. rewrite repeat_length.
      pose proof (take_length _ _ _ Htk) as Ltk. pose proof (take_length _ _ _ Htp) as Ltp.
      assert (Lanc : length anc = N).
      { destruct Hwf' as [Q _]. rewrite Ht in Q. apply Forall_app in Q. destruct Q as [_ Q]. inversion Q as [|? ? Q1]; subst. apply Q1. }
      split; [exact Htp|]. split; [reflexivity|]. split; [reflexivity|]. split; [reflexivity|].
      split; [apply Forall_forall; intros x Hx; apply repeat_spec in Hx; subst; exact I|]. split; [lia|]. split; [discriminate|]. split.
      { intros _ Hr. destruct (Rle_dec 0 r); [|lra]. destruct (Rlt_dec r 1); [|lra]. rewrite <- En. symmetry. rewrite <- Etil.
        replace (map lin sh) with (map (Rmult (exp (- mx))) (map lin wa)).
        { apply sample_scale; [apply exp_pos|apply weights_ok_lin; exact Lwa]. }
        unfold sh. rewrite !map_map. apply map_ext_in. intros x Hx. destruct Lwa as [LL _].
        rewrite Forall_forall in LL. rewrite lin_xsub_fin by auto. lra. }
      exists (/ wmean (st_pa old) (fun x => exp (lam x))). split; [apply Rinv_0_lt_compat; exact HW|]. intros i x q Hx Hq.
      assert (Hi : (i < N)%nat) by (rewrite <- O2; apply nth_error_Some; congruence).
      destruct (nth_error anc i) as [a|] eqn:Ea; [|apply nth_error_None in Ea; lia].
      pose proof (take_nth _ _ _ Htp i a Ea) as E1. pose proof (take_nth _ _ _ Htk i a Ea) as E2. rewrite Hx in E1.
      unfold lams in E2. rewrite nth_error_map, <- E1 in E2. cbn [option_map] in E2. split; [apply nth_error_nth; exact E2|].
      rewrite nth_repeat_lt by auto. cbn [lin]. rewrite exp_ln by (apply Rdiv_lt_0_compat; lra).
      unfold tshare. cbn [fst]. fold (lam x). change (fun x2 : P => exp (l1 x2 (cell_of u) (cell_of y) k)) with (fun x2 : P => exp (lam x2)).
      pose proof (exp_pos (lam x)). field. repeat split; lra.
    - destruct Hc as (-> & -> & Ean & -> & ->). split; [reflexivity|]. cbn [part lw num woff].
      split; [rewrite Ean, <- O1; apply take_seq|]. split; [reflexivity|]. split; [reflexivity|]. split; [exact Lshl|]. split; [apply Lsh|].
      split; [unfold lams; rewrite map_length; exact O1|]. split; [reflexivity|]. split; [discriminate|].
      exists (total (lw (st_pa old)) * exp (- mx)). split; [apply Rmult_lt_0_compat; [exact Tp|apply exp_pos]|]. intros i x q Hx Hq.
      assert (Hi : (i < N)%nat) by (rewrite <- O2; apply nth_error_Some; congruence).
      assert (E2 : nth_error lams i = Some (Fin (lam x))) by (unfold lams; rewrite nth_error_map, Hx; reflexivity).
      split; [apply nth_error_nth; exact E2|]. unfold sh. rewrite nth_map_sub by lia. rewrite lin_xsub_fin by (apply nth_logish; apply Lwa).
      rewrite (nth_error_nth _ _ _ (zipw_nth _ _ _ _ Hwa i _ _ Hq E2)).
      assert (Gq : logish q) by (destruct Hl as [Hl _]; rewrite Forall_forall in Hl; apply Hl; eapply nth_error_In; eauto).
      rewrite lin_xadd by (auto; exact I). cbn [lin]. unfold tshare. cbn [snd]. field. lra. }
  destruct Q as (-> & Hpt & -> & E0 & Lw1 & G1 & Lla & Hnf & Hsm & c0 & Hc0 & Q).
  assert (Lp : length (part pa1) = N).
  { apply take_length in Hpt. rewrite Hpt. destruct Hwf' as [Q' _]. rewrite Ht in Q'. apply Forall_app in Q'. destruct Q' as [_ Q']. inversion Q' as [|? ? Q1]; subst. apply Q1. }
  clear Hc Hff.
  simpl in Hn, Hu, Hme. unfold def_noise in Hn. unfold def_update in Hu. unfold def_measure in Hme.
  rewrite idx_last_app, (idx_last_firstn _ _ _ Nu), (idx_last_firstn _ _ _ Nt) in Hn.
  rewrite (idx_last_firstn _ _ _ Nu), (idx_last_firstn _ _ _ Nt) in Hu.
  rewrite (idx_last_firstn _ _ _ Ny), (idx_last_firstn _ _ _ Nt1) in Hme.
  unfold bind, lift in Hn, Hu, Hme. rewrite Hpt in Hn. cbn in Hn, Hu, Hme.
  inversion Hn; subst v w3; clear Hn. inversion Hu; subst p w4; clear Hu. inversion Hme; subst p' lls w'; clear Hme.
  set (moved := map _ (combine (seq 0 (length (part pa1))) (part pa1))) in *.
  assert (Lm : length moved = N) by (unfold moved; rewrite map_length, combine_length, seq_length; lia).
  assert (Mv : forall i x', nth_error moved i = Some x' -> exists x, nth_error (part pa1) i = Some x /\ x' = move m x (cell_of u) k (nth i vs dv)).
  { intros i x' E. unfold moved in E. rewrite nth_error_map in E.
    destruct (nth_error (combine (seq 0 (length (part pa1))) (part pa1)) i) as [[j x]|] eqn:E'; [|discriminate].
    apply nth_error_combine in E'. destruct E' as [J Hx]. apply nth_error_seq0 in J. destruct J as [-> _]. cbn in E. injection E as <-. eauto. }
  fold k in Ha. set (L := fun x : P => ll m x (cell_of y) (k + 1)) in *. change (map _ moved) with (map (fun x => Fin (L x)) moved) in Ha.
  set (lls := map (fun x => Fin (L x)) moved) in *.
  assert (Gll : Forall logish lls) by (apply Forall_forall; intros x Hx; apply in_map_iff in Hx; destruct Hx as (z & <- & _); exact I).
  assert (Lll : length lls = N) by (unfold lls; rewrite map_length; exact Lm).
  (* a particle with positive weight *)
  assert (Pos : exists i, (i < N)%nat /\ 0 < lin (nth i (lw pa1) NInf)).
  { destruct Hl as [_ [q Hq]]. apply In_nth_error in Hq. destruct Hq as [i Hi].
    assert (Hi' : (i < N)%nat) by (rewrite <- O2; apply nth_error_Some; congruence).
    destruct (nth_error (part pa1) i) as [x|] eqn:Ex; [|apply nth_error_None in Ex; lia].
    exists i. split; auto. destruct (Q i x _ Ex Hi) as [_ ->]. apply Rmult_lt_0_compat; auto. apply Rmult_lt_0_compat; [|apply exp_pos].
    unfold tshare. cbn [fst snd]. destruct c.
    - apply Rdiv_lt_0_compat; [|apply exp_pos]. apply Rdiv_lt_0_compat; [exact HW|exact HNr].
    - apply Rdiv_lt_0_compat; [apply exp_pos|exact Tp]. }
  assert (Hsv2 : survivor (lw pa1) lls).
  { destruct Pos as (i & Hi & Hp). destruct (lin_pos_fin _ Hp) as [ra Era].
    destruct (nth_error moved i) as [x|] eqn:Ex; [|apply nth_error_None in Ex; lia].
    exists i, ra, (L x). split; [rewrite <- Era; apply nth_error_nth'; lia|]. unfold lls. rewrite nth_error_map, Ex. reflexivity. }
  destruct (add_weights_live (mkPA moved (lw pa1) (num pa1) (woff pa1)) _ _ G1 Gll Hsv2 Ha)
    as (R1 & R2 & R3 & R4 & R5 & R6 & cc & R7 & R8). cbn [lw woff] in *.
  pose proof (add_weights_shape _ _ _ Ha) as (Ep & _). cbn [part] in Ep.
  destruct (zipw_length _ _ _ _ Hwf) as [Lwf Lwf2].
  (* new weights before the final shift *)
  assert (F2 : forall i x x' q, nth_error (part pa1) i = Some x -> nth_error moved i = Some x' -> nth_error (lw (st_pa old)) i = Some q ->
     lin (nth i wf NInf) = c0 * exp (- cc) * (tshare c old u y k (x, q) * exp (L x'))).
  { intros i x x' q Hx Hx' Hq. assert (Hi : (i < N)%nat) by (rewrite <- O2; apply nth_error_Some; congruence).
    destruct (Q i x q Hx Hq) as [Ela Elw]. rewrite (zipw_nth_d _ _ _ _ _ Hwf) by lia. rewrite Ela.
    rewrite lin_xsub_fin by (apply nth_logish; apply R2).
    assert (I1 : nth_error (lw pa1) i = Some (nth i (lw pa1) NInf)) by (apply nth_error_nth'; lia).
    assert (I2 : nth_error lls i = Some (Fin (L x'))) by (unfold lls; rewrite nth_error_map, Hx'; reflexivity).
    rewrite (nth_error_nth _ _ _ (R8 i _ _ I1 I2)).
    pose proof (nth_logish _ i G1) as Gi. rewrite lin_xsub_fin by (apply logish_xadd; [exact Gi|exact I]). rewrite lin_xadd by (auto; exact I).
    rewrite Elw. cbn [lin]. rewrite (exp_Ropp (lam x)). pose proof (exp_pos (lam x)). field. lra. }
  assert (Gwf : Forall logish wf).
  { apply Forall_forall. intros x Hx. apply In_nth_error in Hx. destruct Hx as [j Hj].
    assert (Hj' : (j < N)%nat). { assert (j < length wf)%nat by (apply nth_error_Some; congruence). lia. }
    destruct (nth_error_zipw_inv _ _ _ _ _ _ Hwf Hj) as (xa & xb & Exa & Exb & ->).
    destruct (nth_error (part pa1) j) as [x1|] eqn:Ex1; [|apply nth_error_None in Ex1; lia].
    destruct (nth_error (lw (st_pa old)) j) as [q1|] eqn:Eq1; [|apply nth_error_None in Eq1; lia].
    destruct (Q j x1 q1 Ex1 Eq1) as [Ela _]. rewrite (nth_error_nth _ _ _ Exb) in Ela. subst xb.
    apply logish_xsub_fin. destruct R2 as [R2 _]. rewrite Forall_forall in R2. apply R2. eapply nth_error_In; eauto. }
  assert (Lwfl : live wf).
  { split; auto. destruct Pos as (i & Hi & Hp).
    destruct (nth_error (part pa1) i) as [x1|] eqn:Ex1; [|apply nth_error_None in Ex1; lia].
    destruct (nth_error moved i) as [x2|] eqn:Ex2; [|apply nth_error_None in Ex2; lia].
    destruct (nth_error (lw (st_pa old)) i) as [q1|] eqn:Eq1; [|apply nth_error_None in Eq1; lia].
    destruct (Q i x1 q1 Ex1 Eq1) as [_ Elw]. rewrite Elw in Hp.
    assert (Hsp : 0 < tshare c old u y k (x1, q1)).
    { pose proof (exp_pos (lam x1)) as E1. apply Rmult_lt_reg_r with (exp (lam x1)); auto. rewrite Rmult_0_l. apply Rmult_lt_reg_l with c0; auto. rewrite Rmult_0_r. exact Hp. }
    destruct (lin_pos_fin (nth i wf NInf)) as [z Ez].
    { rewrite (F2 i x1 x2 q1) by auto. repeat apply Rmult_lt_0_compat; auto; apply exp_pos. }
    exists z. rewrite <- Ez. apply nth_In. lia. }
  destruct (live_max _ Lwfl) as (m2 & Em2 & _). rewrite Em2 in Hmf. inversion Hmf; subst mf; clear Hmf.
  set (nw := map (fun x => xsub x (Fin m2)) wf) in *.
  assert (Lnw : live nw) by (unfold nw; replace (map (fun x => xsub x (Fin m2)) wf) with (map (fun x => xadd x (Fin (- m2))) wf) by reflexivity; apply live_shift; auto).
  assert (Lnwl : length nw = N) by (unfold nw; rewrite map_length; lia).
  rewrite Ep in Enew.
  exists s', c, (r, vs), (part pa1), anc. split; [exact H|]. split.
  { constructor; auto.
    - destruct (book_forward mdl g _ _ _ _ _ _ _ _ B H) as [B' _]. eauto.
    - intros pre2 st2 E2. rewrite Ht in E2. apply app_inj_tail in E2. destruct E2 as [_ <-]. rewrite Enew. cbn [st_pa lw woff]. split; [exact Lnw|].
      rewrite R7, E0. cbn [xadd]. eauto. }
  split; [unfold now; rewrite Ht, !app_length; simpl; lia|]. split; [exact Dec|]. split; [exact Hpt|]. split; [exact Lp|].
  split; [exact Hnf|]. split; [exact Hsm|].
  intros psi. cbv zeta. set (xs := combine (part pa1) (lw (st_pa old))).
  assert (Lx : length xs = N) by (unfold xs; rewrite combine_length; lia).
  set (d := map (fun ix : nat * (P * xr) => tshare c old u y k (snd ix) * exp (L (move m (fst (snd ix)) (cell_of u) k (nth (fst ix) vs dv)))) (combine (seq 0 (length xs)) xs)).
  assert (Ld : length d = N) by (unfold d; rewrite map_length, combine_length, seq_length; lia).
  assert (Dn : forall i z, nth_error d i = Some z -> exists x q, nth_error (part pa1) i = Some x /\ nth_error (lw (st_pa old)) i = Some q /\
      nth_error moved i = Some (move m x (cell_of u) k (nth i vs dv)) /\ z = tshare c old u y k (x, q) * exp (L (move m x (cell_of u) k (nth i vs dv)))).
  { intros i z E. unfold d in E. rewrite nth_error_map in E.
    destruct (nth_error (combine (seq 0 (length xs)) xs) i) as [[j [x q]]|] eqn:E'; [|discriminate].
    apply nth_error_combine in E'. destruct E' as [J Hx]. apply nth_error_seq0 in J. destruct J as [-> Hi]. cbn in E. injection E as <-.
    apply nth_error_combine in Hx. destruct Hx as [Hx Hq]. exists x, q. split; auto. split; auto. split; auto.
    destruct (nth_error moved i) as [x'|] eqn:E'; [|apply nth_error_None in E'; lia].
    destruct (Mv i x' E') as (x2 & E2 & ->). congruence. }
  assert (Efac : apf_factor m l1 u y s' c = rsum d).
  { unfold apf_factor. rewrite Ht, !rev_app_distr. cbn [rev app st_pa st_anc]. rewrite rev_length. fold k. cbv zeta. rewrite Enew. cbn [part].
    change (fun x : P => exp (l1 x (cell_of u) (cell_of y) k)) with (fun x : P => exp (lam x)).
    rewrite <- (map_id d). destruct c.
    - rewrite Lm. unfold Rdiv at 1. rewrite Rmult_comm, Rmult_assoc, (Rmult_comm _ (wmean _ _)).
      rewrite Rmult_comm, <- rsum_map_scale. apply rsum_nth.
      { rewrite combine_length, Lm, Ld. pose proof (take_length _ _ _ Hpt). lia. }
      intros i [x' a] z E1 E2. apply nth_error_combine in E1. destruct E1 as [E1 Ea].
      destruct (Dn i z E2) as (x & q & Ex & Eq & Emv & ->). rewrite E1 in Emv. injection Emv as ->. cbn [fst snd].
      pose proof (take_nth _ _ _ Hpt i a Ea) as E3. rewrite Ex in E3.
      assert (E4 : nth_error (map (fun x : P => exp (lam x)) (part (st_pa old))) a = Some (exp (lam x))) by (rewrite nth_error_map, <- E3; reflexivity).
      rewrite (nth_error_nth _ _ _ E4). unfold tshare. cbn [fst].
      change (fun x2 : P => exp (l1 x2 (cell_of u) (cell_of y) k)) with (fun x2 : P => exp (lam x2)). fold (lam x).
      fold (L (move m x (cell_of u) k (nth i vs dv))). pose proof (exp_pos (lam x)). field. split; lra.
    - unfold Rdiv. rewrite Rmult_comm, <- rsum_map_scale. apply rsum_nth; [rewrite combine_length; lia|].
      intros i [x' q'] z E1 E2. apply nth_error_combine in E1. destruct E1 as [E1 Ea].
      destruct (Dn i z E2) as (x & q & Ex & Eq & Emv & ->). rewrite E1 in Emv. injection Emv as ->. rewrite Ea in Eq. injection Eq as ->. cbn [fst snd].
      unfold tshare. cbn [snd]. fold (L (move m x (cell_of u) k (nth i vs dv))). unfold Rdiv. ring. }
  rewrite Efac. unfold current. rewrite Ht, rev_app_distr. cbn [rev app st_pa].
  assert (EP : part pa = moved) by (rewrite Enew; reflexivity). assert (EL : lw pa = nw) by (rewrite Enew; reflexivity).
  rewrite (prop_wmean pa d (c0 * exp (- cc) * exp (- m2)) psi); [| |rewrite EP, EL; lia|rewrite EL; lia|rewrite EL; apply live_total; exact Lnw|].
  - rewrite EP. unfold d. apply rsum_nth; [rewrite !combine_length, map_length, combine_length, seq_length; lia|].
    fold d. intros i [x' z] [j [x q]] E1 E2. apply nth_error_combine in E1. destruct E1 as [E1 Ez].
    destruct (Dn i z Ez) as (x1 & q1 & Ex & Eq & Emv & ->). rewrite E1 in Emv. injection Emv as ->.
    apply nth_error_combine in E2. destruct E2 as [J E2]. apply nth_error_seq0 in J. destruct J as [-> _].
    apply nth_error_combine in E2. destruct E2 as [X2 Q2]. rewrite Ex in X2. injection X2 as <-. rewrite Eq in Q2. injection Q2 as <-.
    cbn [fst snd]. unfold Evidence.gain. fold (L (move m x1 (cell_of u) k (nth i vs dv))). ring.
  - repeat apply Rmult_lt_0_compat; auto; apply exp_pos.
  - rewrite EL. intros i q z E1 E2. destruct (Dn i z E2) as (x & q1 & Ex & Eq & Emv & ->).
    unfold nw in E1. rewrite nth_error_map in E1. destruct (nth_error wf i) as [q0|] eqn:Ew; [|discriminate]. cbn in E1. injection E1 as <-.
    assert (Gq : logish q0) by (rewrite Forall_forall in Gwf; apply Gwf; eapply nth_error_In; eauto).
    rewrite lin_xsub_fin by exact Gq. pose proof (F2 i x _ q1 Ex Emv Eq) as F. rewrite (nth_error_nth _ _ _ Ew) in F. rewrite F. ring.
Qed.
Lemma start_ex thr s : ready thr s -> exists pre old, start s pre old.
Proof.
  intros H. unfold start. destruct (pt_traj s) as [|a l] eqn:E; [exists [], first_step; auto|].
  destruct (exists_last (l := a :: l)) as (pre & old & E'); [discriminate|]. exists pre, old. auto.
Qed.

Lemma meas_call thr s pre old y w : ready thr s -> start s pre old ->
  exists s', pt_measure mdl s y w = Ok (s', w) /\ ready thr s' /\ now s' = length pre /\
    forall psi, meas_factor s s' * current x0 s' psi = wmean (st_pa old) (fun x => exp (ll m x (cell_of y) (length pre)) * psi x).
Proof.
  intros Hrd Hst. destruct (rd_book _ _ Hrd) as [l B].
  assert (T : exists s' w', pt_measure mdl s y w = Ok (s', w') /\ pt_N s' = N /\ pt_f s' = pt_f s /\ traj_wf N (pt_traj s')).
  { assert (Q1 : filter_ready (pt_f s) (length (snd (ledger_step (using_pfy (pt_f s)) l (Meas y))))) by (rewrite (rd_f _ _ Hrd); exact I).
    destruct (pt_measure_total mdl N HN apf_total s l y (rd_N _ _ Hrd) B (rd_wf _ _ Hrd) Q1 w) as (s' & w' & H & EN' & Ef' & Hwf').
    exists s', w'. auto. }
  destruct T as (s' & w' & H & EN' & Ef' & Hwf'). rewrite (rd_f _ _ Hrd) in Ef'.
  destruct (book_measure mdl _ _ _ _ _ _ B H) as [B' _].
  pose proof (start_wf _ _ _ _ Hrd Hst) as Fwf. pose proof (old_wf _ _ _ Fwf) as Owf.
  destruct (start_live _ _ _ _ Hrd Hst) as [Hl [o Ho]].
  assert (X : w' = w /\ exists pa, pt_traj s' = pre ++ [mkStep pa (st_anc old)] /\
     add_weights (st_pa old) (map (fun x => Fin (ll m x (cell_of y) (length pre))) (part (st_pa old))) = Ok pa).
  { clear Ef' EN' Hwf' B'. unfold pt_measure in H. rewrite if4 in H. cbv beta iota zeta in H. rewrite (rd_f _ _ Hrd), (rd_N _ _ Hrd) in H.
    cbn [using_pfy] in H. apply bind_ok in H. destruct H as ([tr ind] & w0 & H0 & H).
    assert (E0 : tr = pre ++ [old] /\ ind = length pre /\ w0 = w).
    { destruct Hst as [E|(E & -> & ->)]; rewrite E in H0.
      - destruct l as [us ys]. destruct B as (B1 & B2 & _). rewrite E, app_length in B1. simpl in B1.
        assert (Ei : pt_ind1 s = S (length pre)) by lia. rewrite Ei in H0. destruct (pre ++ [old]) eqn:Ea; [destruct pre; discriminate|].
        apply ret_ok in H0. inversion H0; auto.
      - apply bind_ok in H0. destruct H0 as (st & w2 & H0 & H1). rewrite apf_initial in H0. inversion H0; subst. apply ret_ok in H1. inversion H1; subst; auto. }
    destruct E0 as (-> & -> & ->).
    apply bind_ok in H; destruct H as (yv & wa & Hy & H); apply lift_ok in Hy; destruct Hy as (yv' & Hy & Ey); inversion Ey; subst yv' wa; clear Ey.
    apply bind_ok in H; destruct H as (tv & wa & Htv & H); apply lift_ok in Htv; destruct Htv as (tv' & Htv & Et); inversion Et; subst tv' wa; clear Et.
    rewrite idx_last_app in H. unfold lift in H at 1. unfold bind in H at 1.
    apply bind_ok in H; destruct H as (pa & w1 & Hme & H).
    apply bind_ok in H; destruct H as (tr' & wa & Hup & H); apply lift_ok in Hup; destruct Hup as (tr'' & Hup & Et); inversion Et; subst tr'' wa; clear Et.
    apply ret_ok in H. inversion H; subst; clear H. cbn [pt_traj].
    pose proof (upd_nth _ _ _ _ Hy (length pre)) as Ny. pose proof (upd_nth _ _ _ _ Htv (length pre)) as Nt.
    rewrite Nat.eqb_refl in Ny, Nt.
    unfold pf_measure in Hme. cbn [full_of_basic m_measure] in Hme. unfold def_measure in Hme.
    rewrite (idx_last_firstn _ _ _ Ny), (idx_last_firstn _ _ _ Nt) in Hme. cbn in Hme. unfold bind, lift, ret in Hme. cbn [fst snd] in Hme.
    assert (Eup : tr' = pre ++ [mkStep pa (st_anc old)]).
    { unfold upd_last in Hup. rewrite removelast_last in Hup. destruct (pre ++ [old]) eqn:E; [destruct pre; discriminate|]. inversion Hup; auto. }
    subst tr'. 
    destruct (add_weights _ _) eqn:Ea in Hme; [|discriminate]. inversion Hme; subst; clear Hme. split; [reflexivity|]. exists pa. split; [reflexivity|].
    rewrite <- Ea. destruct (st_pa old); reflexivity. }
  destruct X as (-> & pa & Ht & Ha).
  assert (Lo : length (part (st_pa old)) = length (lw (st_pa old))) by (destruct Owf as (-> & -> & _); reflexivity).
  exists s'. split; [exact H|].
  destruct (reweighted m x0 HN (st_pa old) pa (cell_of y) (length pre) (fun _ => 0) o Hl Lo Ho Ha) as (_ & Hl' & Ho' & _).
  split.
  { constructor; auto; [eauto|]. intros pre2 st2 E2. rewrite Ht in E2. apply app_inj_tail in E2. destruct E2 as [_ <-]. auto. }
  split; [unfold now; rewrite Ht, app_length; simpl; lia|].
  intros psi. destruct (reweighted m x0 HN (st_pa old) pa (cell_of y) (length pre) psi o Hl Lo Ho Ha) as (_ & _ & _ & Hsum).
  unfold meas_factor, current. rewrite <- (start_mass x0 HN s pre old Hst). rewrite Ht, rev_app_distr. cbn [rev app st_pa].
  pose proof (live_total _ Hl) as Tp. unfold mass at 2. rewrite Ho. cbn [lin].
  transitivity (mass pa * wmean pa psi / (total (lw (st_pa old)) * exp o)).
  { unfold Rdiv. ring. }
  rewrite Hsum. unfold wmean. pose proof (exp_pos o). field. split; lra.
Qed.

(** ** Averages *)
Definition step_mean u y k (psi : P -> R) (x : P) : R := noise (gain u y k psi x).

Lemma fwd_iid thr s pre old u y0 r (F : ptraj P U Y -> bool -> R) psi : ready thr s -> start s pre old -> 0 < r < 1 ->
  let y := Some y0 in
  (forall s' fl, ready thr s' -> now s' = (length pre + 1)%nat -> F s' fl = apf_factor m l1 u y s' fl * current x0 s' psi) ->
  exists fl parts anc,
    (fl = true <-> 0 < thr /\ ess (tilted old u y (length pre)) < thr * INR N) /\
    take (part (st_pa old)) anc = Ok parts /\ length parts = N /\ (fl = false -> parts = part (st_pa old)) /\
    (fl = true -> np_sample (map Fin (tilted old u y (length pre))) N r = Ok anc) /\
    apf_outcome m l1 noise x0 dv s u y F r =
      rsum (map (fun xq => tshare fl old u y (length pre) xq * step_mean u y (length pre) psi (fst xq)) (combine parts (lw (st_pa old)))).
Proof.
  intros Hrd Hst Hr y HF.
  destruct (fwd_call thr s pre old u y0 r [] Hrd Hst) as (s0 & fl & w0 & parts & anc & _ & _ & _ & Hfl & Htk & Lp & Hnf & Hsm & _).
  exists fl, parts, anc. split; auto. split; auto. split; auto. split; auto. split; auto.
  unfold apf_outcome. set (xs := combine parts (lw (st_pa old))).
  assert (Owf : step_wf N old) by (eapply old_wf; eapply start_wf; eauto).
  assert (Lx : length xs = N) by (unfold xs; rewrite combine_length; destruct Owf as (_ & E & _); lia).
  transitivity (rsum (map (fun x : P * xr => noise (fun v => tshare fl old u y (length pre) x * gain u y (length pre) psi (fst x) v)) xs)).
  2:{ apply rsum_ext. intros x _. unfold step_mean. apply (av_scale noise Hav). }
  rewrite <- (iid_sum noise Hav xs dv (fun x v => tshare fl old u y (length pre) x * gain u y (length pre) psi (fst x) v)).
  rewrite Lx. apply (av_ext _ (iid_average noise Hav N)). intros vs.
  destruct (fwd_call thr s pre old u y0 r vs Hrd Hst) as (s1 & fl1 & w1 & parts1 & anc1 & Hc & Hrd1 & Hn1 & Hfl1 & Htk1 & Lp1 & Hnf1 & Hsm1 & Hv).
  unfold y. rewrite Hc, (HF s1 fl1 Hrd1 Hn1). unfold y. rewrite Hv. cbv zeta.
  assert (fl1 = fl) by (apply Bool.eq_iff_eq_true; rewrite Hfl, Hfl1; reflexivity). subst fl1.
  assert (parts1 = parts).
  { destruct fl; [|rewrite Hnf, Hnf1; auto]. specialize (Hsm eq_refl Hr). specialize (Hsm1 eq_refl Hr). congruence. }
  subst parts1. fold xs. rewrite Lx. reflexivity.
Qed.

Lemma fwd_average thr s pre old u y0 (F : ptraj P U Y -> bool -> R) psi : ready thr s -> start s pre old ->
  let y := Some y0 in
  (forall s' fl, ready thr s' -> now s' = (length pre + 1)%nat -> F s' fl = apf_factor m l1 u y s' fl * current x0 s' psi) ->
  is_RInt (apf_outcome m l1 noise x0 dv s u y F) 0 1 (wmean (st_pa old) (step_mean u y (length pre) psi)).
Proof.
  intros Hrd Hst y HF. set (h := step_mean u y (length pre) psi). set (T := tilted old u y (length pre)).
  assert (Owf : step_wf N old) by (eapply old_wf; eapply start_wf; eauto). destruct Owf as (O1 & O2 & O3 & _).
  destruct (start_live _ _ _ _ Hrd Hst) as [Hl _]. pose proof (live_total _ Hl) as Tp.
  assert (HNR : 0 < INR N) by (apply lt_0_INR; exact HN).
  assert (Tok : weights_ok T).
  { split.
    - unfold T, tilted. apply Forall_map, Forall_forall. intros x _. apply Rmult_le_pos; [apply lin_nonneg|left; apply exp_pos].
    - destruct Hl as [_ [q Hq]]. apply In_nth_error in Hq. destruct Hq as [i Hi].
      assert (Hi' : (i < N)%nat) by (rewrite <- O2; apply nth_error_Some; congruence).
      destruct (nth_error (part (st_pa old)) i) as [x|] eqn:Ex; [|apply nth_error_None in Ex; lia].
      assert (K : In (exp q * exp (l1 x (cell_of u) (cell_of y) (length pre))) T).
      { unfold T, tilted. apply in_map_iff. exists (x, Fin q). split; [reflexivity|]. eapply nth_error_In. apply nth_error_combine_ok; eauto. }
      assert (Pp : 0 < exp q * exp (l1 x (cell_of u) (cell_of y) (length pre))) by (apply Rmult_lt_0_compat; apply exp_pos).
      assert (Fn : Forall (fun x => 0 <= x) T).
      { unfold T, tilted. apply Forall_map, Forall_forall. intros z _. apply Rmult_le_pos; [apply lin_nonneg|left; apply exp_pos]. }
      apply rsum_pos; [exact Fn|]. apply Exists_exists. eauto. }
  assert (Tl : length T = N) by (unfold T, tilted; rewrite map_length, combine_length; lia).
  assert (Dec : {0 < thr /\ ess T < thr * INR N} + {~ (0 < thr /\ ess T < thr * INR N)}).
  { destruct (Rlt_dec 0 thr); [|right; tauto]. destruct (Rlt_dec (ess T) (thr * INR N)); [left|right]; tauto. }
  destruct Dec as [Hy|Hn].
  - (* resampling *)
    set (W := wmean (st_pa old) (fun x => exp (l1 x (cell_of u) (cell_of y) (length pre)))).
    assert (EW : W = rsum T / total (lw (st_pa old))) by reflexivity.
    set (c := fun j => match nth_error (part (st_pa old)) j with Some x => W / INR N / exp (l1 x (cell_of u) (cell_of y) (length pre)) * h x | None => 0 end).
    pose proof (resample_average T c Tok) as Q. rewrite Tl in Q.
    replace (wmean (st_pa old) h) with (INR N * rsum (map (fun j => nth j T 0 / rsum T * c j) (seq 0 N))).
    + eapply is_RInt_ext; [|exact Q]. intros r Hr. rewrite Rmin_left, Rmax_right in Hr by lra. cbv beta.
      destruct (fwd_iid thr s pre old u y0 r F psi Hrd Hst Hr HF) as (fl & parts & anc & Hfl & Htk & Lp & _ & Hsm & Hv).
      unfold y. rewrite Hv. assert (fl = true) by (apply Hfl; exact Hy). subst fl. fold y in Hsm |- *. fold T in Hsm. rewrite (Hsm eq_refl).
      apply rsum_nth.
      * rewrite combine_length. apply take_length in Htk. lia.
      * intros i a [x q] Ha Hx. apply nth_error_combine in Hx. destruct Hx as [Hx Hq].
        pose proof (take_nth _ _ _ Htk i a Ha) as E1.
        rewrite Hx in E1. unfold c. rewrite <- E1. unfold tshare. cbn [fst snd]. fold W. reflexivity.
    + unfold wmean. rewrite <- rsum_map_scale. unfold Rdiv. rewrite Rmult_comm, <- rsum_map_scale.
      apply rsum_nth; [rewrite combine_length, seq_length; lia|]. intros i j [x q] Hj Hx. apply nth_error_seq0 in Hj. destruct Hj as [-> _].
      apply nth_error_combine in Hx. destruct Hx as [Hx Hq]. unfold c. rewrite Hx. cbn [fst snd].
      assert (E : nth_error T i = Some (lin q * exp (l1 x (cell_of u) (cell_of y) (length pre)))).
      { unfold T, tilted. rewrite nth_error_map, (nth_error_combine_ok _ _ _ _ _ Hx Hq). reflexivity. }
      rewrite (nth_error_nth _ _ _ E), EW. destruct Tok as [_ Tp2]. pose proof (exp_pos (l1 x (cell_of u) (cell_of y) (length pre))). field. repeat split; lra.
  - (* no resampling *)
    pose proof (is_RInt_const 0 1 (wmean (st_pa old) h)) as Q. unfold scal in Q. simpl in Q. unfold mult in Q. simpl in Q.
    rewrite Rminus_0_r, Rmult_1_l in Q. eapply is_RInt_ext; [|exact Q]. intros r Hr. rewrite Rmin_left, Rmax_right in Hr by lra. cbv beta.
    destruct (fwd_iid thr s pre old u y0 r F psi Hrd Hst Hr HF) as (fl & parts & anc & Hfl & Htk & Lp & Hnf & _ & Hv).
    unfold y. rewrite Hv. assert (fl = false) by (destruct fl; auto; exfalso; apply Hn; apply Hfl; auto). subst fl. rewrite (Hnf eq_refl).
    unfold wmean. unfold Rdiv. rewrite Rmult_comm, <- rsum_map_scale. apply rsum_ext. intros [x q] _. unfold tshare. cbn [fst snd]. fold y. fold h. unfold Rdiv. ring.
Qed.

(** ** All the calls of a history *)
Lemma estimate_mean thr phi ops : measured ops -> forall s, ready thr s ->
  apf_estimate m l1 noise x0 dv ops s phi = current x0 s (future m noise (now s) ops phi).
Proof.
  induction ops as [|[u y|y] ops IH]; intros Hm s Hrd; cbn [apf_estimate future]; [reflexivity| |]; inversion Hm as [|? ? Hm1 Hm2]; subst.
  - destruct y as [y0|]; [|destruct Hm1].
    destruct (start_ex _ _ Hrd) as (pre & old & Hst). rewrite (start_now x0 HN _ _ _ Hst), (current_start x0 HN _ _ _ _ Hst).
    apply is_RInt_unique. apply (fwd_average thr s pre old u y0 _ (future m noise (length pre + 1) ops phi) Hrd Hst).
    intros s' fl Hrd' Hn. rewrite (IH Hm2 s' Hrd'), Hn. reflexivity.
  - destruct (start_ex _ _ Hrd) as (pre & old & Hst). rewrite (start_now x0 HN _ _ _ Hst), (current_start x0 HN _ _ _ _ Hst).
    destruct (meas_call thr s pre old y (0, []) Hrd Hst) as (s' & Hc & Hrd' & Hn & Hv). rewrite Hc, (IH Hm2 s' Hrd'), Hn. apply Hv.
Qed.

Lemma estimate_integrable thr phi u y0 ops s : measured ops -> ready thr s ->
  is_RInt (apf_outcome m l1 noise x0 dv s u (Some y0) (fun s' resampled => apf_factor m l1 u (Some y0) s' resampled * apf_estimate m l1 noise x0 dv ops s' phi)) 0 1
    (current x0 s (future m noise (now s) (Fwd u (Some y0) :: ops) phi)).
Proof.
  intros Hm Hrd. destruct (start_ex _ _ Hrd) as (pre & old & Hst). rewrite (start_now x0 HN _ _ _ Hst), (current_start x0 HN _ _ _ _ Hst).
  apply (fwd_average thr s pre old u y0 _ (future m noise (length pre + 1) ops phi) Hrd Hst).
  intros s' fl Hrd' Hn. rewrite (estimate_mean thr phi ops Hm s' Hrd'), Hn. reflexivity.
Qed.

Lemma ready_init thr o T s : pt_init N thr 0 "APF" o T = Ok s -> ready thr s /\ pt_traj s = [].
Proof.
  intros H. assert (E : pt_N s = N /\ pt_f s = FAPF thr /\ pt_traj s = []).
  { unfold pt_init in H. destruct T as [[|n]|]; cbn in H; try discriminate; inversion H; auto. }
  destruct E as (E1 & E2 & E3). split; auto. constructor; auto.
  - exists ([], []). eapply book_init; eauto.
  - rewrite E3. split; [constructor|]. intros st; discriminate.
  - intros pre st E. rewrite E3 in E. destruct pre; discriminate.
Qed.

(** A forward without a measurement fails. *)
Lemma needs_measurement thr s u fl s' w w' : ready thr s -> pt_forward mdl g s u None w = Ok ((s', fl), w') -> False.
Proof.
  intros Hrd H. destruct (rd_book _ _ Hrd) as [l B]. destruct (start_ex _ _ Hrd) as (pre & old & Hst).
  destruct (pt_forward_inv mdl g s s' l u None fl w w' B H) as (tr & uv & yv & tv & w1 & pa & anc & k & Htr & Lk & Hff & Ht & Nu & Ny & Nt & Nt1 & _).
  rewrite (rd_f _ _ Hrd), (rd_N _ _ Hrd) in *.
  assert (X : tr = pre ++ [old]).
  { destruct Htr as [(Hne & -> & _)|(E & st0 & Hi & ->)].
    - destruct Hst as [E|(E & _)]; [auto|congruence].
    - rewrite apf_initial in Hi. inversion Hi; subst. destruct Hst as [E'|(_ & -> & ->)]; [rewrite E in E'; destruct pre; discriminate|auto]. }
  subst tr. pose proof (start_wf _ _ _ _ Hrd Hst) as Fwf. cbn [filter_forward] in Hff.
  destruct (apf_forward_sem mdl g _ _ _ _ _ _ _ pre old _ _ _ _ _ _ _ _ Fwf eq_refl Nu Ny Nt Hff) as [Hy _]. apply Hy. reflexivity.
Qed.

Lemma ready_run thr ops : forall s s' w w', ready thr s -> pt_run mdl g s ops w = Ok (s', w') -> ready thr s'.
Proof.
  induction ops as [|[u y|y] ops IH]; intros s s' w w' Hrd H; cbn [pt_run] in H.
  - apply ret_ok in H. inversion H; subst. auto.
  - apply bind_ok in H. destruct H as (s1 & w1 & H1 & H). cbn [pt_step] in H1. apply bind_ok in H1. destruct H1 as ([s2 b] & w2 & H1 & H2).
    apply ret_ok in H2. inversion H2; subst; clear H2. destruct (start_ex _ _ Hrd) as (pre & old & Hst).
    destruct y as [y0|]; [|destruct (needs_measurement _ _ _ _ _ _ _ Hrd H1)].
    destruct w as [r vs]. destruct (fwd_call thr s pre old u y0 r vs Hrd Hst) as (s3 & fl & w3 & parts & anc & Hc & Hrd' & _).
    rewrite H1 in Hc. inversion Hc; subst. eapply IH; eauto.
  - apply bind_ok in H. destruct H as (s1 & w1 & H1 & H). cbn [pt_step] in H1. destruct (start_ex _ _ Hrd) as (pre & old & Hst).
    destruct (meas_call thr s pre old y w Hrd Hst) as (s2 & Hc & Hrd' & _). rewrite H1 in Hc. inversion Hc; subst. eapply IH; eauto.
Qed.
End Step.
