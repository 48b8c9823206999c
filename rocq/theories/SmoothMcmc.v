(** The Metropolis-Hastings backward simulator: totality, law, stationarity. *)
From Coquelicot Require Import Coquelicot.
From Coq Require Import String Bool Reals Lra Lia List Arith Permutation.
From Verif Require Import Base XR SampleModel SampleSpec SampleProofs PAModel WeightSpec WeightProofs
  FilterModel TrajModel Prop_Cond SmoothModel SmoothSpec SmoothProofs SmoothBsi SmoothRs Perms SmoothLaw.
Import ListNotations.
Open Scope R_scope.

(** ** The chain *)
Lemma mh_balance w f a c : 0 <= f a -> 0 <= f c ->
  (nth a w 0 * f a) * (nth c w 0 / rsum w) * mh_prob (f a) (f c) =
  (nth c w 0 * f c) * (nth a w 0 / rsum w) * mh_prob (f c) (f a).
Proof.
  intros Ha Hc. assert (E : f a * mh_prob (f a) (f c) = f c * mh_prob (f c) (f a)).
  { assert (A : forall p q, 0 <= p -> 0 <= q -> p * mh_prob p q = Rmin p q).
    { intros p q Hp Hq. unfold mh_prob. destruct (Req_EM_T p 0) as [->|Np].
      - rewrite Rmult_0_l, Rmin_left; auto.
      - assert (0 < p) by lra. unfold Rmin at 1. destruct (Rle_dec 1 (q / p)) as [H1|H1].
        + rewrite Rmin_left; [ring|]. apply (Rmult_le_compat_l p) in H1; [|lra]. replace (p * (q / p)) with q in H1 by (field; lra). lra.
        + rewrite Rmin_right; [field; lra|]. left. apply Rnot_le_lt in H1. apply (Rmult_lt_compat_l p) in H1; [|lra].
          replace (p * (q / p)) with q in H1 by (field; lra). lra. }
    rewrite !A by auto. apply Rmin_comm. }
  unfold Rdiv. transitivity (nth a w 0 * nth c w 0 * / rsum w * (f a * mh_prob (f a) (f c))); [ring|]. rewrite E. ring.
Qed.

Lemma rsum_swap {A B} (F : A -> B -> R) l m :
  rsum (map (fun a => rsum (map (F a) m)) l) = rsum (map (fun b => rsum (map (fun a => F a b) l)) m).
Proof.
  induction l as [|a l IH]; simpl.
  - induction m; simpl; auto. rewrite <- IHm. lra.
  - rewrite IH. rewrite <- rsum_map_plus. apply rsum_ext. auto.
Qed.

(** The backward kernel is stationary. *)
Lemma mh_stationary w f n i : weights_ok w -> (forall a, 0 <= f a) -> (i < length w)%nat ->
  rsum (map (fun a => nth a w 0 * f a * mh_chain w f n a i) (seq 0 (length w))) = nth i w 0 * f i.
Proof.
  intros Hw Hf Hi. destruct Hw as [_ HW]. set (L := seq 0 (length w)).
  assert (EW : rsum (map (fun c => nth c w 0) L) = rsum w) by (symmetry; apply rsum_seq).
  induction n as [|n IH].
  - simpl. transitivity (rsum (map (fun a => (if Nat.eqb i a then 1 else 0) * (nth a w 0 * f a)) L)).
    + apply rsum_ext. intros a _. rewrite (Nat.eqb_sym a i). ring.
    + rewrite (sum_indicator (fun a => nth a w 0 * f a)) by apply seq_NoDup.
      destruct (in_dec _ _ _) as [|N]; auto. exfalso. apply N. apply in_seq. lia.
  - rewrite <- IH. cbn [mh_chain]. fold L.
    set (S := fun a c => (nth a w 0 * f a) * (nth c w 0 / rsum w) * mh_prob (f a) (f c)).
    set (h := fun a => mh_chain w f n a i).
    transitivity (rsum (map (fun a => rsum (map (fun c => S a c * h c) L) + (- rsum (map (fun c => S a c * h a) L) + nth a w 0 * f a * h a)) L)).
    + apply rsum_ext. intros a _. rewrite <- rsum_map_scale.
      transitivity (rsum (map (fun c => S a c * h c + (-1 * (S a c * h a) + (nth a w 0 * f a * h a / rsum w) * nth c w 0)) L)).
      * apply rsum_ext. intros c _. unfold S, h. field. lra.
      * rewrite !rsum_map_plus, !rsum_map_scale, EW. field. lra.
    + rewrite !rsum_map_plus. fold (h). 
      assert (Sw : rsum (map (fun a => rsum (map (fun c => S a c * h c) L)) L) = rsum (map (fun a => rsum (map (fun c => S a c * h a) L)) L)).
      { rewrite rsum_swap. apply rsum_ext. intros c _. apply rsum_ext. intros a _. unfold S. rewrite mh_balance by auto. auto. }
      rewrite Sw.
      assert (Ng : rsum (map (fun x => - rsum (map (fun c => S x c * h x) L)) L) = - rsum (map (fun a => rsum (map (fun c => S a c * h a) L)) L)).
      { transitivity (rsum (map (fun x => -1 * rsum (map (fun c => S x c * h x) L)) L)); [apply rsum_ext; intros; lra|].
        rewrite rsum_map_scale. lra. }
      rewrite Ng. fold h. unfold h. lra.
Qed.

Lemma mh_accept_prob d d' : logish d -> logish d' -> accept_prob (clip0 (xsub d' d)) = mh_prob (lin d) (lin d').
Proof.
  unfold mh_prob, clip0. destruct d as [| | |a], d' as [| | |b]; simpl; try tauto; intros _ _.
  - destruct (Req_EM_T 0 0); [auto|lra].
  - destruct (Req_EM_T 0 0) as [_|]; [|lra]. destruct (Req_EM_T (exp b) 0) as [e|_]; [pose proof (exp_pos b); lra|].
    rewrite exp_0, Rmin_left; lra.
  - destruct (Req_EM_T (exp a) 0) as [e|]; [pose proof (exp_pos a); lra|]. unfold Rdiv. rewrite Rmult_0_l, Rmin_right; lra.
  - destruct (Req_EM_T (exp a) 0) as [e|]; [pose proof (exp_pos a); lra|].
    replace (exp b / exp a) with (exp (b - a)) by (unfold Rdiv, Rminus; rewrite exp_plus, exp_Ropp; auto).
    unfold Rminus. destruct (Rltb 0 (b + - a)) eqn:E; simpl; auto. apply Rltb_true in E. rewrite exp_0, !Rmin_left; try lra.
    rewrite <- exp_0. left. apply exp_increasing. lra.
Qed.

Section Mcmc.
Context {W P U Y V : Type}.
Variable sm : smodel W P U Y V.
Variable g : rng W.
Variable ld : cell U -> nat -> P -> P -> xr.
Hypothesis Hmk : markov_density sm ld.
Variables (u : list (cell U)) (y : list (cell Y)) (t : list nat) (k : nat).
Variables (uk : cell U) (tk : nat).
Hypothesis Hu : nth_error u k = Some uk.
Hypothesis Ht : nth_error t k = Some tk.
Variables (pa : papprox P) (ptr : list (tstep P)) (pind : list nat) (fut : list (tstep P)) (f0 : tstep P).
Hypothesis Hf0 : nth_error fut 0 = Some f0.
Hypothesis Hlen : length (part pa) = length (lw pa).
Hypothesis Hpi : length pind = length (part pa).
Hypothesis Hlive : live (lw pa).
Variable wn : list xr.
Hypothesis Hwn : norm_weights (lw pa) = Ok wn.
Variable find : list nat.
Hypothesis Hfind : Forall (fun j => (j < length (part (st_pa f0)))%nat) find.
Let m := length find.

(** The stored densities are those of the current indices. *)
Definition current (ind : list nat) (pcurr : list xr) : Prop :=
  length ind = m /\ length pcurr = m /\ Forall (fun c => (c < length (part pa))%nat) ind /\
  forall q a j, nth_error ind q = Some a -> nth_error find q = Some j -> nth_error pcurr q = Some (dens ld uk tk pa f0 a j).

Definition mh_accepts (v : R) (c a j : nat) : bool :=
  xltb (xlog (Fin v)) (clip0 (xsub (dens ld uk tk pa f0 c j) (dens ld uk tk pa f0 a j))).

Lemma nth_error_lt {A} (l : list A) q : (q < length l)%nat -> exists a, nth_error l q = Some a.
Proof. intros H. destruct (nth_error l q) eqn:E; eauto. apply nth_error_None in E. lia. Qed.

Lemma mcmc_round_run ind pcurr r p vs :
  current ind pcurr -> unit_draw r -> Permutation p (seq 0 m) -> length vs = m ->
  let cs := cands (map lin (lw pa)) m r p in
  exists ind' pcurr',
    (forall s s1 s2, rand g s = (r, s1) -> permutation g m s1 = (p, s2) -> fst (stream g m s2) = vs ->
       mcmc_round sm g pa ptr pind fut find u y t k wn ind pcurr s = Ok ((ind', pcurr'), snd (stream g m s2))) /\
    current ind' pcurr' /\
    (forall q a c v j, nth_error ind q = Some a -> nth_error cs q = Some c -> nth_error vs q = Some v -> nth_error find q = Some j ->
       nth_error ind' q = Some (if mh_accepts v c a j then c else a)).
Proof.
  intros (Li & Lp & Fi & Hc) Ur Pp Lv cs.
  assert (Lc : length cs = m) by (apply cands_spec; auto).
  assert (Fc : Forall (fun c => (c < length (part pa))%nat) cs).
  { rewrite Hlen. pose proof (cands_lt (map lin (lw pa)) m r p (weights_ok_lin _ Hlive) Ur Pp) as F.
    rewrite map_length in F. exact F. }
  destruct (take_ok (part pa) cs Fc) as [pp Epp].
  destruct (take_ok pind cs) as [pi Epi]. { rewrite Hpi. exact Fc. }
  destruct (xnext_run sm ld Hmk u y t k uk tk Hu Ht pa ptr pind fut f0 Hf0 Hlen Hpi cs find pp pi Lc Fc Hfind Epp) as (pn & Epn & Lpn & Dpn).
  fold m in Lpn.
  destruct (zipw_ok xsub pn pcurr) as [df Edf]; [congruence|]. destruct (zipw_length _ _ _ _ Edf) as [Ld _].
  destruct (zipw_ok xltb (map (fun r0 => xlog (Fin r0)) vs) (map clip0 df)) as [acc Eacc]; [rewrite !map_length; congruence|].
  destruct (zipw_length _ _ _ _ Eacc) as [La _]. rewrite map_length in La.
  destruct (mask_set_ok ind acc cs) as [ind' Eind]; [congruence|congruence|].
  destruct (mask_set_ok pcurr acc pn) as [pc' Epc]; [congruence|congruence|].
  assert (A : forall q a c v j, nth_error ind q = Some a -> nth_error cs q = Some c -> nth_error vs q = Some v -> nth_error find q = Some j ->
       nth_error ind' q = Some (if mh_accepts v c a j then c else a) /\
       nth_error pc' q = Some (if mh_accepts v c a j then dens ld uk tk pa f0 c j else dens ld uk tk pa f0 a j)).
  { intros q a c v j Ha Hcq Hv Hj. pose proof (Dpn q c j Hcq Hj) as D. pose proof (Hc q a j Ha Hj) as D0.
    pose proof (zipw_nth _ _ _ _ Edf q _ _ D D0) as D1.
    assert (D2 : nth_error (map clip0 df) q = Some (clip0 (xsub (dens ld uk tk pa f0 c j) (dens ld uk tk pa f0 a j)))) by (rewrite nth_error_map, D1; auto).
    assert (D3 : nth_error (map (fun r0 => xlog (Fin r0)) vs) q = Some (xlog (Fin v))) by (rewrite nth_error_map, Hv; auto).
    pose proof (zipw_nth _ _ _ _ Eacc q _ _ D3 D2) as D4. fold (mh_accepts v c a j) in D4.
    destruct (mask_set_spec _ _ _ _ Eind) as (_ & _ & _ & M1). destruct (mask_set_spec _ _ _ _ Epc) as (_ & _ & _ & M2).
    rewrite (M1 q _ _ _ Ha Hcq D4), (M2 q _ _ _ D0 D D4). auto. }
  assert (Li' : length ind' = m) by (destruct (mask_set_spec _ _ _ _ Eind); congruence).
  assert (Lp' : length pc' = m) by (destruct (mask_set_spec _ _ _ _ Epc); congruence).
  exists ind', pc'. split; [|split].
  - intros s s1 s2 Hr Hp Hvs. unfold mcmc_round. fold m.
    rewrite (propose_run g (lw pa) wn m s _ r s1 p s2 Hlive Hwn Hr Hp Pp). fold cs.
    rewrite (lift_bind_eq _ _ _ _ Epp), (lift_bind_eq _ _ _ _ Epi).
    rewrite (bind_eq _ _ _ _ _ (Epn s2)), (lift_bind_eq _ _ _ _ Edf). cbv zeta.
    rewrite (bind_eq _ _ _ _ _ (log_draws_run g m s2)), Hvs.
    rewrite (lift_bind_eq _ _ _ _ Eacc), (lift_bind_eq _ _ _ _ Eind), (lift_bind_eq _ _ _ _ Epc). reflexivity.
  - split; auto. split; auto. split.
    + apply Forall_forall. intros c0 Hin. apply In_nth_error in Hin. destruct Hin as [q Hq].
      assert (Q : (q < m)%nat) by (rewrite <- Li'; apply nth_error_Some; congruence).
      destruct (nth_error_lt ind q) as [a Ha]; [lia|]. destruct (nth_error_lt cs q) as [c Ec]; [lia|].
      destruct (nth_error_lt vs q) as [v Ev]; [lia|]. destruct (nth_error_lt find q) as [j Ej]; [auto|].
      destruct (A q a c v j Ha Ec Ev Ej) as [A1 _]. rewrite A1 in Hq. rewrite Forall_forall in Fi, Fc.
      apply nth_error_In in Ha. apply nth_error_In in Ec. destruct (mh_accepts v c a j); inversion Hq; subst; auto.
    + intros q a' j Ha' Ej. assert (Q : (q < m)%nat) by (rewrite <- Li'; apply nth_error_Some; congruence).
      destruct (nth_error_lt ind q) as [a Ha]; [lia|]. destruct (nth_error_lt cs q) as [c Ec]; [lia|].
      destruct (nth_error_lt vs q) as [v Ev]; [lia|].
      destruct (A q a c v j Ha Ec Ev Ej) as [A1 A2]. rewrite A1 in Ha'. rewrite A2. destruct (mh_accepts v c a j); inversion Ha'; auto.
  - intros q a c v j Ha Hcq Hv Hj. apply (A q a c v j); auto.
Qed.

Lemma mcmc_loop_run n : rng_ok g -> forall ind pcurr s, current ind pcurr ->
  exists ind' s', mcmc_loop sm g n pa ptr pind fut find u y t k wn ind pcurr s = Ok (ind', s') /\
    length ind' = m /\ Forall (fun c => (c < length (part pa))%nat) ind'.
Proof.
  intros Hg. pose proof Hg as [Hg1 Hg2]. induction n as [|n IH]; intros ind pcurr s Hc; cbn [mcmc_loop].
  - exists ind, s. split; [reflexivity|]. split; apply Hc.
  - destruct (rand g s) as [r s1] eqn:Er. pose proof (Hg1 s) as Ur. rewrite Er in Ur. simpl in Ur.
    destruct (permutation g m s1) as [p s2] eqn:Ep. pose proof (Hg2 m s1) as Pp. rewrite Ep in Pp. simpl in Pp.
    destruct (mcmc_round_run ind pcurr r p (fst (stream g m s2)) Hc Ur Pp (stream_length _ _ _)) as (ind' & pc' & E & Hc' & _).
    rewrite (bind_eq _ _ _ _ _ (E s s1 s2 Er Ep eq_refl)). cbn [fst snd]. apply IH. auto.
Qed.

Lemma mcmc_init ind : length ind = m -> Forall (fun c => (c < length (part pa))%nat) ind ->
  exists pcurr, current ind pcurr /\ forall n s,
    bsi_mcmc sm g pa ptr pind fut find u y t k n ind s = mcmc_loop sm g n pa ptr pind fut find u y t k wn ind pcurr s.
Proof.
  intros Li Fi. destruct (take_ok (part pa) ind Fi) as [pp Epp].
  destruct (take_ok pind ind) as [pi Epi]. { rewrite Hpi. exact Fi. }
  destruct (xnext_run sm ld Hmk u y t k uk tk Hu Ht pa ptr pind fut f0 Hf0 Hlen Hpi ind find pp pi Li Fi Hfind Epp) as (pn & Epn & Lpn & Dpn).
  exists pn. split; [split; auto|]. intros n s. unfold bsi_mcmc.
  rewrite (lift_bind_eq _ _ _ _ Hwn), (lift_bind_eq _ _ _ _ Epp), (lift_bind_eq _ _ _ _ Epi).
  rewrite (bind_eq _ _ _ _ _ (Epn s)). reflexivity.
Qed.
End Mcmc.

Section McmcLaw.
Context {P U Y V : Type}.
Variable sm : smodel (list R) P U Y V.
Variable ld : cell U -> nat -> P -> P -> xr.
Hypothesis Hmk : markov_density sm ld.
Variables (u : list (cell U)) (y : list (cell Y)) (t : list nat) (k : nat).
Variables (uk : cell U) (tk : nat).
Hypothesis Hu : nth_error u k = Some uk.
Hypothesis Ht : nth_error t k = Some tk.
Variables (pa : papprox P) (ptr : list (tstep P)) (pind : list nat) (fut : list (tstep P)) (f0 : tstep P).
Hypothesis Hf0 : nth_error fut 0 = Some f0.
Hypothesis Hlen : length (part pa) = length (lw pa).
Hypothesis Hpi : length pind = length (part pa).
Hypothesis Hlive : live (lw pa).
Variable wn : list xr.
Hypothesis Hwn : norm_weights (lw pa) = Ok wn.
Variable find : list nat.
Hypothesis Hfind : Forall (fun j => (j < length (part (st_pa f0)))%nat) find.
Variables (q j : nat).
Hypothesis Hq : nth_error find q = Some j.
Hypothesis Hld : forall c, (c < length (part pa))%nat -> logish (dens ld uk tk pa f0 c j).

Lemma mcmc_law i n : forall ind pcurr a N, current ld uk tk pa f0 find ind pcurr -> nth_error ind q = Some a ->
  (n * (2 + length find) <= N)%nat ->
  expect N (entry_is (mcmc_loop sm tape n pa ptr pind fut find u y t k wn ind pcurr) q i)
    (mh_chain (map lin (lw pa)) (fun c => lin (dens ld uk tk pa f0 c j)) n a i).
Proof.
  set (m := length find). set (f := fun c => lin (dens ld uk tk pa f0 c j)). set (lws := map lin (lw pa)).
  induction n as [|n IH]; intros ind pcurr a N Hc Ha HN.
  - eapply expect_ext; [|apply expect_const]. intros l _ _. unfold entry_is. cbn [mcmc_loop ret]. rewrite Ha. auto.
  - replace N with ((2 + m) + (N - (2 + m)))%nat by lia. set (N' := (N - (2 + m))%nat).
    assert (Q : (q < m)%nat) by (apply nth_error_Some; congruence).
    assert (Hlws : weights_ok lws) by (apply weights_ok_lin; auto).
    assert (Alt : (a < length (part pa))%nat).
    { destruct Hc as (_ & _ & F & _). rewrite Forall_forall in F. apply F. eapply nth_error_In; eauto. }
    set (G := fun c v => if mh_accepts ld uk tk pa f0 v c a j then mh_chain lws f n c i else mh_chain lws f n a i).
    apply (expect_app (2 + m) N' _ (fun l => match l with r :: v :: ts => G (nth q (cands lws m r (perm_of m v)) 0%nat) (nth q ts 0) | _ => 0 end)).
    + cbn [mh_chain]. apply propose_law; auto. intros c Hcl. unfold G.
      unfold lws in Hcl. rewrite map_length in Hcl.
      pose proof (accept_prob_RInt (clip0 (xsub (dens ld uk tk pa f0 c j) (dens ld uk tk pa f0 a j)))) as HA.
      rewrite (mh_accept_prob _ _ (Hld a Alt) (Hld c ltac:(lia))) in HA. fold (f a) (f c) in HA.
      replace (mh_prob (f a) (f c) * mh_chain lws f n c i + (1 - mh_prob (f a) (f c)) * mh_chain lws f n a i) with
        (plus (scal (mh_chain lws f n c i - mh_chain lws f n a i) (mh_prob (f a) (f c))) ((1 - 0) * mh_chain lws f n a i))
        by (unfold plus, scal; simpl; unfold mult; simpl; ring).
      eapply is_RInt_ext01; [|apply (is_RInt_plus (V := R_NormedModule)); [apply (is_RInt_scal (V := R_NormedModule)); exact HA|apply is_RInt_cst]].
      intros v _. unfold plus, scal; simpl; unfold mult; simpl. unfold mh_accepts. destruct (xltb _ _); ring.
    + intros l Ll Fl. destruct l as [|r [|v ts]]; try discriminate. simpl in Ll. inversion Fl as [|? ? Hr Fl']; subst. inversion Fl' as [|? ? Hv Ft]; subst.
      assert (Lt : length ts = m) by lia.
      destruct (mcmc_round_run sm tape ld Hmk u y t k uk tk Hu Ht pa ptr pind fut f0 Hf0 Hlen Hpi Hlive wn Hwn find Hfind ind pcurr r
        (perm_of m v) ts Hc ltac:(split; lra) (perm_of_perm m v) Lt) as (ind' & pc' & E & Hc' & A).
      fold m lws in A, E.
      assert (E' : forall l', mcmc_round sm tape pa ptr pind fut find u y t k wn ind pcurr (r :: v :: ts ++ l') = Ok ((ind', pc'), l')).
      { intros l'. specialize (E (r :: v :: ts ++ l') (v :: ts ++ l') (ts ++ l')).
        cbn [rand permutation tape] in E. rewrite !unit_of_in in E by auto. fold (perm_of m v) in E.
        pose proof (stream_tape ts l' Ft) as ST. rewrite Lt in ST. rewrite ST in E. cbn [fst snd] in E. apply E; auto. }
      set (c := nth q (cands lws m r (perm_of m v)) 0%nat).
      assert (Ec : nth_error (cands lws m r (perm_of m v)) q = Some c).
      { apply nth_error_nth'. destruct (cands_spec lws m r (perm_of m v) (perm_of_perm m v)) as [_ ->]. auto. }
      assert (Et : nth_error ts q = Some (nth q ts 0)) by (apply nth_error_nth'; lia).
      specialize (A q a c (nth q ts 0) j Ha Ec Et Hq). unfold G. cbn [app].
      replace (if mh_accepts ld uk tk pa f0 (nth q ts 0) c a j then mh_chain lws f n c i else mh_chain lws f n a i)
        with (mh_chain lws f n (if mh_accepts ld uk tk pa f0 (nth q ts 0) c a j then c else a) i) by (destruct (mh_accepts _ _ _ _ _ _ _ _ _); auto).
      eapply expect_ext; [|apply (IH ind' pc' _ N' Hc' A)].
      * intros l' _ _. unfold entry_is. cbn [mcmc_loop]. rewrite (bind_eq _ _ _ _ _ (E' l')). reflexivity.
      * unfold N'. fold m in HN |- *. simpl in HN. lia.
Qed.
End McmcLaw.
