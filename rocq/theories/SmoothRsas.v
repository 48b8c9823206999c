(** The adaptive rejection sampler: termination, totality and law. *)
From Coquelicot Require Import Coquelicot.
From Coq Require Import String Bool Reals Lra Lia List Arith Permutation.
From Verif Require Import Base XR SampleModel SampleSpec SampleProofs PAModel WeightSpec WeightProofs
  FilterModel TrajModel Prop_Cond SmoothModel SmoothSpec SmoothProofs SmoothBsi SmoothRs Perms SmoothLaw.
Import ListNotations.
Open Scope R_scope.

Section Enough.
Variables (sv sw stop : R).

(** [fuel] rounds are enough from a state with [m] trajectories left, whatever is
    accepted. *)
Fixpoint enough (fuel m : nat) (pk Pk : R) : Prop :=
  match fuel with
  | O => False
  | S f => forall ak, (ak < m)%nat -> exists pk' Pk', accept_kf sv sw m ak pk Pk = Ok (pk', Pk') /\
             (pk' < stop \/ enough f (m - ak) pk' Pk')
  end.

Lemma enough_mono f : forall f' m pk Pk, (f <= f')%nat -> enough f m pk Pk -> enough f' m pk Pk.
Proof.
  induction f as [|f IH]; intros f' m pk Pk H E; [destruct E|]. destruct f' as [|f']; [lia|].
  intros ak Ha. destruct (E ak Ha) as (pk' & Pk' & E1 & [E2|E2]); exists pk', Pk'; split; auto.
  right. apply (IH f'); auto. lia.
Qed.

Hypothesis Hsv : sv <> 0.
Hypothesis Hsw : sw <> 0.
Hypothesis Hstop : 0 < stop.

Let rho : R := sw * sw / (sv * sv + sw * sw).

Lemma sq_pos x : x <> 0 -> 0 < x * x.
Proof. intros H. destruct (Rlt_dec 0 x); [nra|]. assert (x < 0) by lra. nra. Qed.

Lemma kf_step m ak pk Pk : (ak < m)%nat -> 0 <= Pk ->
  let mk := INR m in let a := INR ak in let den := mk * mk * Pk + sw * sw in
  accept_kf sv sw m ak pk Pk =
    Ok ((1 - a / mk) * (pk * (sw * sw / den) + (mk * mk * Pk / den) * (a / mk)),
        (1 - a / mk) ^ 2 * (sw * sw / den) * Pk + sv * sv) /\
  0 < mk /\ 0 < den /\ 0 <= a / mk < 1.
Proof.
  intros Ha HP mk a den.
  assert (Hm : 0 < mk) by (apply lt_0_INR; lia).
  assert (Hd : 0 < den) by (unfold den; pose proof (sq_pos sw Hsw); nra).
  assert (Hr : 0 <= a / mk < 1).
  { split; [apply Rmult_le_pos; [apply pos_INR|left; apply Rinv_0_lt_compat; auto]|].
    apply (Rmult_lt_reg_r mk); auto. unfold Rdiv. rewrite Rmult_assoc, Rinv_l by lra. rewrite Rmult_1_r, Rmult_1_l.
    apply lt_INR; auto. }
  repeat split; try tauto; try lra.
  unfold accept_kf. fold mk a. fold den. rewrite Reqb_false by lra. rewrite Reqb_false by lra.
  assert (G : sw * sw / den = 1 - mk * mk * Pk / den) by (unfold den in *; field; lra).
  rewrite G. f_equal. f_equal; [f_equal; field; lra|ring].
Qed.

Lemma rho_bounds : 0 < rho < 1.
Proof.
  pose proof (sq_pos sv Hsv). pose proof (sq_pos sw Hsw). unfold rho. split.
  - apply Rdiv_lt_0_compat; lra.
  - apply (Rmult_lt_reg_r (sv * sv + sw * sw)); [lra|]. unfold Rdiv. rewrite Rmult_assoc, Rinv_l by lra. lra.
Qed.

(** One round: the variance stays at least sv^2, the estimate below any bound B >= 1,
    and a round that accepts nothing multiplies a positive estimate by at most [rho]. *)
Lemma kf_bounds m ak pk Pk B : (ak < m)%nat -> 0 <= Pk -> 1 <= B -> pk <= B ->
  exists pk' Pk', accept_kf sv sw m ak pk Pk = Ok (pk', Pk') /\ sv * sv <= Pk' /\ pk' <= B /\
    (ak = 0%nat -> sv * sv <= Pk -> pk' <= Rmax 0 (pk * rho)).
Proof.
  intros Ha HP HB Hpk. destruct (kf_step m ak pk Pk Ha HP) as (E & Hm & Hd & Hr). cbv zeta in *.
  set (mk := INR m) in *. set (a := INR ak) in *. set (den := mk * mk * Pk + sw * sw) in *.
  exists ((1 - a / mk) * (pk * (sw * sw / den) + (mk * mk * Pk / den) * (a / mk))),
         ((1 - a / mk) ^ 2 * (sw * sw / den) * Pk + sv * sv).
  split; [exact E|].
  pose proof (sq_pos sw Hsw) as Hw. pose proof (sq_pos sv Hsv) as Hv.
  set (g := sw * sw / den). assert (Hg : 0 < g) by (apply Rdiv_lt_0_compat; auto).
  set (h := mk * mk * Pk / den).
  assert (Hh : h = 1 - g) by (unfold g, h; replace (sw * sw) with (den - mk * mk * Pk) by (unfold den; ring); field; lra).
  assert (Hh0 : 0 <= h) by (unfold h; apply Rmult_le_pos; [nra|left; apply Rinv_0_lt_compat; auto]).
  set (z := a / mk) in *. repeat split.
  - assert (0 <= (1 - z) ^ 2 * g * Pk); [|lra].
    apply Rmult_le_pos; auto. apply Rmult_le_pos; [apply pow2_ge_0|lra].
  - assert (A : pk * g + h * z <= B).
    { assert (pk * g <= B * g) by (apply Rmult_le_compat_r; lra).
      assert (h * z <= h * B) by (apply Rmult_le_compat_l; lra).
      assert (B * g + h * B = B) by (rewrite Hh; ring). lra. }
    set (q := pk * g + h * z) in *. clearbody q. destruct (Rle_dec 0 q); nra.
  - intros -> HPk. assert (z = 0) by (unfold z, a; simpl; unfold Rdiv; lra).
    rewrite H. replace ((1 - 0) * (pk * g + h * 0)) with (pk * g) by ring.
    assert (Hgr : g <= rho).
    { unfold g, rho, Rdiv. apply Rmult_le_compat_l; [lra|]. apply Rinv_le_contravar; [lra|]. unfold den.
      assert (1 <= mk) by (apply (le_INR 1); lia). clearbody mk. assert (1 <= mk * mk) by nra.
      assert (1 * Pk <= mk * mk * Pk) by (apply Rmult_le_compat_r; lra). lra. }
    clearbody g.
    destruct (Rle_dec 0 pk).
    + eapply Rle_trans; [|apply Rmax_r]. nra.
    + eapply Rle_trans; [|apply Rmax_l]. nra.
Qed.

Lemma enough_main B L : 1 <= B -> B * rho ^ L < stop -> forall n m z pk Pk,
  (m * (L + 1) <= n + z)%nat -> (z <= L)%nat -> (0 < m)%nat -> (0 < n)%nat -> sv * sv <= Pk -> pk <= B * rho ^ z ->
  enough n m pk Pk.
Proof.
  intros HB HL. pose proof rho_bounds as Hrho. pose proof (sq_pos sv Hsv) as Hv.
  assert (Hpow : forall z, 0 < rho ^ z <= 1).
  { intros z. split; [apply pow_lt; lra|]. induction z; simpl; [lra|]. pose proof (pow_lt rho z ltac:(lra)). nra. }
  induction n as [|n IH]; intros m z pk Pk Hn Hz Hm Hn0 HP Hpk; [lia|].
  intros ak Ha. assert (HpB : pk <= B).
  { destruct (Hpow z). eapply Rle_trans; [exact Hpk|]. rewrite <- (Rmult_1_r B) at 2. apply Rmult_le_compat_l; lra. }
  destruct (kf_bounds m ak pk Pk B Ha ltac:(lra) HB HpB) as (pk' & Pk' & E & A1 & A2 & A3).
  exists pk', Pk'. split; auto. destruct (Rlt_dec pk' stop) as [|Hns]; auto. right.
  destruct (Nat.eq_dec ak 0) as [->|Hak].
  - specialize (A3 eq_refl HP). assert (A4 : pk' <= B * rho ^ S z).
    { eapply Rle_trans; [exact A3|]. simpl. destruct (Hpow z) as [Q1 Q2].
      apply Rmax_lub; [apply Rmult_le_pos; [lra|apply Rmult_le_pos; lra]|].
      replace (B * (rho * rho ^ z)) with ((B * rho ^ z) * rho) by ring. apply Rmult_le_compat_r; lra. }
    destruct (le_lt_dec L (S z)) as [Hle|Hlt].
    + exfalso. apply Hns. eapply Rle_lt_trans; [exact A4|]. eapply Rle_lt_trans; [|exact HL].
      replace (S z) with (L + (S z - L))%nat by lia. rewrite pow_add. pose proof (Hpow L). pose proof (Hpow (S z - L)%nat).
      assert (0 <= B * rho ^ L) by (apply Rmult_le_pos; lra). rewrite <- Rmult_assoc.
      rewrite <- (Rmult_1_r (B * rho ^ L)) at 2. apply Rmult_le_compat_l; lra.
    + rewrite Nat.sub_0_r. apply (IH m (S z)); auto; try lia.
      destruct m as [|m']; [lia|]. simpl in Hn. lia.
  - destruct n as [|n'].
    + exfalso. destruct m as [|[|m']]; simpl in Hn; nia.
    + apply (IH (m - ak)%nat 0%nat); auto; try lia; [|simpl; lra].
      assert ((m - ak) * (L + 1) <= (m - 1) * (L + 1))%nat by (apply Nat.mul_le_mono_r; lia).
      assert (m * (L + 1) = (m - 1) * (L + 1) + (L + 1))%nat by nia. nia.
Qed.

(** A bound on the number of rounds that depends only on the number of
    trajectories and the parameters. *)
Lemma enough_exists M x1 : exists F, forall m P1, (0 < m <= M)%nat -> 0 <= P1 -> enough F m x1 P1.
Proof.
  set (B := Rmax 1 x1). assert (HB : 1 <= B) by apply Rmax_l. pose proof rho_bounds as Hrho.
  assert (HL : exists L, B * rho ^ L < stop).
  { destruct (pow_lt_1_zero rho ltac:(rewrite Rabs_right; lra) (stop / B)) as [L HL].
    { apply Rdiv_lt_0_compat; lra. }
    exists L. specialize (HL L ltac:(lia)). rewrite Rabs_right in HL by (left; apply pow_lt; lra).
    apply (Rmult_lt_compat_l B) in HL; [|lra]. replace (B * (stop / B)) with stop in HL by (field; lra). auto. }
  destruct HL as [L HL]. exists (S (M * (L + 1) + 1)). intros m P1 Hm HP.
  intros ak Ha. destruct (kf_bounds m ak x1 P1 B Ha HP HB) as (pk' & Pk' & E & A1 & A2 & _); [apply Rmax_r|].
  exists pk', Pk'. split; auto. right. apply (enough_main B L HB HL _ (m - ak)%nat 0%nat); auto; try lia; [|simpl; lra].
  assert ((m - ak) * (L + 1) <= M * (L + 1))%nat by (apply Nat.mul_le_mono_r; lia). lia.
Qed.
End Enough.

Section RsasRun.
Context {W P U Y V : Type}.
Variable sm : smodel W P U Y V.
Variable g : rng W.
Hypothesis Hg : rng_ok g.
Variable ld : cell U -> nat -> P -> P -> xr.
Hypothesis Hmk : markov_density sm ld.
Variables (u : list (cell U)) (y : list (cell Y)) (t : list nat) (k : nat).
Variables (uk : cell U) (tk : nat).
Hypothesis Hu : nth_error u k = Some uk.
Hypothesis Ht : nth_error t k = Some tk.
Variables (pa : papprox P) (ptr : list (tstep P)) (pind : list nat) (fut : list (tstep P)) (f0 : tstep P).
Hypothesis Hf0 : nth_error fut 0 = Some f0.
Hypothesis Hlen : length (part pa) = length (lw pa).
Hypothesis Hpi : length pind = length (part pa).
Hypothesis Hlive : live (lw pa).
Variable wn : list xr.
Hypothesis Hwn : norm_weights (lw pa) = Ok wn.
Variables (sv sw stop : R).

Lemma rsas_loop_run mp n : forall todo result pk Pk s, NoDup todo -> Forall (fun j => (j < length result)%nat) todo ->
  reachable ld uk tk pa f0 todo -> enough sv sw stop n (length todo) pk Pk ->
  exists res s', rsas_loop sm g n pa ptr pind fut u y t k mp sv sw stop wn pk Pk todo result s = Ok (res, s') /\
    length res = length result /\ (forall j, ~ In j todo -> nth_error res j = nth_error result j) /\
    (forall j, In j todo -> exists i, nth_error res j = Some i /\ chosen ld uk tk pa f0 mp j i).
Proof.
  induction n as [|n IH]; intros todo result pk Pk s N F R HE; cbn [rsas_loop]; [destruct HE|].
  destruct (rs_step sm g Hg ld Hmk u y t k uk tk Hu Ht pa ptr pind fut f0 Hf0 Hlen Hpi Hlive wn Hwn mp todo result s N F R)
    as (res' & td & ak & s' & E & H1 & H2 & H3 & H4 & H5 & H6).
  rewrite (bind_eq _ _ _ _ _ E). destruct td as [|j0 td].
  - exists res', s'. split; auto. split; auto. split; auto. intros j Hj. destruct (H6 j Hj) as [[]|]; auto.
  - assert (Ha : (ak < length todo)%nat) by (simpl in H3; lia).
    destruct (HE ak Ha) as (pk' & Pk' & Ek & Hk). rewrite (lift_bind_eq _ _ _ _ Ek).
    assert (Ftd : Forall (fun j => (j < length res')%nat) (j0 :: td)).
    { rewrite H1. rewrite Forall_forall in *. intros j Hj. apply F. apply H4; auto. }
    assert (Rtd : reachable ld uk tk pa f0 (j0 :: td)).
    { unfold reachable in *. rewrite Forall_forall in *. intros j Hj. apply R. apply H4; auto. }
    assert (Fin_ : exists res s2, (if Rltb pk' stop
              then do r <- bsi_full sm g pa ptr pind fut (j0 :: td) u y t k ; lift (scatter res' (j0 :: td) r)
              else rsas_loop sm g n pa ptr pind fut u y t k mp sv sw stop wn pk' Pk' (j0 :: td) res') s' = Ok (res, s2) /\
            length res = length res' /\ (forall j, ~ In j (j0 :: td) -> nth_error res j = nth_error res' j) /\
            (forall j, In j (j0 :: td) -> exists i, nth_error res j = Some i /\ chosen ld uk tk pa f0 mp j i)).
    { destruct (Rltb pk' stop) eqn:Es.
      - apply (full_finish sm g Hg ld Hmk u y t k uk tk Hu Ht pa ptr pind fut f0 Hf0 Hlen) with (mp := mp); auto.
      - apply IH; auto. destruct Hk as [Hk|Hk]; [apply Rltb_false in Es; lra|].
        replace (length (j0 :: td)) with (length todo - ak)%nat by lia. auto. }
    destruct Fin_ as (res & s2 & E2 & L2 & A2 & B2).
    exists res, s2. split; [exact E2|]. split; [congruence|]. split.
    + intros j Hj. rewrite A2; auto. intros Hin. apply Hj. apply H4; auto.
    + intros j Hj. destruct (H6 j Hj) as [Hin|(i & Ei & Ci)]; [apply B2; auto|].
      destruct (in_dec Nat.eq_dec j (j0 :: td)) as [Hin|Hout]; [apply B2; auto|].
      exists i. rewrite A2 by auto. auto.
Qed.
End RsasRun.

Section RsasLaw.
Context {P U Y V : Type}.
Variable sm : smodel (list R) P U Y V.
Variable ld : cell U -> nat -> P -> P -> xr.
Hypothesis Hmk : markov_density sm ld.
Variables (u : list (cell U)) (y : list (cell Y)) (t : list nat) (k : nat).
Variables (uk : cell U) (tk : nat).
Hypothesis Hu : nth_error u k = Some uk.
Hypothesis Ht : nth_error t k = Some tk.
Variables (pa : papprox P) (ptr : list (tstep P)) (pind : list nat) (fut : list (tstep P)) (f0 : tstep P).
Hypothesis Hf0 : nth_error fut 0 = Some f0.
Hypothesis Hlen : length (part pa) = length (lw pa).
Hypothesis Hpi : length pind = length (part pa).
Hypothesis Hlive : live (lw pa).
Variable wn : list xr.
Hypothesis Hwn : norm_weights (lw pa) = Ok wn.
Variable mx : R.
Variable j : nat.
Variable x' : P.
Hypothesis Hx : nth_error (part (st_pa f0)) j = Some x'.
Hypothesis Hus : usable (ld uk tk) pa x'.
Hypothesis Hmax : forall p, In p (part pa) -> xle (ld uk tk p x') (Fin mx).
Variables (sv sw stop : R).

Lemma rsas_law i : (i < length (lw pa))%nat -> forall n todo result pk Pk N, NoDup todo ->
  Forall (fun j => (j < length result)%nat) todo -> reachable ld uk tk pa f0 todo -> In j todo ->
  enough sv sw stop n (length todo) pk Pk ->
  (n * (2 + length todo) + length todo <= N)%nat ->
  expect N (entry_is (rsas_loop sm tape n pa ptr pind fut u y t k (Fin mx) sv sw stop wn pk Pk todo result) j i)
    (qprob ld uk tk pa x' i).
Proof.
  intros Hi n. induction n as [|n IH]; intros todo result pk Pk N ND F Rc Hj HE HN; [destruct HE|].
  replace N with ((2 + length todo) + (N - (2 + length todo)))%nat by lia.
  cbn [rsas_loop]. apply (round_law sm ld Hmk u y t k uk tk Hu Ht pa ptr pind fut f0 Hf0 Hlen Hpi Hlive wn Hwn mx j x' Hx Hus Hmax); auto.
  - intros res' td ak H2 H3 Itd H1 H7 l'. destruct td as [|j0 td]; [exists res', l'; split; reflexivity|].
    assert (Ftd : Forall (fun j => (j < length res')%nat) (j0 :: td)).
    { rewrite H1. rewrite Forall_forall in *. intros a Ha. apply F, Itd; auto. }
    assert (Rtd : reachable ld uk tk pa f0 (j0 :: td)).
    { unfold reachable in *. rewrite Forall_forall in *. intros a Ha. apply Rc, Itd; auto. }
    assert (Ha : (ak < length todo)%nat) by (simpl in H3; lia).
    destruct (HE ak Ha) as (pk' & Pk' & Ek & Hk). rewrite (lift_bind_eq _ _ _ _ Ek).
    destruct (Rltb pk' stop) eqn:Es.
    + destruct (full_finish sm tape tape_ok ld Hmk u y t k uk tk Hu Ht pa ptr pind fut f0 Hf0 Hlen Hpi (Fin mx) (j0 :: td) res' l' H2 Ftd Rtd)
        as (res & s2 & E2 & _ & A2 & _). exists res, s2. split; [exact E2|]. apply A2; auto.
    + destruct (rsas_loop_run sm tape tape_ok ld Hmk u y t k uk tk Hu Ht pa ptr pind fut f0 Hf0 Hlen Hpi Hlive wn Hwn sv sw stop (Fin mx) n
         (j0 :: td) res' pk' Pk' l' H2 Ftd Rtd) as (res & s2 & E2 & _ & A2 & _).
      { destruct Hk as [Hk|Hk]; [apply Rltb_false in Es; lra|].
        replace (length (j0 :: td)) with (length todo - ak)%nat by lia. auto. }
      exists res, s2. split; [exact E2|]. apply A2; auto.
  - intros res' td ak H2 H3 Itd H1 H6. destruct td as [|j0 td]; [destruct H6|].
    assert (Ftd : Forall (fun j => (j < length res')%nat) (j0 :: td)).
    { rewrite H1. rewrite Forall_forall in *. intros a Ha. apply F, Itd; auto. }
    assert (Rtd : reachable ld uk tk pa f0 (j0 :: td)).
    { unfold reachable in *. rewrite Forall_forall in *. intros a Ha. apply Rc, Itd; auto. }
    assert (Ha : (ak < length todo)%nat) by (simpl in H3; lia).
    destruct (HE ak Ha) as (pk' & Pk' & Ek & Hk).
    assert (Hlt : (length (j0 :: td) <= length todo)%nat) by lia.
    destruct (Rltb pk' stop) eqn:Es.
    + eapply expect_ext; [|apply (rs_law sm ld Hmk u y t k uk tk Hu Ht pa ptr pind fut f0 Hf0 Hlen Hpi Hlive wn Hwn mx j x' Hx Hus Hmax i Hi
        0 (j0 :: td) res' (N - (2 + length todo))); auto; try nia].
      intros l' _ _. unfold entry_is. rewrite (lift_bind_eq _ _ _ _ Ek), Es. reflexivity.
    + eapply expect_ext; [|apply (IH (j0 :: td) res' pk' Pk' (N - (2 + length todo))%nat); auto; try nia].
      * intros l' _ _. unfold entry_is. rewrite (lift_bind_eq _ _ _ _ Ek), Es. reflexivity.
      * destruct Hk as [Hk|Hk]; [apply Rltb_false in Es; lra|].
        replace (length (j0 :: td)) with (length todo - ak)%nat by lia. auto.
Qed.
End RsasLaw.
