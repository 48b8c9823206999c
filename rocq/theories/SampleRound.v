(** [sample] (pyparticleest/filter.py:10-23) with every arithmetic operation
    followed by a rounding, to show that index validity does not depend on exact
    real arithmetic. *)
From Coq Require Import ZArith Reals Lra Lia List Arith Psatz.
From Flocq Require Import Core.
From Verif Require Import Base XR SampleModel SampleSpec.
Import ListNotations.
Open Scope R_scope.

(** filter.py:20 numpy.cumsum with rounded additions (numpy accumulates
    left to right; the first entry is copied). *)
Fixpoint cumsum_rnd (rnd : R -> R) (a : R) (w : list R) : list R :=
  match w with
  | [] => []
  | x :: w' => let b := rnd (a + x) in b :: cumsum_rnd rnd b w'
  end.

(** filter.py:22: [(k + r) / n], both operations rounded. *)
Definition key_rnd (rnd : R -> R) (n : nat) (r : R) (k : nat) : R :=
  rnd (rnd (INR k + r) / INR n).

(** filter.py:20-21: the rounded normalised cumulative weights. *)
Definition wc_rnd (rnd : R -> R) (w : list R) : list R :=
  let wc := cumsum_rnd rnd 0 w in
  map (fun x => rnd (x / last wc 0)) wc.

(** filter.py:10-23 with rounding (the total is assumed non-zero by the
    theorems; the 0/0 case is in [np_sample]). *)
Definition np_sample_rnd (rnd : R -> R) (w : list R) (n : nat) (r : R) : list nat :=
  map (fun k => searchsorted (map Fin (wc_rnd rnd w)) (Fin (key_rnd rnd n r k))) (seq 0 n).

(** IEEE-754 binary64, round to nearest even, without overflow. *)
Definition rnd64 : R -> R := round radix2 (FLT_exp (-1074) 53) ZnearestE.

(** A value representable as a binary64 number (no overflow bound). *)
Definition float64 (x : R) : Prop := generic_format radix2 (FLT_exp (-1074) 53) x.

(* ------------------------------------------------------------------ *)
Section Generic.
Variable rnd : R -> R.
Hypothesis rnd_mono : forall x y, x <= y -> rnd x <= rnd y.
Hypothesis rnd_idem : forall x, rnd (rnd x) = rnd x.
Hypothesis rnd_0 : rnd 0 = 0.
Hypothesis rnd_1 : rnd 1 = 1.

Lemma cumsum_rnd_length w : forall a, length (cumsum_rnd rnd a w) = length w.
Proof. induction w; simpl; auto. Qed.

Lemma cumsum_rnd_sorted w : forall a, rnd a = a -> Forall (fun x => 0 <= x) w ->
  (forall i j x y, (i <= j)%nat -> nth_error (a :: cumsum_rnd rnd a w) i = Some x ->
     nth_error (a :: cumsum_rnd rnd a w) j = Some y -> x <= y).
Proof.
  induction w as [|v w IH]; intros a Ha Hw i j x y Hij Hi Hj.
  - destruct i as [|[|i]], j as [|[|j]]; simpl in *; try discriminate; try lia.
    inversion Hi; inversion Hj; subst; lra.
  - inversion Hw; subst.
    set (b := rnd (a + v)) in *.
    assert (Hb : a <= b) by (unfold b; rewrite <- Ha at 1; apply rnd_mono; lra).
    assert (Hbb : rnd b = b) by (unfold b; apply rnd_idem).
    change (cumsum_rnd rnd a (v :: w)) with (b :: cumsum_rnd rnd b w) in Hi, Hj.
    destruct i.
    + simpl in Hi. inversion Hi; subst x.
      destruct j; simpl in Hj; [inversion Hj; subst; lra|].
      assert (b <= y) by (eapply (IH b Hbb) with (i := 0%nat) (j := j); eauto; lia || reflexivity).
      lra.
    + destruct j; [lia|]. simpl in Hi, Hj.
      eapply (IH b Hbb) with (i := i) (j := j); eauto. lia.
Qed.

Lemma last_nth_error {A} (l : list A) d : l <> [] -> nth_error l (length l - 1) = Some (last l d).
Proof.
  intros H. destruct (exists_last H) as (l' & a & ->).
  rewrite last_last, app_length. simpl.
  rewrite nth_error_app2 by lia. replace (length l' + 1 - 1 - length l')%nat with 0%nat by lia. auto.
Qed.

Lemma total_pos w : Forall (fun x => 0 <= x /\ rnd x = x) w -> Exists (fun x => 0 < x) w ->
  0 < last (cumsum_rnd rnd 0 w) 0.
Proof.
  intros Hw Hex.
  assert (G : forall w a, rnd a = a -> 0 <= a -> Forall (fun x => 0 <= x /\ rnd x = x) w ->
      (0 < a \/ Exists (fun x => 0 < x) w) -> 0 < last (cumsum_rnd rnd a w) a).
  { clear w Hw Hex. induction w as [|v w IH]; intros a Ha H0 Hw Hor; simpl.
    - destruct Hor as [H|H]; auto. inversion H.
    - inversion Hw as [|? ? [Hv Hvr] Hw']; subst.
      assert (H1 : v <= rnd (a + v)) by (rewrite <- Hvr at 1; apply rnd_mono; lra).
      assert (H2 : a <= rnd (a + v)) by (rewrite <- Ha at 1; apply rnd_mono; lra).
      assert (P : 0 < rnd (a + v) \/ Exists (fun x => 0 < x) w).
      { destruct Hor as [H|H]; [left; lra|]. inversion H; subst; [left; lra|right; auto]. }
      specialize (IH (rnd (a + v)) (rnd_idem _) ltac:(lra) Hw' P).
      destruct (cumsum_rnd rnd (rnd (a + v)) w) as [|c l]; auto.
      assert (L : forall (l : list R) d1 d2, l <> [] -> last l d1 = last l d2).
      { clear. induction l as [|a [|b l] IH]; intros; simpl; auto; try congruence.
        apply (IH d1 d2). congruence. }
      rewrite (L (c :: l) a (rnd (a + v))); [exact IH|congruence]. }
  apply (G w 0); auto; lra.
Qed.

Lemma wc_rnd_sorted w : Forall (fun x => 0 <= x) w -> 0 < last (cumsum_rnd rnd 0 w) 0 ->
  forall i j x y, (i <= j)%nat -> nth_error (wc_rnd rnd w) i = Some x ->
    nth_error (wc_rnd rnd w) j = Some y -> x <= y.
Proof.
  intros Hw Hz i j x y Hij Hi Hj. unfold wc_rnd in *.
  rewrite nth_error_map in Hi, Hj.
  destruct (nth_error (cumsum_rnd rnd 0 w) i) as [a|] eqn:Ea; [|discriminate].
  destruct (nth_error (cumsum_rnd rnd 0 w) j) as [b|] eqn:Eb; [|discriminate].
  simpl in *. inversion Hi; inversion Hj; subst. apply rnd_mono.
  apply Rmult_le_compat_r; [left; apply Rinv_0_lt_compat; auto|].
  eapply (cumsum_rnd_sorted w 0 rnd_0 Hw (S i) (S j)); eauto. lia.
Qed.

Lemma wc_rnd_last w : w <> [] -> 0 < last (cumsum_rnd rnd 0 w) 0 ->
  nth_error (wc_rnd rnd w) (length w - 1) = Some 1.
Proof.
  intros Hw Hz. unfold wc_rnd. rewrite nth_error_map.
  assert (Hne : cumsum_rnd rnd 0 w <> []) by (destruct w; simpl; congruence).
  pose proof (last_nth_error (cumsum_rnd rnd 0 w) 0 Hne) as H.
  rewrite cumsum_rnd_length in H. rewrite H. simpl. f_equal.
  unfold Rdiv. rewrite Rinv_r by lra. auto.
Qed.

Lemma searchsorted_first_not_less a u i x :
  nth_error a i = Some x -> u <= x -> (searchsorted (map Fin a) (Fin u) <= i)%nat.
Proof.
  revert i; induction a as [|y a IH]; intros [|i] H Hu; simpl in *; try discriminate.
  - inversion H; subst. destruct (Rltb x u) eqn:E; auto. apply Rltb_true in E. lra.
  - destruct (Rltb y u); [|lia]. apply IH in H; auto. lia.
Qed.

Lemma key_rnd_le_1 n r k : (k < n)%nat -> unit_draw r -> rnd (INR n) = INR n ->
  key_rnd rnd n r k <= 1.
Proof.
  intros Hk [Hr0 Hr1] Hn. unfold key_rnd. rewrite <- rnd_1. apply rnd_mono.
  assert (HN : 0 < INR n) by (apply lt_0_INR; lia).
  assert (Hk' : INR k + 1 <= INR n) by (rewrite <- S_INR; apply le_INR; lia).
  assert (H : rnd (INR k + r) <= INR n) by (rewrite <- Hn; apply rnd_mono; lra).
  apply Rmult_le_reg_r with (INR n); auto. unfold Rdiv. rewrite Rmult_assoc, Rinv_l by lra. lra.
Qed.

Lemma sample_rnd_valid w n r :
  Forall (fun x => 0 <= x /\ rnd x = x) w -> Exists (fun x => 0 < x) w ->
  rnd (INR n) = INR n -> unit_draw r ->
  length (np_sample_rnd rnd w n r) = n /\
  Forall (fun i => (i < length w)%nat) (np_sample_rnd rnd w n r) /\
  nondecreasing (np_sample_rnd rnd w n r).
Proof.
  intros Hw Hex Hn Hr.
  pose proof (total_pos w Hw Hex) as Hz.
  assert (Hne : w <> []) by (destruct Hex; congruence).
  unfold np_sample_rnd. repeat split.
  - rewrite map_length, seq_length. auto.
  - apply Forall_forall. intros i Hi. apply in_map_iff in Hi. destruct Hi as (k & <- & Hk).
    apply in_seq in Hk.
    pose proof (searchsorted_first_not_less (wc_rnd rnd w) (key_rnd rnd n r k) (length w - 1) 1
                 (wc_rnd_last w Hne Hz) (key_rnd_le_1 n r k ltac:(lia) Hr Hn)).
    destruct w; [congruence|]. simpl length in *. lia.
  - intros j k a b Hjk Hj Hk.
    rewrite nth_error_map in Hj, Hk.
    destruct (nth_error (seq 0 n) j) as [j'|] eqn:Ej; simpl in Hj; [|discriminate].
    destruct (nth_error (seq 0 n) k) as [k'|] eqn:Ek; simpl in Hk; [|discriminate].
    assert (Hkn : (k < n)%nat) by (rewrite <- (seq_length n 0); apply nth_error_Some; congruence).
    rewrite (nth_error_nth' _ 0%nat) in Ej by (rewrite seq_length; lia).
    rewrite (nth_error_nth' _ 0%nat) in Ek by (rewrite seq_length; lia).
    rewrite seq_nth in Ej, Ek by lia. simpl in Ej, Ek.
    injection Ej as <-. injection Ek as <-. injection Hj as <-. injection Hk as <-.
    assert (Hle : key_rnd rnd n r j <= key_rnd rnd n r k).
    { unfold key_rnd. apply rnd_mono.
      apply Rmult_le_compat_r; [left; apply Rinv_0_lt_compat, lt_0_INR; lia|].
      apply rnd_mono. apply le_INR in Hjk. lra. }
    revert Hle. generalize (key_rnd rnd n r j) (key_rnd rnd n r k). intros u v Hle.
    induction (wc_rnd rnd w) as [|y l IH]; simpl; auto.
    destruct (Rltb y u) eqn:E.
    + apply Rltb_true in E. assert (E' : Rltb y v = true) by (apply Rltb_true; lra).
      rewrite E'. lia.
    + lia.
Qed.
End Generic.

(** The hypotheses hold for binary64. *)
#[local] Instance prec53 : Prec_gt_0 53.
Proof. unfold Prec_gt_0. lia. Qed.

Lemma rnd64_mono x y : x <= y -> rnd64 x <= rnd64 y.
Proof. apply round_le; typeclasses eauto. Qed.
Lemma rnd64_idem x : rnd64 (rnd64 x) = rnd64 x.
Proof.
  apply round_generic; [typeclasses eauto|]. apply generic_format_round; typeclasses eauto.
Qed.
Lemma rnd64_0 : rnd64 0 = 0.
Proof. apply round_0; typeclasses eauto. Qed.
Lemma float64_fix x : float64 x -> rnd64 x = x.
Proof. intros H. apply round_generic; [typeclasses eauto|]. exact H. Qed.

Lemma float64_nat n : (Z.of_nat n <= 2 ^ 53)%Z -> float64 (INR n).
Proof.
  intros H. rewrite INR_IZR_INZ. unfold float64.
  destruct (Z.eq_dec (Z.of_nat n) (2 ^ 53)) as [E|E].
  - rewrite E. change (2 ^ 53)%Z with (Zpower radix2 53).
    rewrite IZR_Zpower by lia. apply generic_format_FLT_bpow; [unfold Prec_gt_0; lia|lia].
  - apply generic_format_FLT.
    apply (FLT_spec radix2 (-1074) 53 (IZR (Z.of_nat n)) (Float radix2 (Z.of_nat n) 0)).
    + unfold F2R. simpl. lra.
    + simpl Fnum. rewrite Z.abs_eq by lia. change (Zpower radix2 53) with (2 ^ 53)%Z. lia.
    + simpl. lia.
Qed.

Lemma rnd64_1 : rnd64 1 = 1.
Proof. apply float64_fix. change 1 with (INR 1). apply float64_nat. simpl. lia. Qed.

Lemma sample64_valid w n r :
  Forall (fun x => 0 <= x /\ float64 x) w -> Exists (fun x => 0 < x) w ->
  (Z.of_nat n <= 2 ^ 53)%Z -> unit_draw r ->
  length (np_sample_rnd rnd64 w n r) = n /\
  Forall (fun i => (i < length w)%nat) (np_sample_rnd rnd64 w n r) /\
  nondecreasing (np_sample_rnd rnd64 w n r).
Proof.
  intros Hw Hex Hn Hr.
  apply (sample_rnd_valid rnd64 rnd64_mono rnd64_idem rnd64_0 rnd64_1); auto.
  - eapply Forall_impl; [|exact Hw]. intros x [H1 H2]. split; auto. apply float64_fix; auto.
  - apply float64_fix, float64_nat; auto.
Qed.

Lemma wc64_sorted w :
  Forall (fun x => 0 <= x /\ float64 x) w -> Exists (fun x => 0 < x) w ->
  forall i j x y, (i <= j)%nat -> nth_error (wc_rnd rnd64 w) i = Some x ->
    nth_error (wc_rnd rnd64 w) j = Some y -> x <= y.
Proof.
  intros Hw Hex. apply (wc_rnd_sorted rnd64 rnd64_mono rnd64_idem rnd64_0).
  - eapply Forall_impl; [|exact Hw]. intros x [H1 H2]; exact H1.
  - apply (total_pos rnd64 rnd64_mono rnd64_idem rnd64_0); auto.
    eapply Forall_impl; [|exact Hw]. intros x [H1 H2]. split; auto. apply float64_fix; auto.
Qed.
