(** The default step sizes of stochastic-approximation EM (paramest.py:86-91). *)
From Coquelicot Require Import Coquelicot.
From Coq Require Import Reals Lra Lia List Arith.
From Verif Require Import Base EmModel.
Import ListNotations.
Open Scope R_scope.

(** Sum of the first [n] terms. *)
Fixpoint partial_sum (f : nat -> R) (n : nat) : R :=
  match n with O => 0 | S n' => partial_sum f n' + f n' end.

Lemma partial_sum_le f g n : (forall k, f k <= g k) -> partial_sum f n <= partial_sum g n.
Proof. intros H. induction n as [|n IH]; cbn; [lra|]. specialize (H n). lra. Qed.

Lemma partial_sum_mono f n m : (forall k, 0 <= f k) -> (n <= m)%nat -> partial_sum f n <= partial_sum f m.
Proof. intros H L. induction L as [|m L IH]; [lra|]. cbn. specialize (H m). lra. Qed.

Lemma partial_sum_shift f n m : partial_sum f (n + m) = partial_sum f n + partial_sum (fun k => f (n + k)%nat) m.
Proof. induction m as [|m IH]; [rewrite Nat.add_0_r; cbn; lra|]. rewrite Nat.add_succ_r. cbn. rewrite IH. lra. Qed.

Lemma alpha_gen_early it : (it <= 100)%nat -> alpha_gen it = 1.
Proof. intros H. unfold alpha_gen. apply Nat.leb_le in H. rewrite H. auto. Qed.
Lemma alpha_gen_late k : (0 < k)%nat -> alpha_gen (100 + k) = Rpower (INR k) (-51 / 100).
Proof. intros H. unfold alpha_gen. replace (Nat.leb (100 + k) 100) with false by (symmetry; apply Nat.leb_gt; lia). do 2 f_equal. lia. Qed.

Lemma rpower_le_exp x a b : 1 <= x -> a <= b -> Rpower x a <= Rpower x b.
Proof.
  intros Hx Hab. unfold Rpower. destruct (Req_dec (a * ln x) (b * ln x)) as [->|H]; [lra|].
  left. apply exp_increasing. assert (0 <= ln x) by (rewrite <- ln_1; destruct (Req_dec x 1) as [->|]; [lra|left; apply ln_increasing; lra]). nra.
Qed.

Lemma rpower_neg_lt x y a : 0 < x < y -> a < 0 -> Rpower y a < Rpower x a.
Proof. intros [Hx Hy] Ha. unfold Rpower. apply exp_increasing. pose proof (ln_increasing x y Hx Hy). nra. Qed.

Lemma rpower_one a : Rpower 1 a = 1.
Proof. unfold Rpower. rewrite ln_1, Rmult_0_r. apply exp_0. Qed.

Lemma alpha_range it : 0 < alpha_gen it <= 1.
Proof.
  unfold alpha_gen. destruct (Nat.leb it 100) eqn:E; [lra|]. apply Nat.leb_gt in E. split; [apply exp_pos|].
  assert (1 <= INR (it - 100)) by (apply (le_INR 1); lia).
  eapply Rle_trans; [apply (rpower_le_exp _ _ 0); lra|]. rewrite Rpower_O by lra. lra.
Qed.

Lemma alpha_decreasing i j : (101 <= i < j)%nat -> alpha_gen j < alpha_gen i.
Proof.
  intros H. replace i with (100 + (i - 100))%nat by lia. replace j with (100 + (j - 100))%nat by lia.
  rewrite !alpha_gen_late by lia. apply rpower_neg_lt; [|lra]. split; [apply lt_0_INR; lia|apply lt_INR; lia].
Qed.

(** Divergence of the sum: the terms dominate those of the harmonic series. *)
Lemma harmonic_ln n : ln (INR (S n)) <= partial_sum (fun k => / INR (S k)) n.
Proof.
  induction n as [|n IH]; [cbn; rewrite ln_1; lra|]. cbn [partial_sum].
  assert (Hp : 0 < INR (S n)) by (apply lt_0_INR; lia).
  assert (E : INR (S (S n)) = INR (S n) * (1 + / INR (S n))). { rewrite (S_INR (S n)). field. lra. }
  rewrite E, ln_mult; auto; [|assert (0 < / INR (S n)) by (apply Rinv_0_lt_compat; auto); lra].
  assert (ln (1 + / INR (S n)) <= / INR (S n)); [|lra].
  pose proof (exp_ineq1_le (/ INR (S n))) as H. assert (0 < / INR (S n)) by (apply Rinv_0_lt_compat; auto).
  rewrite <- (ln_exp (/ INR (S n))) at 2. destruct H as [H|H]; [left; apply ln_increasing; lra|right; rewrite H; auto].
Qed.

Lemma alpha_sum_diverges B : exists n, B < partial_sum alpha_gen n.
Proof.
  destruct (nfloor_ex (exp B) ltac:(left; apply exp_pos)) as [m0 [_ Hm0]]. set (m := (m0 + 1)%nat). assert (Hm : exp B < INR m) by (unfold m; rewrite plus_INR; cbn; lra). clearbody m.
  exists (101 + m)%nat. rewrite partial_sum_shift.
  assert (0 <= partial_sum alpha_gen 101). { apply (partial_sum_mono alpha_gen 0 101); [|lia]. intros k. pose proof (alpha_range k). lra. }
  assert (ln (INR (S m)) <= partial_sum (fun k => alpha_gen (101 + k)) m).
  { eapply Rle_trans; [apply harmonic_ln|]. apply partial_sum_le. intros k. replace (101 + k)%nat with (100 + S k)%nat by lia.
    rewrite alpha_gen_late by lia. assert (1 <= INR (S k)) by (apply (le_INR 1); lia).
    replace (/ INR (S k)) with (Rpower (INR (S k)) (- (1))) by (rewrite Rpower_Ropp, Rpower_1 by lra; reflexivity). apply rpower_le_exp; lra. }
  assert (B < ln (INR (S m))). { rewrite <- (ln_exp B). apply ln_increasing; [apply exp_pos|]. rewrite S_INR. lra. }
  lra.
Qed.

(** Convergence of the sum of squares: comparison with a telescoping sum. *)
Lemma rpower_step k : (0 < k)%nat ->
  Rpower (INR (S k)) (-102 / 100) <= 50 * (Rpower (INR k) (-2 / 100) - Rpower (INR (S k)) (-2 / 100)).
Proof.
  intros Hk. assert (Hp : 0 < INR k) by (apply lt_0_INR; lia).
  destruct (MVT_gen (fun x => Rpower x (-2 / 100)) (INR k) (INR (S k)) (fun x => -2 / 100 * Rpower x (-2 / 100 - 1))) as (c & Hc & E).
  - intros x Hx. rewrite Rmin_left, Rmax_right in Hx by (apply le_INR; lia). apply is_derive_Reals. apply derivable_pt_lim_power. lra.
  - intros x Hx. rewrite Rmin_left, Rmax_right in Hx by (apply le_INR; lia). apply derivable_continuous_pt.
    exists (-2 / 100 * Rpower x (-2 / 100 - 1)). apply derivable_pt_lim_power. lra.
  - rewrite Rmin_left, Rmax_right in Hc by (apply le_INR; lia).
    replace (-102 / 100) with (-2 / 100 - 1) by lra.
    assert (Rpower (INR (S k)) (-2 / 100 - 1) <= Rpower c (-2 / 100 - 1)).
    { destruct (Req_dec c (INR (S k))) as [->|Hne]; [lra|]. left. apply rpower_neg_lt; lra. }
    replace (INR (S k) - INR k) with 1 in E by (rewrite S_INR; ring). lra.
Qed.

Lemma alpha_square k : (0 < k)%nat -> Rsqr (alpha_gen (100 + k)) = Rpower (INR k) (-102 / 100).
Proof. intros Hk. rewrite alpha_gen_late by auto. unfold Rsqr. rewrite <- Rpower_plus. f_equal. lra. Qed.

Lemma alpha_squares_tail m : partial_sum (fun k => Rsqr (alpha_gen (101 + k))) (S m) <= 1 + 50 * (1 - Rpower (INR (S m)) (-2 / 100)).
Proof.
  induction m as [|m IH].
  - cbn [partial_sum]. replace (101 + 0)%nat with (100 + 1)%nat by lia. rewrite alpha_square by lia. cbn [INR]. rewrite !rpower_one. lra.
  - cbn [partial_sum] in *. replace (101 + S m)%nat with (100 + S (S m))%nat by lia. rewrite alpha_square by lia.
    pose proof (rpower_step (S m) ltac:(lia)). lra.
Qed.

Lemma alpha_squares_bounded n : partial_sum (fun k => Rsqr (alpha_gen k)) n <= 152.
Proof.
  apply Rle_trans with (partial_sum (fun k => Rsqr (alpha_gen k)) (101 + S n)).
  { apply partial_sum_mono; [|lia]. intros k. apply Rle_0_sqr. }
  rewrite partial_sum_shift.
  assert (E : forall m, (m <= 101)%nat -> partial_sum (fun k => Rsqr (alpha_gen k)) m = INR m).
  { induction m as [|m IH]; intros Hm; [reflexivity|]. cbn [partial_sum]. rewrite IH by lia. rewrite alpha_gen_early by lia. rewrite S_INR. unfold Rsqr. ring. }
  rewrite E by lia. pose proof (alpha_squares_tail n). pose proof (exp_pos (-2 / 100 * ln (INR (S n)))). fold (Rpower (INR (S n)) (-2 / 100)) in H0.
  replace (INR 101) with 101 by (cbn; ring). lra.
Qed.
