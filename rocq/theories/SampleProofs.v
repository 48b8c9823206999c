From Coquelicot Require Import Coquelicot.
From Coq Require Import Reals Lra Lia List Arith.
From Verif Require Import Base XR SampleModel SampleSpec.
Import ListNotations.
Open Scope R_scope.

(** Cumulative sums as reals. *)
Fixpoint rcum (a : R) (w : list R) : list R :=
  match w with [] => [] | x :: w' => (a + x) :: rcum (a + x) w' end.

Lemma xcumsum_from_fin w : forall a,
  xcumsum_from (Fin a) (map Fin w) = map Fin (rcum a w).
Proof. induction w; intros b; simpl; auto. rewrite IHw. auto. Qed.

Lemma rcum_length w : forall a, length (rcum a w) = length w.
Proof. induction w; simpl; auto. Qed.

Lemma rcum_nth w : forall a i, (i < length w)%nat ->
  nth_error (rcum a w) i = Some (a + psum w (S i)).
Proof.
  induction w as [|x w IH]; intros a i H; simpl in H; [lia|].
  destruct i as [|i].
  - simpl. unfold psum. simpl. f_equal. lra.
  - change (rcum a (x :: w)) with ((a + x) :: rcum (a + x) w).
    change (nth_error ((a + x) :: rcum (a + x) w) (S i)) with (nth_error (rcum (a + x) w) i).
    rewrite IH by lia.
    unfold psum. simpl. f_equal. lra.
Qed.

Lemma psum_all w : psum w (length w) = rsum w.
Proof. unfold psum. rewrite firstn_all. auto. Qed.

Lemma psum_0 w : psum w 0 = 0.
Proof. reflexivity. Qed.

Lemma psum_S w i x : nth_error w i = Some x -> psum w (S i) = psum w i + x.
Proof.
  revert i; induction w as [|y w IH]; intros [|i] H; simpl in H; try discriminate.
  - inversion H; subst. unfold psum; simpl. lra.
  - specialize (IH i H). unfold psum in *.
    change (y + rsum (firstn (S i) w) = y + rsum (firstn i w) + x).
    rewrite IH. lra.
Qed.

Lemma psum_mono w i j : Forall (fun x => 0 <= x) w -> (i <= j)%nat -> psum w i <= psum w j.
Proof.
  intros H Hij. induction Hij; [lra|].
  destruct (nth_error w m) as [x|] eqn:E.
  - rewrite (psum_S w m x) by auto.
    assert (0 <= x) by (eapply Forall_forall in H; [exact H | eapply nth_error_In; eauto]). lra.
  - apply nth_error_None in E.
    replace (psum w (S m)) with (psum w m); auto.
    unfold psum. rewrite !firstn_all2 by lia. auto.
Qed.

Lemma psum_nonneg w i : Forall (fun x => 0 <= x) w -> 0 <= psum w i.
Proof. intros H. rewrite <- (psum_0 w). apply psum_mono; auto with arith. Qed.

Lemma psum_le_total w i : Forall (fun x => 0 <= x) w -> psum w i <= rsum w.
Proof.
  intros H. rewrite <- psum_all. destruct (le_lt_dec i (length w)).
  - apply psum_mono; auto.
  - unfold psum. rewrite !firstn_all2 by lia. lra.
Qed.

Lemma weights_ok_nonempty w : weights_ok w -> (0 < length w)%nat.
Proof. intros [_ H]. destruct w; simpl in *; [lra|lia]. Qed.

Lemma rcum_snoc_last w a : (0 < length w)%nat -> idx_last (map Fin (rcum a w)) = Ok (Fin (a + rsum w)).
Proof.
  intros H. unfold idx_last.
  assert (E : nth_error (rev (map Fin (rcum a w))) 0 = Some (Fin (a + rsum w))).
  { rewrite nth_error_nth' with (d := Fin 0).
    - f_equal. rewrite rev_nth by (rewrite map_length, rcum_length; lia).
      rewrite map_length, rcum_length.
      apply nth_error_nth. rewrite nth_error_map. rewrite rcum_nth by lia.
      replace (S (length w - 1)) with (length w) by lia. rewrite psum_all. auto.
    - rewrite rev_length, map_length, rcum_length. lia. }
  destruct (rev (map Fin (rcum a w))); simpl in E; inversion E; auto.
Qed.

(** Normalised cumulative weights. *)
Definition ncum (w : list R) : list R := map (fun x => x / rsum w) (rcum 0 w).

Lemma np_sample_fin w n r : weights_ok w ->
  np_sample (map Fin w) n r =
  Ok (map (fun k => searchsorted (map Fin (ncum w)) (sample_key n r k)) (seq 0 n)).
Proof.
  intros Hw. unfold np_sample, xcumsum. rewrite xcumsum_from_fin.
  rewrite rcum_snoc_last by (apply weights_ok_nonempty; auto).
  simpl. f_equal. apply map_ext. intros k. f_equal.
  unfold ncum. rewrite !map_map. apply map_ext. intros x. simpl.
  unfold Reqb. destruct (Req_EM_T (0 + rsum w) 0) as [e|]; [destruct Hw; lra|].
  f_equal. f_equal. lra.
Qed.

Lemma ncum_length w : length (ncum w) = length w.
Proof. unfold ncum. rewrite map_length. apply rcum_length. Qed.

Lemma ncum_nth w i : (i < length w)%nat ->
  nth_error (ncum w) i = Some (psum w (S i) / rsum w).
Proof.
  intros H. unfold ncum. rewrite nth_error_map, rcum_nth by auto. simpl.
  f_equal. f_equal. lra.
Qed.

(** Characterisation of the scan. *)
Lemma searchsorted_le a u : (searchsorted a u <= length a)%nat.
Proof. induction a; simpl; auto. destruct (np_less a u); lia. Qed.

Lemma searchsorted_before a u j x :
  (j < searchsorted (map Fin a) (Fin u))%nat -> nth_error a j = Some x -> x < u.
Proof.
  revert j; induction a as [|y a IH]; intros j; simpl; [lia|].
  destruct (Rltb y u) eqn:E; [|lia]. apply Rltb_true in E.
  destruct j; simpl; intros H1 H2; [inversion H2; subst; auto|].
  apply (IH j); auto. lia.
Qed.

Lemma searchsorted_at a u x :
  nth_error a (searchsorted (map Fin a) (Fin u)) = Some x -> u <= x.
Proof.
  induction a as [|y a IH]; simpl; [discriminate|].
  destruct (Rltb y u) eqn:E; simpl; auto. apply Rltb_false in E. intros H; inversion H; subst; auto.
Qed.

Lemma searchsorted_unique a u i :
  (forall j x, (j < i)%nat -> nth_error a j = Some x -> x < u) ->
  (forall x, nth_error a i = Some x -> u <= x) ->
  (i <= length a)%nat ->
  searchsorted (map Fin a) (Fin u) = i.
Proof.
  intros H1 H2 H3. set (s := searchsorted (map Fin a) (Fin u)).
  assert (Hs : (s <= length a)%nat)
    by (unfold s; rewrite <- (map_length Fin a); apply searchsorted_le).
  destruct (lt_eq_lt_dec s i) as [[H|H]|H]; auto; exfalso.
  - destruct (nth_error a s) as [x|] eqn:E; [|apply nth_error_None in E; lia].
    pose proof (H1 _ _ H E). pose proof (searchsorted_at a u x E). lra.
  - destruct (nth_error a i) as [x|] eqn:E; [|apply nth_error_None in E; lia].
    pose proof (H2 _ eq_refl). pose proof (searchsorted_before a u i x H E). lra.
Qed.

Lemma searchsorted_mono a u v : u <= v ->
  (searchsorted (map Fin a) (Fin u) <= searchsorted (map Fin a) (Fin v))%nat.
Proof.
  intros H. induction a as [|y a IH]; simpl; auto.
  destruct (Rltb y u) eqn:E.
  - apply Rltb_true in E. assert (E' : Rltb y v = true) by (apply Rltb_true; lra).
    rewrite E'. lia.
  - lia.
Qed.

Lemma searchsorted_lt w u : weights_ok w -> u <= 1 ->
  (searchsorted (map Fin (ncum w)) (Fin u) < length w)%nat.
Proof.
  intros Hw Hu. pose proof (weights_ok_nonempty w Hw) as Hne.
  set (s := searchsorted (map Fin (ncum w)) (Fin u)).
  assert (Hs : (s <= length w)%nat).
  { unfold s. rewrite <- ncum_length, <- (map_length Fin (ncum w)). apply searchsorted_le. }
  destruct (Nat.eq_dec s (length w)) as [E|E]; [|lia]. exfalso.
  assert (H : psum w (S (length w - 1)) / rsum w < u).
  { apply (searchsorted_before (ncum w) u (length w - 1)).
    - fold s. lia.
    - apply ncum_nth. lia. }
  replace (S (length w - 1)) with (length w) in H by lia. rewrite psum_all in H.
  destruct Hw as [_ Hp]. unfold Rdiv in H. rewrite Rinv_r in H by lra. lra.
Qed.

(** Which keys select index [i]. *)
Lemma searchsorted_ncum w u i : weights_ok w -> (i < length w)%nat ->
  searchsorted (map Fin (ncum w)) (Fin u) = i <->
  ((i = 0%nat \/ psum w i / rsum w < u) /\ u <= psum w (S i) / rsum w).
Proof.
  intros Hw Hi. split.
  - intros E. split.
    + destruct i; auto. right.
      apply (searchsorted_before (ncum w) u i); [rewrite E; lia|]. apply ncum_nth. lia.
    + apply (searchsorted_at (ncum w)). rewrite E. apply ncum_nth. auto.
  - intros [H1 H2]. apply searchsorted_unique.
    + intros j x Hj Hx. destruct H1 as [->|H1]; [lia|].
      rewrite ncum_nth in Hx by lia. inversion Hx; subst.
      eapply Rle_lt_trans; [|exact H1]. destruct Hw as [Hnn Hp].
      apply Rmult_le_compat_r; [left; apply Rinv_0_lt_compat; auto|].
      apply psum_mono; auto.
    + intros x Hx. rewrite ncum_nth in Hx by auto. inversion Hx; subst. auto.
    + rewrite ncum_length. lia.
Qed.

Lemma key_bounds n r k : unit_draw r -> (k < n)%nat -> 0 <= (INR k + r) / INR n < 1.
Proof.
  intros [H0 H1] Hk.
  assert (Hn : 0 < INR n) by (apply lt_0_INR; lia).
  assert (0 <= INR k) by apply pos_INR.
  assert (Hk' : INR k + 1 <= INR n) by (rewrite <- S_INR; apply le_INR; lia).
  split.
  - apply Rmult_le_pos; [lra|]. left. apply Rinv_0_lt_compat. auto.
  - apply Rmult_lt_reg_r with (INR n); auto. unfold Rdiv. rewrite Rmult_assoc, Rinv_l by lra. lra.
Qed.

(* C01 *)
Lemma sample_valid w n r : weights_ok w -> unit_draw r ->
  exists l, np_sample (map Fin w) n r = Ok l /\
    length l = n /\ Forall (fun i => (i < length w)%nat) l /\ nondecreasing l.
Proof.
  intros Hw Hr. rewrite np_sample_fin by auto. eexists; split; [reflexivity|].
  repeat split.
  - rewrite map_length, seq_length. auto.
  - apply Forall_forall. intros i Hi. apply in_map_iff in Hi. destruct Hi as (k & <- & Hk).
    apply in_seq in Hk. apply searchsorted_lt; auto.
    pose proof (key_bounds n r k Hr ltac:(lia)). lra.
  - intros j k a b Hjk Hj Hk.
    rewrite nth_error_map in Hj, Hk.
    destruct (nth_error (seq 0 n) j) as [j'|] eqn:Ej; simpl in Hj; [|discriminate].
    destruct (nth_error (seq 0 n) k) as [k'|] eqn:Ek; simpl in Hk; [|discriminate].
    assert (Hkn : (k < n)%nat) by (rewrite <- (seq_length n 0); apply nth_error_Some; congruence).
    assert (Hjn : (j < n)%nat) by lia.
    rewrite (nth_error_nth' _ 0%nat) in Ej by (rewrite seq_length; auto).
    rewrite (nth_error_nth' _ 0%nat) in Ek by (rewrite seq_length; auto).
    rewrite seq_nth in Ej, Ek by auto. inversion Ej; inversion Ek; subst.
    inversion Hj; inversion Hk; subst. unfold sample_key. simpl.
    apply searchsorted_mono.
    apply Rmult_le_compat_r; [left; apply Rinv_0_lt_compat, lt_0_INR; lia|].
    apply le_INR in Hjk. lra.
Qed.

(** Counting. *)
Definition cntle (n : nat) (x : R) : nat := length (filter (fun k => Rleb (INR k) x) (seq 0 n)).

Lemma cntle_S n x : cntle (S n) x = (cntle n x + if Rleb (INR n) x then 1 else 0)%nat.
Proof.
  unfold cntle. rewrite seq_S, filter_app, app_length. simpl.
  destruct (Rleb (INR n) x); auto.
Qed.

Lemma cntle_le n x : (cntle n x <= n)%nat.
Proof.
  induction n; [auto|]. rewrite cntle_S. destruct (Rleb (INR n) x); lia.
Qed.

Lemma cntle_neg n x : x < 0 -> cntle n x = 0%nat.
Proof.
  intros H. induction n; auto. rewrite cntle_S, IHn.
  assert (E : Rleb (INR n) x = false) by (apply Rleb_false; pose proof (pos_INR n); lra).
  rewrite E. auto.
Qed.

Lemma cntle_all n x : INR n - 1 <= x -> cntle n x = n.
Proof.
  induction n; auto. rewrite S_INR. intros H. rewrite cntle_S.
  assert (E : Rleb (INR n) x = true) by (apply Rleb_true; lra). rewrite E.
  rewrite IHn by lra. lia.
Qed.

Lemma cntle_upper n x : -1 <= x -> INR (cntle n x) <= x + 1.
Proof.
  intros Hx. induction n; [simpl; lra|]. rewrite cntle_S.
  destruct (Rleb (INR n) x) eqn:E.
  - apply Rleb_true in E. pose proof (cntle_le n x) as H. apply le_INR in H.
    rewrite plus_INR. simpl. lra.
  - rewrite Nat.add_0_r. auto.
Qed.

Lemma cntle_lower n x : x < INR n -> x < INR (cntle n x).
Proof.
  induction n; [simpl; auto|]. rewrite S_INR. intros Hx.
  rewrite cntle_S. destruct (Rleb (INR n) x) eqn:E.
  - apply Rleb_true in E. rewrite cntle_all by lra. rewrite plus_INR. simpl. lra.
  - apply Rleb_false in E. rewrite Nat.add_0_r. auto.
Qed.

Lemma cntle_diff n x y : x <= y ->
  (length (filter (fun k => Rltb x (INR k) && Rleb (INR k) y)%bool (seq 0 n)) + cntle n x = cntle n y)%nat.
Proof.
  intros H. unfold cntle. induction (seq 0 n) as [|k l IH]; simpl; auto.
  destruct (Rltb x (INR k)) eqn:E1; destruct (Rleb (INR k) y) eqn:E2;
  destruct (Rleb (INR k) x) eqn:E3; simpl; try lia;
  repeat match goal with
   | H : Rltb _ _ = true |- _ => apply Rltb_true in H
   | H : Rltb _ _ = false |- _ => apply Rltb_false in H
   | H : Rleb _ _ = true |- _ => apply Rleb_true in H
   | H : Rleb _ _ = false |- _ => apply Rleb_false in H end; lra.
Qed.

Lemma occ_map_filter (f : nat -> nat) i l :
  occurrences i (map f l) = length (filter (fun k => Nat.eqb (f k) i) l).
Proof.
  unfold occurrences. induction l; simpl; auto.
  destruct (Nat.eq_dec (f a) i) as [->|H].
  - rewrite Nat.eqb_refl. simpl. auto.
  - destruct (Nat.eqb_spec (f a) i); [tauto|]. auto.
Qed.

Lemma filter_length_ext {A} (f g : A -> bool) l :
  (forall x, In x l -> f x = g x) -> length (filter f l) = length (filter g l).
Proof.
  induction l; simpl; intros H; auto. rewrite H by auto.
  destruct (g a); simpl; rewrite IHl; auto.
Qed.

Lemma scale_lt n c k r : (0 < n)%nat -> c < (INR k + r) / INR n <-> INR n * c - r < INR k.
Proof.
  intros Hn. assert (H : 0 < INR n) by (apply lt_0_INR; auto).
  split; intros H'.
  - apply Rmult_lt_compat_l with (r := INR n) in H'; auto. unfold Rdiv in H'.
    replace (INR n * ((INR k + r) * / INR n)) with (INR k + r) in H' by (field; lra). lra.
  - apply Rmult_lt_reg_l with (INR n); auto. unfold Rdiv.
    replace (INR n * ((INR k + r) * / INR n)) with (INR k + r) by (field; lra). lra.
Qed.

(** Occurrences in closed form: index 0 also receives the key 0. *)
Lemma sample_count w n r i : weights_ok w -> (0 < n)%nat -> (i < length w)%nat ->
  forall l, np_sample (map Fin w) n r = Ok l ->
  (occurrences i l + (if Nat.eqb i 0 then 0 else cntle n (INR n * (psum w i / rsum w) - r)) =
  cntle n (INR n * (psum w (S i) / rsum w) - r))%nat.
Proof.
  intros Hw Hn Hi l E. rewrite np_sample_fin in E by auto. inversion E; subst; clear E.
  rewrite occ_map_filter.
  set (a := psum w i / rsum w). set (b := psum w (S i) / rsum w).
  assert (Hab : a <= b).
  { unfold a, b. destruct Hw. apply Rmult_le_compat_r; [left; apply Rinv_0_lt_compat; auto|].
    apply psum_mono; auto. }
  destruct (Nat.eqb_spec i 0) as [Ei|Ei].
  - rewrite Nat.add_0_r. unfold cntle. apply filter_length_ext. intros k Hk.
    pose proof (searchsorted_ncum w ((INR k + r) / INR n) i Hw Hi) as H.
    fold a b in H. unfold sample_key.
    pose proof (scale_lt n b k r Hn) as Hs.
    destruct (Rleb (INR k) (INR n * b - r)) eqn:E1.
    + apply Rleb_true in E1. apply Nat.eqb_eq. apply H. split; auto.
      destruct (Rle_lt_dec ((INR k + r) / INR n) b); auto. apply Hs in r0. lra.
    + apply Rleb_false in E1. apply Nat.eqb_neq. intros E2. apply H in E2.
      apply Hs in E1. lra.
  - rewrite <- (cntle_diff n (INR n * a - r) (INR n * b - r)).
    2:{ assert (0 < INR n) by (apply lt_0_INR; auto).
        apply Rmult_le_compat_l with (r := INR n) in Hab; lra. }
    f_equal. apply filter_length_ext. intros k Hk.
    pose proof (searchsorted_ncum w ((INR k + r) / INR n) i Hw Hi) as H.
    fold a b in H. unfold sample_key.
    pose proof (scale_lt n b k r Hn) as Hs. pose proof (scale_lt n a k r Hn) as Hs'.
    destruct (Rltb (INR n * a - r) (INR k)) eqn:E0; simpl.
    + apply Rltb_true in E0. destruct (Rleb (INR k) (INR n * b - r)) eqn:E1.
      * apply Rleb_true in E1. apply Nat.eqb_eq. apply H. split.
        -- right. apply Hs'. auto.
        -- destruct (Rle_lt_dec ((INR k + r) / INR n) b); auto. apply Hs in r0. lra.
      * apply Rleb_false in E1. apply Nat.eqb_neq. intros E2. apply H in E2.
        apply Hs in E1. lra.
    + apply Rltb_false in E0. apply Nat.eqb_neq. intros E2. apply H in E2.
      destruct E2 as [[E2|E2] _]; [tauto|]. apply Hs' in E2. lra.
Qed.

Lemma frac_bounds w i : weights_ok w -> 0 <= psum w i / rsum w <= 1.
Proof.
  intros [H1 H2]. split.
  - apply Rmult_le_pos; [apply psum_nonneg; auto|]. left. apply Rinv_0_lt_compat; auto.
  - apply Rmult_le_reg_r with (rsum w); auto. unfold Rdiv. rewrite Rmult_assoc, Rinv_l by lra.
    pose proof (psum_le_total w i H1). lra.
Qed.

Lemma frac_diff w i x : weights_ok w -> nth_error w i = Some x ->
  psum w (S i) / rsum w = psum w i / rsum w + x / rsum w.
Proof. intros _ H. rewrite (psum_S w i x H). unfold Rdiv. lra. Qed.

(* C02 *)
Lemma sample_share w n r i x l : weights_ok w -> (0 < n)%nat -> 0 < r < 1 ->
  nth_error w i = Some x ->
  np_sample (map Fin w) n r = Ok l ->
  Rabs (INR (occurrences i l) - INR n * (x / rsum w)) < 1.
Proof.
  intros Hw Hn Hr Hx E.
  assert (Hi : (i < length w)%nat) by (apply nth_error_Some; congruence).
  pose proof (sample_count w n r i Hw Hn Hi l E) as H.
  pose proof (frac_bounds w i Hw) as Ha. pose proof (frac_bounds w (S i) Hw) as Hb.
  rewrite (frac_diff w i x Hw Hx) in H, Hb.
  set (a := psum w i / rsum w) in *. set (q := x / rsum w) in *.
  assert (HN : 0 < INR n) by (apply lt_0_INR; auto).
  assert (Hna : 0 <= INR n * a <= INR n).
  { split; [apply Rmult_le_pos; lra|]. rewrite <- (Rmult_1_r (INR n)) at 2.
    apply Rmult_le_compat_l; lra. }
  assert (Hnb : 0 <= INR n * (a + q) <= INR n).
  { split; [apply Rmult_le_pos; lra|]. rewrite <- (Rmult_1_r (INR n)) at 2.
    apply Rmult_le_compat_l; lra. }
  pose proof (cntle_upper n (INR n * (a + q) - r)) as U1.
  pose proof (cntle_lower n (INR n * (a + q) - r)) as L1.
  assert (H' : (occurrences i l + cntle n (INR n * a - r) = cntle n (INR n * (a + q) - r))%nat).
  { destruct (Nat.eqb_spec i 0) as [->|Ei]; auto.
    rewrite <- H. f_equal. apply cntle_neg. unfold a. rewrite psum_0. unfold Rdiv. lra. }
  pose proof (cntle_upper n (INR n * a - r)) as U2.
  pose proof (cntle_lower n (INR n * a - r)) as L2.
  apply (f_equal INR) in H'. rewrite plus_INR in H'.
  replace (INR n * (a + q)) with (INR n * a + INR n * q) in * by lra.
  apply Rabs_def1; lra.
Qed.

Lemma sample_share_le w n r i x l : weights_ok w -> (0 < n)%nat -> unit_draw r ->
  nth_error w i = Some x ->
  np_sample (map Fin w) n r = Ok l ->
  Rabs (INR (occurrences i l) - INR n * (x / rsum w)) <= 1.
Proof.
  intros Hw Hn [Hr0 Hr1] Hx E.
  destruct (Req_EM_T r 0) as [->|Hne].
  2:{ left. eapply sample_share; eauto. lra. }
  assert (Hi : (i < length w)%nat) by (apply nth_error_Some; congruence).
  pose proof (sample_count w n 0 i Hw Hn Hi l E) as H.
  pose proof (frac_bounds w i Hw) as Ha. pose proof (frac_bounds w (S i) Hw) as Hb.
  rewrite (frac_diff w i x Hw Hx) in H, Hb.
  set (a := psum w i / rsum w) in *. set (q := x / rsum w) in *.
  assert (HN : 0 < INR n) by (apply lt_0_INR; auto).
  assert (Hna : 0 <= INR n * a <= INR n).
  { split; [apply Rmult_le_pos; lra|]. rewrite <- (Rmult_1_r (INR n)) at 2.
    apply Rmult_le_compat_l; lra. }
  assert (Hnb : 0 <= INR n * (a + q) <= INR n).
  { split; [apply Rmult_le_pos; lra|]. rewrite <- (Rmult_1_r (INR n)) at 2.
    apply Rmult_le_compat_l; lra. }
  assert (L : forall y, y <= INR n -> y <= INR (cntle n y)).
  { intros y Hy. destruct (Rle_lt_or_eq_dec y (INR n) Hy) as [Hy'|Hy'].
    - left. apply cntle_lower; auto.
    - rewrite cntle_all by lra. lra. }
  pose proof (cntle_upper n (INR n * (a + q) - 0)) as U1.
  pose proof (L (INR n * (a + q) - 0)) as L1.
  pose proof (cntle_upper n (INR n * a - 0)) as U2.
  pose proof (L (INR n * a - 0)) as L2.
  apply (f_equal INR) in H. rewrite plus_INR in H.
  replace (INR n * (a + q)) with (INR n * a + INR n * q) in * by lra.
  apply Rabs_le. destruct (Nat.eqb_spec i 0) as [->|Ei].
  - assert (a = 0) by (unfold a; rewrite psum_0; unfold Rdiv; lra).
    assert (Hz : INR n * a = 0) by (rewrite H0; lra). rewrite Hz in *.
    simpl (INR 0) in H. lra.
  - lra.
Qed.

(* C05 *)
Lemma sample_zero_never w n r i l : weights_ok w -> 0 < r < 1 ->
  nth_error w i = Some 0 -> np_sample (map Fin w) n r = Ok l -> ~ In i l.
Proof.
  intros Hw Hr Hx E Hin. rewrite np_sample_fin in E by auto. inversion E; subst; clear E.
  apply in_map_iff in Hin. destruct Hin as (k & Ek & Hk). apply in_seq in Hk.
  assert (Hi : (i < length w)%nat) by (apply nth_error_Some; congruence).
  unfold sample_key in Ek. apply (searchsorted_ncum w _ i Hw Hi) in Ek.
  rewrite (frac_diff w i 0 Hw Hx) in Ek. replace (0 / rsum w) with 0 in Ek by (unfold Rdiv; lra). rewrite Rplus_0_r in Ek.
  destruct Ek as [[->|H1] H2]; [|lra].
  rewrite psum_0 in H2. replace (0 / rsum w) with 0 in H2 by (unfold Rdiv; lra).
  pose proof (pos_INR k).
  assert (0 < (INR k + r) / INR n); [|lra].
  apply Rmult_lt_0_compat; [lra|]. apply Rinv_0_lt_compat, lt_0_INR. lia.
Qed.

(* C03, n = 1 *)
Lemma sample_one w r i : weights_ok w -> 0 < r < 1 -> (i < length w)%nat ->
  (np_sample (map Fin w) 1 r = Ok [i] <->
   psum w i / rsum w < r <= psum w (S i) / rsum w).
Proof.
  intros Hw Hr Hi. rewrite np_sample_fin by auto. simpl. unfold sample_key. simpl.
  replace ((0 + r) / 1) with r by (unfold Rdiv; rewrite Rinv_1; lra).
  pose proof (searchsorted_ncum w r i Hw Hi) as H. split.
  - intros E. injection E as E. apply H in E. destruct E as [[->|E] E2]; split; auto.
    rewrite psum_0. unfold Rdiv. lra.
  - intros [H1 H2]. f_equal. f_equal. apply H. auto.
Qed.

(** Integrals of step functions. *)
Definition clamp (x : R) : R := Rmin 1 (Rmax 0 x).

Lemma RInt_step x :
  is_RInt (fun r => if Rleb r x then 1 else 0) 0 1 (clamp x).
Proof.
  unfold clamp. destruct (Rle_lt_dec x 0) as [H0|H0].
  - rewrite Rmax_left by lra. rewrite Rmin_right by lra.
    assert (HI : is_RInt (fun _ : R => 0) 0 1 (scal (1 - 0) 0)) by apply @is_RInt_const.
    replace (scal (1 - 0) 0) with 0 in HI by (unfold scal; simpl; unfold mult; simpl; lra).
    apply is_RInt_ext with (fun _ => 0); [|apply HI].
    intros r Hr. rewrite Rmin_left, Rmax_right in Hr by lra.
    assert (E : Rleb r x = false) by (apply Rleb_false; lra). rewrite E. auto.
  - rewrite Rmax_right by lra. destruct (Rle_lt_dec 1 x) as [H1|H1].
    + rewrite Rmin_left by lra.
      assert (HI : is_RInt (fun _ : R => 1) 0 1 (scal (1 - 0) 1)) by apply @is_RInt_const.
      replace (scal (1 - 0) 1) with 1 in HI by (unfold scal; simpl; unfold mult; simpl; lra).
      apply is_RInt_ext with (fun _ => 1); [|apply HI].
      intros r Hr. rewrite Rmin_left, Rmax_right in Hr by lra.
      assert (E : Rleb r x = true) by (apply Rleb_true; lra). rewrite E. auto.
    + rewrite Rmin_right by lra.
      enough (HC : is_RInt (fun r : R => if Rleb r x then 1 else 0) 0 1 (plus x 0)).
      { replace (plus x 0) with x in HC by (unfold plus; simpl; lra). exact HC. }
      apply (is_RInt_Chasles (V := R_NormedModule)) with x.
      * assert (HI : is_RInt (fun _ : R => 1) 0 x (scal (x - 0) 1)) by apply @is_RInt_const.
        replace (scal (x - 0) 1) with x in HI by (unfold scal; simpl; unfold mult; simpl; lra).
        apply is_RInt_ext with (fun _ => 1); [|apply HI].
        intros r Hr. rewrite Rmin_left, Rmax_right in Hr by lra.
        assert (E : Rleb r x = true) by (apply Rleb_true; lra). rewrite E. auto.
      * assert (HI : is_RInt (fun _ : R => 0) x 1 (scal (1 - x) 0)) by apply @is_RInt_const.
        replace (scal (1 - x) 0) with 0 in HI by (unfold scal; simpl; unfold mult; simpl; lra).
        apply is_RInt_ext with (fun _ => 0); [|apply HI].
        intros r Hr. rewrite Rmin_left, Rmax_right in Hr by lra.
        assert (E : Rleb r x = false) by (apply Rleb_false; lra). rewrite E. auto.
Qed.

Fixpoint clampsum (n : nat) (x : R) : R :=
  match n with O => 0 | S m => clampsum m x + clamp (x - INR m) end.

Lemma clampsum_full n x : INR n <= x -> clampsum n x = INR n.
Proof.
  induction n; intros H; [auto|]. rewrite S_INR in *. simpl clampsum. rewrite IHn by lra.
  unfold clamp. rewrite Rmax_right by lra. rewrite Rmin_left by lra. lra.
Qed.

Lemma clampsum_id n x : 0 <= x <= INR n -> clampsum n x = x.
Proof.
  induction n; intros H; [simpl in *; lra|]. rewrite S_INR in H. simpl clampsum.
  destruct (Rle_lt_dec x (INR n)) as [Hx|Hx].
  - rewrite IHn by lra. unfold clamp. rewrite Rmax_left by lra. rewrite Rmin_right by lra. lra.
  - rewrite clampsum_full by lra. unfold clamp. rewrite Rmax_right by lra. rewrite Rmin_right by lra. lra.
Qed.

Lemma RInt_cntle n x : is_RInt (fun r => INR (cntle n (x - r))) 0 1 (clampsum n x).
Proof.
  induction n.
  - simpl. assert (HI : is_RInt (fun _ : R => 0) 0 1 (scal (1 - 0) 0)) by apply @is_RInt_const.
    replace (scal (1 - 0) 0) with 0 in HI by (unfold scal; simpl; unfold mult; simpl; lra). apply HI.
  - simpl clampsum. apply is_RInt_ext with
      (fun r => plus (INR (cntle n (x - r))) (if Rleb r (x - INR n) then 1 else 0)).
    + intros r _. rewrite cntle_S, plus_INR. unfold plus; simpl. f_equal.
      destruct (Rleb r (x - INR n)) eqn:E1; destruct (Rleb (INR n) (x - r)) eqn:E2; auto;
      repeat match goal with
      | H : Rleb _ _ = true |- _ => apply Rleb_true in H
      | H : Rleb _ _ = false |- _ => apply Rleb_false in H end; lra.
    + apply (is_RInt_plus (V := R_NormedModule)); auto. apply RInt_step.
Qed.

(** Number of copies of [i] produced for the draw [r] (0 if the call raised). *)
Definition copies (w : list R) (n i : nat) (r : R) : R :=
  match np_sample (map Fin w) n r with Ok l => INR (occurrences i l) | Err _ => 0 end.

(* C03 *)
Lemma sample_expected w n i x : weights_ok w -> (0 < n)%nat -> nth_error w i = Some x ->
  is_RInt (copies w n i) 0 1 (INR n * (x / rsum w)).
Proof.
  intros Hw Hn Hx.
  assert (Hi : (i < length w)%nat) by (apply nth_error_Some; congruence).
  set (a := psum w i / rsum w). set (q := x / rsum w).
  pose proof (frac_bounds w i Hw) as Ha. pose proof (frac_bounds w (S i) Hw) as Hb.
  rewrite (frac_diff w i x Hw Hx) in Hb. fold a q in Ha, Hb.
  assert (HN : 0 < INR n) by (apply lt_0_INR; auto).
  assert (Hna : 0 <= INR n * a <= INR n).
  { split; [apply Rmult_le_pos; lra|]. rewrite <- (Rmult_1_r (INR n)) at 2.
    apply Rmult_le_compat_l; lra. }
  assert (Hnb : 0 <= INR n * (a + q) <= INR n).
  { split; [apply Rmult_le_pos; lra|]. rewrite <- (Rmult_1_r (INR n)) at 2.
    apply Rmult_le_compat_l; lra. }
  replace (INR n * q) with (minus (clampsum n (INR n * (a + q))) (clampsum n (INR n * a))).
  2:{ rewrite !clampsum_id by auto. unfold minus, plus, opp; simpl. lra. }
  apply is_RInt_ext with
    (fun r => minus (INR (cntle n (INR n * (a + q) - r))) (INR (cntle n (INR n * a - r)))).
  - intros r Hr. rewrite Rmin_left, Rmax_right in Hr by lra.
    unfold copies. destruct (sample_valid w n r Hw) as (l & E & _); [unfold unit_draw; lra|].
    rewrite E. pose proof (sample_count w n r i Hw Hn Hi l E) as H.
    rewrite (frac_diff w i x Hw Hx) in H. fold a q in H.
    assert (H' : (occurrences i l + cntle n (INR n * a - r) = cntle n (INR n * (a + q) - r))%nat).
    { destruct (Nat.eqb_spec i 0) as [->|Ei]; auto.
      rewrite <- H. f_equal. apply cntle_neg. unfold a. rewrite psum_0. unfold Rdiv. lra. }
    rewrite <- H', plus_INR. unfold minus, plus, opp; simpl. lra.
  - apply (is_RInt_minus (V := R_NormedModule)); apply RInt_cntle.
Qed.

(* C04 *)
Lemma rsum_scale c w : rsum (map (Rmult c) w) = c * rsum w.
Proof. induction w; simpl; [lra|]. rewrite IHw; lra. Qed.

Lemma weights_ok_scale c w : 0 < c -> weights_ok w -> weights_ok (map (Rmult c) w).
Proof.
  intros Hc [H1 H2]. split.
  - rewrite Forall_map. eapply Forall_impl; [|exact H1]. intros x Hx. simpl. apply Rmult_le_pos; lra.
  - rewrite rsum_scale. apply Rmult_lt_0_compat; auto.
Qed.

Lemma rcum_scale c w : forall a, rcum (c * a) (map (Rmult c) w) = map (Rmult c) (rcum a w).
Proof.
  induction w; intros b; simpl; auto. rewrite <- Rmult_plus_distr_l, IHw. auto.
Qed.

Lemma ncum_scale c w : 0 < c -> rsum w <> 0 -> ncum (map (Rmult c) w) = ncum w.
Proof.
  intros Hc Hs. unfold ncum. rewrite rsum_scale.
  replace 0 with (c * 0) at 1 by lra. rewrite rcum_scale, map_map.
  apply map_ext. intros x. field. lra.
Qed.

Lemma sample_scale c w n r : 0 < c -> weights_ok w ->
  np_sample (map Fin (map (Rmult c) w)) n r = np_sample (map Fin w) n r.
Proof.
  intros Hc Hw. rewrite !np_sample_fin by auto using weights_ok_scale.
  rewrite ncum_scale; auto. destruct Hw; lra.
Qed.

(** Degenerate weights: all keys select index 0 as soon as the total is NaN or 0
    (silent, no exception). *)
Lemma map_const_nan (l : list xr) : map (fun x => xdiv x NaN) l = repeat NaN (length l).
Proof. induction l; simpl; auto. rewrite IHl. destruct a; auto. Qed.

Lemma searchsorted_nans m u : is_nan u = false -> searchsorted (repeat NaN m) u = 0%nat.
Proof. destruct m; auto. Qed.

Lemma sample_nan_total w n r : idx_last (xcumsum w) = Ok NaN ->
  np_sample w n r = Ok (repeat 0%nat n).
Proof.
  intros E. unfold np_sample. rewrite E. simpl. rewrite map_const_nan. f_equal.
  rewrite <- (seq_length n 0) at 2. induction (seq 0 n) as [|k l IH]; simpl; auto.
  rewrite IH. f_equal. apply searchsorted_nans. reflexivity.
Qed.
