(** All permutations of a list, and a random generator that draws permutations
    uniformly. *)
From Coquelicot Require Import Coquelicot.
From Coq Require Import Reals Lra Lia List Arith ZArith Permutation.
From Verif Require Import Base XR SampleSpec SampleProofs PAModel WeightSpec SmoothModel SmoothSpec SmoothBsi.
Import ListNotations.
Open Scope R_scope.

Lemma insert_all_perm {A} (a : A) l : forall q, In q (insert_all a l) -> Permutation (a :: l) q.
Proof.
  induction l as [|b l IH]; simpl; intros q H.
  - destruct H as [<-|[]]. auto.
  - destruct H as [<-|H]; auto. apply in_map_iff in H. destruct H as (q' & <- & H).
    eapply Permutation_trans; [apply perm_swap|]. constructor. auto.
Qed.

Lemma insert_all_mid {A} (a : A) l1 l2 : In (l1 ++ a :: l2) (insert_all a (l1 ++ l2)).
Proof.
  induction l1 as [|b l1 IH]; simpl.
  - destruct l2; simpl; auto.
  - right. apply in_map_iff. eauto.
Qed.

Lemma insert_all_in {A} (a : A) l q : In q (insert_all a l) -> exists l1 l2, l = l1 ++ l2 /\ q = l1 ++ a :: l2.
Proof.
  revert q; induction l as [|b l IH]; simpl; intros q H.
  - destruct H as [<-|[]]. exists [], []. auto.
  - destruct H as [<-|H]; [exists [], (b :: l); auto|]. apply in_map_iff in H. destruct H as (q' & <- & H).
    destruct (IH _ H) as (l1 & l2 & -> & ->). exists (b :: l1), l2. auto.
Qed.

Lemma perms_perm {A} (l : list A) : forall q, In q (perms l) <-> Permutation l q.
Proof.
  induction l as [|a l IH]; simpl; intros q; split; intros H.
  - destruct H as [<-|[]]. auto.
  - apply Permutation_nil in H. subst. auto.
  - apply in_flat_map in H. destruct H as (p & Hp & Hq). apply IH in Hp. apply insert_all_perm in Hq.
    eapply Permutation_trans; [constructor; exact Hp|auto].
  - assert (Hin : In a q) by (eapply Permutation_in; [exact H|left; auto]).
    apply in_split in Hin. destruct Hin as (l1 & l2 & ->).
    apply Permutation_cons_app_inv in H. apply in_flat_map. exists (l1 ++ l2). split; [apply IH; auto|apply insert_all_mid].
Qed.

Lemma insert_all_NoDup {A} (a : A) l : ~ In a l -> NoDup (insert_all a l).
Proof.
  induction l as [|b l IH]; simpl; intros H; [constructor; [simpl; auto|constructor]|].
  constructor.
  - intros Hin. apply in_map_iff in Hin. destruct Hin as (q & E & _). inversion E; subst. apply H; auto.
  - apply FinFun.Injective_map_NoDup; [intros x y E; inversion E; auto|]. apply IH. tauto.
Qed.

Lemma app_cons_inj {A} (a : A) l1 : forall l2 m1 m2, ~ In a (l1 ++ l2) -> ~ In a (m1 ++ m2) ->
  l1 ++ a :: l2 = m1 ++ a :: m2 -> l1 ++ l2 = m1 ++ m2.
Proof.
  induction l1 as [|b l1 IH]; intros l2 [|c m1] m2 H1 H2 E; simpl in *; inversion E; subst; auto.
  - exfalso. tauto.
  - exfalso. tauto.
  - f_equal. apply IH; tauto.
Qed.

Lemma flat_map_NoDup {A B} (f : A -> list B) l : NoDup l -> (forall x, In x l -> NoDup (f x)) ->
  (forall x y b, In x l -> In y l -> In b (f x) -> In b (f y) -> x = y) -> NoDup (flat_map f l).
Proof.
  induction 1 as [|a l Ha Hl IH]; simpl; intros H1 H2; [constructor|].
  assert (D : NoDup (flat_map f l)) by (apply IH; eauto).
  assert (E : forall b, In b (f a) -> ~ In b (flat_map f l)).
  { intros b Hb Hin. apply in_flat_map in Hin. destruct Hin as (y & Hy & Hyb). apply Ha.
    rewrite (H2 a y b); auto. }
  assert (F : NoDup (f a)) by auto. clear -D E F. induction F as [|b m Hb Fm IHm]; simpl; auto.
  constructor.
  - intros Hin. apply in_app_or in Hin. destruct Hin; auto. apply (E b); simpl; auto.
  - apply IHm. intros c Hc. apply E. simpl; auto.
Qed.

Lemma perms_NoDup {A} (l : list A) : NoDup l -> NoDup (perms l).
Proof.
  induction 1 as [|a l Ha Hl IH]; simpl; [constructor; [simpl; auto|constructor]|].
  assert (N : forall p, In p (perms l) -> ~ In a p).
  { intros p Hp Hin. apply perms_perm in Hp. apply Ha. eapply Permutation_in; [apply Permutation_sym; exact Hp|auto]. }
  apply flat_map_NoDup; auto.
  - intros p Hp. apply insert_all_NoDup. auto.
  - intros p q b Hp Hq Hb Hb'. apply insert_all_in in Hb. apply insert_all_in in Hb'.
    destruct Hb as (l1 & l2 & -> & ->). destruct Hb' as (m1 & m2 & -> & E).
    eapply app_cons_inj; eauto.
Qed.

Definition sw (v v' x : nat) : nat := if Nat.eqb x v then v' else if Nat.eqb x v' then v else x.

Lemma sw_invol v v' x : sw v v' (sw v v' x) = x.
Proof.
  unfold sw. destruct (Nat.eqb x v) eqn:E1.
  - apply Nat.eqb_eq in E1. subst. rewrite Nat.eqb_refl. destruct (Nat.eqb v' v) eqn:E; auto. apply Nat.eqb_eq; auto.
  - destruct (Nat.eqb x v') eqn:E2; [|rewrite E1, E2; auto]. apply Nat.eqb_eq in E2. subst. rewrite Nat.eqb_refl. auto.
Qed.

Lemma map_sw_invol v v' p : map (sw v v') (map (sw v v') p) = p.
Proof. rewrite map_map. rewrite <- (map_id p) at 2. apply map_ext. apply sw_invol. Qed.

Lemma sw_perm v v' n p : (v < n)%nat -> (v' < n)%nat -> Permutation (seq 0 n) p -> Permutation (seq 0 n) (map (sw v v') p).
Proof.
  intros Hv Hv' H. apply NoDup_Permutation.
  - apply seq_NoDup.
  - apply FinFun.Injective_map_NoDup.
    + intros x y E. rewrite <- (sw_invol v v' x), <- (sw_invol v v' y). congruence.
    + eapply Permutation_NoDup; [exact H|apply seq_NoDup].
  - assert (B : forall x, In x p <-> (x < n)%nat).
    { intros x. split; intros Hx.
      - apply (Permutation_in x (Permutation_sym H)) in Hx. apply in_seq in Hx. lia.
      - apply (Permutation_in x H). apply in_seq. lia. }
    intros x. rewrite in_seq, in_map_iff. split.
    + intros [_ Hx]. exists (sw v v' x). split; [apply sw_invol|]. apply B. unfold sw.
      destruct (Nat.eqb x v); auto. destruct (Nat.eqb x v'); auto.
    + intros (y & <- & Hy). apply B in Hy. unfold sw. destruct (Nat.eqb y v); [lia|]. destruct (Nat.eqb y v'); lia.
Qed.

(** How many of the permutations send position [j] to [v]. *)
Definition hits (ps : list (list nat)) (j v : nat) : nat := length (filter (fun p => Nat.eqb (nth j p 0%nat) v) ps).

Lemma hits_perm ps ps' j v : Permutation ps ps' -> hits ps j v = hits ps' j v.
Proof.
  unfold hits. induction 1; simpl; auto.
  - destruct (Nat.eqb _ _); simpl; auto.
  - destruct (Nat.eqb _ _), (Nat.eqb _ _); simpl; auto.
  - congruence.
Qed.

Lemma hits_sw ps j v v' : (forall p, In p ps -> (j < length p)%nat) ->
  hits (map (map (sw v v')) ps) j v' = hits ps j v.
Proof.
  unfold hits. induction ps as [|p ps IH]; simpl; intros H; auto.
  assert (E : Nat.eqb (nth j (map (sw v v') p) 0%nat) v' = Nat.eqb (nth j p 0%nat) v).
  { rewrite (nth_indep _ _ (sw v v' 0)) by (rewrite map_length; auto). rewrite map_nth. unfold sw.
    destruct (Nat.eqb (nth j p 0%nat) v) eqn:E1; [apply Nat.eqb_refl|].
    destruct (Nat.eqb (nth j p 0%nat) v') eqn:E2; auto. apply Nat.eqb_eq in E2. rewrite E2 in E1.
    rewrite Nat.eqb_sym. auto. }
  rewrite E. destruct (Nat.eqb (nth j p 0%nat) v); simpl; [f_equal|]; apply IH; auto.
Qed.

Lemma perms_swap n v v' : (v < n)%nat -> (v' < n)%nat ->
  Permutation (map (map (sw v v')) (perms (seq 0 n))) (perms (seq 0 n)).
Proof.
  intros Hv Hv'. apply NoDup_Permutation.
  - apply FinFun.Injective_map_NoDup.
    + intros x y E. rewrite <- (map_sw_invol v v' x), <- (map_sw_invol v v' y). congruence.
    + apply perms_NoDup. apply seq_NoDup.
  - apply perms_NoDup. apply seq_NoDup.
  - intros p. rewrite in_map_iff. split.
    + intros (q & <- & Hq). apply perms_perm in Hq. apply perms_perm. apply sw_perm; auto.
    + intros Hp. exists (map (sw v v') p). split; [apply map_sw_invol|]. apply perms_perm in Hp.
      apply perms_perm. apply sw_perm; auto.
Qed.

Lemma hits_const n j v v' : (j < n)%nat -> (v < n)%nat -> (v' < n)%nat ->
  hits (perms (seq 0 n)) j v = hits (perms (seq 0 n)) j v'.
Proof.
  intros Hj Hv Hv'. rewrite <- (hits_sw _ j v v').
  - apply hits_perm. apply perms_swap; auto.
  - intros p Hp. apply perms_perm in Hp. apply Permutation_length in Hp. rewrite seq_length in Hp. lia.
Qed.

Lemma rsum_hits ps j n (F : nat -> R) : (forall p, In p ps -> (nth j p 0%nat < n)%nat) ->
  rsum (map (fun p => F (nth j p 0%nat)) ps) = rsum (map (fun v => INR (hits ps j v) * F v) (seq 0 n)).
Proof.
  intros H. induction ps as [|p ps IH]; simpl.
  - symmetry. transitivity (rsum (map (fun v => 0 * F v) (seq 0 n))); [apply rsum_ext; auto|].
    rewrite rsum_map_scale. lra.
  - rewrite IH by (intros; apply H; simpl; auto).
    transitivity (rsum (map (fun v => (if Nat.eqb (nth j p 0%nat) v then 1 else 0) * F v + INR (hits ps j v) * F v) (seq 0 n))).
    + rewrite rsum_map_plus. f_equal. rewrite sum_indicator by apply seq_NoDup.
      destruct (in_dec _ _ _) as [|N]; auto. exfalso. apply N. apply in_seq. specialize (H p ltac:(simpl; auto)). lia.
    + apply rsum_ext. intros v _. unfold hits. simpl. destruct (Nat.eqb _ _); simpl length; [rewrite S_INR|]; lra.
Qed.

(** Averaging a function of one entry over all permutations averages it over all
    values. *)
Lemma perms_average n j (F : nat -> R) : (j < n)%nat ->
  rsum (map (fun p => F (nth j p 0%nat)) (perms (seq 0 n))) / INR (length (perms (seq 0 n))) =
  rsum (map F (seq 0 n)) / INR n.
Proof.
  intros Hj. set (ps := perms (seq 0 n)).
  assert (Hlt : forall p, In p ps -> (nth j p 0 < n)%nat).
  { intros p Hp. apply perms_perm in Hp. pose proof (Permutation_length Hp) as L. rewrite seq_length in L.
    assert (Hin : In (nth j p 0%nat) p) by (apply nth_In; lia).
    apply (Permutation_in _ (Permutation_sym Hp)) in Hin. apply in_seq in Hin. lia. }
  assert (A : forall G : nat -> R, rsum (map (fun p => G (nth j p 0%nat)) ps) = INR (hits ps j 0) * rsum (map G (seq 0 n))).
  { intros G. rewrite (rsum_hits ps j n G Hlt). rewrite <- rsum_map_scale. apply rsum_ext.
    intros v Hv. apply in_seq in Hv. unfold ps. rewrite (hits_const n j v 0) by lia. auto. }
  assert (L : INR (length ps) = INR (hits ps j 0) * INR n).
  { specialize (A (fun _ => 1)). cbv beta in A.
    assert (E : forall B (l : list B), rsum (map (fun _ => 1) l) = INR (length l)).
    { intros B l. induction l; simpl length; [simpl; auto|]. rewrite S_INR. simpl. rewrite IHl. lra. }
    rewrite !E, seq_length in A. auto. }
  rewrite A, L.
  assert (Hps : In (seq 0 n) ps) by (apply perms_perm; auto).
  assert (0 < INR (length ps)) by (apply lt_0_INR; destruct ps; [destruct Hps|simpl; lia]).
  assert (0 < INR n) by (apply lt_0_INR; lia).
  assert (INR (hits ps j 0) <> 0) by (intros E; rewrite E in L; lra).
  field. split; lra.
Qed.

(** A function of a uniformly drawn index integrates to its average. *)
Lemma unif_index_iff K r k : (0 < K)%nat -> 0 < r < 1 -> (k < K)%nat ->
  unif_index K r = k <-> INR k <= r * INR K < INR (S k).
Proof.
  intros HK Hr Hk. unfold unif_index. set (x := r * INR K).
  assert (Hx : 0 <= x < INR K).
  { unfold x. assert (0 < INR K) by (apply lt_0_INR; auto). nra. }
  destruct (archimed x) as [A1 A2].
  assert (Hz : (0 < up x)%Z) by (apply lt_IZR; lra).
  split.
  - intros <-. rewrite S_INR, INR_IZR_INZ, Z2Nat.id by lia. rewrite minus_IZR. lra.
  - intros [B1 B2]. rewrite S_INR in B2. rewrite INR_IZR_INZ in B1, B2.
    assert (up x = Z.of_nat k + 1)%Z.
    { symmetry. apply tech_up; rewrite plus_IZR; lra. }
    lia.
Qed.

Lemma unif_index_lt K r : (0 < K)%nat -> 0 < r < 1 -> (unif_index K r < K)%nat.
Proof.
  intros HK Hr. unfold unif_index.
  assert (0 < INR K) by (apply lt_0_INR; auto).
  destruct (archimed (r * INR K)) as [A1 A2].
  assert (0 < up (r * INR K))%Z by (apply lt_IZR; nra).
  apply INR_lt. rewrite INR_IZR_INZ, Z2Nat.id by lia. rewrite minus_IZR. nra.
Qed.

Lemma unif_index_integral K (F : nat -> R) : (0 < K)%nat ->
  is_RInt (fun r => F (unif_index K r)) 0 1 (rsum (map F (seq 0 K)) / INR K).
Proof.
  intros HK. assert (HKp : 0 < INR K) by (apply lt_0_INR; auto).
  eapply is_RInt_ext01 with (f := fun r => rsum (map (fun k =>
     F k * ((if Rltb r (INR (S k) / INR K) then 1 else 0) - (if Rltb r (INR k / INR K) then 1 else 0))) (seq 0 K))).
  - intros r Hr. pose proof (unif_index_lt K r HK Hr) as Hlt.
    transitivity (rsum (map (fun k => (if Nat.eqb (unif_index K r) k then 1 else 0) * F k) (seq 0 K))).
    + apply rsum_ext. intros k Hk. apply in_seq in Hk. rewrite Rmult_comm. f_equal.
      assert (D : forall c, Rltb r (c / INR K) = Rltb (r * INR K) c).
      { intros c. destruct (Rltb (r * INR K) c) eqn:E.
        - apply Rltb_true in E. apply Rltb_true. apply (Rmult_lt_reg_r (INR K)); auto.
          replace (c / INR K * INR K) with c by (field; lra). auto.
        - apply Rltb_false in E. apply Rltb_false. apply (Rmult_le_reg_r (INR K)); auto.
          replace (c / INR K * INR K) with c by (field; lra). auto. }
      rewrite !D. pose proof (unif_index_iff K r k HK Hr ltac:(lia)) as I.
      destruct (Nat.eqb_spec (unif_index K r) k) as [E|E].
      * apply I in E. destruct (Rltb (r * INR K) (INR (S k))) eqn:E1; [|apply Rltb_false in E1; lra].
        destruct (Rltb (r * INR K) (INR k)) eqn:E2; [apply Rltb_true in E2; lra|]. lra.
      * destruct (Rltb (r * INR K) (INR (S k))) eqn:E1; destruct (Rltb (r * INR K) (INR k)) eqn:E2; try lra.
        -- apply Rltb_true in E1. apply Rltb_false in E2. exfalso. apply E, I. lra.
        -- apply Rltb_false in E1. apply Rltb_true in E2. rewrite S_INR in E1. lra.
    + rewrite sum_indicator by apply seq_NoDup. destruct (in_dec _ _ _) as [|N]; auto.
      exfalso. apply N. apply in_seq. lia.
  - replace (rsum (map F (seq 0 K)) / INR K) with (rsum (map (fun k => F k * (clamp (INR (S k) / INR K) - clamp (INR k / INR K))) (seq 0 K))).
    + apply is_RInt_rsum. intros k _.
      pose proof (is_RInt_scal (V := R_NormedModule) _ _ _ (F k) _
        (is_RInt_minus (V := R_NormedModule) _ _ _ _ _ _ (RInt_lt_step (INR (S k) / INR K)) (RInt_lt_step (INR k / INR K)))) as H.
      exact H.
    + rewrite <- rsum_map_div. apply rsum_ext. intros k Hk. apply in_seq in Hk.
      assert (C : forall c, 0 <= c <= INR K -> clamp (c / INR K) = c / INR K).
      { intros c Hc. assert (0 <= c / INR K <= 1).
        { split; [apply Rmult_le_pos; [lra|left; apply Rinv_0_lt_compat; auto]|].
          apply (Rmult_le_reg_r (INR K)); auto. replace (c / INR K * INR K) with c by (field; lra). lra. }
        unfold clamp. rewrite (Rmax_right 0), Rmin_right; lra. }
      rewrite !C.
      * rewrite S_INR. field. lra.
      * split; [apply pos_INR|apply le_INR; lia].
      * split; [apply pos_INR|apply le_INR; lia].
Qed.
