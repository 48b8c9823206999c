From Coq Require Import Reals Lra Lia List Arith Permutation.
From Verif Require Import Base XR SampleModel SampleSpec SampleProofs PAModel WeightSpec.
Import ListNotations.
Open Scope R_scope.

Lemma draw_ok {W} (g : rng W) s r s' : rng_ok g -> draw g s = Ok (r, s') -> unit_draw r.
Proof.
  intros [H _] E. unfold draw in E. specialize (H s). destruct (rand g s). inversion E; subst. auto.
Qed.

Lemma draw_total {W} (g : rng W) s : exists r s', draw g s = Ok (r, s').
Proof. unfold draw. destruct (rand g s). eauto. Qed.

(** ** Linear weights of live log weights *)
Lemma total_nonneg w : 0 <= total w.
Proof.
  apply rsum_nonneg. apply Forall_map. apply Forall_forall. intros; apply lin_nonneg.
Qed.

Lemma live_total w : live w -> 0 < total w.
Proof.
  intros [H (r & Hr)]. apply rsum_pos.
  - apply Forall_map. apply Forall_forall. intros; apply lin_nonneg.
  - apply Exists_exists. exists (lin (Fin r)). split; [apply in_map; auto|apply exp_pos].
Qed.

Lemma lin_pos_fin a : 0 < lin a -> exists r, a = Fin r.
Proof. destruct a; simpl; try lra; eauto. Qed.

Lemma total_live w : Forall logish w -> 0 < total w -> live w.
Proof.
  intros H Ht. split; auto. apply rsum_pos_Exists in Ht.
  - apply Exists_exists in Ht. destruct Ht as (x & Hx & Hp).
    apply in_map_iff in Hx. destruct Hx as (a & <- & Ha).
    apply lin_pos_fin in Hp. destruct Hp as (r & ->). eauto.
  - apply Forall_map. apply Forall_forall. intros; apply lin_nonneg.
Qed.

Lemma live_max w : live w -> exists m, xmax w = Ok (Fin m) /\ In (Fin m) w /\
  Forall (fun x => xle x (Fin m)) w.
Proof.
  intros [H (r & Hr)]. destruct (xmax_ok w) as [m Hm].
  { intros ->. inversion Hr. }
  destruct (xmax_fin w m H Hm) as [m' ->]; [eauto|].
  destruct (xmax_spec w _ H Hm) as (A & B & C). eauto.
Qed.

Lemma map_exp_shift w m : Forall logish w ->
  map (fun x => xexp (xsub x (Fin m))) w = map Fin (map (Rmult (exp (- m))) (map lin w)).
Proof.
  intros H. rewrite !map_map. apply map_ext_in. intros x Hx.
  rewrite Forall_forall in H. specialize (H x Hx).
  rewrite xexp_logish by (apply logish_xsub_fin; auto).
  rewrite lin_xsub_fin by auto. f_equal. lra.
Qed.

Lemma map_exp w : Forall logish w -> map xexp w = map Fin (map lin w).
Proof.
  intros H. rewrite map_map. apply map_ext_in. intros x Hx.
  rewrite Forall_forall in H. apply xexp_logish; auto.
Qed.

Lemma xdiv_fin x y : y <> 0 -> xdiv (Fin x) (Fin y) = Fin (x / y).
Proof. intros H. simpl. rewrite Reqb_false by auto. auto. Qed.

Lemma map_xdiv l s : s <> 0 -> map (fun x => xdiv x (Fin s)) (map Fin l) = map Fin (map (fun x => x / s) l).
Proof. intros H. rewrite !map_map. apply map_ext. intros x. apply xdiv_fin; auto. Qed.

(** ** Effective sample size *)
Lemma rsum_sq_nonneg {A} (f : A -> R) l : 0 <= rsum (map (fun x => f x ^ 2) l).
Proof.
  apply rsum_nonneg. apply Forall_map, Forall_forall. intros. simpl. nra.
Qed.

Lemma rsum_sq_pos l : 0 < rsum l -> 0 < rsum (map (fun x => x ^ 2) l).
Proof.
  intros H. destruct (Rle_lt_or_eq_dec _ _ (rsum_sq_nonneg (fun x => x) l)) as [E|E]; auto.
  exfalso. assert (F : Forall (fun x => x = 0) l).
  { clear H. induction l as [|a l IH]; constructor.
    - simpl in E. pose proof (rsum_sq_nonneg (fun x => x) l). simpl in H. nra.
    - apply IH. simpl in *. pose proof (rsum_sq_nonneg (fun x => x) l). simpl in H. nra. }
  assert (rsum l = 0); [|lra]. clear - F. induction F; simpl; lra.
Qed.

Lemma ess_scale c l : 0 < c -> 0 < rsum l -> ess (map (Rmult c) l) = ess l.
Proof.
  intros Hc Hl. unfold ess. rewrite rsum_scale.
  assert (E : rsum (map (fun x => x ^ 2) (map (Rmult c) l)) = c ^ 2 * rsum (map (fun x => x ^ 2) l)).
  { rewrite map_map. rewrite <- rsum_map_scale. apply rsum_ext. intros; lra. }
  rewrite E. pose proof (rsum_sq_pos l Hl). field. split; lra.
Qed.

Lemma neff_fin w : live w -> neff_of w = Ok (Fin (ess (map lin w))).
Proof.
  intros H. destruct (live_max w H) as (m & Hm & _).
  unfold neff_of. rewrite Hm. cbn [rbind]. destruct H as [Hl Hex].
  rewrite map_exp_shift by auto.
  set (a := map (Rmult (exp (- m))) (map lin w)).
  pose proof (live_total w (conj Hl Hex)) as Ht. unfold total in Ht.
  assert (Ha : 0 < rsum a).
  { unfold a. rewrite rsum_scale. apply Rmult_lt_0_compat; auto. apply exp_pos. }
  rewrite xsum_fin, map_xdiv by lra.
  assert (E : map (fun x => xmul x x) (map Fin (map (fun x => x / rsum a) a)) =
              map Fin (map (fun x => (x / rsum a) ^ 2) a)).
  { rewrite !map_map. apply map_ext. intros x. simpl. f_equal. lra. }
  rewrite E, xsum_fin.
  assert (Es : rsum (map (fun x => (x / rsum a) ^ 2) a) =
               rsum (map (fun x => x ^ 2) a) / (rsum a) ^ 2).
  { rewrite <- rsum_map_div. apply rsum_ext. intros. field. lra. }
  rewrite Es. pose proof (rsum_sq_pos a Ha) as Hq.
  rewrite xdiv_fin.
  2:{ apply Rgt_not_eq. apply Rmult_lt_0_compat; auto. apply Rinv_0_lt_compat. simpl; nra. }
  do 2 f_equal. rewrite <- (ess_scale (exp (- m)) (map lin w)); auto using exp_pos.
  fold a. unfold ess. field. split; lra.
Qed.

Lemma var_identity l c : rsum (map (fun x => (x - c) ^ 2) l) =
  rsum (map (fun x => x ^ 2) l) - 2 * c * rsum l + INR (length l) * c ^ 2.
Proof.
  induction l as [|a l IH]; [simpl; lra|].
  change (length (a :: l)) with (S (length l)). rewrite S_INR.
  cbn [map rsum fold_right]. unfold rsum in *. rewrite IH. lra.
Qed.

Lemma cauchy l : (rsum l) ^ 2 <= INR (length l) * rsum (map (fun x => x ^ 2) l).
Proof.
  destruct l as [|a l']; [simpl; lra|]. set (l := a :: l').
  assert (HN : 0 < INR (length l)) by (apply lt_0_INR; simpl; lia).
  pose proof (var_identity l (rsum l / INR (length l))) as H.
  pose proof (rsum_sq_nonneg (fun x => x - rsum l / INR (length l)) l) as H0.
  cbn beta in H0. rewrite H in H0.
  apply Rmult_le_compat_l with (r := INR (length l)) in H0; [|lra].
  replace (INR (length l) * (rsum (map (fun x => x ^ 2) l) - 2 * (rsum l / INR (length l)) * rsum l +
     INR (length l) * (rsum l / INR (length l)) ^ 2)) with
    (INR (length l) * rsum (map (fun x => x ^ 2) l) - (rsum l) ^ 2) in H0 by (field; lra).
  lra.
Qed.

Lemma sumsq_le l : Forall (fun x => 0 <= x) l -> rsum (map (fun x => x ^ 2) l) <= (rsum l) ^ 2.
Proof.
  induction 1 as [|a l Ha Hl IH]; [simpl; lra|].
  cbn [map rsum fold_right]. change (fold_right Rplus 0 l) with (rsum l).
  change (fold_right Rplus 0 (map (fun x => x ^ 2) l)) with (rsum (map (fun x => x ^ 2) l)).
  pose proof (rsum_nonneg l Hl). nra.
Qed.

Lemma ess_bounds l : Forall (fun x => 0 <= x) l -> 0 < rsum l -> 1 <= ess l <= INR (length l).
Proof.
  intros Hl Hp. pose proof (rsum_sq_pos l Hp) as Hq. unfold ess. split.
  - apply Rmult_le_reg_r with (rsum (map (fun x => x ^ 2) l)); auto.
    unfold Rdiv. rewrite Rmult_assoc, Rinv_l by lra. pose proof (sumsq_le l Hl). lra.
  - apply Rmult_le_reg_r with (rsum (map (fun x => x ^ 2) l)); auto.
    unfold Rdiv. rewrite Rmult_assoc, Rinv_l by lra. pose proof (cauchy l). lra.
Qed.

Lemma rsum_zero l : Forall (fun x => 0 <= x) l -> rsum l = 0 -> Forall (fun x => x = 0) l.
Proof.
  induction 1 as [|a l Ha Hl IH]; intros E; constructor;
  simpl in E; pose proof (rsum_nonneg l Hl); [lra|]. apply IH. lra.
Qed.

Lemma map_rep {A B} (f : A -> B) a n : map f (repeat a n) = repeat (f a) n.
Proof. induction n; simpl; congruence. Qed.

Lemma ess_max_iff l : 0 < rsum l ->
  (ess l = INR (length l) <-> forall x y, In x l -> In y l -> x = y).
Proof.
  intros Hp. pose proof (rsum_sq_pos l Hp) as Hq.
  assert (HN : 0 < INR (length l)) by (destruct l; [simpl in Hp; lra|apply lt_0_INR; simpl; lia]).
  set (c := rsum l / INR (length l)).
  assert (V : rsum (map (fun x => (x - c) ^ 2) l) =
              rsum (map (fun x => x ^ 2) l) - (rsum l) ^ 2 / INR (length l)).
  { rewrite var_identity. unfold c. field. lra. }
  split.
  - intros E. unfold ess in E.
    assert (Z : rsum (map (fun x => (x - c) ^ 2) l) = 0).
    { rewrite V. replace ((rsum l) ^ 2) with (INR (length l) * rsum (map (fun x => x ^ 2) l)).
      - field. lra.
      - rewrite <- E. field. lra. }
    apply rsum_zero in Z.
    2:{ apply Forall_map, Forall_forall. intros; apply pow2_ge_0. }
    rewrite Forall_map, Forall_forall in Z.
    assert (Q : forall x, In x l -> x = c) by (intros x Hx; specialize (Z x Hx); cbn beta in Z; rewrite <- Rsqr_pow2 in Z; apply Rsqr_0_uniq in Z; lra).
    intros x y Hx Hy. rewrite (Q x Hx), (Q y Hy). auto.
  - intros E. destruct l as [|a l]; [simpl in Hp; lra|].
    assert (F : a :: l = repeat a (length (a :: l))).
    { clear - E. simpl. f_equal.
      assert (F : Forall (fun x => x = a) l) by (apply Forall_forall; intros; apply E; simpl; auto).
      induction F; simpl; auto. subst. f_equal. apply IHF. intros; apply E; simpl in *; tauto. }
    rewrite F in Hp |- *. generalize dependent (length (a :: l)). intros n HN _ _ _ Hp.
    unfold ess. rewrite map_rep. rewrite !rsum_repeat in *. rewrite repeat_length.
    assert (a <> 0) by (intros E0; rewrite E0 in HN; lra). assert (INR n <> 0) by (intros E0; rewrite E0 in HN; lra).
    field. split; auto.
Qed.

Lemma ess_min_iff l : Forall (fun x => 0 <= x) l -> 0 < rsum l ->
  (ess l = 1 <-> exists i, forall j, (j < length l)%nat -> nth j l 0 <> 0 -> j = i).
Proof.
  intros Hl Hp. pose proof (rsum_sq_pos l Hp) as Hq.
  assert (A : ess l = 1 <-> rsum (map (fun x => x ^ 2) l) = (rsum l) ^ 2).
  { unfold ess. split; intros E.
    - apply Rmult_eq_compat_r with (r := rsum (map (fun x => x ^ 2) l)) in E.
      unfold Rdiv in E. rewrite Rmult_assoc, Rinv_l in E by lra. lra.
    - rewrite E. unfold Rdiv. apply Rinv_r. rewrite <- E. lra. }
  rewrite A. clear A Hp Hq.
  assert (Zero : forall l, Forall (fun x => 0 <= x) l -> (forall j, (j < length l)%nat -> nth j l 0 = 0) ->
      rsum l = 0 /\ rsum (map (fun x => x ^ 2) l) = 0).
  { clear. induction 1 as [|a l Ha Hl IH]; intros Z; [simpl; lra|].
    pose proof (Z 0%nat) as Z0. simpl in Z0.
    destruct IH as [I1 I2].
    - intros j Hj. apply (Z (S j)). simpl. lia.
    - cbn [map rsum fold_right]. unfold rsum in *. rewrite I1, I2. rewrite Z0 by lia. lra. }
  induction Hl as [|a l Ha Hl IH].
  - simpl. split; intros; [exists 0%nat; intros; lia | lra].
  - cbn [map rsum fold_right]. change (fold_right Rplus 0 l) with (rsum l).
    change (fold_right Rplus 0 (map (fun x => x ^ 2) l)) with (rsum (map (fun x => x ^ 2) l)).
    pose proof (rsum_nonneg l Hl) as S0. pose proof (sumsq_le l Hl) as S1.
    split.
    + intros E.
      assert (P : a * rsum l = 0) by nra.
      assert (Q : rsum (map (fun x => x ^ 2) l) = rsum l ^ 2) by nra.
      destruct (Rmult_integral _ _ P) as [->|Z].
      * destruct IH as [IH _]. destruct (IH Q) as [i Hi].
        exists (S i). intros [|j] Hj Hnz; [simpl in Hnz; lra|]. f_equal. apply Hi; auto.
        simpl in Hj. lia.
      * exists 0%nat. intros [|j] Hj Hnz; auto. exfalso. apply Hnz. simpl.
        pose proof (rsum_zero l Hl Z) as F. rewrite Forall_forall in F. apply F.
        apply nth_In. simpl in Hj. lia.
    + intros [i Hi].
      destruct (Req_EM_T a 0) as [->|Hne].
      * destruct IH as [_ IH]. rewrite IH; [lra|].
        exists (i - 1)%nat. intros j Hj Hnz.
        assert (S j = i) by (apply Hi; auto; simpl; lia). lia.
      * assert (i = 0)%nat by (symmetry; apply Hi; simpl; auto; lia). subst i.
        destruct (Zero l Hl) as [Z1 Z2].
        { intros j Hj. destruct (Req_EM_T (nth j l 0) 0) as [E|E]; auto.
          specialize (Hi (S j)). simpl in Hi. specialize (Hi ltac:(lia) E). lia. }
        rewrite Z1, Z2. lra.
Qed.

(** ** Offsets do not matter *)
Lemma live_shift c w : live w -> live (map (fun x => xadd x (Fin c)) w).
Proof.
  intros [H (r & Hr)]. split.
  - apply Forall_map. eapply Forall_impl; [|exact H]. intros [| | |x]; simpl; tauto.
  - exists (r + c). apply in_map_iff. exists (Fin r). auto.
Qed.

Lemma lin_shift c w : Forall logish w ->
  map lin (map (fun x => xadd x (Fin c)) w) = map (Rmult (exp c)) (map lin w).
Proof.
  intros H. rewrite !map_map. apply map_ext_in. intros x Hx.
  rewrite Forall_forall in H. specialize (H x Hx).
  rewrite lin_xadd by (auto; exact I). simpl. lra.
Qed.

Lemma neff_shift c w : live w -> neff_of (map (fun x => xadd x (Fin c)) w) = neff_of w.
Proof.
  intros H. rewrite !neff_fin by auto using live_shift. do 2 f_equal.
  rewrite lin_shift by apply H. apply ess_scale; auto using exp_pos. apply live_total; auto.
Qed.

Lemma weights_ok_lin w : live w -> weights_ok (map lin w).
Proof.
  intros H. split; [|apply live_total; auto].
  apply Forall_map, Forall_forall. intros; apply lin_nonneg.
Qed.

(** resampling draws from the linear weights *)
Lemma resample_ind_lin w n r : live w -> resample_ind w n r = np_sample (map Fin (map lin w)) n r.
Proof.
  intros H. destruct (live_max w H) as (m & Hm & _). unfold resample_ind. rewrite Hm. simpl.
  rewrite map_exp_shift by apply H.
  apply sample_scale; auto using exp_pos, weights_ok_lin.
Qed.

Lemma resample_ind_shift c w n r : live w ->
  resample_ind (map (fun x => xadd x (Fin c)) w) n r = resample_ind w n r.
Proof.
  intros H. rewrite !resample_ind_lin by auto using live_shift.
  rewrite lin_shift by apply H. apply sample_scale; auto using exp_pos, weights_ok_lin.
Qed.

(** ** Index validity for arbitrary weights (NaN, inf, zero totals included) *)
Lemma xcumsum_from_length l : forall a, length (xcumsum_from a l) = length l.
Proof. induction l; simpl; auto. Qed.

Lemma idx_last_nth {A} (l : list A) a : idx_last l = Ok a -> nth_error l (length l - 1) = Some a.
Proof.
  unfold idx_last. intros H. destruct (rev l) as [|b l'] eqn:E; [discriminate|].
  inversion H; subst. apply (f_equal (@rev A)) in E. rewrite rev_involutive in E. subst l.
  simpl. rewrite app_length. simpl. rewrite nth_error_app2 by lia.
  replace (length (rev l') + 1 - 1 - length (rev l'))%nat with 0%nat by lia. auto.
Qed.

Lemma searchsorted_not_less a u i x :
  nth_error a i = Some x -> np_less x u = false -> (searchsorted a u <= i)%nat.
Proof.
  revert i; induction a as [|y a IH]; intros [|i] H Hu; simpl in *; try discriminate.
  - inversion H; subst. rewrite Hu. auto.
  - destruct (np_less y u); [|lia]. apply IH in H; auto. lia.
Qed.

Lemma self_div_not_less z u : u <= 1 -> np_less (xdiv z z) (Fin u) = false.
Proof.
  intros Hu. destruct z; simpl; auto. unfold Reqb. destruct (Req_EM_T r 0) as [->|Hn].
  - rewrite !(proj2 (Rltb_false 0 0)) by lra. auto.
  - simpl. apply Rltb_false. unfold Rdiv. rewrite Rinv_r by auto. auto.
Qed.

Lemma np_sample_range w n r l : unit_draw r -> np_sample w n r = Ok l ->
  length l = n /\ Forall (fun i => (i < length w)%nat) l.
Proof.
  intros Hr E. unfold np_sample in E. destruct (idx_last (xcumsum w)) as [z|] eqn:Ez; [|discriminate].
  simpl in E. inversion E; subst; clear E. split; [rewrite map_length, seq_length; auto|].
  apply Forall_forall. intros i Hi. apply in_map_iff in Hi. destruct Hi as (k & <- & Hk).
  apply in_seq in Hk. apply idx_last_nth in Ez. unfold xcumsum in Ez.
  rewrite xcumsum_from_length in Ez.
  assert (Hne : w <> []) by (intros ->; discriminate).
  assert (L : (searchsorted (map (fun x => xdiv x z) (xcumsum w)) (sample_key n r k) <= length w - 1)%nat).
  { apply searchsorted_not_less with (xdiv z z).
    - rewrite nth_error_map. unfold xcumsum. rewrite Ez. auto.
    - apply self_div_not_less. pose proof (key_bounds n r k Hr ltac:(lia)). lra. }
  destruct w; [congruence|]. simpl length in *. lia.
Qed.

Lemma np_sample_ok w n r : w <> [] -> exists l, np_sample w n r = Ok l.
Proof.
  intros H. unfold np_sample, idx_last.
  destruct (rev (xcumsum w)) as [|z l] eqn:E; [|simpl; eauto].
  apply (f_equal (@rev xr)) in E. rewrite rev_involutive in E.
  destruct w; [congruence|discriminate].
Qed.

Lemma sampleM_spec {W} (g : rng W) w n s l s' : rng_ok g ->
  sampleM g w n s = Ok (l, s') ->
  exists r, unit_draw r /\ np_sample w n r = Ok l.
Proof.
  intros Hg E. unfold sampleM in E. minv E. apply draw_ok in Hm; auto.
  inversion E; subst. eauto.
Qed.

Lemma sampleM_range {W} (g : rng W) w n s l s' : rng_ok g ->
  sampleM g w n s = Ok (l, s') ->
  length l = n /\ Forall (fun i => (i < length w)%nat) l.
Proof.
  intros Hg E. apply sampleM_spec in E; auto. destruct E as (r & Hr & E).
  eapply np_sample_range; eauto.
Qed.

Lemma sampleM_ok {W} (g : rng W) w n s : w <> [] -> exists l s', sampleM g w n s = Ok (l, s').
Proof.
  intros H. unfold sampleM, bind, lift.
  destruct (idx_last (xcumsum w)) as [z|] eqn:E.
  2:{ unfold idx_last in E. destruct (rev (xcumsum w)) eqn:E'; [|discriminate].
      apply (f_equal (@rev xr)) in E'. rewrite rev_involutive in E'. destruct w; [congruence|discriminate]. }
  destruct (draw_total g s) as (r & s' & Hd). rewrite Hd.
  destruct (np_sample_ok w n r H) as [l Hl]. rewrite Hl. eauto.
Qed.

(** ** The weight update *)
Section AddWeights.
Context {P : Type}.


Lemma zipw_Forall {A B C} (f : A -> B -> C) (Q : C -> Prop) (QA : A -> Prop) (QB : B -> Prop) a b r :
  (forall x y, QA x -> QB y -> Q (f x y)) ->
  zipw f a b = Ok r -> Forall QA a -> Forall QB b -> Forall Q r.
Proof.
  intros HQ. revert b r; induction a as [|x a IH]; intros [|y b] r E HA HB; simpl in E; try discriminate.
  - inversion E. constructor.
  - destruct (zipw f a b) eqn:E'; simpl in E; [|discriminate]. inversion E; subst.
    inversion HA; inversion HB; subst. constructor; eauto.
Qed.

Lemma nth_error_zipw_inv {A B C} (f : A -> B -> C) a b r k c :
  zipw f a b = Ok r -> nth_error r k = Some c ->
  exists x y, nth_error a k = Some x /\ nth_error b k = Some y /\ c = f x y.
Proof.
  revert b r k; induction a as [|x a IH]; intros [|y b] r k E Hk; simpl in E; try discriminate.
  - inversion E; subst. destruct k; discriminate.
  - destruct (zipw f a b) eqn:E'; simpl in E; [|discriminate]. inversion E; subst.
    destruct k; simpl in *; [|eauto]. inversion Hk; subst. eauto.
Qed.

Lemma add_weights_live (pa pa' : papprox P) nw :
  Forall logish (lw pa) -> Forall logish nw -> survivor (lw pa) nw ->
  add_weights pa nw = Ok pa' ->
  rescaled (lw pa') /\ live (lw pa') /\ length (lw pa') = length (lw pa) /\
  length (lw pa') = length nw /\
  part pa' = part pa /\ num pa' = num pa /\
  exists c, woff pa' = xadd (woff pa) (Fin c) /\
    forall i a b, nth_error (lw pa) i = Some a -> nth_error nw i = Some b ->
      nth_error (lw pa') i = Some (xsub (xadd a b) (Fin c)).
Proof.
  intros Hw Hnw (i0 & a0 & b0 & Ha0 & Hb0) E. unfold add_weights in E.
  destruct (xmax nw) as [m|] eqn:Em; [|discriminate]. cbn [rbind] in E.
  destruct (xmax_fin nw m Hnw Em) as [m1 ->].
  { exists b0. eapply nth_error_In; eauto. }
  set (nw' := map (fun x => xsub x (Fin m1)) nw) in *.
  destruct (zipw xadd (lw pa) nw') as [w|] eqn:Ew; [|discriminate]. cbn [rbind] in E.
  destruct (xmax w) as [m2|] eqn:Em2; [|discriminate]. cbn [rbind] in E.
  inversion E; subst; clear E. cbn [lw part num woff].
  assert (Hnw' : Forall logish nw').
  { apply Forall_map. eapply Forall_impl; [|exact Hnw]. intros; apply logish_xsub_fin; auto. }
  assert (Hlw : Forall logish w).
  { eapply zipw_Forall; [|exact Ew|exact Hw|exact Hnw']. apply logish_xadd. }
  destruct (zipw_length _ _ _ _ Ew) as [L1 L2]. unfold nw' in L2. rewrite map_length in L2.
  assert (Hw0 : nth_error w i0 = Some (Fin (a0 + (b0 - m1)))).
  { erewrite zipw_nth; eauto.
    2:{ unfold nw'. rewrite nth_error_map, Hb0. simpl. reflexivity. }
    simpl. f_equal. }
  destruct (xmax_fin w m2 Hlw Em2) as [m2' ->]; [eexists; eapply nth_error_In; eauto|].
  destruct (xmax_spec w _ Hlw Em2) as (_ & Hub & Hin).
  assert (R : rescaled (map (fun x => xsub x (Fin m2')) w)).
  { split.
    - apply Forall_map. eapply Forall_impl; [|exact Hub]. intros [| | |x]; simpl; try tauto. lra.
    - apply in_map_iff. exists (Fin m2'). split; auto. simpl. f_equal. lra. }
  split; auto. split.
  { split.
    - apply Forall_map. eapply Forall_impl; [|exact Hlw]. intros; apply logish_xsub_fin; auto.
    - exists 0. apply R. }
  rewrite map_length. repeat split; auto; try lia.
  exists (m1 + m2'). split.
  - destruct (woff pa); simpl; auto. f_equal. lra.
  - intros i a b Ha Hb. rewrite nth_error_map.
    erewrite zipw_nth; eauto.
    2:{ unfold nw'. rewrite nth_error_map, Hb. reflexivity. }
    simpl. f_equal. destruct a, b; simpl; auto. f_equal. lra.
Qed.

Lemma add_weights_ok (pa : papprox P) nw : nw <> [] -> length nw = length (lw pa) ->
  exists pa', add_weights pa nw = Ok pa'.
Proof.
  intros Hne L. unfold add_weights.
  destruct (xmax_ok nw Hne) as [m Hm]. rewrite Hm. cbn [rbind].
  destruct (zipw_ok xadd (lw pa) (map (fun x => xsub x m) nw)) as [w Hw];
    [rewrite map_length; auto|].
  rewrite Hw. cbn [rbind].
  destruct (xmax_ok w) as [m2 Hm2].
  { destruct (zipw_length _ _ _ _ Hw) as [_ L2]. rewrite map_length in L2.
    intros ->. destruct nw; [congruence|discriminate]. }
  rewrite Hm2. simpl. eauto.
Qed.

Lemma add_weights_shape (pa pa' : papprox P) nw : add_weights pa nw = Ok pa' ->
  part pa' = part pa /\ num pa' = num pa /\ length (lw pa') = length (lw pa) /\ length nw = length (lw pa).
Proof.
  unfold add_weights. intros E.
  destruct (xmax nw) as [m|] eqn:Em; [|discriminate]. cbn [rbind] in E.
  destruct (zipw xadd (lw pa) _) as [w|] eqn:Ew; [|discriminate]. cbn [rbind] in E.
  destruct (xmax w) as [m2|] eqn:Em2; [|discriminate]. cbn [rbind] in E.
  inversion E; subst; clear E. cbn. destruct (zipw_length _ _ _ _ Ew) as [L1 L2].
  rewrite map_length in L2. rewrite map_length. repeat split; auto; lia.
Qed.

(** No survivor: everything becomes NaN. *)
Lemma fold_xmax2_nan l : fold_left xmax2 l NaN = NaN.
Proof. induction l; simpl; auto. Qed.

Lemma fold_xmax2_in_nan l : forall a, In NaN l -> fold_left xmax2 l a = NaN.
Proof.
  induction l as [|b l IH]; intros a H; simpl in *; [tauto|].
  destruct H as [->|H]; [|auto]. destruct a; simpl; apply fold_xmax2_nan.
Qed.

Lemma xmax_nan w m : In NaN w -> xmax w = Ok m -> m = NaN.
Proof.
  destruct w as [|a w]; simpl; [tauto|]. intros [->|H] E; inversion E; subst.
  - apply fold_xmax2_nan.
  - apply fold_xmax2_in_nan; auto.
Qed.

Lemma xsub_nan_r a : xsub a NaN = NaN.
Proof. destruct a; auto. Qed.
Lemma xadd_nan_r a : xadd a NaN = NaN.
Proof. destruct a; auto. Qed.

Lemma xmax_ninf w m : Forall (fun x => x = NInf) w -> xmax w = Ok m -> m = NInf.
Proof.
  intros H E. assert (HL : Forall logish w).
  { eapply Forall_impl; [|exact H]. intros a ->. exact I. }
  destruct (xmax_spec w m HL E) as (_ & _ & Hin). rewrite Forall_forall in H. auto.
Qed.

Lemma logish_cases a : logish a -> a = NInf \/ exists r, a = Fin r.
Proof. destruct a; simpl; try tauto; eauto. Qed.

Lemma add_weights_dead (pa pa' : papprox P) nw :
  Forall logish (lw pa) -> Forall logish nw -> ~ survivor (lw pa) nw ->
  add_weights pa nw = Ok pa' -> all_nan (lw pa').
Proof.
  intros Hw Hnw Hdead E. pose proof (add_weights_shape _ _ _ E) as (_ & _ & L1 & L2).
  unfold add_weights in E.
  destruct (xmax nw) as [m|] eqn:Em; [|discriminate]. cbn [rbind] in E.
  destruct (xmax_spec nw m Hnw Em) as (Hml & Hmu & Hmin).
  destruct (zipw xadd (lw pa) (map (fun x => xsub x m) nw)) as [w|] eqn:Ew; [|discriminate].
  cbn [rbind] in E.
  destruct (xmax w) as [m2|] eqn:Em2; [|discriminate]. cbn [rbind] in E.
  inversion E; subst; clear E. cbn [lw] in *. rewrite map_length in L1.
  assert (Hne : w <> []) by (intros ->; discriminate).
  split; [destruct w; simpl; congruence|].
  apply Forall_map, Forall_forall. intros x Hx.
  destruct (logish_cases m Hml) as [->|[m1 ->]].
  - (* all likelihoods -inf *)
    assert (N : Forall (fun x => x = NaN) w).
    { eapply (zipw_Forall xadd _ (fun _ => True) (fun y => y = NaN)); [|exact Ew| |].
      - intros a b _ ->. apply xadd_nan_r.
      - apply Forall_forall; auto.
      - apply Forall_map. eapply Forall_impl; [|exact Hmu].
        intros [| | |y]; simpl; tauto. }
    rewrite Forall_forall in N. rewrite (N x Hx). destruct m2; auto.
  - assert (N : Forall (fun x => x = NInf) w).
    { apply Forall_forall. intros y Hy. apply In_nth_error in Hy. destruct Hy as [k Hk].
      destruct (nth_error_zipw_inv _ _ _ _ _ _ Ew Hk) as (a & b & Ha & Hb & ->).
      rewrite nth_error_map in Hb. destruct (nth_error nw k) as [c|] eqn:Hc; [|discriminate].
      simpl in Hb. inversion Hb; subst.
      assert (La : logish a) by (rewrite Forall_forall in Hw; apply Hw; eapply nth_error_In; eauto).
      assert (Lc : logish c) by (rewrite Forall_forall in Hnw; apply Hnw; eapply nth_error_In; eauto).
      destruct (logish_cases a La) as [->|[ra ->]]; destruct (logish_cases c Lc) as [->|[rc ->]]; auto.
      exfalso. apply Hdead. exists k, ra, rc. auto. }
    rewrite (xmax_ninf w m2 N Em2). rewrite Forall_forall in N. rewrite (N x Hx). auto.
Qed.

Lemma add_weights_nan (pa pa' : papprox P) nw : all_nan (lw pa) ->
  add_weights pa nw = Ok pa' -> all_nan (lw pa').
Proof.
  intros [Hne HN] E. pose proof (add_weights_shape _ _ _ E) as (_ & _ & L1 & L2).
  unfold add_weights in E.
  destruct (xmax nw) as [m|] eqn:Em; [|discriminate]. cbn [rbind] in E.
  destruct (zipw xadd (lw pa) (map (fun x => xsub x m) nw)) as [w|] eqn:Ew; [|discriminate].
  cbn [rbind] in E.
  destruct (xmax w) as [m2|] eqn:Em2; [|discriminate]. cbn [rbind] in E.
  inversion E; subst; clear E. cbn [lw] in *.
  split; [destruct (lw pa); [congruence|]; destruct w; simpl in *; congruence|].
  assert (N : Forall (fun x => x = NaN) w).
  { eapply (zipw_Forall xadd _ (fun y => y = NaN) (fun _ => True)); [|exact Ew|exact HN|].
    - intros a b -> _. destruct b; auto.
    - apply Forall_forall; auto. }
  apply Forall_map. eapply Forall_impl; [|exact N]. intros a ->. destruct m2; auto.
Qed.

Lemma survivor_dec (w nw : list xr) : survivor w nw \/ ~ survivor w nw.
Proof. apply Classical_Prop.classic. Qed.
End AddWeights.

(** ** Linear consequences of the weight update *)
Lemma nth_lin w i : lin (nth i w NInf) = nth i (map lin w) 0.
Proof. change 0 with (lin NInf). symmetry. apply map_nth. Qed.

Lemma zip_total f w nw w' :
  length w' = length w -> length nw = length w ->
  (forall i a b, nth_error w i = Some a -> nth_error nw i = Some b ->
     exists c, nth_error w' i = Some c /\ lin c = f * (lin a * lin b)) ->
  total w' = f * rsum (map (fun ab => lin (fst ab) * lin (snd ab)) (combine w nw)).
Proof.
  unfold total. revert nw w'. induction w as [|a w IH]; intros [|b nw] [|c w'] L1 L2 H;
    simpl in L1, L2; try discriminate; simpl; [lra|].
  destruct (H 0%nat a b eq_refl eq_refl) as (c' & Hc & Hl). simpl in Hc. inversion Hc; subst.
  rewrite Hl. rewrite (IH nw w') by (auto; intros i x y Hx Hy; apply (H (S i)); auto). lra.
Qed.
