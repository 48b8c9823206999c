(** Lemmas about the EM drivers: percentile, discarding, weights. *)
From Coq Require Import Bool Reals ZArith Lra Lia List Arith Permutation Sorted.
From Verif Require Import Base EmModel.
Import ListNotations.
Open Scope R_scope.

Lemma rleb_true a b : rleb a b = true <-> a <= b.
Proof. unfold rleb. destruct (Rle_dec a b); split; auto; discriminate. Qed.
Lemma rleb_false a b : rleb a b = false <-> b < a.
Proof. unfold rleb. destruct (Rle_dec a b); split; intros; try discriminate; auto; lra. Qed.
Lemma rltb_true a b : rltb a b = true <-> a < b.
Proof. unfold rltb. destruct (Rlt_dec a b); split; auto; discriminate. Qed.
Lemma rltb_false a b : rltb a b = false <-> b <= a.
Proof. unfold rltb. destruct (Rlt_dec a b); split; intros; try discriminate; auto; lra. Qed.

(** ** Sorting *)
Lemma insert_perm x l : Permutation (insert x l) (x :: l).
Proof.
  induction l as [|y l IH]; cbn; auto. destruct (Rle_dec x y); auto.
  eapply perm_trans; [apply perm_skip; exact IH|]. apply perm_swap.
Qed.
Lemma sort_perm l : Permutation (sort l) l.
Proof. induction l as [|x l IH]; cbn; auto. eapply perm_trans; [apply insert_perm|]. auto. Qed.
Lemma insert_sorted x l : StronglySorted Rle l -> StronglySorted Rle (insert x l).
Proof.
  induction l as [|y l IH]; intros H; cbn; [repeat constructor|]. inversion H; subst. destruct (Rle_dec x y).
  - constructor; auto. constructor; auto. eapply Forall_impl; [|exact H3]. cbn. intros; lra.
  - constructor; auto. eapply Permutation_Forall; [apply Permutation_sym, insert_perm|]. constructor; auto. lra.
Qed.
Lemma sort_sorted l : StronglySorted Rle (sort l).
Proof. induction l; cbn; [constructor|apply insert_sorted; auto]. Qed.

Lemma sorted_nth l : StronglySorted Rle l -> forall i j x y, (i <= j)%nat -> nth_error l i = Some x -> nth_error l j = Some y -> x <= y.
Proof.
  induction 1 as [|a l H IH F]; intros i j x y L Hi Hj; [destruct i; discriminate|].
  destruct i as [|i], j as [|j]; cbn in *; try lia.
  - injection Hi as <-. injection Hj as <-. lra.
  - injection Hi as <-. rewrite Forall_forall in F. apply F. eapply nth_error_In; eauto.
  - eapply IH; [|eauto|eauto]; lia.
Qed.

Lemma filter_perm {A} f (l l' : list A) : Permutation l l' -> length (filter f l) = length (filter f l').
Proof. induction 1; cbn; auto; repeat (destruct (f _); cbn); try congruence; lia. Qed.

(** In a sorted list, the elements below [p] come before any position holding at least [p]. *)
Lemma sorted_count l p : StronglySorted Rle l -> forall i y, nth_error l i = Some y -> p <= y -> (length (filter (fun w => rltb w p) l) <= i)%nat.
Proof.
  induction 1 as [|a l H IH F]; intros i y Hi Hp; [destruct i; discriminate|].
  destruct i as [|i]; cbn in Hi.
  - injection Hi as <-. cbn. replace (rltb a p) with false by (symmetry; apply rltb_false; auto).
    assert (E : filter (fun w => rltb w p) l = []); [|rewrite E; auto].
    clear IH H. induction F as [|b l' Hb F IHF]; cbn; auto. replace (rltb b p) with false by (symmetry; apply rltb_false; lra). auto.
  - cbn. specialize (IH i y Hi Hp). destruct (rltb a p); cbn; lia.
Qed.

(** ** Percentile *)
Lemma nat_floor_spec x : 0 <= x -> INR (nat_floor x) <= x < INR (nat_floor x) + 1.
Proof.
  intros H. unfold nat_floor. destruct (base_Int_part x) as [H1 H2].
  assert (Hz : (0 <= Int_part x)%Z). { assert (-1 < IZR (Int_part x)) by lra. apply lt_IZR in H0. lia. }
  rewrite INR_IZR_INZ, Z2Nat.id by auto. lra.
Qed.

Lemma percentile_spec l q : l <> [] -> 0 <= q <= 100 ->
  exists p, percentile l q = Ok p /\ (exists x, In x l /\ p <= x) /\ (exists x, In x l /\ x <= p) /\
    INR (length (filter (fun w => rltb w p) l)) < q / 100 * INR (length l - 1) + 1.
Proof.
  intros Hne Hq. unfold percentile. destruct (Rle_dec 0 q) as [_|]; [|lra]. destruct (Rle_dec q 100) as [_|]; [|lra].
  destruct l as [|x0 l0] eqn:El; [congruence|]. rewrite <- El in *. clear El x0 l0.
  assert (Hn : (0 < length l)%nat) by (destruct l; [congruence|cbn; lia]).
  set (n := length l) in *. set (pos := q / 100 * INR (n - 1)). cbv zeta.
  assert (H0 : 0 <= INR (n - 1)) by apply pos_INR.
  assert (Hpos : 0 <= pos <= INR (n - 1)) by (unfold pos; split; nra).
  destruct (nat_floor_spec pos ltac:(lra)) as [F1 F2]. set (lo := nat_floor pos) in *.
  assert (Hlo : (lo <= n - 1)%nat). { apply INR_le. lra. }
  pose proof (Permutation_length (sort_perm l)) as HL. fold n in HL.
  set (hi := Nat.min (lo + 1) (n - 1)).
  destruct (nth_error (sort l) lo) as [x|] eqn:Ex; [|apply nth_error_None in Ex; lia].
  destruct (nth_error (sort l) hi) as [y|] eqn:Ey; [|apply nth_error_None in Ey; unfold hi in Ey; lia].
  unfold idx. rewrite Ex, Ey. cbn [rbind]. eexists. split; [reflexivity|].
  assert (Hxy : x <= y) by (eapply (sorted_nth _ (sort_sorted l) lo hi); eauto; unfold hi; lia).
  set (p := x + _). assert (Hp : x <= p <= y) by (unfold p; split; nra).
  assert (Ix : In x l) by (eapply Permutation_in; [apply sort_perm|]; eapply nth_error_In; eauto).
  assert (Iy : In y l) by (eapply Permutation_in; [apply sort_perm|]; eapply nth_error_In; eauto).
  split; [exists y; split; auto; lra|]. split; [exists x; split; auto; lra|].
  rewrite <- (filter_perm _ _ _ (sort_perm l)). fold pos.
  destruct (Req_dec pos (INR lo)) as [E|E].
  - assert (p = x) by (unfold p; rewrite E; ring).
    assert (C := sorted_count _ p (sort_sorted l) lo x Ex ltac:(lra)). apply le_INR in C. lra.
  - assert (Hlt : (lo < n - 1)%nat). { apply INR_lt. lra. }
    assert (C := sorted_count _ p (sort_sorted l) hi y Ey ltac:(lra)). apply le_INR in C.
    replace hi with (lo + 1)%nat in C by (unfold hi; lia). rewrite plus_INR in C. cbn in C. lra.
Qed.

(** ** Weights *)
Definition nonneg (w : list R) : Prop := Forall (fun x => 0 <= x) w.
(** Strictly positive weights that sum to one. *)
Definition prob (w : list R) : Prop := Forall (fun x => 0 < x) w /\ total w = 1.

Lemma total_app a b : total (a ++ b) = total a + total b.
Proof. induction a as [|x a IH]; unfold total in *; cbn; [lra|]. rewrite IH. lra. Qed.
Lemma total_scale c a : total (map (Rmult c) a) = c * total a.
Proof. induction a as [|x a IH]; unfold total in *; cbn; [lra|]. rewrite IH. lra. Qed.
Lemma total_div c a : total (map (fun x => x / c) a) = total a / c.
Proof. unfold Rdiv. induction a as [|x a IH]; unfold total in *; cbn; [lra|]. rewrite IH. lra. Qed.
Lemma total_const {A} c (l : list A) : total (map (fun _ => c) l) = INR (length l) * c.
Proof. induction l as [|x l IH]; [cbn; lra|]. cbn [map length]. rewrite S_INR. cbn. unfold total in *. rewrite IH. lra. Qed.
Lemma total_nonneg w : nonneg w -> 0 <= total w.
Proof. induction 1; cbn; [lra|]. unfold total in *. lra. Qed.
Lemma total_pos w : w <> [] -> Forall (fun x => 0 < x) w -> 0 < total w.
Proof.
  intros H F. destruct F as [|x l Hx F]; [congruence|]. cbn.
  assert (0 <= total l) by (apply total_nonneg; eapply Forall_impl; [|exact F]; cbn; intros; lra). unfold total in *. lra.
Qed.
Lemma prob_nonempty w : prob w -> w <> [].
Proof. intros [_ H] ->. cbn in H. lra. Qed.
Lemma prob_nonneg w : prob w -> nonneg w.
Proof. intros [H _]. eapply Forall_impl; [|exact H]. cbn. intros; lra. Qed.

Lemma uniform_prob {A} (l : list A) : l <> [] -> prob (map (fun _ => 1 / INR (length l)) l).
Proof.
  intros H. assert (0 < INR (length l)) by (apply lt_0_INR; destruct l; [congruence|cbn; lia]). split.
  - apply Forall_map. apply Forall_forall. intros. apply Rdiv_lt_0_compat; lra.
  - rewrite total_const. field. lra.
Qed.

Lemma blend_ok alpha old w : 0 <= alpha <= 1 -> (forall ws, old = Some ws -> nonneg ws /\ total ws = 1) -> nonneg w -> total w = 1 ->
  nonneg (blend alpha old w) /\ total (blend alpha old w) = 1.
Proof.
  intros Ha Ho Hw Tw. destruct old as [ws|]; cbn; [|auto]. destruct (Ho ws eq_refl) as [Hn Ht].
  split; [|rewrite total_app, !total_scale, Ht, Tw; lra].
  apply Forall_app. split; apply Forall_map; (eapply Forall_impl; [|eassumption]); cbn; intros; nra.
Qed.

Lemma maxl_ge d l : d <= maxl d l.
Proof. unfold maxl. revert d. induction l as [|x l IH]; intros d; cbn; [lra|]. eapply Rle_trans; [apply Rmax_l|apply IH]. Qed.
Lemma maxl_in d l : maxl d l = d \/ In (maxl d l) l.
Proof.
  unfold maxl. revert d. induction l as [|x l IH]; intros d; cbn; auto. destruct (IH (Rmax d x)) as [E|E]; auto.
  rewrite E. unfold Rmax. destruct (Rle_dec d x); auto.
Qed.

(** The threshold used for discarding, and what it guarantees. *)
Lemma keep_mask_spec eps pct w : 0 <= eps -> 0 <= pct <= 100 -> nonneg w -> total w = 1 ->
  exists th, keep_mask eps pct w = Ok (map (fun x => negb (rleb x th)) w) /\ 0 <= th <= eps /\
    (exists x, In x w /\ th < x) /\
    INR (length (filter (fun x => rltb 0 x && rleb x th) w)) < pct / 100 * INR (length w - 1) + 1.
Proof.
  intros He Hp Hn Ht. assert (Hne : w <> []) by (intros ->; cbn in Ht; lra).
  destruct (percentile_spec w pct Hne Hp) as (p & Ep & (x & Ix & Hx) & _ & Hc).
  unfold keep_mask. rewrite Ep. cbn [rbind]. set (wlow := maxl 0 _).
  exists (Rmin eps wlow). split; [reflexivity|].
  assert (Hw : 0 <= wlow) by apply maxl_ge.
  assert (Hlow : wlow = 0 \/ wlow < p).
  { destruct (maxl_in 0 (filter (fun w => rltb w p) w)) as [E|E]; [left; exact E|right]. apply filter_In in E. apply rltb_true. tauto. }
  assert (Hmin : Rmin eps wlow <= wlow) by apply Rmin_r. clearbody wlow.
  split. { split; [apply Rmin_glb; auto|apply Rmin_l]. }
  split.
  - destruct Hlow as [E|E]; [|exists x; split; auto; lra].
    destruct (Forall_Exists_dec (fun x => x <= 0) ltac:(intros; apply Rle_dec) w) as [F|F].
    + exfalso. assert (total w <= 0); [|lra]. clear - F. induction F; cbn; [lra|]. unfold total in *. lra.
    + apply Exists_exists in F. destruct F as (z & Iz & Hz). exists z. split; auto. lra.
  - eapply Rle_lt_trans; [|exact Hc]. apply le_INR.
    destruct Hlow as [E|E].
    + clear - E Hmin. induction w as [|a w IH]; cbn; auto. replace (rltb 0 a && rleb a (Rmin eps wlow))%bool with false; [destruct (rltb a p); cbn; lia|].
      symmetry. apply andb_false_iff. destruct (rltb 0 a) eqn:Ea; auto. right. apply rltb_true in Ea. apply rleb_false. lra.
    + clear - E Hmin. induction w as [|a w IH]; cbn; auto.
      destruct (rltb 0 a && rleb a (Rmin eps wlow))%bool eqn:Ea.
      * apply andb_prop in Ea. destruct Ea as [_ Ea]. apply rleb_true in Ea. replace (rltb a p) with true by (symmetry; apply rltb_true; lra). cbn. lia.
      * destruct (rltb a p); cbn; lia.
Qed.

Lemma compress_self {A} (f : A -> bool) (l : list A) : compress (map f l) l = Ok (filter f l).
Proof. induction l as [|a l IH]; cbn; auto. rewrite IH. cbn. destruct (f a); auto. Qed.
Lemma compress_pairs {A B} (f : A -> bool) (l : list A) (l' : list B) : length l = length l' ->
  compress (map f l) l = Ok (map fst (filter (fun p => f (fst p)) (combine l l'))) /\
  compress (map f l) l' = Ok (map snd (filter (fun p => f (fst p)) (combine l l'))).
Proof.
  revert l'. induction l as [|a l IH]; intros [|b l'] L; cbn in *; try lia; auto.
  destruct (IH l' ltac:(lia)) as [E1 E2]. rewrite E1, E2. cbn. destruct (f a); auto.
Qed.

Lemma skipn_map {A B} (f : A -> B) n l : skipn n (map f l) = map f (skipn n l).
Proof. revert l; induction n as [|n IH]; intros [|a l]; cbn; auto. Qed.
Lemma last_n_map {A B} (f : A -> B) n l : last_n n (map f l) = map f (last_n n l).
Proof. unfold last_n. rewrite map_length. apply skipn_map. Qed.

Lemma combine_fst_snd {A B} (z : list (A * B)) : combine (map fst z) (map snd z) = z.
Proof. induction z as [|[a b] z IH]; cbn; congruence. Qed.

Lemma combine_map_l {A B C} (f : A -> C) (l : list A) (l' : list B) : combine (map f l) l' = map (fun p => (f (fst p), snd p)) (combine l l').
Proof. revert l'; induction l as [|a l IH]; intros [|b l']; cbn; auto. f_equal. apply IH. Qed.

(** What an update keeps, as (weight, trajectory) pairs. *)
Definition survivors {X} (th : R) (max_traj : nat) (z : list (R * X)) : list (R * X) :=
  let k := filter (fun p => negb (rleb (fst p) th)) z in
  if (Nat.ltb 0 max_traj && Nat.ltb max_traj (length k))%bool then last_n max_traj k else k.

Lemma last_n_length {A} n (l : list A) : (n <= length l)%nat -> length (last_n n l) = n.
Proof. intros H. unfold last_n. rewrite skipn_length. lia. Qed.

Lemma in_skipn {A} n (l : list A) x : In x (skipn n l) -> In x l.
Proof. revert l; induction n as [|n IH]; intros [|a l] H; cbn in *; auto. Qed.

Lemma survivors_in {X} th mt (z : list (R * X)) p : In p (survivors th mt z) -> In p z /\ th < fst p.
Proof.
  unfold survivors. intros H. assert (H' : In p (filter (fun p => negb (rleb (fst p) th)) z)).
  { destruct (_ && _)%bool; auto. eapply in_skipn; exact H. }
  apply filter_In in H'. destruct H' as [H1 H2]. split; auto. apply negb_true_iff, rleb_false in H2. auto.
Qed.

Lemma survivors_length {X} th mt (z : list (R * X)) : (0 < mt)%nat -> (length (survivors th mt z) <= mt)%nat.
Proof.
  intros H. unfold survivors. destruct (Nat.ltb mt _) eqn:E.
  - replace (Nat.ltb 0 mt) with true by (symmetry; apply Nat.ltb_lt; auto). cbn [andb]. apply Nat.ltb_lt in E. rewrite last_n_length; lia.
  - rewrite andb_false_r. apply Nat.ltb_ge in E. auto.
Qed.

Lemma discard_spec {X} eps pct mt w (ts : list X) : 0 <= eps -> 0 <= pct <= 100 -> nonneg w -> total w = 1 -> length ts = length w ->
  exists th w' ts', discard eps pct mt w ts = Ok (w', ts') /\ 0 <= th <= eps /\
    INR (length (filter (fun x => rltb 0 x && rleb x th) w)) < pct / 100 * INR (length w - 1) + 1 /\
    length ts' = length w' /\ prob w' /\
    combine w' ts' = map (fun p => (fst p / total (map fst (survivors th mt (combine w ts))), snd p)) (survivors th mt (combine w ts)).
Proof.
  intros He Hp Hn Ht L. destruct (keep_mask_spec eps pct w He Hp Hn Ht) as (th & Ek & Hth & (x & Ix & Hx) & Hc).
  unfold discard. rewrite Ek. cbn [rbind].
  destruct (compress_pairs (fun x => negb (rleb x th)) w ts (eq_sym L)) as [E1 E2]. rewrite E1, E2. cbn [rbind].
  set (k := filter (fun p : R * X => negb (rleb (fst p) th)) (combine w ts)). cbv zeta. rewrite map_length.
  set (z := survivors th mt (combine w ts)).
  replace (if (Nat.ltb 0 mt && Nat.ltb mt (length k))%bool then last_n mt (map fst k) else map fst k) with (map fst z)
    by (unfold z, survivors; fold k; destruct (_ && _)%bool; [rewrite last_n_map|]; reflexivity).
  replace (if (Nat.ltb 0 mt && Nat.ltb mt (length k))%bool then last_n mt (map snd k) else map snd k) with (map snd z)
    by (unfold z, survivors; fold k; destruct (_ && _)%bool; [rewrite last_n_map|]; reflexivity).
  assert (Hk : k <> []).
  { destruct (In_nth_error _ _ Ix) as [j Hj]. assert (Hl : (j < length ts)%nat) by (rewrite L; apply nth_error_Some; congruence).
    destruct (nth_error ts j) as [b|] eqn:Eb; [|apply nth_error_None in Eb; lia].
    assert (I : In (x, b) (combine w ts)).
    { clear - Hj Eb. revert ts j Hj Eb. induction w as [|a w IH]; intros [|c ts] [|j] Hj Eb; cbn in *; try discriminate.
      - injection Hj as <-. injection Eb as <-. auto. - right. eapply IH; eauto. }
    intros E. assert (In (x, b) k); [|rewrite E in *; auto]. apply filter_In. split; auto. cbn. apply negb_true_iff, rleb_false. auto. }
  assert (Hz : z <> []).
  { unfold z, survivors. fold k. destruct (Nat.ltb 0 mt && Nat.ltb mt (length k))%bool eqn:E; auto. apply andb_prop in E. destruct E as [A B].
    apply Nat.ltb_lt in A, B. intros Ez. pose proof (last_n_length mt k ltac:(lia)) as Lz. rewrite Ez in Lz. cbn in Lz. lia. }
  assert (Fz : Forall (fun x => 0 < x) (map fst z)).
  { apply Forall_map, Forall_forall. intros p Ip. apply survivors_in in Ip. lra. }
  assert (Tz : 0 < total (map fst z)) by (apply total_pos; auto; destruct z; [congruence|discriminate]).
  unfold renorm. destruct (map fst z) as [|a r] eqn:Em; [destruct z; [congruence|discriminate]|]. rewrite <- Em in *.
  destruct (Req_EM_T (total (map fst z)) 0) as [E|_]; [lra|]. cbn [rbind].
  exists th. do 2 eexists. split; [reflexivity|]. split; [auto|]. split; [auto|]. rewrite !map_length. split; auto.
  split. { split; [apply Forall_map; eapply Forall_impl; [|exact Fz]; cbn; intros; apply Rdiv_lt_0_compat; auto|]. rewrite total_div. field. lra. }
  rewrite combine_map_l, combine_fst_snd. reflexivity.
Qed.
