(** Proofs about the Metropolis-Hastings moves (smoother.py:632-779). *)
From Coquelicot Require Import Coquelicot.
From Coq Require Import Bool Reals Lra Lia List Arith.
From Verif Require Import Base XR SampleModel SampleSpec PAModel WeightSpec FilterModel FilterSpec FilterProofs FilterTotal SmoothModel SmoothSpec
  SmoothProofs SmoothBsi MhSpec.
Import ListNotations.
Open Scope R_scope.

Lemma mapi_nth {A B} (f : nat -> A -> B) (l : list A) : forall n j a, nth_error l j = Some a ->
  nth_error (mapi_from f n l) j = Some (f (n + j)%nat a).
Proof.
  induction l as [|b l IH]; intros n [|j] a H; simpl in *; try discriminate.
  - injection H as ->. rewrite Nat.add_0_r. reflexivity.
  - rewrite (IH (S n) j a H). do 2 f_equal. lia.
Qed.
Lemma mapi_length {A B} (f : nat -> A -> B) (l : list A) : forall n, length (mapi_from f n l) = length l.
Proof. induction l as [|b l IH]; intros n; simpl; auto. Qed.

(** Entry [j] of a term; a scalar term counts as 0. *)
Definition tnth (a : term) (j : nat) (v : xr) : Prop :=
  match a with Some l => nth_error l j = Some v | None => v = Fin 0 end.
Definition tlen (a : term) (n : nat) : Prop := match a with Some l => length l = n | None => True end.

Lemma tnth_tlen a n j : tlen a n -> (j < n)%nat -> exists v, tnth a j v.
Proof.
  destruct a as [l|]; simpl; intros H Hj; [|eauto]. destruct (nth_error l j) eqn:E; eauto.
  apply nth_error_None in E. lia.
Qed.

Lemma tsub_nth a b c : tsub a b = Ok c -> forall j x y, tnth a j x -> tnth b j y -> tnth c j (xsub x y).
Proof.
  destruct a as [la|], b as [lb|]; simpl; intros H j x y Hx Hy.
  - destruct (zipw xsub la lb) as [r|] eqn:E; [|discriminate]. injection H as <-. simpl. eapply zipw_nth; eauto.
  - injection H as <-. simpl. rewrite Hx, Hy. f_equal. destruct x as [| | |z]; auto. cbn. f_equal. lra.
  - injection H as <-. simpl. rewrite nth_error_map, Hy, Hx. simpl. f_equal. destruct y as [| | |z]; auto. cbn. f_equal. lra.
  - injection H as <-. subst. simpl. cbn. f_equal. lra.
Qed.

Lemma tadd_nth a b c : tadd a b = Ok c -> forall j x y, tnth a j x -> tnth b j y -> tnth c j (xadd x y).
Proof.
  destruct a as [la|], b as [lb|]; simpl; intros H j x y Hx Hy.
  - destruct (zipw xadd la lb) as [r|] eqn:E; [|discriminate]. injection H as <-. simpl. eapply zipw_nth; eauto.
  - injection H as <-. simpl. rewrite Hx, Hy. f_equal. destruct x as [| | |z]; auto. cbn. f_equal. lra.
  - injection H as <-. simpl. rewrite Hy, Hx. f_equal. destruct y as [| | |z]; auto. cbn. f_equal. lra.
  - injection H as <-. subst. simpl. cbn. f_equal. lra.
Qed.

Lemma tsub_ok a b n : tlen a n -> tlen b n -> exists c, tsub a b = Ok c /\ tlen c n /\ ((a <> None \/ b <> None) -> c <> None).
Proof.
  destruct a as [la|], b as [lb|]; simpl; intros Ha Hb.
  - destruct (zipw_ok xsub la lb ltac:(congruence)) as [r Hr]. rewrite Hr. simpl. eexists. split; [reflexivity|]. simpl.
    destruct (zipw_length _ _ _ _ Hr). split; [congruence|discriminate].
  - eexists. split; [reflexivity|]. split; auto; discriminate.
  - eexists. split; [reflexivity|]. simpl. rewrite map_length. split; auto; discriminate.
  - eexists. split; [reflexivity|]. simpl. split; auto. tauto.
Qed.
Lemma tadd_ok a b n : tlen a n -> tlen b n -> exists c, tadd a b = Ok c /\ tlen c n /\ ((a <> None \/ b <> None) -> c <> None).
Proof.
  destruct a as [la|], b as [lb|]; simpl; intros Ha Hb.
  - destruct (zipw_ok xadd la lb ltac:(congruence)) as [r Hr]. rewrite Hr. simpl. eexists. split; [reflexivity|]. simpl.
    destruct (zipw_length _ _ _ _ Hr). split; [congruence|discriminate].
  - eexists. split; [reflexivity|]. split; auto; discriminate.
  - eexists. split; [reflexivity|]. split; auto; discriminate.
  - eexists. split; [reflexivity|]. simpl. split; auto. tauto.
Qed.

Lemma tsub_none a b c : tsub a b = Ok c -> (c = None <-> a = None /\ b = None).
Proof.
  destruct a as [la|], b as [lb|]; simpl; intros H;
    [destruct (zipw _ _ _); [|discriminate]| | |]; injection H as <-; split; try tauto; try discriminate; intros [? ?]; discriminate.
Qed.
Lemma tadd_none a b c : tadd a b = Ok c -> (c = None <-> a = None /\ b = None).
Proof.
  destruct a as [la|], b as [lb|]; simpl; intros H;
    [destruct (zipw _ _ _); [|discriminate]| | |]; injection H as <-; split; try tauto; try discriminate; intros [? ?]; discriminate.
Qed.

Lemma take_seq_len {A} (l : list A) n r : take l (seq 0 n) = Ok r -> n = length l -> r = l.
Proof. intros H ->. rewrite take_seq in H. congruence. Qed.

Lemma idx_last_firstn {A} (l : list A) k a : idx l k = Ok a -> idx_last (firstn (k + 1) l) = Ok a.
Proof.
  intros H. apply idx_ok in H. replace (k + 1)%nat with (S k) by lia.
  assert (E : firstn (S k) l = firstn k l ++ [a]).
  { revert k H; induction l as [|b l IH]; intros [|k] H; cbn in H; try discriminate.
    - injection H as ->. reflexivity.
    - cbn [firstn app]. f_equal. apply IH; auto. }
  rewrite E. apply idx_last_app.
Qed.

Section Mh.
Context {W P U Y V : Type}.
Variable sm : smodel W P U Y V.
Variable g : rng W.
Variable e : densities P U Y.
Hypothesis Hmh : mh_model sm e.

Lemma mc_current_ok x ptr pc u y t k s r s' : mc_current sm x ptr pc u y t k s = Ok (r, s') -> r = x /\ s' = s.
Proof.
  destruct Hmh as (_ & Hc & Hi & _). unfold mc_current. destruct ptr as [tr|]; intros H; minv H.
  - rewrite Hc in H. injection H as <- <-. auto.
  - rewrite Hi in H. injection H as <- <-. auto.
Qed.

Lemma nth_of_take {A} (l : list A) ind r j x : take l ind = Ok r -> nth_error r j = Some x -> exists i, nth_error ind j = Some i /\ nth_error l i = Some x.
Proof.
  intros H Hx. pose proof (take_length _ _ _ H) as L.
  assert (Hj : (j < length ind)%nat) by (rewrite <- L; apply nth_error_Some; congruence).
  destruct (nth_error ind j) as [i|] eqn:E; [|apply nth_error_None in E; lia]. exists i. split; auto. rewrite <- (take_nth _ _ _ H _ _ E). auto.
Qed.

Lemma zipw_inv {A B C} (f : A -> B -> C) a b r j y : zipw f a b = Ok r -> nth_error b j = Some y -> exists x, nth_error a j = Some x /\ nth_error r j = Some (f x y).
Proof.
  intros H Hy. destruct (zipw_length _ _ _ _ H) as [L1 L2].
  assert (Hj : (j < length a)%nat) by (rewrite <- L1, L2; apply nth_error_Some; congruence).
  destruct (nth_error a j) as [x|] eqn:E; [|apply nth_error_None in E; lia]. exists x. split; auto. eapply zipw_nth; eauto.
Qed.
Lemma zipw_inv_l {A B C} (f : A -> B -> C) a b r j x : zipw f a b = Ok r -> nth_error a j = Some x -> exists y, nth_error b j = Some y /\ nth_error r j = Some (f x y).
Proof.
  intros H Hy. destruct (zipw_length _ _ _ _ H) as [L1 L2].
  assert (Hj : (j < length b)%nat) by (rewrite <- L2, L1; apply nth_error_Some; congruence).
  destruct (nth_error b j) as [y|] eqn:E; [|apply nth_error_None in E; lia]. exists y. split; auto. eapply zipw_nth; eauto.
Qed.

Ltac rinv H := repeat match type of H with
  | rbind _ _ = Ok _ => let a := fresh "a" in let H1 := fresh "Hr" in apply rbind_ok in H; destruct H as (a & H1 & H)
  end.

Lemma xnext1_ok tr last pind u t y k p past ip x s l s' :
  idx_last tr = Ok last -> take (part (st_pa last)) pind = Ok p ->
  m_xnext1 (s_f sm) p past ip x (seq 0 (length x)) u y t (k - 1) s = Ok (l, s') ->
  s' = s /\ length l = length x /\ forall j xj, nth_error x j = Some xj -> exists v, nth_error l j = Some v /\ prior_is e (Some tr) pind u t k j xj v.
Proof.
  intros Hl Hp H. destruct Hmh as (_ & _ & _ & _ & _ & Hx & _). rewrite Hx in H. rinv H. injection H as <- <-.
  apply take_seq_len in Hr; auto. subst. destruct (zipw_length _ _ _ _ Hr2) as [L1 L2]. repeat split; auto.
  intros j xj Hj. destruct (zipw_inv _ _ _ _ _ _ Hr2 Hj) as (prev & Hpv & Hv). eexists. split; [exact Hv|].
  destruct (nth_of_take _ _ _ _ _ Hp Hpv) as (i & Hi & Hi2). apply idx_ok in Hr0, Hr1.
  exists last, i, prev, a0, a1. repeat split; auto.
Qed.

Lemma mc_prior_ok xp xc ptr pp pc fut find u y t k s q1 q2 l1 l2 s' :
  mc_prior_terms sm false xp xc ptr pp pc fut find u y t k s = Ok ((q1, q2, l1, l2), s') ->
  s' = s /\ (exists a b c d, q1 = Some a /\ q2 = Some b /\ l1 = Some c /\ l2 = Some d /\ length a = length xp /\ length b = length xc /\ length c = length xp /\ length d = length xc) /\
  (forall j x, nth_error xp j = Some x -> tnth q1 j (e_prop e (opt_past ptr) pp (opt_future fut) find u y t k j x) /\ exists v, tnth l1 j v /\ prior_is e ptr pp u t k j x v) /\
  (forall j x, nth_error xc j = Some x -> tnth q2 j (e_prop e (opt_past ptr) pc (opt_future fut) find u y t k j x) /\ exists v, tnth l2 j v /\ prior_is e ptr pc u t k j x v).
Proof.
  intros H. pose proof Hmh as (_ & _ & _ & H0 & Hq & _ & _). unfold mc_prior_terms in H. minv H.
  rewrite Hq in Hm, Hm0. injection Hm as <- <-. injection Hm0 as <- <-.
  destruct ptr as [tr|]; minv H.
  - destruct (xnext1_ok tr b pp u t y k _ _ _ _ _ _ _ Hl Hl0 Hm) as (-> & L1 & A1).
    destruct (xnext1_ok tr b pc u t y k _ _ _ _ _ _ _ Hl Hl2 Hm0) as (-> & L2 & A2).
    split; auto. split; [do 4 eexists; repeat split; try reflexivity; auto; unfold mapi; apply mapi_length|].
    split; (intros j x Hx; split; [cbn; unfold mapi; rewrite (mapi_nth _ _ 0 j x Hx); reflexivity|first [exact (A1 j x Hx)|exact (A2 j x Hx)]]).
  - rewrite H0 in Hm, Hm0. injection Hm as <- <-. injection Hm0 as <- <-. apply idx_ok in Hl.
    split; auto. split; [do 4 eexists; repeat split; try reflexivity; auto; try (unfold mapi; apply mapi_length); apply map_length|].
    split; (intros j x Hx; split; [cbn; unfold mapi; rewrite (mapi_nth _ _ 0 j x Hx); reflexivity|]);
      (eexists; split; [cbn; rewrite nth_error_map, Hx; reflexivity|exists b; auto]).
Qed.

Lemma mc_meas_ok xp xc ptr pp pc u y t k s rp rc l1 l2 s' : (k < length t)%nat ->
  mc_meas_terms sm xp xc ptr pp pc u y t k s = Ok ((rp, rc, l1, l2), s') ->
  s' = s /\ rp = xp /\ rc = xc /\ tlen l1 (length xp) /\ tlen l2 (length xc) /\
  (exists yk, nth_error y k = Some yk /\ (is_none yk = true <-> l1 = None) /\ (is_none yk = true <-> l2 = None)) /\
  (forall j x, nth_error xp j = Some x -> exists v, tnth l1 j v /\ meas_is e y t k x v) /\
  (forall j x, nth_error xc j = Some x -> exists v, tnth l2 j v /\ meas_is e y t k x v).
Proof.
  intros Hk H. pose proof Hmh as (_ & _ & _ & _ & _ & _ & Hy). unfold mc_meas_terms in H. minv H. apply idx_ok in Hl.
  destruct (is_none b) eqn:Eb; minv H.
  - do 3 (split; [reflexivity|]). do 2 (split; [exact I|]). split; [exists b; rewrite Eb; tauto|].
    split; intros j x Hx; exists (Fin 0); (split; [reflexivity|]); exists b; split; auto; destruct b; try discriminate; auto.
  - rewrite Hy in Hm, Hm0. rinv Hm. rinv Hm0. injection Hm as <- <-. injection Hm0 as <- <-.
    rewrite (idx_last_firstn y k b) in Hr, Hr1 by (apply idx_ok; auto). injection Hr as <-. injection Hr1 as <-.
    destruct (idx_lt t k Hk) as [tk Htk]. rewrite (idx_last_firstn t k tk Htk) in Hr0, Hr2. injection Hr0 as <-. injection Hr2 as <-. apply idx_ok in Htk.
    cbn [fst snd]. do 3 (split; [reflexivity|]). do 2 (split; [apply map_length|]).
    split; [exists b; rewrite Eb; repeat split; auto; discriminate|].
    split; intros j x Hx; eexists; (split; [cbn; rewrite nth_error_map, Hx; reflexivity|]); exists b; split; auto; destruct b; try discriminate; eauto.
Qed.

Lemma mc_next_ok xp xc ptr pp pc fut find u y t k s l1 l2 s' :
  mc_next_terms sm xp xc ptr pp pc fut find u y t k s = Ok ((l1, l2), s') ->
  s' = s /\ tlen l1 (length xp) /\ tlen l2 (length xc) /\ (fut = None <-> l1 = None) /\ (fut = None <-> l2 = None) /\
  (forall j x, nth_error xp j = Some x -> exists v, tnth l1 j v /\ next_is e fut find u t k j x v) /\
  (forall j x, nth_error xc j = Some x -> exists v, tnth l2 j v /\ next_is e fut find u t k j x v).
Proof.
  intros H. pose proof Hmh as (Hx & _). unfold mc_next_terms in H. destruct fut as [f|]; minv H.
  - rewrite Hx in Hm, Hm0. rinv Hm. rinv Hm0. injection Hm as <- <-. injection Hm0 as <- <-.
    rewrite Hr in Hr4. injection Hr4 as <-. rewrite Hr0 in Hr5. injection Hr5 as <-. rewrite Hr1 in Hr6. injection Hr6 as <-. rewrite Hr2 in Hr7. injection Hr7 as <-.
    apply idx_ok in Hr, Hr1, Hr2. destruct (zipw_length _ _ _ _ Hr3) as [A1 A2]. destruct (zipw_length _ _ _ _ Hr8) as [B1 B2].
    repeat split; auto; try discriminate.
    + intros j x Hj. destruct (zipw_inv_l _ _ _ _ _ _ Hr3 Hj) as (nx & Hnx & Hv). eexists. split; [exact Hv|].
      destruct (nth_of_take _ _ _ _ _ Hr0 Hnx) as (i & Hi & Hi2). do 5 eexists. repeat split; eauto.
    + intros j x Hj. destruct (zipw_inv_l _ _ _ _ _ _ Hr8 Hj) as (nx & Hnx & Hv). eexists. split; [exact Hv|].
      destruct (nth_of_take _ _ _ _ _ Hr0 Hnx) as (i & Hi & Hi2). do 5 eexists. repeat split; eauto.
  - repeat split; auto; intros j x _; exists (Fin 0); split; reflexivity.
Qed.

Lemma log_draws_eq n s : log_draws g n s = Ok (map (fun r => xlog (Fin r)) (fst (stream g n s)), snd (stream g n s)).
Proof. unfold log_draws. unfold bind. rewrite draws_spec. destruct (stream g n s) as [l s']. reflexivity. Qed.

(** The accept/reject step. *)
Lemma accept_ok (cur xp : list P) ratio s res acc s' : length xp = length cur ->
  (do test <- log_draws g (length ratio) ; do acc <- lift (zipw xltb test ratio) ; do cury <- lift (mask_set cur acc xp) ; ret (cury, acc)) s = Ok ((res, acc), s') ->
  exists v, stream g (length cur) s = (v, s') /\ length v = length cur /\ length ratio = length cur /\ length res = length cur /\ length acc = length cur /\
    forall j x x' r vj, nth_error cur j = Some x -> nth_error xp j = Some x' -> nth_error ratio j = Some r -> nth_error v j = Some vj ->
      nth_error acc j = Some (xltb (xlog (Fin vj)) r) /\ nth_error res j = Some (mh_move r x x' vj).
Proof.
  intros L H. minv H. rewrite log_draws_eq in Hm. injection Hm as <- <-.
  destruct (zipw_length _ _ _ _ Hl) as [Z1 Z2]. destruct (mask_set_spec _ _ _ _ Hl0) as (M1 & M2 & M3 & M4).
  rewrite map_length, stream_length in Z1. exists (fst (stream g (length ratio) s)).
  assert (LR : length ratio = length cur) by congruence. rewrite <- LR at 1. rewrite stream_length.
  split; [destruct (stream g (length ratio) s); reflexivity|]. do 4 (split; [congruence|]).
  intros j x x' r vj Hx Hx' Hr Hv.
  assert (Ha : nth_error b j = Some (xltb (xlog (Fin vj)) r)) by (eapply zipw_nth; eauto; rewrite nth_error_map, Hv; reflexivity).
  split; auto. rewrite (M4 _ _ _ _ Hx Hx' Ha). reflexivity.
Qed.

(** A full move: everything about [mc_step] except the law. *)
Lemma mc_step_full cur ptr pp pc fut find u y t k s res acc s' : (k < length t)%nat ->
  mc_step sm g cur ptr pp pc fut find u y t k false s = Ok ((res, acc), s') ->
  exists xp s1 v, s_propose sm (opt_past ptr) pp (opt_future fut) find u y t k s = Ok (xp, s1) /\ stream g (length cur) s1 = (v, s') /\
    length xp = length cur /\ length v = length cur /\ length res = length cur /\ length acc = length cur /\
    forall j x x' vj, nth_error cur j = Some x -> nth_error xp j = Some x' -> nth_error v j = Some vj ->
      exists pc_ yc nc pp_ yp np,
        prior_is e ptr pc u t k j x pc_ /\ meas_is e y t k x yc /\ next_is e fut find u t k j x nc /\
        prior_is e ptr pp u t k j x' pp_ /\ meas_is e y t k x' yp /\ next_is e fut find u t k j x' np /\
        let r := log_ratio pc_ yc nc (e_prop e (opt_past ptr) pc (opt_future fut) find u y t k j x)
                   pp_ yp np (e_prop e (opt_past ptr) pp (opt_future fut) find u y t k j x') in
        nth_error acc j = Some (xltb (xlog (Fin vj)) r) /\ nth_error res j = Some (mh_move r x x' vj).
Proof.
  intros Hk H. unfold mc_step in H. apply bind_ok in H. destruct H as (c0 & s0 & Hc & H). apply mc_current_ok in Hc. destruct Hc as [-> ->].
  apply bind_ok in H. destruct H as (xp & s1 & Hp & H). unfold mc_propose in Hp.
  apply bind_ok in H. destruct H as ([[[q1 q2] l1] l2] & s2 & H1 & H). apply mc_prior_ok in H1.
  destruct H1 as (-> & (qa & qb & la & lb & -> & -> & -> & -> & Q1 & Q2 & Q3 & Q4) & A1 & A2).
  apply bind_ok in H. destruct H as ([[[rp rc] y1] y2] & s2 & H2 & H). apply mc_meas_ok in H2; auto.
  destruct H2 as (-> & -> & -> & Y1 & Y2 & _ & B1 & B2).
  apply bind_ok in H. destruct H as ([n1 n2] & s2 & H3 & H). apply mc_next_ok in H3. destruct H3 as (-> & N1 & N2 & _ & _ & C1 & C2).
  minv H. destruct b5 as [ratio|]; [|discriminate].
  assert (Lx : length xp = length cur).
  { cbn in Hl. destruct (zipw xsub la lb) as [r|] eqn:E; [|discriminate]. destruct (zipw_length _ _ _ _ E). congruence. }
  apply accept_ok in H; auto. destruct H as (v & Ev & Lv & Lr & L1 & L2 & A).
  exists xp, s1, v. do 6 (split; [auto|]). intros j x x' vj Hx Hx' Hv.
  destruct (A1 j x' Hx') as (P1 & v1 & P2 & P3). destruct (A2 j x Hx) as (P4 & v2 & P5 & P6).
  destruct (B1 j x' Hx') as (v3 & P7 & P8). destruct (B2 j x Hx) as (v4 & P9 & P10).
  destruct (C1 j x' Hx') as (v5 & P11 & P12). destruct (C2 j x Hx) as (v6 & P13 & P14).
  exists v2, v4, v6, v1, v3, v5. do 6 (split; [auto|]). cbn zeta.
  eapply A; eauto. unfold log_ratio.
  pose proof (tsub_nth _ _ _ Hl _ _ _ P2 P5) as T1. pose proof (tsub_nth _ _ _ Hl0 _ _ _ P7 P9) as T2.
  pose proof (tsub_nth _ _ _ Hl1 _ _ _ P11 P13) as T3. pose proof (tsub_nth _ _ _ Hl2 _ _ _ P4 P1) as T4.
  pose proof (tadd_nth _ _ _ Hl3 _ _ _ T1 T2) as T5. pose proof (tadd_nth _ _ _ Hl4 _ _ _ T5 T3) as T6.
  exact (tadd_nth _ _ _ Hl5 _ _ _ T6 T4).
Qed.

(** The reduced move: prior and proposal densities cancel. *)
Lemma mc_step_reduced cur ptr pp pc fut find u y t k s res acc s' : (k < length t)%nat ->
  mc_step sm g cur ptr pp pc fut find u y t k true s = Ok ((res, acc), s') ->
  (exists xp s1 v, mc_propose sm true ptr pp fut find u y t k s = Ok (xp, s1) /\ stream g (length cur) s1 = (v, s') /\
    length xp = length cur /\ length v = length cur /\ length res = length cur /\ length acc = length cur /\
    forall j x x' vj, nth_error cur j = Some x -> nth_error xp j = Some x' -> nth_error v j = Some vj ->
      exists yc nc yp np,
        meas_is e y t k x yc /\ next_is e fut find u t k j x nc /\ meas_is e y t k x' yp /\ next_is e fut find u t k j x' np /\
        let r := xadd (xsub yp yc) (xsub np nc) in
        nth_error acc j = Some (xltb (xlog (Fin vj)) r) /\ nth_error res j = Some (mh_move r x x' vj)) /\
  ~ (fut = None /\ nth_error y k = Some CNone).
Proof.
  intros Hk H. unfold mc_step in H. apply bind_ok in H. destruct H as (c0 & s0 & Hc & H). apply mc_current_ok in Hc. destruct Hc as [-> ->].
  apply bind_ok in H. destruct H as (xp & s1 & Hp & H).
  apply bind_ok in H. destruct H as ([[[q1 q2] l1] l2] & s2 & H1 & H). cbn in H1. injection H1 as <- <- <- <- <-.
  apply bind_ok in H. destruct H as ([[[rp rc] y1] y2] & s2 & H2 & H). apply mc_meas_ok in H2; auto.
  destruct H2 as (-> & -> & -> & Y1 & Y2 & (yk & Yk & Yn1 & Yn2) & B1 & B2).
  apply bind_ok in H. destruct H as ([n1 n2] & s2 & H3 & H). apply mc_next_ok in H3. destruct H3 as (-> & N1 & N2 & Nn1 & Nn2 & C1 & C2).
  apply bind_ok in H. destruct H as (d1 & s2 & Hd1 & H). injection Hd1 as <- <-.
  apply bind_ok in H. destruct H as (d2 & s2 & Hd2 & H). apply lift_ok in Hd2. destruct Hd2 as (b & Hl0 & E). injection E as -> ->.
  apply bind_ok in H. destruct H as (d3 & s2 & Hd3 & H). apply lift_ok in Hd3. destruct Hd3 as (b3 & Hl1 & E). injection E as -> ->.
  apply bind_ok in H. destruct H as (d4 & s2 & Hd4 & H). injection Hd4 as <- <-.
  apply bind_ok in H. destruct H as (d5 & s2 & Hd5 & H). cbn in Hd5. injection Hd5 as <- <-.
  apply bind_ok in H. destruct H as (d6 & s2 & Hd6 & H). apply lift_ok in Hd6. destruct Hd6 as (b6 & Hl4 & E). injection E as -> ->.
  apply bind_ok in H. destruct H as (d7 & s2 & Hd7 & H). apply lift_ok in Hd7. destruct Hd7 as (b7 & Hl5 & E). injection E as -> ->.
  assert (b7 = b6) by (destruct b6; cbn in Hl5; congruence). subst b7.
  destruct b6 as [ratio|]; [|discriminate].
  assert (NN : ~ (fut = None /\ nth_error y k = Some CNone)).
  { intros [-> Ey]. rewrite Yk in Ey. injection Ey as ->. cbn in Yn1, Yn2. assert (y1 = None) by tauto. assert (y2 = None) by tauto.
    assert (n1 = None) by tauto. assert (n2 = None) by tauto. subst. cbn in Hl0, Hl1. injection Hl0 as <-. injection Hl1 as <-. discriminate. }
  split; auto.
  assert (Lx : length xp = length cur).
  { destruct y1 as [y1|], y2 as [y2|]; cbn in Hl0; try (exfalso; intuition congruence).
    - destruct (zipw xsub y1 y2) as [r|] eqn:E; [|discriminate]. destruct (zipw_length _ _ _ _ E). cbn in Y1, Y2. congruence.
    - injection Hl0 as <-. destruct n1 as [n1|], n2 as [n2|]; cbn in Hl1; try (exfalso; intuition congruence).
      + destruct (zipw xsub n1 n2) as [r|] eqn:E; [|discriminate]. destruct (zipw_length _ _ _ _ E). cbn in N1, N2. congruence.
      + injection Hl1 as <-. discriminate. }
  apply accept_ok in H; auto. destruct H as (v & Ev & Lv & Lr & L1 & L2 & A).
  exists xp, s1, v. do 6 (split; [auto|]). intros j x x' vj Hx Hx' Hv.
  destruct (B1 j x' Hx') as (v3 & P7 & P8). destruct (B2 j x Hx) as (v4 & P9 & P10).
  destruct (C1 j x' Hx') as (v5 & P11 & P12). destruct (C2 j x Hx) as (v6 & P13 & P14).
  exists v4, v6, v3, v5. do 4 (split; [auto|]). cbn zeta. eapply A; eauto.
  pose proof (tsub_nth _ _ _ Hl0 _ _ _ P7 P9) as T2. pose proof (tsub_nth _ _ _ Hl1 _ _ _ P11 P13) as T3.
  exact (tadd_nth _ _ _ Hl4 _ _ _ T2 T3).
Qed.
End Mh.

(** ** The law of one move *)
Lemma accept_neg_inf r : r = NInf \/ r = NaN -> accept_prob r = 0.
Proof. intros [-> | ->]; reflexivity. Qed.

Lemma log_ratio_ninf pc yc nc qc pp yp np qp :
  logish pc -> logish yc -> logish nc -> logish qc -> logish pp -> logish yp -> logish np -> logish qp ->
  pp = NInf \/ yp = NInf \/ np = NInf \/ qc = NInf -> accept_prob (log_ratio pc yc nc qc pp yp np qp) = 0.
Proof.
  intros H1 H2 H3 H4 H5 H6 H7 H8 D. apply accept_neg_inf. unfold log_ratio.
  assert (Sub : forall a b, logish a -> logish b -> (xsub a b = PInf -> b = NInf) /\ (a = NInf -> xsub a b = NInf \/ xsub a b = NaN)).
  { intros [| | |a] [| | |b]; cbn; try tauto; intros _ _; split; intuition congruence. }
  assert (Add : forall a b, a = NInf \/ a = NaN \/ b = NInf \/ b = NaN -> xadd a b = NInf \/ xadd a b = NaN).
  { intros [| | |a] [| | |b]; cbn; intuition congruence. }
  apply Add. destruct D as [D|[D|[D|D]]].
  - destruct (proj2 (Sub pp pc H5 H1) D) as [E|E]; rewrite E; destruct (Add NInf (xsub yp yc)) as [F|F]; auto;
      destruct (Add NaN (xsub yp yc)) as [G|G]; auto; rewrite ?F, ?G;
      destruct (Add NInf (xsub np nc)) as [F2|F2]; auto; destruct (Add NaN (xsub np nc)) as [G2|G2]; auto; rewrite ?F2, ?G2; auto.
  - destruct (proj2 (Sub yp yc H6 H2) D) as [E|E]; rewrite E; destruct (Add (xsub pp pc) NInf) as [F|F]; auto;
      destruct (Add (xsub pp pc) NaN) as [G|G]; auto; rewrite ?F, ?G;
      destruct (Add NInf (xsub np nc)) as [F2|F2]; auto; destruct (Add NaN (xsub np nc)) as [G2|G2]; auto; rewrite ?F2, ?G2; auto.
  - assert (E : xsub np nc = NInf \/ xsub np nc = NaN) by (apply Sub; auto).
    destruct (Add (xadd (xsub pp pc) (xsub yp yc)) (xsub np nc)) as [F|F]; [tauto| |]; rewrite F; auto.
  - assert (E : xsub qc qp = NInf \/ xsub qc qp = NaN) by (apply Sub; auto). tauto.
Qed.

Lemma mh_ratio_prob pc yc nc qc pp yp np qp : logish pp -> logish yp -> logish np -> logish qc ->
  0 < posterior pc yc nc -> 0 < lin qp ->
  accept_prob (log_ratio pc yc nc qc pp yp np qp) = Rmin 1 (posterior pp yp np * lin qc / (posterior pc yc nc * lin qp)).
Proof.
  intros Hpp Hyp Hnp Hqc Hpos Hqp.
  destruct pc as [| | |pc]; try (unfold posterior in Hpos; cbn in Hpos; lra).
  destruct yc as [| | |yc]; try (unfold posterior in Hpos; cbn in Hpos; lra).
  destruct nc as [| | |nc]; try (unfold posterior in Hpos; cbn in Hpos; lra).
  destruct qp as [| | |qp]; try (cbn in Hqp; lra).
  assert (Z : forall z, Rmin 1 (0 / z) = 0) by (intros; unfold Rdiv; rewrite Rmult_0_l; apply Rmin_right; lra).
  destruct pp as [| | |pp], yp as [| | |yp], np as [| | |np], qc as [| | |qc]; cbn in Hpp, Hyp, Hnp, Hqc; try tauto;
    unfold log_ratio, posterior; cbn; rewrite ?Rmult_0_r, ?Rmult_0_l, ?Rmult_0_r, ?Rmult_0_l, ?Z; auto.
  f_equal. rewrite !exp_plus, !exp_Ropp.
  pose proof (exp_pos pc). pose proof (exp_pos yc). pose proof (exp_pos nc). pose proof (exp_pos qp). field. repeat split; lra.
Qed.

Lemma rmin_balance a b : 0 < a -> 0 < b -> a * Rmin 1 (b / a) = b * Rmin 1 (a / b).
Proof.
  intros Ha Hb. destruct (Rle_lt_dec a b) as [H|H].
  - rewrite Rmin_left; [|apply Rmult_le_reg_r with a; auto; unfold Rdiv; rewrite Rmult_assoc, Rinv_l; lra].
    rewrite Rmin_right; [field; lra|apply Rmult_le_reg_r with b; auto; unfold Rdiv; rewrite Rmult_assoc, Rinv_l; lra].
  - rewrite Rmin_right; [|apply Rmult_le_reg_r with a; auto; unfold Rdiv; rewrite Rmult_assoc, Rinv_l; lra].
    rewrite Rmin_left; [field; lra|apply Rmult_le_reg_r with b; auto; unfold Rdiv; rewrite Rmult_assoc, Rinv_l; lra].
Qed.

Lemma mh_balance pc yc nc qc pp yp np qp :
  logish pc -> logish yc -> logish nc -> logish qc -> logish pp -> logish yp -> logish np -> logish qp ->
  posterior pc yc nc * lin qp * accept_prob (log_ratio pc yc nc qc pp yp np qp) =
  posterior pp yp np * lin qc * accept_prob (log_ratio pp yp np qp pc yc nc qc).
Proof.
  intros H1 H2 H3 H4 H5 H6 H7 H8.
  assert (D : forall x, logish x -> x = NInf \/ 0 < lin x).
  { intros [| | |z] Hz; cbn in *; try tauto. right. apply exp_pos. }
  assert (Z : forall x, x = NInf -> lin x = 0) by (intros x ->; reflexivity).
  assert (Case1 : pp = NInf \/ yp = NInf \/ np = NInf \/ qc = NInf ->
    posterior pc yc nc * lin qp * accept_prob (log_ratio pc yc nc qc pp yp np qp) = posterior pp yp np * lin qc * accept_prob (log_ratio pp yp np qp pc yc nc qc)).
  { intros C. rewrite log_ratio_ninf by auto. replace (posterior pp yp np * lin qc) with 0; [ring|].
    unfold posterior. destruct C as [C|[C|[C|C]]]; rewrite (Z _ C); ring. }
  assert (Case2 : pc = NInf \/ yc = NInf \/ nc = NInf \/ qp = NInf ->
    posterior pc yc nc * lin qp * accept_prob (log_ratio pc yc nc qc pp yp np qp) = posterior pp yp np * lin qc * accept_prob (log_ratio pp yp np qp pc yc nc qc)).
  { intros C. rewrite (log_ratio_ninf pp yp np qp) by auto. replace (posterior pc yc nc * lin qp) with 0; [ring|].
    unfold posterior. destruct C as [C|[C|[C|C]]]; rewrite (Z _ C); ring. }
  destruct (D pp H5); [tauto|]. destruct (D yp H6); [tauto|]. destruct (D np H7); [tauto|]. destruct (D qc H4); [tauto|].
  destruct (D pc H1); [tauto|]. destruct (D yc H2); [tauto|]. destruct (D nc H3); [tauto|]. destruct (D qp H8); [tauto|].
  rewrite !mh_ratio_prob; auto; try (unfold posterior; repeat apply Rmult_lt_0_compat; auto).
  apply rmin_balance; unfold posterior; repeat apply Rmult_lt_0_compat; auto.
Qed.
