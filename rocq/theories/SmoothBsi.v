(** Proofs about the backward simulators. *)
From Coquelicot Require Import Coquelicot.
From Coq Require Import String Bool Reals Lra Lia List Arith Permutation.
From Verif Require Import Base XR SampleModel SampleSpec SampleProofs PAModel WeightSpec WeightProofs
  FilterModel TrajModel FilterSpec FilterProofs TrajProofs FilterTotal Prop_Sample Prop_Weights FilterSem
  Prop_Live Prop_Cond SmoothModel SmoothSpec SmoothProofs.
Import ListNotations.
Open Scope R_scope.

Lemma bind_eq {W A B} (m : M W A) (f : A -> M W B) s a s' : m s = Ok (a, s') -> bind m f s = f a s'.
Proof. intros H. unfold bind. rewrite H. auto. Qed.
Lemma lift_bind_eq {W A B} (x : res A) (f : A -> M W B) s a : x = Ok a -> bind (lift x) f s = f a s.
Proof. intros ->. auto. Qed.

(** ** Expectations over a tape *)
Lemma is_RInt_cst (c a b : R) : is_RInt (fun _ : R => c) a b ((b - a) * c).
Proof.
  replace ((b - a) * c) with (scal (b - a) c) by (unfold scal; simpl; unfold mult; simpl; lra).
  apply @is_RInt_const.
Qed.

Lemma expect_ext n : forall f f' v,
  (forall l, length l = n -> Forall (fun r => 0 < r < 1) l -> f l = f' l) -> expect n f v -> expect n f' v.
Proof.
  induction n as [|n IH]; intros f f' v Hf H; simpl in *.
  - rewrite <- Hf; auto.
  - destruct H as (h & Hh & HI). exists h. split; auto. intros r Hr. eapply IH; [|apply Hh; auto].
    intros l Ll Fl. apply Hf; simpl; auto.
Qed.

Lemma expect_const n c : expect n (fun _ => c) c.
Proof.
  revert c; induction n as [|n IH]; intros c; simpl; auto.
  exists (fun _ => c). split; [intros; apply IH|].
  pose proof (is_RInt_cst c 0 1) as H. replace ((1 - 0) * c) with c in H by lra. exact H.
Qed.

Lemma expect_plus n : forall f f' v v', expect n f v -> expect n f' v' -> expect n (fun l => f l + f' l) (v + v').
Proof.
  induction n as [|n IH]; intros f f' v v' H H'; simpl in *; [lra|].
  destruct H as (h & Hh & HI). destruct H' as (h' & Hh' & HI').
  exists (fun r => plus (h r) (h' r)). split.
  - intros r Hr. apply (IH (fun l => f (r :: l)) (fun l => f' (r :: l))); auto.
  - apply (is_RInt_plus (V := R_NormedModule)); auto.
Qed.

Lemma expect_scale n c : forall f v, expect n f v -> expect n (fun l => c * f l) (c * v).
Proof.
  induction n as [|n IH]; intros f v H; simpl in *; [subst; auto|].
  destruct H as (h & Hh & HI). exists (fun r => scal c (h r)). split.
  - intros r Hr. apply (IH (fun l => f (r :: l))); auto.
  - apply (is_RInt_scal (V := R_NormedModule)); auto.
Qed.

(** A function of the first draw only. *)
Lemma expect_first n (f : R -> R) v : is_RInt f 0 1 v ->
  expect (S n) (fun l => match l with [] => 0 | r :: _ => f r end) v.
Proof.
  intros H. simpl. exists f. split; auto. intros r Hr. apply expect_const.
Qed.

Lemma is_RInt_ext01 (f f' : R -> R) v : (forall r, 0 < r < 1 -> f r = f' r) -> is_RInt f 0 1 v -> is_RInt f' 0 1 v.
Proof.
  intros H. apply is_RInt_ext. intros r Hr. apply H. rewrite Rmin_left, Rmax_right in Hr by lra. auto.
Qed.

(** ** Acceptance probability *)
Lemma ln_lt_iff u a : 0 < u -> (ln u < a <-> u < exp a).
Proof.
  intros Hu. split; intros H.
  - rewrite <- (exp_ln u) by auto. apply exp_increasing; auto.
  - rewrite <- (ln_exp a). apply ln_increasing; auto.
Qed.

Lemma accept_test u a : 0 < u < 1 ->
  xltb (xlog (Fin u)) a =
  match a with Fin x => Rltb u (exp x) | PInf => true | _ => false end.
Proof.
  intros Hu. unfold xlog. rewrite (proj2 (Rltb_true 0 u)) by lra. destruct a; simpl; auto.
  destruct (Rltb u (exp r)) eqn:E.
  - apply Rltb_true in E. apply Rltb_true. apply ln_lt_iff; lra.
  - apply Rltb_false in E. apply Rltb_false. destruct (Rle_lt_dec r (ln u)); auto.
    apply ln_lt_iff in r0; lra.
Qed.

Lemma RInt_lt_step x : is_RInt (fun r => if Rltb r x then 1 else 0) 0 1 (clamp x).
Proof.
  unfold clamp. destruct (Rle_lt_dec x 0) as [H0|H0].
  - rewrite Rmax_left, Rmin_right by lra. apply is_RInt_ext01 with (fun _ => 0).
    + intros r Hr. rewrite (proj2 (Rltb_false r x)) by lra. auto.
    + pose proof (is_RInt_cst 0 0 1) as HI. replace ((1 - 0) * 0) with 0 in HI by lra. exact HI.
  - rewrite Rmax_right by lra. destruct (Rle_lt_dec 1 x) as [H1|H1].
    + rewrite Rmin_left by lra. apply is_RInt_ext01 with (fun _ => 1).
      * intros r Hr. rewrite (proj2 (Rltb_true r x)) by lra. auto.
      * pose proof (is_RInt_cst 1 0 1) as HI. replace ((1 - 0) * 1) with 1 in HI by lra. exact HI.
    + rewrite Rmin_right by lra.
      assert (HC : is_RInt (fun r : R => if Rltb r x then 1 else 0) 0 1 (plus ((x - 0) * 1) ((1 - x) * 0))).
      { apply (is_RInt_Chasles (V := R_NormedModule)) with x.
        - apply is_RInt_ext with (fun _ => 1); [|apply is_RInt_cst].
          intros r Hr. rewrite Rmin_left, Rmax_right in Hr by lra. rewrite (proj2 (Rltb_true r x)) by lra. auto.
        - apply is_RInt_ext with (fun _ => 0); [|apply is_RInt_cst].
          intros r Hr. rewrite Rmin_left, Rmax_right in Hr by lra. rewrite (proj2 (Rltb_false r x)) by lra. auto. }
      replace (plus ((x - 0) * 1) ((1 - x) * 0)) with x in HC by (unfold plus; simpl; lra). auto.
Qed.

Lemma accept_prob_RInt a : is_RInt (fun u => if xltb (xlog (Fin u)) a then 1 else 0) 0 1 (accept_prob a).
Proof.
  apply is_RInt_ext01 with (fun u => if match a with Fin x => Rltb u (exp x) | PInf => true | _ => false end then 1 else 0).
  - intros u Hu. rewrite accept_test; auto.
  - destruct a as [| | |x]; simpl.
    + pose proof (is_RInt_cst 0 0 1) as HI. replace ((1 - 0) * 0) with 0 in HI by lra. exact HI.
    + pose proof (is_RInt_cst 0 0 1) as HI. replace ((1 - 0) * 0) with 0 in HI by lra. exact HI.
    + pose proof (is_RInt_cst 1 0 1) as HI. replace ((1 - 0) * 1) with 1 in HI by lra. exact HI.
    + replace (Rmin 1 (exp x)) with (clamp (exp x)); [apply RInt_lt_step|].
      unfold clamp. rewrite Rmax_right; auto. left. apply exp_pos.
Qed.

(** ** Drawing one index *)
(** The index selected by the uniform draw [r] for weights [w]. *)
Definition pick (w : list R) (r : R) : nat := searchsorted (map Fin (ncum w)) (sample_key 1 r 0).

Lemma pick_spec w r : weights_ok w -> np_sample (map Fin w) 1 r = Ok [pick w r].
Proof. intros H. rewrite np_sample_fin by auto. reflexivity. Qed.

Lemma pick_lt w r : weights_ok w -> 0 < r < 1 -> (pick w r < length w)%nat.
Proof.
  intros Hw Hr. assert (Hr' : unit_draw r) by (unfold unit_draw; lra).
  destruct (np_sample_range _ _ _ _ Hr' (pick_spec w r Hw)) as [_ F]. inversion F; subst.
  rewrite map_length in *. auto.
Qed.

Lemma occ_one i j : occurrences i [j] = (if Nat.eqb j i then 1 else 0)%nat.
Proof.
  unfold occurrences. simpl. destruct (Nat.eq_dec j i) as [->|H].
  - rewrite Nat.eqb_refl. auto.
  - rewrite (proj2 (Nat.eqb_neq j i)); auto.
Qed.

Lemma pick_prob w i x : weights_ok w -> nth_error w i = Some x ->
  is_RInt (fun r => if Nat.eqb (pick w r) i then 1 else 0) 0 1 (x / rsum w).
Proof.
  intros Hw Hx. pose proof (sample_expected w 1 i x Hw ltac:(lia) Hx) as H.
  replace (INR 1 * (x / rsum w)) with (x / rsum w) in H by (simpl; lra).
  eapply is_RInt_ext01; [|exact H]. intros r Hr. unfold copies. rewrite pick_spec by auto.
  rewrite occ_one. destruct (Nat.eqb _ _); auto.
Qed.

(** A function of the index drawn. *)
Lemma sum_indicator (f : nat -> R) k l : NoDup l ->
  rsum (map (fun i => (if Nat.eqb k i then 1 else 0) * f i) l) = if in_dec Nat.eq_dec k l then f k else 0.
Proof.
  induction 1 as [|a l Ha Hl IH]; simpl; auto. rewrite IH. clear IH.
  destruct (Nat.eqb_spec k a) as [->|Hk].
  - destruct (Nat.eq_dec a a) as [_|]; [|congruence]. destruct (in_dec Nat.eq_dec a l); [contradiction|lra].
  - destruct (Nat.eq_dec a k); [congruence|]. destruct (in_dec Nat.eq_dec k l); lra.
Qed.

Lemma is_RInt_rsum {A} (F : A -> R -> R) (v : A -> R) l : (forall a, In a l -> is_RInt (F a) 0 1 (v a)) ->
  is_RInt (fun r => rsum (map (fun a => F a r) l)) 0 1 (rsum (map v l)).
Proof.
  induction l as [|a l IH]; intros H; simpl.
  - pose proof (is_RInt_cst 0 0 1) as HI. replace ((1 - 0) * 0) with 0 in HI by lra. exact HI.
  - apply (is_RInt_plus (V := R_NormedModule) (F a) (fun r => rsum (map (fun a => F a r) l))).
    + apply H. simpl; auto.
    + apply IH. intros b Hb. apply H. simpl; auto.
Qed.

Lemma pick_integral w (f : nat -> R) : weights_ok w ->
  is_RInt (fun r => f (pick w r)) 0 1
    (rsum (map (fun i => nth i w 0 / rsum w * f i) (seq 0 (length w)))).
Proof.
  intros Hw.
  apply is_RInt_ext01 with (fun r => rsum (map (fun i => (if Nat.eqb (pick w r) i then 1 else 0) * f i) (seq 0 (length w)))).
  - intros r Hr. rewrite sum_indicator by apply seq_NoDup.
    destruct (in_dec Nat.eq_dec (pick w r) (seq 0 (length w))) as [_|H]; auto.
    exfalso. apply H. apply in_seq. pose proof (pick_lt w r Hw Hr). lia.
  - apply (is_RInt_rsum (fun i r => (if Nat.eqb (pick w r) i then 1 else 0) * f i)).
    intros i Hi. apply in_seq in Hi.
    assert (E : nth_error w i = Some (nth i w 0)) by (apply nth_error_nth'; lia).
    pose proof (is_RInt_scal (V := R_NormedModule) _ _ _ (f i) _ (pick_prob w i _ Hw E)) as H.
    eapply is_RInt_ext01; [|rewrite Rmult_comm; exact H].
    intros r Hr. unfold scal; simpl; unfold mult; simpl. lra.
Qed.

(** ** bsi_full *)
Lemma zipw_repeat {A B C} (f : A -> B -> C) l b : zipw f l (repeat b (length l)) = Ok (map (fun a => f a b) l).
Proof. induction l as [|a l IH]; simpl; auto. rewrite IH. auto. Qed.

Lemma take_repeat {A} (l : list A) i a n : nth_error l i = Some a -> take l (repeat i n) = Ok (repeat a n).
Proof.
  intros H. induction n as [|n IH]; simpl; auto. unfold idx. rewrite H. simpl. rewrite IH. auto.
Qed.

Lemma backward_zip {P} (ld : P -> P -> xr) (pa : papprox P) x' : usable ld pa x' ->
  exists z, zipw xadd (lw pa) (map (fun p => ld p x') (part pa)) = Ok z /\ live z /\
    map lin z = backward_weights ld pa x'.
Proof.
  intros (L & Hw & Hd & Hs).
  destruct (zipw_ok xadd (lw pa) (map (fun p => ld p x') (part pa))) as [z Hz]; [rewrite map_length; auto|].
  exists z. split; auto.
  assert (Hl : Forall logish (map (fun p => ld p x') (part pa))).
  { apply Forall_map. apply Forall_forall. auto. }
  assert (E : map lin z = backward_weights ld pa x').
  { rewrite (zip_lin _ _ _ Hz Hw Hl). unfold wtimes, backward_weights.
    clear. revert pa. intros pa. generalize (lw pa) (part pa). induction l as [|a l IH]; intros [|b q]; simpl; auto.
    f_equal. auto. }
  split; auto. apply total_live.
  - eapply zipw_Forall; [|exact Hz|exact Hw|exact Hl]. intros. apply logish_xadd; auto.
  - unfold total. rewrite E. auto.
Qed.

Lemma usable_weights {P} (ld : P -> P -> xr) (pa : papprox P) x' : usable ld pa x' ->
  weights_ok (backward_weights ld pa x').
Proof.
  intros H. split; [|apply H]. apply Forall_map, Forall_forall. intros [a b] _. simpl.
  apply Rmult_le_pos; apply lin_nonneg.
Qed.

Lemma backward_weights_length {P} (ld : P -> P -> xr) (pa : papprox P) x' : usable ld pa x' ->
  length (backward_weights ld pa x') = length (lw pa).
Proof. intros (L & _). unfold backward_weights. rewrite map_length, combine_length, L. lia. Qed.

Lemma backward_weights_nth {P} (ld : P -> P -> xr) (pa : papprox P) x' i w p :
  nth_error (lw pa) i = Some w -> nth_error (part pa) i = Some p ->
  nth_error (backward_weights ld pa x') i = Some (lin w * lin (ld p x')).
Proof.
  unfold backward_weights. generalize (lw pa) (part pa). intros l q. revert l q.
  induction i as [|i IH]; intros [|a l] [|b q] H1 H2; simpl in *; try discriminate.
  - inversion H1; inversion H2; subst. auto.
  - eauto.
Qed.

Lemma sampleM_norm_eq {W} (g : rng W) w wn n s : live w -> norm_weights w = Ok wn ->
  sampleM g wn n s = (let (r, s') := rand g s in dor l <- np_sample (map Fin (map lin w)) n r ; Ok (l, s')).
Proof.
  intros L H. destruct (norm_weights_fin _ _ L H) as (c & Hc & ->). unfold sampleM, bind, lift, draw.
  assert (Hne : exists z, idx_last (xcumsum (map Fin (map (Rmult c) (map lin w)))) = Ok z).
  { unfold idx_last. destruct (rev (xcumsum _)) eqn:E; eauto. exfalso.
    apply (f_equal (@length xr)) in E. rewrite rev_length in E. unfold xcumsum in E.
    rewrite xcumsum_from_length, !map_length in E. destruct L as [_ [r Hr]]. destruct w; [destruct Hr|discriminate]. }
  destruct Hne as [z ->]. destruct (rand g s) as [r s'].
  rewrite sample_scale by (auto using weights_ok_lin). destruct (np_sample _ n r); reflexivity.
Qed.

Section Full.
Context {W P U Y V : Type}.
Variable sm : smodel W P U Y V.
Variable g : rng W.
Variable ld : cell U -> nat -> P -> P -> xr.
Hypothesis Hmk : markov_density sm ld.
Variables (u : list (cell U)) (y : list (cell Y)) (t : list nat) (k : nat).
Variables (uk : cell U) (tk : nat).
Hypothesis Hu : nth_error u k = Some uk.
Hypothesis Ht : nth_error t k = Some tk.
Variables (pa : papprox P) (ptr : list (tstep P)) (pind : list nat) (fut : list (tstep P)) (f0 : tstep P).
Hypothesis Hf0 : nth_error fut 0 = Some f0.

Lemma bsi_one_eq fi x' s : nth_error (part (st_pa f0)) fi = Some x' -> usable (ld uk tk) pa x' ->
  bsi_one sm g pa ptr pind fut fi u y t k s =
  (let (r, s') := rand g s in Ok (pick (backward_weights (ld uk tk) pa x') r, s')).
Proof.
  intros Hx Hus. unfold bsi_one, bind. rewrite Hmk. unfold idx at 1. rewrite Hf0. cbn [rbind].
  rewrite (take_repeat _ _ _ _ Hx). cbn [rbind]. unfold idx. rewrite Hu, Ht. cbn [rbind].
  destruct Hus as (L & Hus'). pose proof (conj L Hus') as Hus. rewrite <- L, zipw_repeat. cbn [rbind].
  unfold lift. destruct (backward_zip _ _ _ Hus) as (z & -> & Lz & Ez).
  destruct (norm_weights_ok z) as (wn & Hn & _).
  { destruct Lz as [_ [r Hr]]. destruct z; [destruct Hr|discriminate]. }
  rewrite Hn, (sampleM_norm_eq g z wn 1 s Lz Hn), Ez. destruct (rand g s) as [r s'].
  rewrite pick_spec by (apply usable_weights; auto). reflexivity.
Qed.

Lemma bsi_full_eq find : forall s,
  (forall fi, In fi find -> exists x', nth_error (part (st_pa f0)) fi = Some x' /\ usable (ld uk tk) pa x') ->
  bsi_full sm g pa ptr pind fut find u y t k s =
  Ok (map (fun fr => match nth_error (part (st_pa f0)) (fst fr) with
                     | Some x' => pick (backward_weights (ld uk tk) pa x') (snd fr)
                     | None => 0%nat end) (combine find (fst (stream g (length find) s))),
      snd (stream g (length find) s)).
Proof.
  induction find as [|fi find IH]; intros s H; [reflexivity|].
  cbn [bsi_full]. unfold bind. destruct (H fi) as (x' & Hx & Hus); [simpl; auto|].
  rewrite (bsi_one_eq fi x' s Hx Hus). simpl length. cbn [stream]. destruct (rand g s) as [r s1].
  rewrite IH by (intros fi' Hfi; apply H; simpl; auto).
  destruct (stream g (length find) s1) as [rs s2]. unfold ret. cbn [fst snd combine map]. rewrite Hx. reflexivity.
Qed.
End Full.

(** ** Laws over a tape of uniform draws *)
Lemma unit_of_in r : 0 < r < 1 -> unit_of r = r.
Proof. unfold unit_of. intros H. destruct (Rle_dec 0 r); [|lra]. destruct (Rlt_dec r 1); lra. Qed.

Lemma stream_tape l rest : Forall (fun r => 0 < r < 1) l -> stream tape (length l) (l ++ rest) = (l, rest).
Proof.
  induction 1 as [|r l Hr _ IH]; auto. cbn [length app stream rand tape]. rewrite IH, unit_of_in; auto.
Qed.

Lemma stream_tape_all l : Forall (fun r => 0 < r < 1) l -> stream tape (length l) l = (l, []).
Proof. intros H. rewrite <- (app_nil_r l) at 2. apply stream_tape; auto. Qed.

Lemma nats_eqb_refl l : nats_eqb l l = true.
Proof. unfold nats_eqb. destruct (list_eq_dec _ l l); congruence. Qed.
Lemma nats_eqb_cons a l b l' : nats_eqb (a :: l) (b :: l') = (Nat.eqb a b && nats_eqb l l')%bool.
Proof.
  unfold nats_eqb. destruct (list_eq_dec Nat.eq_dec (a :: l) (b :: l')) as [E|E].
  - inversion E; subst. rewrite Nat.eqb_refl. destruct (list_eq_dec _ l' l'); auto; congruence.
  - destruct (Nat.eqb_spec a b); simpl; auto. subst. destruct (list_eq_dec _ l l'); auto. congruence.
Qed.
Lemma nats_eqb_one a b : nats_eqb [a] [b] = Nat.eqb a b.
Proof. rewrite nats_eqb_cons. rewrite nats_eqb_refl. apply andb_true_r. Qed.

(** Independent draws: the law of a vector of picks is the product of the laws. *)
Lemma picks_law : forall (ws : list (list R)) (is_ : list nat),
  Forall weights_ok ws -> length is_ = length ws ->
  Forall (fun wi => (snd wi < length (fst wi))%nat) (combine ws is_) ->
  expect (length ws) (fun rs => if nats_eqb (map (fun wr => pick (fst wr) (snd wr)) (combine ws rs)) is_ then 1 else 0)
    (rprod (map (fun wi => nth (snd wi) (fst wi) 0 / rsum (fst wi)) (combine ws is_))).
Proof.
  induction ws as [|w ws IH]; intros is_ Hw Hl Hi.
  - destruct is_; [|discriminate]. reflexivity.
  - destruct is_ as [|i is_]; [discriminate|]. inversion Hw; subst. simpl in Hl, Hi. inversion Hi; subst.
    simpl in H3. specialize (IH is_ H2 ltac:(lia) H4). cbn [length expect combine map rprod fold_right fst snd].
    fold (rprod (map (fun wi => nth (snd wi) (fst wi) 0 / rsum (fst wi)) (combine ws is_))).
    set (v := rprod _) in *.
    exists (fun r => (if Nat.eqb (pick w r) i then 1 else 0) * v). split.
    + intros r Hr. eapply expect_ext; [|apply (expect_scale _ (if Nat.eqb (pick w r) i then 1 else 0)); exact IH].
      intros l _ _. cbn beta. rewrite nats_eqb_cons. destruct (Nat.eqb _ _); simpl; lra.
    + assert (E : nth_error w i = Some (nth i w 0)) by (apply nth_error_nth'; lia).
      pose proof (is_RInt_scal (V := R_NormedModule) _ _ _ v _ (pick_prob w i _ H1 E)) as H.
      unfold scal in H; simpl in H; unfold mult in H; simpl in H. rewrite Rmult_comm.
      eapply is_RInt_ext01; [|exact H]. intros r Hr. lra.
Qed.

Section FullLaw.
Context {P U Y V : Type}.
Variable sm : smodel (list R) P U Y V.
Variable ld : cell U -> nat -> P -> P -> xr.
Hypothesis Hmk : markov_density sm ld.
Variables (u : list (cell U)) (y : list (cell Y)) (t : list nat) (k : nat).
Variables (uk : cell U) (tk : nat).
Hypothesis Hu : nth_error u k = Some uk.
Hypothesis Ht : nth_error t k = Some tk.
Variables (pa : papprox P) (ptr : list (tstep P)) (pind : list nat) (fut : list (tstep P)) (f0 : tstep P).
Hypothesis Hf0 : nth_error fut 0 = Some f0.

Lemma bsi_full_law find : forall is_,
  (forall fi, In fi find -> exists x', nth_error (part (st_pa f0)) fi = Some x' /\ usable (ld uk tk) pa x') ->
  length is_ = length find -> Forall (fun i => (i < length (lw pa))%nat) is_ ->
  expect (length find) (outcome nats_eqb (bsi_full sm tape pa ptr pind fut find u y t k) is_)
    (rprod (map (fun fi => match nth_error (part (st_pa f0)) (fst fi) with
                           | Some x' => nth (snd fi) (backward_weights (ld uk tk) pa x') 0 /
                                        rsum (backward_weights (ld uk tk) pa x')
                           | None => 0 end) (combine find is_))).
Proof.
  intros is_ H Hl Hi.
  set (bw := fun fi => match nth_error (part (st_pa f0)) fi with
                       | Some x' => backward_weights (ld uk tk) pa x' | None => [] end).
  pose proof (picks_law (map bw find) is_) as L. rewrite map_length in L.
  assert (E1 : map (fun wi => nth (snd wi) (fst wi) 0 / rsum (fst wi)) (combine (map bw find) is_) =
               map (fun fi => match nth_error (part (st_pa f0)) (fst fi) with
                           | Some x' => nth (snd fi) (backward_weights (ld uk tk) pa x') 0 /
                                        rsum (backward_weights (ld uk tk) pa x')
                           | None => 0 end) (combine find is_)).
  { clear L Hi. revert is_ Hl. induction find as [|fi find IH]; intros [|i is_] Hl; simpl in *; try discriminate; auto.
    rewrite IH by (auto; intros; apply H; auto). f_equal. unfold bw. destruct (H fi) as (x' & -> & _); auto. }
  rewrite <- E1. eapply expect_ext; [|apply L].
  - intros rs Lr Fr. cbn beta. unfold outcome. rewrite (bsi_full_eq sm tape ld Hmk u y t k uk tk Hu Ht pa ptr pind fut f0 Hf0) by auto.
    rewrite <- Lr, stream_tape_all by auto. cbn [fst snd].
    replace (map (fun wr => pick (fst wr) (snd wr)) (combine (map bw find) rs)) with
      (map (fun fr => match nth_error (part (st_pa f0)) (fst fr) with
                     | Some x' => pick (backward_weights (ld uk tk) pa x') (snd fr)
                     | None => 0%nat end) (combine find rs)); auto.
    clear -H Lr. revert rs Lr. induction find as [|fi find IH]; intros [|r rs] Lr; simpl in *; try discriminate; auto.
    rewrite IH by (auto; intros; apply H; auto). f_equal. unfold bw. destruct (H fi) as (x' & -> & _); auto.
  - apply Forall_map, Forall_forall. intros fi Hfi. unfold bw. destruct (H fi Hfi) as (x' & -> & Hus).
    apply usable_weights; auto.
  - auto.
  - clear -H Hi Hl. revert is_ Hl Hi. induction find as [|fi find IH]; intros [|i is_] Hl Hi; simpl in *; try discriminate; auto.
    inversion Hi; subst. constructor; [|apply IH; auto]. simpl. unfold bw. destruct (H fi) as (x' & -> & Hus); auto.
    rewrite backward_weights_length by auto. auto.
Qed.

End FullLaw.

Lemma rsum_seq (l : list R) : rsum l = rsum (map (fun i => nth i l 0) (seq 0 (length l))).
Proof.
  induction l as [|a l IH]; auto. cbn [length seq map rsum fold_right].
  rewrite <- seq_shift, map_map. simpl. rewrite IH at 1. auto.
Qed.

Lemma expect_app a : forall b f h v, expect a h v ->
  (forall l, length l = a -> Forall (fun r => 0 < r < 1) l -> expect b (fun l' => f (l ++ l')) (h l)) -> expect (a + b) f v.
Proof.
  induction a as [|a IH]; intros b f h v H1 H2; simpl in *.
  - subst. apply (H2 []); auto.
  - destruct H1 as (h' & A & B). exists h'. split; auto. intros r Hr. specialize (A r Hr).
    apply (IH b (fun l => f (r :: l)) (fun l => h (r :: l))); auto.
    intros l Ll Fl. apply (H2 (r :: l)); simpl; auto.
Qed.

Lemma expect_coord N : forall p (f : R -> R) v, (p < N)%nat -> is_RInt f 0 1 v -> expect N (fun l => f (nth p l 0)) v.
Proof.
  induction N as [|N IH]; intros p f v Hp H; [lia|]. destruct p as [|p]; simpl.
  - exists f. split; auto. intros r _. apply expect_const.
  - exists (fun _ => v). split; [intros r _; apply IH; auto; lia|].
    pose proof (is_RInt_cst v 0 1) as HI. replace ((1 - 0) * v) with v in HI by lra. exact HI.
Qed.
