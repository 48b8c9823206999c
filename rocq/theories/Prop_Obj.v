(** C53: the objective of the maximisation step. *)
From Coquelicot Require Import Coquelicot.
From Coq Require Import Bool Reals Lra Lia List Arith FunctionalExtensionality.
From Verif Require Import Base ObjModel.
Import ListNotations.
Open Scope R_scope.
#[local] Set Bullet Behavior "Strict Subproofs".

(** ** Specification *)
Section Spec.
Context {P U Y T : Type}.

(** Row [i] of the array collects the [i]-th state of every trajectory. *)
Definition stacked (trajs : list (list P)) (sest : list (list P)) : Prop :=
  Forall (fun tr => length tr = length sest) trajs /\
  forall i row, nth_error sest i = Some row -> map Some row = map (fun tr => nth_error tr i) trajs.

Variables (lxn : P -> P -> U -> T -> R) (ly : P -> Y -> T -> R) (lx0 : P -> T -> R).
(** log p(x_1..x_{T-1} | x_0) along one trajectory. *)
Fixpoint path_xnext (tr : list P) (ut : list U) (tt : list T) : R :=
  match tr, ut, tt with
  | x :: ((x' :: _) as tr'), u :: ut', t :: tt' => lxn x x' u t + path_xnext tr' ut' tt'
  | _, _, _ => 0
  end.
(** log p(y | x) along one trajectory, skipping missing measurements. *)
Fixpoint path_y (tr : list P) (yt : list (option Y)) (tt : list T) : R :=
  match tr, yt, tt with
  | x :: tr', Some y :: yt', t :: tt' => ly x y t + path_y tr' yt' tt'
  | _ :: tr', None :: yt', _ :: tt' => path_y tr' yt' tt'
  | _, _, _ => 0
  end.
Definition path_x0 (tr : list P) (tt : list T) : R :=
  match tr, tt with x :: _, t :: _ => lx0 x t | _, _ => 0 end.
(** complete-data log-likelihood of one trajectory. *)
Definition path_loglik (tr : list P) (ut : list U) (yt : list (option Y)) (tt : list T) : R :=
  path_x0 tr tt + path_xnext tr ut tt + path_y tr yt tt.

(** The user's methods evaluate these densities particle by particle. *)
Definition evaluates (pm : pmodel P U Y T) : Prop :=
  (forall a b u t, length a = length b -> pm_xnext pm a b u t = Ok (map (fun xx => lxn (fst xx) (snd xx) u t) (combine a b))) /\
  (forall a y t, pm_y pm a y t = Ok (map (fun x => ly x y t) a)) /\
  (forall a t, pm_x0 pm a t = Ok (map (fun x => lx0 x t) a)).
End Spec.

Definition mean (l : list R) : R := rsum l / INR (length l).

(** ** Proofs *)
Lemma for_sum_shift n f acc : for_sum (seq 1 n) f acc = for_sum (seq 0 n) (fun i => f (S i)) acc.
Proof.
  rewrite <- seq_shift. generalize (seq 0 n) as l. intros l. revert acc. induction l as [|i l IH]; intros acc; cbn [map for_sum]; auto.
  destruct (f (S i)); cbn [rbind]; auto.
Qed.

Section Proofs.
Context {P U Y T : Type}.
Variables (lxn : P -> P -> U -> T -> R) (ly : P -> Y -> T -> R) (lx0 : P -> T -> R) (pm : pmodel P U Y T).
Hypothesis HE : evaluates lxn ly lx0 pm.

Lemma stacked_tl (trajs : list (list P)) row rest : stacked trajs (row :: rest) -> stacked (map (@tl P) trajs) rest.
Proof.
  intros [HL HN]. split.
  - apply Forall_forall. intros x Hx. apply in_map_iff in Hx as (tr & <- & Hin). rewrite Forall_forall in HL. specialize (HL _ Hin). cbn [length] in HL. destruct tr; cbn in *; lia.
  - intros i r Hr. rewrite map_map. rewrite (HN (S i) r Hr). apply map_ext_in. intros tr Hin. rewrite Forall_forall in HL. specialize (HL _ Hin). destruct tr; [discriminate|reflexivity].
Qed.

Lemma row_length (trajs : list (list P)) sest i row : stacked trajs sest -> nth_error sest i = Some row -> length row = length trajs.
Proof. intros [_ HN] Hi. specialize (HN _ _ Hi). apply (f_equal (@length _)) in HN. rewrite !map_length in HN. auto. Qed.

Lemma xnext_step trajs row row' u t us ts :
  map Some row = map (fun tr => nth_error tr 0) trajs -> map Some row' = map (fun tr => nth_error tr 1) trajs ->
  rsum (map (fun xx => lxn (fst xx) (snd xx) u t) (combine row row')) + rsum (map (fun tr => path_xnext lxn tr us ts) (map (@tl P) trajs))
  = rsum (map (fun tr => path_xnext lxn tr (u :: us) (t :: ts)) trajs).
Proof.
  revert row row'. induction trajs as [|tr trajs IH]; intros row row' H0 H1.
  - destruct row; [|discriminate]. cbn. lra.
  - destruct row as [|x row]; [discriminate|]. destruct row' as [|x' row']; [discriminate|]. cbn [map] in *. injection H0 as E0 H0. injection H1 as E1 H1.
    destruct tr as [|a [|b tr]]; try discriminate. cbn in E0, E1. injection E0 as ->. injection E1 as ->. specialize (IH _ _ H0 H1).
    cbn [map combine rsum fold_right fst snd tl path_xnext] in *. unfold rsum in *. lra.
Qed.

Lemma xnext_loop sest : forall trajs ut tt acc, stacked trajs sest -> (length sest - 1 <= length ut)%nat -> (length sest - 1 <= length tt)%nat ->
  for_sum (seq 0 (length sest - 1)) (fun i => dor a <- idx sest i ; dor b <- idx sest (S i) ; dor u <- idx ut i ; dor t <- idx tt i ;
                       dor v <- pm_xnext pm a b u t ; Ok (rsum v)) acc
  = Ok (acc + rsum (map (fun tr => path_xnext lxn tr ut tt) trajs)).
Proof.
  induction sest as [|row sest IH]; intros trajs ut tt acc HS HU HT.
  - cbn. f_equal. destruct HS as [HL _]. assert (E : rsum (map (fun tr => path_xnext lxn tr ut tt) trajs) = 0).
    { clear -HL. induction HL as [|tr trajs Hl HL IH]; cbn; auto. cbn in Hl. destruct tr; [|discriminate]. unfold rsum in IH. cbn. lra. }
    rewrite E. lra.
  - destruct sest as [|row' sest].
    + cbn. f_equal. destruct HS as [HL _]. assert (E : rsum (map (fun tr => path_xnext lxn tr ut tt) trajs) = 0).
      { clear -HL. induction HL as [|tr trajs Hl HL IH]; cbn; auto. cbn in Hl. destruct tr as [|x [|]]; try discriminate. unfold rsum in IH. cbn. lra. }
      rewrite E. lra.
    + destruct ut as [|u ut]; [cbn in HU; lia|]. destruct tt as [|t tt]; [cbn in HT; lia|].
      replace (length (row :: row' :: sest) - 1)%nat with (S (length (row' :: sest) - 1)) in * by (cbn; lia).
      cbn [seq for_sum]. unfold idx at 1 2 3 4; cbn [nth_error rbind].
      assert (L0 : length row = length trajs) by (eapply (row_length _ _ 0 _ HS); reflexivity).
      assert (L1 : length row' = length trajs) by (eapply (row_length _ _ 1 _ HS); reflexivity).
      rewrite (proj1 HE) by congruence. cbn [rbind]. rewrite for_sum_shift.
      specialize (IH (map (@tl P) trajs) ut tt (acc + rsum (map (fun xx => lxn (fst xx) (snd xx) u t) (combine row row'))) (stacked_tl _ _ _ HS)).
      match type of IH with _ -> _ -> ?x = _ => match goal with |- ?y = _ => change y with x end end.
      rewrite IH by (cbn [length] in *; lia). f_equal. rewrite Rplus_assoc. f_equal. apply xnext_step.
      * apply (proj2 HS 0%nat). reflexivity.
      * apply (proj2 HS 1%nat). reflexivity.
Qed.

Lemma y_step trajs row y t ys ts :
  map Some row = map (fun tr => nth_error tr 0) trajs ->
  (match y with Some v => rsum (map (fun x => ly x v t) row) | None => 0 end) + rsum (map (fun tr => path_y ly tr ys ts) (map (@tl P) trajs))
  = rsum (map (fun tr => path_y ly tr (y :: ys) (t :: ts)) trajs).
Proof.
  revert row. induction trajs as [|tr trajs IH]; intros row H0.
  - destruct row; [|discriminate]. destruct y; cbn; lra.
  - destruct row as [|x row]; [discriminate|]. cbn [map] in *. injection H0 as E0 H0.
    destruct tr as [|a tr]; try discriminate. cbn in E0. injection E0 as ->. specialize (IH _ H0).
    destruct y; cbn [map rsum fold_right tl path_y] in *; unfold rsum in *; lra.
Qed.

Lemma y_loop sest : forall trajs yt tt acc, stacked trajs sest -> (length sest <= length yt)%nat -> (length sest <= length tt)%nat ->
  for_sum (seq 0 (length sest)) (fun i => dor y <- idx yt i ;
                       match y with
                       | None => Ok 0
                       | Some y => dor a <- idx sest i ; dor t <- idx tt i ; dor v <- pm_y pm a y t ; Ok (rsum v)
                       end) acc
  = Ok (acc + rsum (map (fun tr => path_y ly tr yt tt) trajs)).
Proof.
  induction sest as [|row sest IH]; intros trajs yt tt acc HS HU HT.
  - cbn. f_equal. destruct HS as [HL _]. assert (E : rsum (map (fun tr => path_y ly tr yt tt) trajs) = 0).
    { clear -HL. induction HL as [|tr trajs Hl HL IH]; cbn; auto. cbn in Hl. destruct tr; [|discriminate]. unfold rsum in IH. cbn. lra. }
    rewrite E. lra.
  - destruct yt as [|y yt]; [cbn in HU; lia|]. destruct tt as [|t tt]; [cbn in HT; lia|].
    cbn [length seq for_sum]. unfold idx at 1; cbn [nth_error rbind].
    assert (L0 : length row = length trajs) by (eapply (row_length _ _ 0 _ HS); reflexivity).
    assert (S1 : (match y with Some y0 => dor a <- idx (row :: sest) 0; dor t0 <- idx (t :: tt) 0; dor v <- pm_y pm a y0 t0; Ok (rsum v) | None => Ok 0 end)
                 = Ok (match y with Some v => rsum (map (fun x => ly x v t) row) | None => 0 end)).
    { destruct y; auto. unfold idx; cbn [nth_error rbind]. rewrite (proj1 (proj2 HE)). reflexivity. }
    rewrite S1. cbn [rbind]. rewrite for_sum_shift.
    specialize (IH (map (@tl P) trajs) yt tt (acc + match y with Some v => rsum (map (fun x => ly x v t) row) | None => 0 end) (stacked_tl _ _ _ HS)).
    match type of IH with _ -> _ -> ?x = _ => match goal with |- ?y = _ => change y with x end end.
    rewrite IH by (cbn [length] in *; lia). f_equal. rewrite Rplus_assoc. f_equal. apply y_step. apply (proj2 HS 0%nat). reflexivity.
Qed.

Lemma over_mean (f : list P -> R) trajs (sest : list (list P)) : stacked trajs sest -> sest <> [] -> trajs <> [] ->
  over (rsum (map f trajs)) (num_traj sest) = Ok (mean (map f trajs)).
Proof.
  intros HS Hn Ht. destruct sest as [|row sest]; [congruence|]. cbn [num_traj]. rewrite (row_length _ _ 0 _ HS eq_refl).
  unfold mean. rewrite map_length. destruct trajs; [congruence|]. reflexivity.
Qed.
End Proofs.

Section Theorems.
Context {P U Y T : Type}.

(** C53: the transition part is the mean over the trajectories of log p(x_{t+1}|x_t) summed along each. *)
Theorem C53_xnext_mean : forall lxn ly lx0 (pm : pmodel P U Y T) trajs sest ut tt,
  evaluates lxn ly lx0 pm -> stacked trajs sest -> sest <> [] -> trajs <> [] ->
  (length sest - 1 <= length ut)%nat -> (length sest - 1 <= length tt)%nat ->
  eval_logp_xnext_fulltraj pm sest ut tt = Ok (mean (map (fun tr => path_xnext lxn tr ut tt) trajs)).
Proof.
  intros lxn ly lx0 pm trajs sest ut tt HE HS Hn Ht HU HT. unfold eval_logp_xnext_fulltraj.
  rewrite (xnext_loop lxn ly lx0 pm HE sest trajs) by auto. cbn [rbind]. rewrite Rplus_0_l. apply over_mean; auto.
Qed.

(** C53: the measurement part is the mean over the trajectories, missing measurements skipped. *)
Theorem C53_y_mean : forall lxn ly lx0 (pm : pmodel P U Y T) trajs sest yt tt,
  evaluates lxn ly lx0 pm -> stacked trajs sest -> sest <> [] -> trajs <> [] ->
  (length sest <= length yt)%nat -> (length sest <= length tt)%nat ->
  eval_logp_y_fulltraj pm sest yt tt = Ok (mean (map (fun tr => path_y ly tr yt tt) trajs)).
Proof.
  intros lxn ly lx0 pm trajs sest yt tt HE HS Hn Ht HU HT. unfold eval_logp_y_fulltraj.
  rewrite (y_loop lxn ly lx0 pm HE sest trajs) by auto. cbn [rbind]. rewrite Rplus_0_l. apply over_mean; auto.
Qed.

Lemma mean_plus (f g : list P -> R) l : l <> [] -> mean (map f l) + mean (map g l) = mean (map (fun x => f x + g x) l).
Proof.
  intros H. unfold mean. rewrite !map_length. assert (E : rsum (map (fun x => f x + g x) l) = rsum (map f l) + rsum (map g l)).
  { clear H. induction l as [|x l IH]; cbn; [lra|]. unfold rsum in IH. rewrite IH. lra. }
  rewrite E. unfold Rdiv. ring.
Qed.

Lemma row0_map {B} (f : P -> B) d (trajs : list (list P)) row : map Some row = map (fun tr => nth_error tr 0) trajs ->
  map f row = map (fun tr => match tr with x :: _ => f x | [] => d end) trajs.
Proof.
  revert row. induction trajs as [|tr trajs IH]; intros [|x row] H; cbn in *; try discriminate; auto.
  injection H as E H. destruct tr; [discriminate|]. injection E as ->. f_equal. auto.
Qed.

(** C53: what is minimised is minus the mean over the trajectories of the complete-data log-likelihood,
    for every parameter vector; the initial states are those stored in the first step. *)
Theorem C53_objective : forall lxn ly lx0 (pm : list R -> pmodel P U Y T) trajs s,
  (forall theta, evaluates (lxn theta) (ly theta) (lx0 theta) (pm theta)) ->
  stacked trajs (st_sest s) -> nth_error (st_sest s) 0 = Some (st_part0 s) -> trajs <> [] ->
  (length (st_sest s) - 1 <= length (st_u s))%nat -> (length (st_sest s) <= length (st_y s))%nat -> (length (st_sest s) <= length (st_t s))%nat ->
  forall theta, fval pm s theta = Ok (- mean (map (fun tr => path_loglik (lxn theta) (ly theta) (lx0 theta) tr (st_u s) (st_y s) (st_t s)) trajs)).
Proof.
  intros lxn ly lx0 pm trajs s HE HS H0 Ht HU HY HT theta.
  assert (Hn : st_sest s <> []) by (intros E; rewrite E in H0; discriminate). unfold fval.
  rewrite (C53_y_mean _ _ _ _ trajs _ _ _ (HE theta)) by auto. cbn [rbind].
  rewrite (C53_xnext_mean _ _ _ _ trajs _ _ _ (HE theta)) by (auto; lia). cbn [rbind].
  destruct (st_sest s) as [|row sest]; [congruence|]. injection H0 as ->. cbn [length] in *.
  destruct (st_t s) as [|t0 ts] eqn:Et; [cbn in HT; lia|]. unfold idx; cbn [nth_error rbind].
  rewrite (proj2 (proj2 (HE theta))). cbn [rbind].
  pose proof (proj2 HS 0%nat _ eq_refl) as HR.
  rewrite (row0_map (fun x => lx0 theta x t0) 0 _ _ HR). unfold rmean.
  destruct trajs as [|tr trajs]; [congruence|]. cbn [map]. cbn [rbind]. f_equal.
  set (L := tr :: trajs) in *.
  change (match tr with [] => 0 | x :: _ => lx0 theta x t0 end :: map (fun tr0 : list P => match tr0 with [] => 0 | x :: _ => lx0 theta x t0 end) trajs)
    with (map (fun tr0 : list P => match tr0 with [] => 0 | x :: _ => lx0 theta x t0 end) L).
  fold (mean (map (fun tr0 : list P => match tr0 with [] => 0 | x :: _ => lx0 theta x t0 end) L)).
  match goal with |- -1 * (mean ?a + _ + mean ?b) = - mean ?c =>
    change a with (map (fun tr => path_y (ly theta) tr (st_y s) (t0 :: ts)) L);
    change b with (map (fun tr => path_xnext (lxn theta) tr (st_u s) (t0 :: ts)) L);
    change c with (map (fun tr => path_loglik (lxn theta) (ly theta) (lx0 theta) tr (st_u s) (st_y s) (t0 :: ts)) L) end.
  rewrite !mean_plus by discriminate. match goal with |- -1 * ?a = - ?b => replace a with b; [lra|] end. f_equal. apply map_ext. intros p.
  unfold path_loglik, path_x0. destruct p; lra.
Qed.

(** C53: hence, whatever the optimiser, [maximize] is that optimiser run on minus the mean log-likelihood. *)
Theorem C53_maximize : forall B (opt : (list R -> res R) -> list R -> B -> res (list R)) lxn ly lx0 (pm : list R -> pmodel P U Y T) params bounds trajs s,
  (forall theta, evaluates (lxn theta) (ly theta) (lx0 theta) (pm theta)) ->
  stacked trajs (st_sest s) -> nth_error (st_sest s) 0 = Some (st_part0 s) -> trajs <> [] ->
  (length (st_sest s) - 1 <= length (st_u s))%nat -> (length (st_sest s) <= length (st_y s))%nat -> (length (st_sest s) <= length (st_t s))%nat ->
  maximize_numeric opt pm params bounds s =
  opt (fun theta => Ok (- mean (map (fun tr => path_loglik (lxn theta) (ly theta) (lx0 theta) tr (st_u s) (st_y s) (st_t s)) trajs))) params bounds.
Proof.
  intros. unfold maximize_numeric. f_equal. apply functional_extensionality. intros theta. eapply C53_objective; eauto.
Qed.

(** ** Gradients *)
(** theta with component k increased by h *)
Definition bumpat (theta : list R) (k : nat) (h : R) : list R :=
  map (fun ix => if Nat.eqb (fst ix) k then snd ix + h else snd ix) (combine (seq 0 (length theta)) theta).

(** The second component is the gradient of the first at every theta of [np] parameters. *)
Definition is_grad (np : nat) (F : list R -> res (R * list R)) : Prop :=
  forall V G, (forall theta, length theta = np -> F theta = Ok (V theta, G theta)) ->
  forall theta, length theta = np -> length (G theta) = np /\ forall k, (k < np)%nat -> is_derive (fun h => V (bumpat theta k h)) 0 (nth k (G theta) 0).

Lemma bumpat_length theta k h : length (bumpat theta k h) = length theta.
Proof. unfold bumpat. rewrite map_length, combine_length, seq_length. lia. Qed.

Lemma vadd_ok a b c : vadd a b = Ok c -> length a = length b /\ length c = length a /\ forall k, nth k c 0 = nth k a 0 + nth k b 0.
Proof.
  revert b c. induction a as [|x a IH]; intros [|y b] c H; cbn in H; try discriminate.
  - injection H as <-. cbn. repeat split; auto. intros [|]; lra.
  - destruct (vadd a b) as [r|] eqn:E; [|discriminate]. injection H as <-. destruct (IH _ _ E) as (A & B & C). cbn. repeat split; auto.
    intros [|k]; auto.
Qed.

Lemma for_sum_vg_grad np (f : nat -> list R -> res (R * list R)) is : (forall i, is_grad np (f i)) -> forall acc,
  is_grad np (fun theta => Ok (acc theta)) -> is_grad np (fun theta => for_sum_vg is (fun i => f i theta) (acc theta)).
Proof.
  intros Hf. induction is as [|i is IH]; intros acc Ha; auto. intros V G HV.
  assert (S1 : forall theta, length theta = np -> exists v g, f i theta = Ok v /\ vadd (snd (acc theta)) (snd v) = Ok g).
  { intros theta Hl. specialize (HV theta Hl). cbn [for_sum_vg] in HV. destruct (f i theta) as [v|]; [|discriminate]. cbn [rbind] in HV.
    destruct (vadd (snd (acc theta)) (snd v)) as [g|] eqn:E; [|discriminate]. eauto. }
  set (v := fun theta => match f i theta with Ok v => v | _ => (0, []) end).
  set (g := fun theta => match vadd (snd (acc theta)) (snd (v theta)) with Ok g => g | _ => [] end).
  assert (Ev : forall theta, length theta = np -> f i theta = Ok (fst (v theta), snd (v theta))). { intros theta Hl. destruct (S1 theta Hl) as (v0 & g0 & E & _). unfold v. rewrite E. destruct v0; reflexivity. }
  assert (Eg : forall theta, length theta = np -> vadd (snd (acc theta)) (snd (v theta)) = Ok (g theta)).
  { intros theta Hl. destruct (S1 theta Hl) as (v0 & g0 & E & E2). unfold g, v. rewrite E, E2. reflexivity. }
  apply (IH (fun theta => (fst (acc theta) + fst (v theta), g theta))).
  - intros V' G' HV' theta Hl.
    assert (EV : forall th, length th = np -> V' th = fst (acc th) + fst (v th)) by (intros th Hth; specialize (HV' th Hth); injection HV'; auto).
    assert (EG : G' theta = g theta) by (specialize (HV' theta Hl); injection HV'; auto).
    destruct (vadd_ok _ _ _ (Eg theta Hl)) as (L1 & L2 & HN).
    destruct (Ha (fun th => fst (acc th)) (fun th => snd (acc th)) (fun th _ => f_equal Ok (surjective_pairing (acc th))) theta Hl) as [La Da].
    destruct (Hf i (fun th => fst (v th)) (fun th => snd (v th)) Ev theta Hl) as [Lv Dv].
    rewrite EG. split; [congruence|]. intros k Hk. rewrite HN.
    apply is_derive_ext with (f := fun h => fst (acc (bumpat theta k h)) + fst (v (bumpat theta k h))); [intros h; symmetry; apply EV; rewrite bumpat_length; exact Hl|].
    apply (is_derive_plus (V := R_NormedModule)); auto.
  - intros theta Hl. rewrite <- HV by exact Hl. cbn [for_sum_vg]. rewrite Ev by exact Hl. cbn [rbind snd fst]. rewrite Eg by exact Hl. reflexivity.
Qed.

Lemma zero_grad np : is_grad np (fun _ => Ok (0, repeat 0 np)).
Proof.
  intros V G H theta Hl. pose proof (H theta Hl) as Ht. injection Ht as _ <-. rewrite repeat_length. split; auto. intros k Hk.
  rewrite (nth_repeat 0). apply is_derive_ext with (f := fun _ => 0).
  - intros h. specialize (H (bumpat theta k h)). rewrite bumpat_length in H. specialize (H Hl). injection H; auto.
  - apply (is_derive_const (V := R_NormedModule)).
Qed.

Lemma const_err_grad np (F : list R -> res (R * list R)) e : F (repeat 0 np) = Err e -> is_grad np F.
Proof. intros H V G HV. specialize (HV _ (repeat_length 0 np)). congruence. Qed.

Lemma over_grad np F m : is_grad np F -> is_grad np (fun theta => dor v <- F theta ; over_vg v m).
Proof.
  intros HF V G HV theta Hl. destruct m as [|m].
  { specialize (HV theta Hl). destruct (F theta); discriminate. }
  set (v := fun theta => match F theta with Ok v => v | _ => (0, []) end).
  assert (Ev : forall th, length th = np -> F th = Ok (fst (v th), snd (v th))). { intros th Hth. specialize (HV th Hth). unfold v. destruct (F th) as [[]|]; [reflexivity|discriminate]. }
  assert (EV : forall th, length th = np -> V th = fst (v th) / INR (S m) /\ G th = map (fun x => x / INR (S m)) (snd (v th))).
  { intros th Hth. specialize (HV th Hth). rewrite Ev in HV by exact Hth. cbn [rbind over_vg fst snd] in HV. injection HV as <- <-. split; reflexivity. }
  destruct (HF (fun th => fst (v th)) (fun th => snd (v th)) Ev theta Hl) as [L D]. destruct (EV theta Hl) as [_ ->]. rewrite map_length. split; auto.
  intros k Hk. replace 0 with (0 / INR (S m)) at 2 by (unfold Rdiv; ring). rewrite (map_nth (fun x => x / INR (S m))).
  apply is_derive_ext with (f := fun h => / INR (S m) * fst (v (bumpat theta k h))).
  { intros h. rewrite (proj1 (EV _ (eq_trans (bumpat_length theta k h) Hl))). apply Rmult_comm. }
  replace (nth k (snd (v theta)) 0 / INR (S m)) with (/ INR (S m) * nth k (snd (v theta)) 0) by (apply Rmult_comm).
  apply is_derive_scal; auto.
Qed.

(** C53: if the model returns with every transition term its gradient, the transition part is returned
    with its exact gradient (each component the derivative with respect to that parameter). *)
Theorem C53_xnext_gradient : forall np (pm : list R -> pmodel P U Y T) s,
  (forall a b u t, is_grad np (fun theta => pm_xnext_vg (pm theta) a b u t)) ->
  is_grad np (fun theta => eval_logp_xnext_val_grad_fulltraj (pm theta) np s).
Proof.
  intros np pm s H. unfold eval_logp_xnext_val_grad_fulltraj. apply over_grad.
  apply (for_sum_vg_grad np (fun i theta => dor a <- idx (st_sest s) i ; dor b <- idx (st_sest s) (S i) ; dor u <- idx (st_u s) i ; dor t <- idx (st_t s) i ;
                       pm_xnext_vg (pm theta) a b u t)); [|apply zero_grad].
  intros i. destruct (idx (st_sest s) i) as [a|]; [|eapply const_err_grad; reflexivity]. cbn [rbind].
  destruct (idx (st_sest s) (S i)) as [b|]; [|eapply const_err_grad; reflexivity]. cbn [rbind].
  destruct (idx (st_u s) i) as [u|]; [|eapply const_err_grad; reflexivity]. cbn [rbind].
  destruct (idx (st_t s) i) as [t|]; [|eapply const_err_grad; reflexivity]. cbn [rbind]. apply H.
Qed.

(** C53: the same for the measurement part. *)
Theorem C53_y_gradient : forall np (pm : list R -> pmodel P U Y T) s,
  (forall a y t, is_grad np (fun theta => pm_y_vg (pm theta) a y t)) ->
  is_grad np (fun theta => eval_logp_y_val_grad_fulltraj (pm theta) np s).
Proof.
  intros np pm s H. unfold eval_logp_y_val_grad_fulltraj. apply over_grad.
  apply (for_sum_vg_grad np (fun i theta => dor y <- idx (st_y s) i ;
                       match y with
                       | None => Ok (0, repeat 0 np)
                       | Some y => dor a <- idx (st_sest s) i ; dor t <- idx (st_t s) i ; pm_y_vg (pm theta) a y t
                       end)); [|apply zero_grad].
  intros i. destruct (idx (st_y s) i) as [[y|]|]; [| |eapply const_err_grad; reflexivity]; cbn [rbind]; [|apply zero_grad].
  destruct (idx (st_sest s) i) as [a|]; [|eapply const_err_grad; reflexivity]. cbn [rbind].
  destruct (idx (st_t s) i) as [t|]; [|eapply const_err_grad; reflexivity]. cbn [rbind]. apply H.
Qed.
End Theorems.

(** The initial term as the objective uses it: the mean of the values, with its gradient. *)
Definition x0_term {P U Y T} (pm : pmodel P U Y T) (part : list P) (t : T) : res (R * list R) :=
  dor r <- pm_x0_vg pm part t ; dor m <- rmean (fst r) ; Ok (m, snd r).

(** C53: what the optimiser is handed.  With exact gradients of every term from the model, the derivative of the returned
    value with respect to parameter k is the returned component k, plus the mean over all parameters of the initial
    term's gradient minus its component k. *)
Theorem C53_fval_grad : forall P U Y T np (pm : list R -> pmodel P U Y T) s,
  (forall a b u t, is_grad np (fun theta => pm_xnext_vg (pm theta) a b u t)) ->
  (forall a y t, is_grad np (fun theta => pm_y_vg (pm theta) a y t)) ->
  (forall a t, is_grad np (fun theta => x0_term (pm theta) a t)) ->
  forall V G, (forall theta, length theta = np -> fval_grad pm np s theta = Ok (V theta, G theta)) ->
  forall theta t0 v0 g0, length theta = np -> idx (st_t s) 0 = Ok t0 -> pm_x0_vg (pm theta) (st_part0 s) t0 = Ok (v0, g0) ->
  length (G theta) = np /\ length g0 = np /\ forall k, (k < np)%nat ->
    is_derive (fun h => V (bumpat theta k h)) 0 (nth k (G theta) 0 + (rsum g0 / INR np - nth k g0 0)).
Proof.
  intros P U Y T np pm s Hx Hy H0 V G HV theta t0 w0 g0 Hl Et Ew.
  assert (D : forall th, length th = np -> exists vy vx r m gm g, eval_logp_y_val_grad_fulltraj (pm th) np s = Ok vy /\ eval_logp_xnext_val_grad_fulltraj (pm th) np s = Ok vx /\
     pm_x0_vg (pm th) (st_part0 s) t0 = Ok r /\ rmean (fst r) = Ok m /\ rmean (snd r) = Ok gm /\ vadd (snd vy) (snd vx) = Ok g /\
     V th = -1 * (fst vy + m + fst vx) /\ G th = map (fun x => -1 * (x + gm)) g).
  { intros th Hth. specialize (HV th Hth). unfold fval_grad in HV. rewrite Et in HV.
    destruct (eval_logp_y_val_grad_fulltraj (pm th) np s) as [vy|]; [|discriminate]. destruct (eval_logp_xnext_val_grad_fulltraj (pm th) np s) as [vx|]; [|discriminate].
    cbn [rbind] in HV. destruct (pm_x0_vg (pm th) (st_part0 s) t0) as [r|]; [|discriminate]. cbn [rbind] in HV.
    destruct (rmean (fst r)) as [m|] eqn:E1; [|discriminate]. cbn [rbind] in HV. destruct (rmean (snd r)) as [gm|] eqn:E2; [|discriminate]. cbn [rbind] in HV.
    destruct (vadd (snd vy) (snd vx)) as [g|] eqn:E3; [|discriminate]. cbn [rbind] in HV. injection HV as <- <-. exists vy, vx, r, m, gm, g. repeat split; auto. }
  set (vy := fun th => match eval_logp_y_val_grad_fulltraj (pm th) np s with Ok v => v | _ => (0, []) end).
  set (vx := fun th => match eval_logp_xnext_val_grad_fulltraj (pm th) np s with Ok v => v | _ => (0, []) end).
  set (v0 := fun th => match x0_term (pm th) (st_part0 s) t0 with Ok v => v | _ => (0, []) end).
  assert (Ey : forall th, length th = np -> eval_logp_y_val_grad_fulltraj (pm th) np s = Ok (fst (vy th), snd (vy th))).
  { intros th Hth. destruct (D th Hth) as (a & b & c & d & e & f & E & _). unfold vy. rewrite E. destruct a; reflexivity. }
  assert (Ex : forall th, length th = np -> eval_logp_xnext_val_grad_fulltraj (pm th) np s = Ok (fst (vx th), snd (vx th))).
  { intros th Hth. destruct (D th Hth) as (a & b & c & d & e & f & _ & E & _). unfold vx. rewrite E. destruct b; reflexivity. }
  assert (E0 : forall th, length th = np -> x0_term (pm th) (st_part0 s) t0 = Ok (fst (v0 th), snd (v0 th))).
  { intros th Hth. destruct (D th Hth) as (a & b & c & d & e & f & _ & _ & E & E' & _). unfold v0. unfold x0_term. rewrite E. cbn [rbind]. rewrite E'. reflexivity. }
  assert (EV : forall th, length th = np -> V th = -1 * (fst (vy th) + fst (v0 th) + fst (vx th))).
  { intros th Hth. destruct (D th Hth) as (a & b & c & d & e & f & A & B & C & C' & _ & _ & E & _). rewrite E. unfold vy, vx, v0, x0_term. rewrite A, B, C. cbn [rbind]. rewrite C'. reflexivity. }
  destruct (C53_y_gradient np pm s Hy _ _ Ey theta Hl) as [Ly Dy]. destruct (C53_xnext_gradient np pm s Hx _ _ Ex theta Hl) as [Lx Dx].
  destruct (H0 _ _ _ _ E0 theta Hl) as [L0 D0].
  destruct (D theta Hl) as (a & b & r & m & gm & g & A & B & C & C' & C'' & Hg & _ & HG).
  rewrite Ey in A by exact Hl. injection A as <-. rewrite Ex in B by exact Hl. injection B as <-. cbn [fst snd] in *.
  destruct (vadd_ok _ _ _ Hg) as (L1 & L2 & HN). rewrite HG, map_length. split; [congruence|].
  assert (Hr : snd (v0 theta) = snd r). { unfold v0, x0_term. rewrite C. cbn [rbind]. rewrite C'. reflexivity. }
  rewrite Ew in C. injection C as <-. cbn [fst snd] in *. split; [rewrite <- Hr; exact L0|]. intros k Hk.
  assert (Hgm : gm = rsum g0 / INR np).
  { unfold rmean in C''. assert (Lg : length g0 = np) by (rewrite <- Hr; exact L0). rewrite <- Lg. destruct g0 as [|x l]; [cbn in Lg; lia|]. congruence. }
  assert (Hnk : nth k (map (fun x => -1 * (x + gm)) g) 0 = -1 * (nth k g 0 + gm)).
  { rewrite (nth_indep _ 0 (-1 * (0 + gm))) by (rewrite map_length; lia). rewrite (map_nth (fun x => -1 * (x + gm))). reflexivity. }
  rewrite Hnk.
  apply is_derive_ext with (f := fun h => -1 * (fst (vy (bumpat theta k h)) + fst (v0 (bumpat theta k h)) + fst (vx (bumpat theta k h)))); [intros h; symmetry; apply EV; rewrite bumpat_length; exact Hl|].
  replace (-1 * (nth k g 0 + gm) + (rsum g0 / INR np - nth k g0 0)) with (-1 * (nth k g 0 + nth k g0 0)) by (rewrite <- Hgm; ring).
  apply is_derive_scal. replace (nth k g 0 + nth k g0 0) with (nth k (snd (vy theta)) 0 + nth k (snd (v0 theta)) 0 + nth k (snd (vx theta)) 0).
  - apply (is_derive_plus (V := R_NormedModule)); [apply (is_derive_plus (V := R_NormedModule))|]; auto.
  - specialize (HN k). cbn [snd] in HN. rewrite HN, Hr. lra.
Qed.
(** C53: so component k is right exactly if the initial term's gradient has component k equal to its mean (as with one
    parameter, or an initial density without parameters). *)
Theorem C53_fval_grad_right_iff : forall P U Y T np (pm : list R -> pmodel P U Y T) s,
  (forall a b u t, is_grad np (fun theta => pm_xnext_vg (pm theta) a b u t)) ->
  (forall a y t, is_grad np (fun theta => pm_y_vg (pm theta) a y t)) ->
  (forall a t, is_grad np (fun theta => x0_term (pm theta) a t)) ->
  forall V G, (forall theta, length theta = np -> fval_grad pm np s theta = Ok (V theta, G theta)) ->
  forall theta t0 v0 g0 k, length theta = np -> idx (st_t s) 0 = Ok t0 -> pm_x0_vg (pm theta) (st_part0 s) t0 = Ok (v0, g0) -> (k < np)%nat ->
    is_derive (fun h => V (bumpat theta k h)) 0 (nth k (G theta) 0) <-> nth k g0 0 = rsum g0 / INR np.
Proof.
  intros P U Y T np pm s Hx Hy H0 V G HV theta t0 v0 g0 k Hl Et Ew Hk.
  destruct (C53_fval_grad _ _ _ _ _ _ _ Hx Hy H0 _ _ HV _ _ _ _ Hl Et Ew) as (_ & _ & D). specialize (D k Hk). split; intros H.
  - pose proof (is_derive_unique _ _ _ H) as E1. pose proof (is_derive_unique _ _ _ D) as E2. rewrite E1 in E2. lra.
  - rewrite H in D. replace (nth k (G theta) 0 + (rsum g0 / INR np - rsum g0 / INR np)) with (nth k (G theta) 0) in D by ring. exact D.
Qed.

(** A two-parameter model with one particle per step whose initial log-density is its first parameter. *)
Definition demo_model (theta : list R) : pmodel unit unit unit unit :=
  mkPM (fun _ _ _ _ => Ok [0]) (fun _ _ _ => Ok [0]) (fun _ _ => Ok [nth 0 theta 0])
       (fun _ _ _ _ => Ok (0, [0; 0])) (fun _ _ _ => Ok (0, [0; 0])) (fun _ _ => Ok ([nth 0 theta 0], [1; 0])).
Definition demo_straj : straj unit unit unit unit := mkST [[tt]] [tt] [tt] [None] [tt].

(** C53, refuted part: with several parameters the gradient is wrong even though every term's gradient
    supplied by the model is right. *)
Theorem C53_fval_grad_refuted : exists (pm : list R -> pmodel unit unit unit unit) s,
  (forall a b u t, is_grad 2 (fun theta => pm_xnext_vg (pm theta) a b u t)) /\
  (forall a y t, is_grad 2 (fun theta => pm_y_vg (pm theta) a y t)) /\
  (forall a t, is_grad 2 (fun theta => x0_term (pm theta) a t)) /\
  fval_grad pm 2 s [0; 0] = Ok (0, [-1/2; -1/2]) /\
  (forall h, fval_grad pm 2 s (bumpat [0; 0] 0 h) = Ok (- h, [-1/2; -1/2])) /\
  ~ is_derive (fun h => - h) 0 (-1/2).
Proof.
  exists demo_model, demo_straj.
  assert (Hval : forall theta, theta <> [] -> fval_grad demo_model 2 demo_straj theta = Ok (- nth 0 theta 0, [-1/2; -1/2])).
  { intros [|x theta] Hne; [congruence|]. unfold fval_grad, demo_straj, demo_model, eval_logp_y_val_grad_fulltraj, eval_logp_xnext_val_grad_fulltraj, rmean.
    cbn -[Rplus Rmult Rdiv Rinv]. apply f_equal, f_equal2; [field|apply f_equal2; [field|apply f_equal2; [field|reflexivity]]]. }
  split; [intros; apply zero_grad|]. split; [intros; apply zero_grad|]. split; [|split; [|split]].
  - intros a t V G H theta Hl. assert (EV : forall th, length th = 2%nat -> V th = nth 0 th 0).
    { intros th Hth. specialize (H th Hth). cbn -[nth Rplus Rdiv] in H. injection H as <- _. unfold Rdiv; rewrite Rinv_1; ring. }
    assert (EG : G theta = [1; 0]).
    { specialize (H theta Hl). cbn -[nth Rplus Rdiv] in *; injection H as _ <-; reflexivity. }
    rewrite EG. split; auto. intros k Hk. destruct theta as [|x [|y [|z l]]]; try discriminate.
    apply is_derive_ext with (f := fun h => x + (if Nat.eqb k 0 then h else 0)).
    { intros h. rewrite EV by (rewrite bumpat_length; exact Hl). unfold bumpat. destruct k; cbn; lra. }
    destruct k as [|[|k]]; try lia; cbn; auto_derive; auto; lra.
  - rewrite Hval by discriminate. cbn. do 2 f_equal. lra.
  - intros h. rewrite Hval by discriminate. cbn. do 2 f_equal. lra.
  - intros H. apply is_derive_unique in H.
    assert (H2 : is_derive (fun h => - h) 0 (-1)) by (auto_derive; auto; lra). apply is_derive_unique in H2. lra.
Qed.

(** C53, refuted part: the interface allows a model to return the sum of log p(x_0) over the particles as
    one number, but then the initial term enters the objective with the sum instead of the mean. *)
Theorem C53_x0_sum_refuted : exists (pm : list R -> pmodel unit unit unit unit) s,
  let ll := fun _ : unit => fun _ : unit => 1 in
  let pl := fun p => mkPM (pm_xnext p) (pm_y p) (fun part t => Ok (map (fun x => ll x t) part)) (pm_xnext_vg p) (pm_y_vg p) (pm_x0_vg p) in
  (forall theta part t, pm_x0 (pm theta) part t = Ok [rsum (map (fun x => ll x t) part)]) /\
  fval (fun theta => pl (pm theta)) s [] = Ok (-1) /\ fval pm s [] = Ok (-2).
Proof.
  exists (fun _ => mkPM (fun _ _ _ _ => Ok [0]) (fun _ _ _ => Ok [0]) (fun part t => Ok [rsum (map (fun x => 1) part)])
       (fun _ _ _ _ => Ok (0, [])) (fun _ _ _ => Ok (0, [])) (fun _ _ => Ok ([], []))), (mkST [[tt; tt]] [tt; tt] [tt] [None] [tt]).
  cbn zeta. split; [reflexivity|]. split; unfold fval, eval_logp_y_fulltraj, eval_logp_xnext_fulltraj, rmean, rsum; cbn -[Rplus Rmult Rdiv Rinv INR]; f_equal; cbn; field.
Qed.

(** The hypotheses of C53_objective are met by a model with two trajectories of two steps. *)
Example C53_example : exists lxn ly lx0 (pm : list R -> pmodel nat unit unit unit) trajs s,
  (forall theta, evaluates (lxn theta) (ly theta) (lx0 theta) (pm theta)) /\ stacked trajs (st_sest s) /\
  nth_error (st_sest s) 0 = Some (st_part0 s) /\ length trajs = 2%nat /\ length (st_sest s) = 2%nat /\ fval pm s [3] = Ok (- 7).
Proof.
  exists (fun th x x' _ _ => INR x * INR x' + nth 0 th 0), (fun _ x _ _ => INR x), (fun _ x _ => INR x).
  exists (fun th => mkPM (fun a b _ _ => Ok (map (fun xx => INR (fst xx) * INR (snd xx) + nth 0 th 0) (combine a b))) (fun a _ _ => Ok (map INR a)) (fun a _ => Ok (map INR a))
       (fun _ _ _ _ => Ok (0, [])) (fun _ _ _ => Ok (0, [])) (fun _ _ => Ok ([], []))).
  exists [[1;2];[0;3]]%nat, (mkST [[1;0];[2;3]]%nat [1;0]%nat [tt] [None; Some tt] [tt; tt]).
  split; [intros th; split; [|split]; reflexivity|].
  split; [split; [repeat constructor|]; intros [|[|[|i]]] row H; cbn in H; try discriminate; injection H as <-; reflexivity|].
  repeat split. unfold fval, eval_logp_y_fulltraj, eval_logp_xnext_fulltraj, rmean, rsum. cbn -[Rplus Rmult Rdiv Rinv]. f_equal. cbn. field.
Qed.

(** The gradient variants return the sum over the particles of the log-densities and a vector with one entry per parameter
    (for the initial term: the log-densities themselves and such a vector). *)
Definition evaluates_vg {P U Y T} (np : nat) (lxn : P -> P -> U -> T -> R) (ly : P -> Y -> T -> R) (lx0 : P -> T -> R) (pm : pmodel P U Y T) : Prop :=
  (forall a b u t, length a = length b -> exists g, length g = np /\ pm_xnext_vg pm a b u t = Ok (rsum (map (fun xx => lxn (fst xx) (snd xx) u t) (combine a b)), g)) /\
  (forall a y t, exists g, length g = np /\ pm_y_vg pm a y t = Ok (rsum (map (fun x => ly x y t) a), g)) /\
  (forall a t, exists g, length g = np /\ pm_x0_vg pm a t = Ok (map (fun x => lx0 x t) a, g)).

Lemma vadd_total a : forall b, length a = length b -> exists c, length c = length a /\ vadd a b = Ok c.
Proof.
  induction a as [|x a IH]; intros [|y b] H; try discriminate; [exists []; auto|].
  destruct (IH b) as (c & Hc & E); [cbn in H; lia|]. exists (x + y :: c). cbn. rewrite E, Hc. auto.
Qed.
Lemma for_sum_vg_value np is (f : nat -> res (R * list R)) (h : nat -> res R) : (forall i v, In i is -> h i = Ok v -> exists g, length g = np /\ f i = Ok (v, g)) ->
  forall acc r, length (snd acc) = np -> for_sum is h (fst acc) = Ok r -> exists g, length g = np /\ for_sum_vg is f acc = Ok (r, g).
Proof.
  induction is as [|i is IH]; intros H acc r Hl E; cbn in E.
  - injection E as <-. exists (snd acc). destruct acc; auto.
  - destruct (h i) as [v|] eqn:Ei; [|discriminate]. cbn [rbind] in E. destruct (H i v (or_introl eq_refl) Ei) as (g & Hg & Ef).
    cbn [for_sum_vg]. rewrite Ef. cbn [rbind]. destruct (vadd_total (snd acc) g) as (c & Hc & Ec); [congruence|]. cbn [snd fst]. rewrite Ec. cbn [rbind].
    apply (IH (fun j w Hj => H j w (or_intror Hj)) (fst acc + v, c)); cbn [fst snd]; [congruence|exact E].
Qed.
(** C53: with the gradient variants, whatever the optimiser, [maximize] is that optimiser started at the current parameters
    on the same value, minus the mean log-likelihood, together with a vector with one entry per parameter; C53_fval_grad
    says what that vector is. *)
Theorem C53_maximize_grad : forall P U Y T lxn ly lx0 (pm : list R -> pmodel P U Y T) params trajs s,
  params <> [] ->
  (forall theta, evaluates_vg (length params) (lxn theta) (ly theta) (lx0 theta) (pm theta)) ->
  stacked trajs (st_sest s) -> nth_error (st_sest s) 0 = Some (st_part0 s) -> trajs <> [] ->
  (length (st_sest s) - 1 <= length (st_u s))%nat -> (length (st_sest s) <= length (st_y s))%nat -> (length (st_sest s) <= length (st_t s))%nat ->
  exists G, (forall theta, length (G theta) = length params /\
      fval_grad pm (length params) s theta = Ok (- mean (map (fun tr => path_loglik (lxn theta) (ly theta) (lx0 theta) tr (st_u s) (st_y s) (st_t s)) trajs), G theta)) /\
    forall B (opt : (list R -> res (R * list R)) -> list R -> B -> res (list R)) bounds,
    maximize_numeric_grad opt pm params bounds s =
    opt (fun theta => Ok (- mean (map (fun tr => path_loglik (lxn theta) (ly theta) (lx0 theta) tr (st_u s) (st_y s) (st_t s)) trajs), G theta)) params bounds.
Proof.
  intros P U Y T lxn ly lx0 pm params trajs s Hp HE HS H0 Ht HU HY HT.
  set (pv := fun theta => mkPM (fun a b u t => Ok (map (fun xx => lxn theta (fst xx) (snd xx) u t) (combine a b)))
      (fun a y t => Ok (map (fun x => ly theta x y t) a)) (fun a t => Ok (map (fun x => lx0 theta x t) a))
      (pm_xnext_vg (pm theta)) (pm_y_vg (pm theta)) (pm_x0_vg (pm theta)) : pmodel P U Y T).
  assert (HV : forall theta, evaluates (lxn theta) (ly theta) (lx0 theta) (pv theta)) by (intros th; split; [|split]; reflexivity).
  pose proof (C53_objective lxn ly lx0 pv trajs s HV HS H0 Ht HU HY HT) as HO.
  assert (HF : forall theta, exists g, length g = length params /\ fval_grad pm (length params) s theta =
     Ok (- mean (map (fun tr => path_loglik (lxn theta) (ly theta) (lx0 theta) tr (st_u s) (st_y s) (st_t s)) trajs), g)).
  { intros theta. specialize (HO theta). destruct (HE theta) as (Ex & Ey & E0). unfold fval in HO. 
    unfold eval_logp_y_fulltraj, eval_logp_xnext_fulltraj in HO. unfold fval_grad, eval_logp_y_val_grad_fulltraj, eval_logp_xnext_val_grad_fulltraj.
    destruct (for_sum (seq 0 (length (st_sest s))) _ 0) as [vy|] eqn:Fy in HO; [|discriminate].
    unshelve epose proof (for_sum_vg_value (length params) (seq 0 (length (st_sest s))) (fun i => dor y <- idx (st_y s) i ;
                       match y with
                       | None => Ok (0, repeat 0 (length params))
                       | Some y => dor a <- idx (st_sest s) i ; dor t <- idx (st_t s) i ; pm_y_vg (pm theta) a y t
                       end) _ _ (0, repeat 0 (length params)) vy (repeat_length 0 (length params)) Fy) as (gy & Hgy & Ey').
    { intros i v _ Hi. cbv beta in *. destruct (idx (st_y s) i) as [[y|]|]; [| |discriminate]; cbn [rbind] in *.
      - destruct (idx (st_sest s) i) as [a|]; [|discriminate]. cbn [rbind] in *. destruct (idx (st_t s) i) as [t|]; [|discriminate]. cbn [rbind] in *.
        cbn [pv pm_y rbind] in Hi. injection Hi as <-. apply Ey.
      - injection Hi as <-. exists (repeat 0 (length params)). rewrite repeat_length. auto. }
    rewrite Ey'. cbn [rbind] in *. destruct (num_traj (st_sest s)) as [|m] eqn:Em; [discriminate|]. unfold over_vg, over in *. cbn [rbind fst snd] in *.
    destruct (for_sum (seq 0 (length (st_sest s) - 1)) _ 0) as [vx|] eqn:Fx in HO; [|discriminate].
    unshelve epose proof (for_sum_vg_value (length params) (seq 0 (length (st_sest s) - 1)) (fun i => dor a <- idx (st_sest s) i ; dor b <- idx (st_sest s) (S i) ; dor u <- idx (st_u s) i ; dor t <- idx (st_t s) i ;
                       pm_xnext_vg (pm theta) a b u t) _ _ (0, repeat 0 (length params)) vx (repeat_length 0 (length params)) Fx) as (gx & Hgx & Ex').
    { intros i v _ Hi. cbv beta in *. destruct (idx (st_sest s) i) as [a|] eqn:Ea; [|discriminate]. cbn [rbind] in *. destruct (idx (st_sest s) (S i)) as [b|] eqn:Eb; [|discriminate]. cbn [rbind] in *.
      destruct (idx (st_u s) i) as [u|]; [|discriminate]. cbn [rbind] in *. destruct (idx (st_t s) i) as [t|]; [|discriminate]. cbn [rbind] in *.
      cbn [pv pm_xnext rbind] in Hi. injection Hi as <-. apply Ex. apply idx_ok in Ea. apply idx_ok in Eb. rewrite (row_length _ _ _ _ HS Ea), (row_length _ _ _ _ HS Eb). reflexivity. }
    rewrite Ex'. cbn [rbind fst snd] in *. destruct (idx (st_t s) 0) as [t0|]; [|discriminate]. cbn [rbind pv pm_x0] in *.
    destruct (E0 (st_part0 s) t0) as (g0 & Hg0 & ->). cbn [rbind fst snd] in *. destruct (rmean _) as [m0|] eqn:Em0 in HO; [|discriminate]. rewrite Em0. cbn [rbind] in *.
    unfold rmean at 1. destruct g0 as [|x g0]; [exfalso; destruct params; [congruence|discriminate]|]. cbn [rbind].
    destruct (vadd_total (map (fun z => z / INR (S m)) gy) (map (fun z => z / INR (S m)) gx)) as (c & Hc & ->); [rewrite !map_length; congruence|].
    cbn [rbind]. injection HO as <-. eexists. split; [|reflexivity]. rewrite map_length, Hc, map_length. exact Hgy. }
  exists (fun theta => match fval_grad pm (length params) s theta with Ok r => snd r | Err _ => [] end).
  assert (HG : forall theta, length (match fval_grad pm (length params) s theta with Ok r => snd r | Err _ => [] end) = length params /\
      fval_grad pm (length params) s theta = Ok (- mean (map (fun tr => path_loglik (lxn theta) (ly theta) (lx0 theta) tr (st_u s) (st_y s) (st_t s)) trajs),
        match fval_grad pm (length params) s theta with Ok r => snd r | Err _ => [] end)).
  { intros theta. destruct (HF theta) as (g & Hg & ->). auto. }
  split; [exact HG|]. intros B opt bounds. unfold maximize_numeric_grad. f_equal. apply functional_extensionality. intros theta. apply HG.
Qed.
(** Its hypotheses are met: two trajectories of two steps, one parameter. *)
Example C53_maximize_grad_example : exists lxn ly lx0 (pm : list R -> pmodel nat unit unit unit) trajs s,
  (forall theta, evaluates_vg 1 (lxn theta) (ly theta) (lx0 theta) (pm theta)) /\ stacked trajs (st_sest s) /\
  nth_error (st_sest s) 0 = Some (st_part0 s) /\ length trajs = 2%nat /\ length (st_sest s) = 2%nat /\ fval_grad pm 1 s [3] = Ok (- 7, [-1]).
Proof.
  exists (fun th x x' _ _ => INR x * INR x' + nth 0 th 0), (fun _ x _ _ => INR x), (fun _ x _ => INR x).
  exists (fun th => mkPM (fun _ _ _ _ => Ok []) (fun _ _ _ => Ok []) (fun _ _ => Ok [])
       (fun a b _ _ => Ok (rsum (map (fun xx => INR (fst xx) * INR (snd xx) + nth 0 th 0) (combine a b)), [INR (length a)])) (fun a _ _ => Ok (rsum (map INR a), [0])) (fun a _ => Ok (map INR a, [0]))).
  exists [[1;2];[0;3]]%nat, (mkST [[1;0];[2;3]]%nat [1;0]%nat [tt] [None; Some tt] [tt; tt]).
  split; [intros th; split; [|split]; intros; eexists; (split; [|reflexivity]); reflexivity|].
  split; [split; [repeat constructor|]; intros [|[|[|i]]] row H; cbn in H; try discriminate; injection H as <-; reflexivity|].
  repeat split. unfold fval_grad, eval_logp_y_val_grad_fulltraj, eval_logp_xnext_val_grad_fulltraj, rmean, rsum. cbn -[Rplus Rmult Rdiv Rinv].
  apply f_equal, f_equal2; [cbn; field|apply f_equal2; [cbn; field|reflexivity]].
Qed.

Print Assumptions C53_objective.
Print Assumptions C53_fval_grad_right_iff.
Print Assumptions C53_fval_grad_refuted.
