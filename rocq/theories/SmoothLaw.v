(** Totality of the rejection samplers and the law of each trajectory's index. *)
From Coquelicot Require Import Coquelicot.
From Coq Require Import String Bool Reals Lra Lia List Arith Permutation.
From Verif Require Import Base XR SampleModel SampleSpec SampleProofs PAModel WeightSpec WeightProofs
  FilterModel TrajModel Prop_Cond SmoothModel SmoothSpec SmoothProofs SmoothBsi SmoothRs Perms.
Import ListNotations.
Open Scope R_scope.

Lemma tape_ok : rng_ok tape.
Proof.
  assert (U : forall r, unit_draw (unit_of r)).
  { intros r. unfold unit_of, unit_draw. destruct (Rle_dec 0 r); [destruct (Rlt_dec r 1)|]; lra. }
  split.
  - intros [|r s]; simpl; [split; lra|apply U].
  - intros n [|r s]; cbn [permutation tape fst]; auto.
    apply Permutation_sym. apply perms_perm. destruct (nth_in_or_default (unif_index (length (perms (seq 0 n))) (unit_of r)) (perms (seq 0 n)) (seq 0 n)) as [H|H]; auto.
    rewrite H. apply perms_perm. auto.
Qed.

Lemma combine_nth_error {A B} (l : list A) : forall (r : list B) q a b, nth_error l q = Some a -> nth_error r q = Some b ->
  nth_error (combine l r) q = Some (a, b).
Proof.
  induction l as [|x l IH]; intros [|z r] [|q] a b H1 H2; simpl in *; try discriminate.
  - inversion H1; inversion H2; auto.
  - apply IH; auto.
Qed.

(** ** The law of one trajectory's candidate and acceptance draw *)
Lemma occ_sum l n (F : nat -> R) : Forall (fun i => (i < n)%nat) l ->
  rsum (map F l) = rsum (map (fun c => INR (occurrences c l) * F c) (seq 0 n)).
Proof.
  induction 1 as [|a l Ha Hl IH]; simpl map; simpl rsum.
  - symmetry. transitivity (rsum (map (fun v => 0 * F v) (seq 0 n))); [apply rsum_ext; auto|].
    rewrite rsum_map_scale. lra.
  - transitivity (rsum (map (fun c => (if Nat.eqb a c then 1 else 0) * F c + INR (occurrences c l) * F c) (seq 0 n))).
    + rewrite rsum_map_plus, sum_indicator by apply seq_NoDup. unfold rsum at 1. simpl. fold (rsum (map F l)). rewrite IH.
      destruct (in_dec _ _ _) as [|N]; [auto|]. exfalso. apply N. apply in_seq. lia.
    + apply rsum_ext. intros c _. unfold occurrences. cbn [count_occ]. destruct (Nat.eq_dec a c) as [->|Hn].
      * rewrite Nat.eqb_refl, S_INR. lra.
      * rewrite (proj2 (Nat.eqb_neq a c) Hn). lra.
Qed.

Definition perm_of (m : nat) (v : R) : list nat :=
  nth (unif_index (length (perms (seq 0 m))) v) (perms (seq 0 m)) (seq 0 m).

Lemma perm_of_perm m v : Permutation (perm_of m v) (seq 0 m).
Proof.
  unfold perm_of. apply Permutation_sym, perms_perm.
  destruct (nth_in_or_default (unif_index (length (perms (seq 0 m))) v) (perms (seq 0 m)) (seq 0 m)) as [H|H]; auto.
  rewrite H. apply perms_perm. auto.
Qed.

Lemma propose_law w m j (G : nat -> R -> R) (gc : nat -> R) : weights_ok w -> (j < m)%nat ->
  (forall c, (c < length w)%nat -> is_RInt (G c) 0 1 (gc c)) ->
  expect (2 + m) (fun l => match l with r :: v :: ts => G (nth j (cands w m r (perm_of m v)) 0%nat) (nth j ts 0) | _ => 0 end)
    (rsum (map (fun c => nth c w 0 / rsum w * gc c) (seq 0 (length w)))).
Proof.
  intros Hw Hj HG. assert (Hm : 0 < INR m) by (apply lt_0_INR; lia).
  change (2 + m)%nat with (S (S m)). cbn [expect].
  exists (fun r => rsum (map gc (smp w m r)) / INR m). split.
  - intros r Hr. exists (fun v => gc (nth j (cands w m r (perm_of m v)) 0%nat)).
    assert (Lp : forall v, length (perm_of m v) = m).
    { intros v. pose proof (Permutation_length (perm_of_perm m v)) as L. rewrite seq_length in L. auto. }
    split.
    + intros v Hv. apply (expect_coord m j (G (nth j (cands w m r (perm_of m v)) 0%nat))); auto. apply HG.
      pose proof (cands_lt w m r (perm_of m v) Hw ltac:(split; lra) (perm_of_perm m v)) as F.
      rewrite Forall_forall in F. apply F. apply nth_In. destruct (cands_spec w m r (perm_of m v) (perm_of_perm m v)) as [_ ->]. auto.
    + set (ps := perms (seq 0 m)).
      assert (HK : (0 < length ps)%nat).
      { assert (In (seq 0 m) ps) by (apply perms_perm; auto). destruct ps; [destruct H|simpl; lia]. }
      pose proof (unif_index_integral (length ps) (fun q => gc (nth (nth j (nth q ps (seq 0 m)) 0%nat) (smp w m r) 0%nat)) HK) as HI.
      assert (E : rsum (map (fun q => gc (nth (nth j (nth q ps (seq 0 m)) 0%nat) (smp w m r) 0%nat)) (seq 0 (length ps))) / INR (length ps)
                  = rsum (map gc (smp w m r)) / INR m).
      { transitivity (rsum (map (fun p => gc (nth (nth j p 0%nat) (smp w m r) 0%nat)) ps) / INR (length ps)).
        - f_equal. assert (M : forall (F : list nat -> R) (d : list nat) l, map (fun q => F (nth q l d)) (seq 0 (length l)) = map F l).
          { intros F d l. clear. induction l as [|a l IH]; auto. cbn [length seq map]. f_equal. rewrite <- seq_shift, map_map. exact IH. }
          rewrite (M (fun p => gc (nth (nth j p 0%nat) (smp w m r) 0%nat))). auto.
        - unfold ps. rewrite (perms_average m j (fun q => gc (nth q (smp w m r) 0%nat)) Hj). f_equal.
          assert (M : forall (d : nat) l, map (fun q => gc (nth q l d)) (seq 0 (length l)) = map gc l).
          { intros d l. clear. induction l as [|a l IH]; auto. cbn [length seq map]. f_equal. rewrite <- seq_shift, map_map. exact IH. }
          rewrite <- (M 0%nat (smp w m r)). rewrite smp_length. auto. }
      rewrite E in HI. eapply is_RInt_ext01; [|exact HI].
      intros v Hv. cbv beta. f_equal. unfold cands.
      rewrite (nth_indep (map _ _) 0%nat (nth 0 (smp w m r) 0%nat)) by (rewrite map_length, Lp; auto).
      rewrite (map_nth (fun q => nth q (smp w m r) 0%nat)). unfold perm_of. fold ps. f_equal.
  - eapply is_RInt_ext01 with (f := fun r => rsum (map (fun c => gc c / INR m * copies w m c r) (seq 0 (length w)))).
    + intros r Hr. rewrite (occ_sum _ (length w) gc) by (apply smp_lt; auto; split; lra).
      rewrite <- rsum_map_div. apply rsum_ext. intros c _. unfold copies. rewrite smp_spec by auto. field. lra.
    + apply is_RInt_rsum. intros c Hc. apply in_seq in Hc.
      assert (Ec : nth_error w c = Some (nth c w 0)) by (apply nth_error_nth'; lia).
      pose proof (is_RInt_scal (V := R_NormedModule) _ _ _ (gc c / INR m) _ (sample_expected w m c _ Hw ltac:(lia) Ec)) as HS.
      replace (nth c w 0 / rsum w * gc c) with (scal (gc c / INR m) (INR m * (nth c w 0 / rsum w))).
      * exact HS.
      * unfold scal; simpl; unfold mult; simpl. destruct Hw. field. lra.
Qed.

(** ** Rejection sampling *)
Section RsRun.
Context {W P U Y V : Type}.
Variable sm : smodel W P U Y V.
Variable g : rng W.
Hypothesis Hg : rng_ok g.
Variable ld : cell U -> nat -> P -> P -> xr.
Hypothesis Hmk : markov_density sm ld.
Variables (u : list (cell U)) (y : list (cell Y)) (t : list nat) (k : nat).
Variables (uk : cell U) (tk : nat).
Hypothesis Hu : nth_error u k = Some uk.
Hypothesis Ht : nth_error t k = Some tk.
Variables (pa : papprox P) (ptr : list (tstep P)) (pind : list nat) (fut : list (tstep P)) (f0 : tstep P).
Hypothesis Hf0 : nth_error fut 0 = Some f0.
Hypothesis Hlen : length (part pa) = length (lw pa).
Hypothesis Hpi : length pind = length (part pa).
Hypothesis Hlive : live (lw pa).
Variable wn : list xr.
Hypothesis Hwn : norm_weights (lw pa) = Ok wn.

(** Index [i] is a legitimate choice for future particle [j]: either accepted with
    some uniform draw, or drawn from the exact backward weights. *)
Definition chosen (mp : xr) (j i : nat) : Prop :=
  (i < length (part pa))%nat /\
  ((exists v, unit_draw v /\ accepts ld uk tk pa f0 mp v i j = true) \/
   (exists x' r, nth_error (part (st_pa f0)) j = Some x' /\ unit_draw r /\
      np_sample (map Fin (backward_weights (ld uk tk) pa x')) 1 r = Ok [i])).

Definition reachable (todo : list nat) : Prop :=
  Forall (fun j => exists x', nth_error (part (st_pa f0)) j = Some x' /\ usable (ld uk tk) pa x') todo.

Lemma reachable_lt todo : reachable todo -> Forall (fun j => (j < length (part (st_pa f0)))%nat) todo.
Proof. apply Forall_impl. intros j (x' & H & _). apply nth_error_Some. congruence. Qed.

Lemma bsi_full_run find s : reachable find ->
  exists l s', bsi_full sm g pa ptr pind fut find u y t k s = Ok (l, s') /\ length l = length find /\
    forall q j i, nth_error find q = Some j -> nth_error l q = Some i -> (i < length (part pa))%nat /\
      exists x' r, nth_error (part (st_pa f0)) j = Some x' /\ unit_draw r /\
        np_sample (map Fin (backward_weights (ld uk tk) pa x')) 1 r = Ok [i].
Proof.
  intros H. unfold reachable in H. rewrite Forall_forall in H.
  rewrite (bsi_full_eq sm g ld Hmk u y t k uk tk Hu Ht pa ptr pind fut f0 Hf0) by auto.
  eexists _, _. split; [reflexivity|].
  pose proof (stream_length g (length find) s) as Ls. pose proof (stream_unit g (length find) Hg s) as Us.
  set (rs := fst (stream g (length find) s)) in *. clearbody rs. split.
  - rewrite map_length, combine_length. lia.
  - intros q j i Hj Hi. rewrite nth_error_map in Hi.
    assert (Q : exists r, nth_error rs q = Some r).
    { destruct (nth_error rs q) eqn:E; eauto. apply nth_error_None in E.
      assert (q < length find)%nat by (apply nth_error_Some; congruence). lia. }
    destruct Q as [r Er].
    assert (Ec : nth_error (combine find rs) q = Some (j, r)).
    { clear -Hj Er. revert rs q Hj Er. induction find as [|a l IH]; intros [|b rs] [|q] Hj Er; simpl in *; try discriminate.
      - inversion Hj; inversion Er; auto.
      - apply IH; auto. }
    rewrite Ec in Hi. simpl in Hi. destruct (H j) as (x' & Ex & Hus); [eapply nth_error_In; eauto|].
    rewrite Ex in Hi. inversion Hi; subst i. rewrite Forall_forall in Us. apply nth_error_In in Er. specialize (Us _ Er).
    pose proof (usable_weights _ _ _ Hus) as Hw. split.
    + destruct (sample_valid _ 1 r Hw Us) as (l & El & _ & Fl & _). rewrite pick_spec in El by auto. inversion El; subst.
      inversion Fl; subst. rewrite backward_weights_length in H2 by auto. lia.
    + exists x', r. split; auto. split; auto. apply pick_spec; auto.
Qed.

Lemma rs_step mp todo result s : NoDup todo -> Forall (fun j => (j < length result)%nat) todo -> reachable todo ->
  exists result' todo' ak s', rs_round sm g pa ptr pind fut u y t k mp wn todo result s = Ok ((result', todo', ak), s') /\
    length result' = length result /\ NoDup todo' /\ (length todo' + ak = length todo)%nat /\
    (forall j, In j todo' -> In j todo /\ nth_error result' j = nth_error result j) /\
    (forall j, ~ In j todo -> nth_error result' j = nth_error result j) /\
    (forall j, In j todo -> In j todo' \/ exists i, nth_error result' j = Some i /\ chosen mp j i).
Proof.
  intros N F R. destruct Hg as [Hg1 Hg2].
  destruct (rand g s) as [r s1] eqn:Er. pose proof (Hg1 s) as Ur. rewrite Er in Ur. simpl in Ur.
  destruct (permutation g (length todo) s1) as [p s2] eqn:Ep. pose proof (Hg2 (length todo) s1) as Pp. rewrite Ep in Pp. simpl in Pp.
  destruct (rs_round_run sm g ld Hmk u y t k uk tk Hu Ht pa ptr pind fut f0 Hf0 Hlen Hpi Hlive wn Hwn mp todo result r p
     (fst (stream g (length todo) s2)) Ur Pp (stream_length _ _ _) N F (reachable_lt _ R)) as (res' & td & ak & E & H1 & H2 & H3 & H4 & H5 & H6).
  exists res', td, ak. eexists. split; [exact (E s s1 s2 Er Ep eq_refl)|]. repeat (split; [assumption|]).
  intros j Hj. apply In_nth_error in Hj. destruct Hj as [q Hq].
  assert (Q : (q < length todo)%nat) by (apply nth_error_Some; congruence).
  destruct (nth_error (cands (map lin (lw pa)) (length todo) r p) q) as [c|] eqn:Ec.
  2:{ apply nth_error_None in Ec. destruct (cands_spec (map lin (lw pa)) (length todo) r p Pp) as [_ L]. lia. }
  pose proof (stream_unit g (length todo) (conj Hg1 Hg2) s2) as Us. pose proof (stream_length g (length todo) s2) as Ls.
  destruct (nth_error (fst (stream g (length todo) s2)) q) as [v|] eqn:Ev.
  2:{ apply nth_error_None in Ev. lia. }
  specialize (H6 q j c v Hq Ec Ev). destruct (accepts ld uk tk pa f0 mp v c j) eqn:Ea; auto.
  right. exists c. split; [tauto|]. split.
  - pose proof (cands_lt (map lin (lw pa)) (length todo) r p (weights_ok_lin _ Hlive) Ur Pp) as Fc.
    rewrite Forall_forall in Fc. rewrite Hlen. rewrite map_length in Fc. apply Fc. eapply nth_error_In; eauto.
  - left. exists v. split; auto. rewrite Forall_forall in Us. apply Us. eapply nth_error_In; eauto.
Qed.

Lemma full_finish mp todo result s : NoDup todo -> Forall (fun j => (j < length result)%nat) todo -> reachable todo ->
  exists res s', (do r <- bsi_full sm g pa ptr pind fut todo u y t k ; lift (scatter result todo r)) s = Ok (res, s') /\
    length res = length result /\ (forall j, ~ In j todo -> nth_error res j = nth_error result j) /\
    (forall j, In j todo -> exists i, nth_error res j = Some i /\ chosen mp j i).
Proof.
  intros N F R. destruct (bsi_full_run todo s R) as (l & s' & E & L & Hl).
  rewrite (bind_eq _ _ _ _ _ E). destruct (scatter_ok todo result l L F) as [res Es]. unfold lift. rewrite Es.
  destruct (scatter_spec _ _ _ _ Es N) as [C1 C2].
  exists res, s'. split; auto. split; [eapply scatter_length; eauto|]. split; auto.
  intros j Hj. apply In_nth_error in Hj. destruct Hj as [q Hq].
  destruct (nth_error l q) as [i|] eqn:Ei.
  2:{ apply nth_error_None in Ei. assert (q < length todo)%nat by (apply nth_error_Some; congruence). lia. }
  exists i. split; [eapply C2; eauto|]. destruct (Hl q j i Hq Ei) as (A & x' & r & B & C & D). split; auto. right. eauto.
Qed.

Lemma rs_loop_run mp n : forall todo result s, NoDup todo -> Forall (fun j => (j < length result)%nat) todo -> reachable todo ->
  exists res s', rs_loop sm g n pa ptr pind fut u y t k mp wn todo result s = Ok (res, s') /\
    length res = length result /\ (forall j, ~ In j todo -> nth_error res j = nth_error result j) /\
    (forall j, In j todo -> exists i, nth_error res j = Some i /\ chosen mp j i).
Proof.
  induction n as [|n IH]; intros todo result s N F R; cbn [rs_loop]; [apply full_finish; auto|].
  destruct (rs_step mp todo result s N F R) as (res' & td & ak & s' & E & H1 & H2 & H3 & H4 & H5 & H6).
  rewrite (bind_eq _ _ _ _ _ E). destruct td as [|j0 td].
  - exists res', s'. split; auto. split; auto. split; auto. intros j Hj. destruct (H6 j Hj) as [[]|]; auto.
  - destruct (IH (j0 :: td) res' s') as (res & s2 & E2 & L2 & A2 & B2); auto.
    { rewrite H1. rewrite Forall_forall in *. intros j Hj. apply F. apply H4; auto. }
    { unfold reachable in *. rewrite Forall_forall in *. intros j Hj. apply R. apply H4; auto. }
    exists res, s2. split; [exact E2|]. split; [congruence|]. split.
    + intros j Hj. rewrite A2; auto. intros Hin. apply Hj. apply H4; auto.
    + intros j Hj. destruct (H6 j Hj) as [Hin|(i & Ei & Ci)]; [apply B2; auto|].
      destruct (in_dec Nat.eq_dec j (j0 :: td)) as [Hin|Hout]; [apply B2; auto|].
      exists i. rewrite A2 by auto. auto.
Qed.
End RsRun.

(** ** The law of one trajectory's index under rejection sampling *)
Section RsLaw.
Context {P U Y V : Type}.
Variable sm : smodel (list R) P U Y V.
Variable ld : cell U -> nat -> P -> P -> xr.
Hypothesis Hmk : markov_density sm ld.
Variables (u : list (cell U)) (y : list (cell Y)) (t : list nat) (k : nat).
Variables (uk : cell U) (tk : nat).
Hypothesis Hu : nth_error u k = Some uk.
Hypothesis Ht : nth_error t k = Some tk.
Variables (pa : papprox P) (ptr : list (tstep P)) (pind : list nat) (fut : list (tstep P)) (f0 : tstep P).
Hypothesis Hf0 : nth_error fut 0 = Some f0.
Hypothesis Hlen : length (part pa) = length (lw pa).
Hypothesis Hpi : length pind = length (part pa).
Hypothesis Hlive : live (lw pa).
Variable wn : list xr.
Hypothesis Hwn : norm_weights (lw pa) = Ok wn.
Variable mx : R.

Variable j : nat.
Variable x' : P.
Hypothesis Hx : nth_error (part (st_pa f0)) j = Some x'.
Hypothesis Hus : usable (ld uk tk) pa x'.
Hypothesis Hmax : forall p, In p (part pa) -> xle (ld uk tk p x') (Fin mx).

Definition qprob (i : nat) : R := nth i (backward_weights (ld uk tk) pa x') 0 / rsum (backward_weights (ld uk tk) pa x').

Lemma bw_nth i : (i < length (lw pa))%nat ->
  nth i (backward_weights (ld uk tk) pa x') 0 = nth i (map lin (lw pa)) 0 * lin (dens ld uk tk pa f0 i j).
Proof.
  intros Hi. destruct (nth_error (lw pa) i) as [w|] eqn:Ew; [|apply nth_error_None in Ew; lia].
  destruct (nth_error (part pa) i) as [p|] eqn:Ep; [|apply nth_error_None in Ep; lia].
  rewrite (nth_error_nth _ _ _ (backward_weights_nth (ld uk tk) pa x' i w p Ew Ep)).
  unfold dens. rewrite Ep, Hx.
  assert (E : nth_error (map lin (lw pa)) i = Some (lin w)) by (rewrite nth_error_map, Ew; auto).
  rewrite (nth_error_nth _ _ _ E). auto.
Qed.

Lemma accept_ratio i : (i < length (lw pa))%nat ->
  accept_prob (xsub (dens ld uk tk pa f0 i j) (Fin mx)) = lin (dens ld uk tk pa f0 i j) * exp (- mx).
Proof.
  intros Hi. unfold dens. destruct (nth_error (part pa) i) as [p|] eqn:Ep; [|apply nth_error_None in Ep; lia].
  rewrite Hx. pose proof (nth_error_In _ _ Ep) as Hin. specialize (Hmax p Hin).
  destruct Hus as (_ & _ & Hl & _). specialize (Hl p Hin).
  destruct (ld uk tk p x') as [ | | |z]; simpl in *; try tauto; try lra.
  rewrite <- exp_plus. replace (z - mx) with (z + - mx) by lra. apply Rmin_right.
  rewrite <- exp_0. destruct (Rle_lt_or_eq_dec (z + - mx) 0) as [H|H]; [lra| |rewrite H; lra].
  left. apply exp_increasing. auto.
Qed.

Lemma accepts_prob c : is_RInt (fun v => if accepts ld uk tk pa f0 (Fin mx) v c j then 1 else 0) 0 1
  (accept_prob (xsub (dens ld uk tk pa f0 c j) (Fin mx))).
Proof. apply accept_prob_RInt. Qed.

Lemma entry_const i j' (f : M (list R) (list nat)) b N :
  (forall l, length l = N -> exists res s', f l = Ok (res, s') /\ nth_error res j' = Some b) ->
  expect N (entry_is f j' i) (if Nat.eqb b i then 1 else 0).
Proof.
  intros H. eapply expect_ext; [|apply expect_const]. intros l Ll _. unfold entry_is.
  destruct (H l Ll) as (res & s' & -> & ->). auto.
Qed.

Lemma round_law i : (i < length (lw pa))%nat -> forall todo result N' (cont : list nat * list nat * nat -> M (list R) (list nat)),
  NoDup todo -> Forall (fun j => (j < length result)%nat) todo -> reachable ld uk tk pa f0 todo -> In j todo ->
  (forall res' td ak, NoDup td -> (length td + ak = length todo)%nat -> incl td todo -> length res' = length result ->
     ~ In j td -> forall l', exists res s2, cont (res', td, ak) l' = Ok (res, s2) /\ nth_error res j = nth_error res' j) ->
  (forall res' td ak, NoDup td -> (length td + ak = length todo)%nat -> incl td todo -> length res' = length result ->
     In j td -> expect N' (entry_is (cont (res', td, ak)) j i) (qprob i)) ->
  expect ((2 + length todo) + N')
    (entry_is (do rt <- rs_round sm tape pa ptr pind fut u y t k (Fin mx) wn todo result ; cont rt) j i) (qprob i).
Proof.
  intros Hi todo result N' cont ND F Rc Hj HK1 HK2.
  destruct (In_nth_error _ _ Hj) as [q Hq]. assert (Q : (q < length todo)%nat) by (apply nth_error_Some; congruence).
  set (m := length todo) in *. set (lws := map lin (lw pa)).
  set (G := fun c v => if accepts ld uk tk pa f0 (Fin mx) v c j then (if Nat.eqb c i then 1 else 0) else qprob i).
  set (al := fun c => accept_prob (xsub (dens ld uk tk pa f0 c j) (Fin mx))).
  assert (Hlws : weights_ok lws) by (apply weights_ok_lin; auto).
  apply (expect_app (2 + m) N' _ (fun l => match l with r :: v :: ts => G (nth q (cands lws m r (perm_of m v)) 0%nat) (nth q ts 0) | _ => 0 end)).
  + replace (qprob i) with (rsum (map (fun c => nth c lws 0 / rsum lws * (al c * ((if Nat.eqb c i then 1 else 0) - qprob i) + qprob i)) (seq 0 (length lws)))).
    * apply propose_law; auto. intros c Hc. unfold G.
      pose proof (accepts_prob c) as HA. fold (al c) in HA.
      replace (al c * ((if Nat.eqb c i then 1 else 0) - qprob i) + qprob i) with
        (plus (scal ((if Nat.eqb c i then 1 else 0) - qprob i) (al c)) ((1 - 0) * qprob i))
        by (unfold plus, scal; simpl; unfold mult; simpl; ring).
      eapply is_RInt_ext01; [|apply (is_RInt_plus (V := R_NormedModule)); [apply (is_RInt_scal (V := R_NormedModule)); exact HA|apply is_RInt_cst]].
      intros v _. unfold plus, scal; simpl; unfold mult; simpl. destruct (accepts _ _ _ _ _ _ _ _ _); ring.
    * assert (Lw : length lws = length (lw pa)) by apply map_length.
      pose proof (proj2 Hlws) as HW. set (WW := rsum lws) in *.
      pose proof (proj2 (usable_weights _ _ _ Hus)) as HZ. set (Z := rsum (backward_weights (ld uk tk) pa x')) in *.
      set (d := fun c => lin (dens ld uk tk pa f0 c j)).
      assert (EZ : Z = rsum (map (fun c => nth c lws 0 * d c) (seq 0 (length lws)))).
      { unfold Z. rewrite rsum_seq. rewrite backward_weights_length by auto. rewrite Lw.
        apply rsum_ext. intros c Hc. apply in_seq in Hc. apply bw_nth. lia. }
      assert (Eq1 : rsum (map (fun c => (if Nat.eqb i c then 1 else 0) * (nth c lws 0 * d c)) (seq 0 (length lws))) = nth i lws 0 * d i).
      { rewrite (sum_indicator (fun c => nth c lws 0 * d c)) by apply seq_NoDup.
        destruct (in_dec Nat.eq_dec i (seq 0 (length lws))) as [_|Hn]; auto. exfalso. apply Hn. apply in_seq. lia. }
      assert (EW : WW = rsum (map (fun c => nth c lws 0) (seq 0 (length lws)))) by apply rsum_seq.
      assert (Hq' : qprob i = nth i lws 0 * d i / Z) by (unfold qprob; fold Z; rewrite bw_nth by auto; auto).
      transitivity (rsum (map (fun c => (exp (- mx) / WW) * ((if Nat.eqb i c then 1 else 0) * (nth c lws 0 * d c))
        + (qprob i / WW * nth c lws 0 + (- (qprob i * exp (- mx) / WW)) * (nth c lws 0 * d c))) (seq 0 (length lws)))).
      -- apply rsum_ext. intros c Hc. apply in_seq in Hc. unfold al. rewrite accept_ratio by lia. fold (d c).
         rewrite (Nat.eqb_sym c i). field. lra.
      -- rewrite rsum_map_plus, rsum_map_plus, !rsum_map_scale. rewrite Eq1, <- EZ, <- EW. rewrite Hq'. field. lra.
  + intros l Ll Fl. destruct l as [|r [|v ts]]; try discriminate. simpl in Ll. inversion Fl as [|? ? Hr Fl']; subst. inversion Fl' as [|? ? Hv Ft]; subst.
    assert (Lt : length ts = m) by lia.
    destruct (rs_round_run sm tape ld Hmk u y t k uk tk Hu Ht pa ptr pind fut f0 Hf0 Hlen Hpi Hlive wn Hwn (Fin mx) todo result r
      (perm_of m v) ts ltac:(split; lra) (perm_of_perm m v) Lt ND F (reachable_lt _ _ _ _ _ _ Rc)) as (res' & td & ak & E & H1 & H2 & H3 & H4 & H5 & H6).
    fold m lws in H6.
    assert (E' : forall l', rs_round sm tape pa ptr pind fut u y t k (Fin mx) wn todo result (r :: v :: ts ++ l') = Ok ((res', td, ak), l')).
    { intros l'. specialize (E (r :: v :: ts ++ l') (v :: ts ++ l') (ts ++ l')). fold m in E.
      cbn [rand permutation tape] in E. rewrite !unit_of_in in E by auto. fold (perm_of m v) in E.
      pose proof (stream_tape ts l' Ft) as ST. rewrite Lt in ST. rewrite ST in E. cbn [fst snd] in E. apply E; auto. }
    set (c := nth q (cands lws m r (perm_of m v)) 0%nat).
    assert (Ec : nth_error (cands lws m r (perm_of m v)) q = Some c).
    { apply nth_error_nth'. destruct (cands_spec lws m r (perm_of m v) (perm_of_perm m v)) as [_ ->]. auto. }
    assert (Et : nth_error ts q = Some (nth q ts 0)) by (apply nth_error_nth'; lia).
    specialize (H6 q j c (nth q ts 0) Hq Ec Et). unfold G. cbn [app].
  assert (Itd : incl td todo) by (intros a Ha; apply H4; auto).
    destruct (accepts ld uk tk pa f0 (Fin mx) (nth q ts 0) c j).
    * destruct H6 as [H6 H7]. apply (entry_const i j). intros l' _.
      rewrite (bind_eq _ _ _ _ _ (E' l')).
      destruct (HK1 res' td ak H2 H3 Itd H1 H7 l') as (res & s2 & E2 & E3). exists res, s2. split; auto. congruence.
    * eapply expect_ext; [|apply (HK2 res' td ak H2 H3 Itd H1 H6)].
      intros l' _ _. unfold entry_is. rewrite (bind_eq _ _ _ _ _ (E' l')). reflexivity.
Qed.

Lemma rs_law i : (i < length (lw pa))%nat -> forall n todo result N, NoDup todo ->
  Forall (fun j => (j < length result)%nat) todo -> reachable ld uk tk pa f0 todo -> In j todo ->
  (n * (2 + length todo) + length todo <= N)%nat ->
  expect N (entry_is (rs_loop sm tape n pa ptr pind fut u y t k (Fin mx) wn todo result) j i) (qprob i).
Proof.
  intros Hi n. induction n as [|n IH]; intros todo result N ND F Rc Hj HN.
  - destruct (In_nth_error _ _ Hj) as [q Hq]. assert (Q : (q < length todo)%nat) by (apply nth_error_Some; congruence).
    eapply expect_ext.
    2:{ apply (expect_coord N q (fun r => if Nat.eqb (pick (backward_weights (ld uk tk) pa x') r) i then 1 else 0)); [lia|].
        apply (pick_prob _ i); [apply usable_weights; auto|]. apply nth_error_nth'. rewrite backward_weights_length by auto. auto. }
    intros l Ll Fl. cbv beta. unfold entry_is. cbn [rs_loop]. unfold bind.
    rewrite (bsi_full_eq sm tape ld Hmk u y t k uk tk Hu Ht pa ptr pind fut f0 Hf0)
      by (intros fi Hfi; unfold reachable in Rc; rewrite Forall_forall in Rc; apply Rc; auto).
    rewrite <- (firstn_skipn (length todo) l). set (l1 := firstn (length todo) l).
    assert (L1 : length l1 = length todo) by (unfold l1; rewrite firstn_length; lia).
    rewrite <- L1 at 1 2. rewrite stream_tape.
    2:{ unfold l1. rewrite Forall_forall in *. intros a Ha. apply Fl. rewrite <- (firstn_skipn (length todo) l). apply in_or_app. auto. }
    cbn [fst snd]. unfold lift.
    match goal with |- context [scatter result todo ?v] => set (vv := v) end.
    assert (Lvv : length vv = length todo) by (unfold vv; rewrite map_length, combine_length; lia).
    destruct (scatter_ok todo result vv Lvv F) as [res Es]. rewrite Es.
    destruct (scatter_spec _ _ _ _ Es ND) as [_ C2].
    assert (Ev : nth_error vv q = Some (pick (backward_weights (ld uk tk) pa x') (nth q (l1 ++ skipn (length todo) l) 0))).
    { unfold vv. rewrite nth_error_map. rewrite app_nth1 by lia.
      assert (Ec : nth_error (combine todo l1) q = Some (j, nth q l1 0))
        by (apply combine_nth_error; auto; apply nth_error_nth'; lia).
      rewrite Ec. simpl. rewrite Hx. auto. }
    rewrite (C2 q j _ Hq Ev), L1. auto.
  - replace N with ((2 + length todo) + (N - (2 + length todo)))%nat by lia.
    cbn [rs_loop]. apply round_law; auto.
    + intros res' td ak H2 H3 Itd H1 H7 l'. destruct td as [|j0 td]; [exists res', l'; split; reflexivity|].
      destruct (rs_loop_run sm tape tape_ok ld Hmk u y t k uk tk Hu Ht pa ptr pind fut f0 Hf0 Hlen Hpi Hlive wn Hwn (Fin mx) n
             (j0 :: td) res' l' H2) as (res & s2 & E2 & L2 & A2 & _).
      { rewrite H1. rewrite Forall_forall in *. intros a Ha. apply F, Itd; auto. }
      { unfold reachable in *. rewrite Forall_forall in *. intros a Ha. apply Rc, Itd; auto. }
      exists res, s2. split; [exact E2|]. apply A2; auto.
    + intros res' td ak H2 H3 Itd H1 H6. destruct td as [|j0 td]; [destruct H6|].
      apply (IH (j0 :: td) res'); auto.
      * rewrite H1. rewrite Forall_forall in *. intros a Ha. apply F, Itd; auto.
      * unfold reachable in *. rewrite Forall_forall in *. intros a Ha. apply Rc, Itd; auto.
      * assert (length (j0 :: td) <= length todo)%nat by lia. nia.
Qed.
End RsLaw.
