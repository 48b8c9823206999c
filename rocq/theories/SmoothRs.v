(** Rejection sampling backward simulators: every returned index is accounted for,
    and the adaptive variant terminates. *)
From Coquelicot Require Import Coquelicot.
From Coq Require Import String Bool Reals Lra Lia List Arith Permutation.
From Verif Require Import Base XR SampleModel SampleSpec SampleProofs PAModel WeightSpec WeightProofs
  FilterModel TrajModel FilterSpec FilterProofs TrajProofs FilterTotal Prop_Sample Prop_Weights FilterSem
  Prop_Live Prop_Cond SmoothModel SmoothSpec SmoothProofs SmoothBsi.
Import ListNotations.
Open Scope R_scope.

Lemma scatter_length {A} ind : forall (x : list A) v r, scatter x ind v = Ok r -> length r = length x.
Proof.
  induction ind as [|i ind IH]; intros x [|a v] r H; simpl in H; try discriminate.
  - inversion H; auto.
  - destruct (upd x i a) eqn:E; simpl in H; [|discriminate]. rewrite (IH _ _ _ H). eapply upd_length; eauto.
Qed.

Lemma scatter_ok {A} ind : forall (x : list A) v, length v = length ind -> Forall (fun i => (i < length x)%nat) ind ->
  exists r, scatter x ind v = Ok r.
Proof.
  induction ind as [|i ind IH]; intros x [|a v] L F; simpl in *; try discriminate; eauto.
  inversion F; subst. destruct (upd_ok x i a H1) as [x' E]. rewrite E. simpl.
  apply IH; [lia|]. rewrite (upd_length _ _ _ _ E). auto.
Qed.

Lemma scatter_spec {A} ind : forall (x : list A) v r, scatter x ind v = Ok r -> NoDup ind ->
  (forall k, ~ In k ind -> nth_error r k = nth_error x k) /\
  (forall p k a, nth_error ind p = Some k -> nth_error v p = Some a -> nth_error r k = Some a).
Proof.
  induction ind as [|i ind IH]; intros x [|a v] r H N; simpl in H; try discriminate.
  - inversion H; subst. split; auto. intros [|p]; discriminate.
  - destruct (upd x i a) as [x'|] eqn:E; simpl in H; [|discriminate]. inversion N; subst.
    destruct (IH _ _ _ H H3) as [A1 A2]. pose proof (upd_nth _ _ _ _ E) as Hu. split.
    + intros k Hk. rewrite A1 by (intros Hin; apply Hk; simpl; auto). rewrite Hu.
      destruct (Nat.eqb_spec k i); auto. subst. exfalso. apply Hk. simpl; auto.
    + intros [|p] k b Hp Hv; simpl in *.
      * inversion Hp; inversion Hv; subst. rewrite A1 by auto. rewrite Hu, Nat.eqb_refl. auto.
      * eauto.
Qed.

Lemma mask_negb_split {A} (todo : list A) : forall acc ta td, mask todo acc = Ok ta -> mask todo (map negb acc) = Ok td ->
  NoDup todo -> NoDup ta /\ NoDup td /\ (forall j, In j ta -> In j todo /\ ~ In j td) /\
  (forall j, In j td -> In j todo /\ ~ In j ta) /\
  (forall j, In j todo -> In j ta \/ In j td) /\
  (length td + count_occ bool_dec acc true = length todo)%nat.
Proof.
  induction todo as [|a todo IH]; intros [|c acc] ta td H1 H2 N; simpl in H1, H2; try discriminate.
  - inversion H1; inversion H2; subst. repeat split; auto; simpl in *; try tauto.
  - destruct (mask todo acc) as [ta'|] eqn:E1; simpl in H1; [|discriminate].
    destruct (mask todo (map negb acc)) as [td'|] eqn:E2; simpl in H2; [|discriminate].
    inversion N; subst. destruct (IH _ _ _ E1 E2 H4) as (B1 & B2 & B3 & B4 & B5 & B6).
    inversion H1; inversion H2; subst; clear H1 H2.
    destruct c; cbn [negb]; repeat split; auto.
    + constructor; auto. intros Hin. apply B3 in Hin. tauto.
    + destruct H; subst; simpl; auto. right. apply B3; auto.
    + destruct H; subst; [|apply B3; auto]. intros Hin. apply B4 in Hin. tauto.
    + right. apply B4; auto.
    + intros [->|Hin]; apply B4 in H; tauto.
    + intros j [->|Hj]; simpl; auto. destruct (B5 j Hj); auto.
    + simpl. destruct (bool_dec true true); [|congruence]. lia.
    + constructor; auto. intros Hin. apply B4 in Hin. tauto.
    + right. apply B3; auto.
    + intros [->|Hin]; apply B3 in H; tauto.
    + destruct H; subst; simpl; auto. right. apply B4; auto.
    + destruct H; subst; [|apply B4; auto]. intros Hin. apply B3 in Hin. tauto.
    + intros j [->|Hj]; simpl; auto. destruct (B5 j Hj); auto.
    + simpl. destruct (bool_dec false true); [congruence|]. lia.
Qed.

(** Positions selected by the same mask in two arrays correspond. *)
Lemma mask_corr {A B} (x : list A) : forall (z : list B) acc xa za, mask x acc = Ok xa -> mask z acc = Ok za ->
  forall p a b, nth_error xa p = Some a -> nth_error za p = Some b ->
  exists q, nth_error x q = Some a /\ nth_error z q = Some b /\ nth_error acc q = Some true.
Proof.
  induction x as [|a x IH]; intros [|b z] [|c acc] xa za H1 H2; simpl in H1, H2; try discriminate.
  - inversion H1; subst. intros [|p]; discriminate.
  - destruct (mask x acc) as [xa'|] eqn:E1; simpl in H1; [|discriminate].
    destruct (mask z acc) as [za'|] eqn:E2; simpl in H2; [|discriminate]. inversion H1; inversion H2; subst.
    intros p a' b' Ha Hb. destruct c.
    + destruct p; simpl in *.
      * inversion Ha; inversion Hb; subst. exists 0%nat. auto.
      * destruct (IH _ _ _ _ E1 E2 _ _ _ Ha Hb) as (q & ? & ? & ?). exists (S q). auto.
    + destruct (IH _ _ _ _ E1 E2 _ _ _ Ha Hb) as (q & ? & ? & ?). exists (S q). auto.
Qed.

Lemma mask_len_eq {A B} (x : list A) : forall (z : list B) acc xa za, mask x acc = Ok xa -> mask z acc = Ok za ->
  length xa = length za.
Proof.
  induction x as [|a x IH]; intros [|b z] [|c acc] xa za H1 H2; simpl in H1, H2; try discriminate.
  - inversion H1; inversion H2; auto.
  - destruct (mask x acc) as [xa'|] eqn:E1; simpl in H1; [|discriminate].
    destruct (mask z acc) as [za'|] eqn:E2; simpl in H2; [|discriminate]. inversion H1; inversion H2; subst.
    specialize (IH _ _ _ _ E1 E2). destruct c; simpl; auto.
Qed.

(** ** Candidates proposed by a round *)

(** The indices [sample(w, m)] returns for the draw [r]. *)
Definition smp (w : list R) (m : nat) (r : R) : list nat :=
  map (fun q => searchsorted (map Fin (ncum w)) (sample_key m r q)) (seq 0 m).
(** ... after the permutation [p]. *)
Definition cands (w : list R) (m : nat) (r : R) (p : list nat) : list nat :=
  map (fun q => nth q (smp w m r) 0%nat) p.

Lemma smp_length w m r : length (smp w m r) = m.
Proof. unfold smp. rewrite map_length, seq_length. auto. Qed.

Lemma smp_spec w m r : weights_ok w -> np_sample (map Fin w) m r = Ok (smp w m r).
Proof. intros H. apply np_sample_fin; auto. Qed.

Lemma smp_lt w m r : weights_ok w -> unit_draw r -> Forall (fun i => (i < length w)%nat) (smp w m r).
Proof.
  intros Hw Hr. destruct (sample_valid w m r Hw Hr) as (l & E & _ & F & _). rewrite smp_spec in E by auto.
  inversion E; subst. auto.
Qed.

Lemma take_map_nth {A} (l : list A) (d : A) p : Forall (fun i => (i < length l)%nat) p ->
  take l p = Ok (map (fun q => nth q l d) p).
Proof.
  induction 1 as [|i p Hi _ IH]; auto. cbn [take map]. unfold idx. rewrite (nth_error_nth' l d Hi).
  simpl. rewrite IH. auto.
Qed.

Lemma cands_spec w m r p : Permutation p (seq 0 m) -> take (smp w m r) p = Ok (cands w m r p) /\ length (cands w m r p) = m.
Proof.
  intros Hp. split.
  - apply take_map_nth. rewrite smp_length. eapply Permutation_Forall; [apply Permutation_sym; exact Hp|].
    apply Forall_forall. intros i Hi. apply in_seq in Hi. lia.
  - unfold cands. rewrite map_length. apply Permutation_length in Hp. rewrite seq_length in Hp. auto.
Qed.

Lemma cands_lt w m r p : weights_ok w -> unit_draw r -> Permutation p (seq 0 m) ->
  Forall (fun i => (i < length w)%nat) (cands w m r p).
Proof.
  intros Hw Hr Hp. destruct (cands_spec w m r p Hp) as [E _]. eapply take_Forall; [exact E|]. apply smp_lt; auto.
Qed.

(** Drawing the candidates of a round. *)
Lemma propose_run {W B} (g : rng W) lw wn m s (f : list nat -> M W B) r s1 p s2 :
  live lw -> norm_weights lw = Ok wn -> rand g s = (r, s1) -> permutation g m s1 = (p, s2) -> Permutation p (seq 0 m) ->
  (do sa <- sampleM g wn m ; do ind <- permute g sa ; f ind) s = f (cands (map lin lw) m r p) s2.
Proof.
  intros L Hn Hr Hp Pp. unfold bind at 1. rewrite (sampleM_norm_eq g lw wn m s L Hn), Hr.
  rewrite smp_spec by (apply weights_ok_lin; auto). cbn [rbind].
  unfold permute. unfold bind at 1 2. rewrite smp_length, Hp. unfold lift.
  destruct (cands_spec (map lin lw) m r p Pp) as [-> _]. reflexivity.
Qed.

Lemma log_draws_run {W} (g : rng W) n s : log_draws g n s = Ok (map (fun r => xlog (Fin r)) (fst (stream g n s)), snd (stream g n s)).
Proof. unfold log_draws, bind. rewrite draws_spec. destruct (stream g n s). reflexivity. Qed.

Lemma mask_mem {A} (x : list A) : forall acc xa, mask x acc = Ok xa -> forall q a, nth_error x q = Some a ->
  nth_error acc q = Some true -> In a xa.
Proof.
  induction x as [|b x IH]; intros [|c acc] xa H [|q] a Ha Hc; simpl in *; try discriminate.
  - destruct (mask x acc) eqn:E; simpl in H; [|discriminate]. inversion H; inversion Ha; inversion Hc; subst. simpl; auto.
  - destruct (mask x acc) eqn:E; simpl in H; [|discriminate]. inversion H; subst.
    specialize (IH _ _ E _ _ Ha Hc). destruct c; simpl; auto.
Qed.

Section Rs.
Context {W P U Y V : Type}.
Variable sm : smodel W P U Y V.
Variable g : rng W.
Variable ld : cell U -> nat -> P -> P -> xr.
Hypothesis Hmk : markov_density sm ld.
Variables (u : list (cell U)) (y : list (cell Y)) (t : list nat) (k : nat).
Variables (uk : cell U) (tk : nat).
Hypothesis Hu : nth_error u k = Some uk.
Hypothesis Ht : nth_error t k = Some tk.
Variables (pa : papprox P) (ptr : list (tstep P)) (pind : list nat) (fut : list (tstep P)) (f0 : tstep P).
Hypothesis Hf0 : nth_error fut 0 = Some f0.
Hypothesis Hlen : length (part pa) = length (lw pa).
Hypothesis Hpi : length pind = length (part pa).
Hypothesis Hlive : live (lw pa).
Variable wn : list xr.
Hypothesis Hwn : norm_weights (lw pa) = Ok wn.

(** Log density of the transition from filter particle [c] to future particle [j]. *)
Definition dens (c j : nat) : xr :=
  match nth_error (part pa) c, nth_error (part (st_pa f0)) j with
  | Some p, Some x' => ld uk tk p x'
  | _, _ => NaN
  end.

Lemma xnext_run ind todo p pi : length ind = length todo ->
  Forall (fun c => (c < length (part pa))%nat) ind -> Forall (fun j => (j < length (part (st_pa f0)))%nat) todo ->
  take (part pa) ind = Ok p ->
  exists pn, (forall s, s_xnext sm p ptr pi fut todo u y t k s = Ok (pn, s)) /\ length pn = length todo /\
    forall q c j, nth_error ind q = Some c -> nth_error todo q = Some j -> nth_error pn q = Some (dens c j).
Proof.
  intros L F1 F2 Hp.
  destruct (take_ok _ _ F2) as [nx Hn].
  pose proof (take_length _ _ _ Hp) as Lp. pose proof (take_length _ _ _ Hn) as Ln.
  destruct (zipw_ok (ld uk tk) p nx) as [pn E]; [congruence|]. exists pn. split.
  { intros s. rewrite Hmk. unfold idx. rewrite Hf0. cbn [rbind]. rewrite Hn. cbn [rbind]. rewrite Hu, Ht. cbn [rbind].
    rewrite E. reflexivity. }
  destruct (zipw_length _ _ _ _ E) as [L1 L2]. split; [congruence|].
  intros q c j Hc Hj.
  assert (Q : (q < length p)%nat) by (rewrite Lp; apply nth_error_Some; congruence).
  assert (Q' : (q < length nx)%nat) by (rewrite Ln; apply nth_error_Some; congruence).
  destruct (nth_error p q) as [pp|] eqn:E1; [|apply nth_error_None in E1; lia].
  destruct (nth_error nx q) as [xx|] eqn:E2; [|apply nth_error_None in E2; lia].
  rewrite (zipw_nth _ _ _ _ E q pp xx E1 E2). unfold dens.
  rewrite <- (take_nth _ _ _ Hp _ _ Hc), E1, <- (take_nth _ _ _ Hn _ _ Hj), E2. auto.
Qed.

Definition accepts (mp : xr) (v : R) (c j : nat) : bool := xltb (xlog (Fin v)) (xsub (dens c j) mp).

Lemma rs_round_run mp todo result r p vs :
  unit_draw r -> Permutation p (seq 0 (length todo)) -> length vs = length todo ->
  NoDup todo -> Forall (fun j => (j < length result)%nat) todo ->
  Forall (fun j => (j < length (part (st_pa f0)))%nat) todo ->
  let ind := cands (map lin (lw pa)) (length todo) r p in
  exists result' todo' ak,
    (forall s s1 s2, rand g s = (r, s1) -> permutation g (length todo) s1 = (p, s2) -> fst (stream g (length todo) s2) = vs ->
       rs_round sm g pa ptr pind fut u y t k mp wn todo result s = Ok ((result', todo', ak), snd (stream g (length todo) s2))) /\
    length result' = length result /\ NoDup todo' /\ (length todo' + ak = length todo)%nat /\
    (forall j, In j todo' -> In j todo /\ nth_error result' j = nth_error result j) /\
    (forall j, ~ In j todo -> nth_error result' j = nth_error result j) /\
    (forall q j c v, nth_error todo q = Some j -> nth_error ind q = Some c -> nth_error vs q = Some v ->
       if accepts mp v c j then nth_error result' j = Some c /\ ~ In j todo' else In j todo').
Proof.
  intros Ur Pp Lv N Fr Ff ind.
  assert (Li : length ind = length todo) by (apply cands_spec; auto).
  assert (Fi : Forall (fun c => (c < length (part pa))%nat) ind).
  { rewrite Hlen. pose proof (cands_lt (map lin (lw pa)) (length todo) r p (weights_ok_lin _ Hlive) Ur Pp) as F.
    rewrite map_length in F. exact F. }
  destruct (take_ok (part pa) ind Fi) as [pp Epp].
  destruct (take_ok pind ind) as [pi Epi]. { rewrite Hpi. exact Fi. }
  destruct (xnext_run ind todo pp pi Li Fi Ff Epp) as (pn & Epn & Lpn & Dpn).
  destruct (zipw_ok (fun t p => xltb t (xsub p mp)) (map (fun r0 => xlog (Fin r0)) vs) pn) as [acc Eacc].
  { rewrite map_length. congruence. }
  destruct (zipw_length _ _ _ _ Eacc) as [La _]. rewrite map_length in La.
  destruct (mask_length todo acc) as [ta Eta]; [congruence|].
  destruct (mask_length ind acc) as [ia Eia]; [congruence|].
  destruct (scatter_ok ta result ia) as [res' Esc].
  { symmetry. eapply mask_len_eq; eauto. } { eapply mask_Forall; eauto. }
  destruct (mask_length todo (map negb acc)) as [td Etd]; [rewrite map_length; congruence|].
  destruct (mask_negb_split _ _ _ _ Eta Etd N) as (B1 & B2 & B3 & B4 & B5 & B6).
  destruct (scatter_spec _ _ _ _ Esc B1) as [C1 C2].
  exists res', td, (count_occ bool_dec acc true). split.
  { intros s s1 s2 Hr Hp Hvs. unfold rs_round.
    rewrite (propose_run g (lw pa) wn (length todo) s _ r s1 p s2 Hlive Hwn Hr Hp Pp). fold ind.
    rewrite (lift_bind_eq _ _ _ _ Epp), (lift_bind_eq _ _ _ _ Epi).
    rewrite (bind_eq _ _ _ _ _ (Epn s2)), (bind_eq _ _ _ _ _ (log_draws_run g (length todo) s2)), Hvs.
    rewrite (lift_bind_eq _ _ _ _ Eacc), (lift_bind_eq _ _ _ _ Eta), (lift_bind_eq _ _ _ _ Eia),
      (lift_bind_eq _ _ _ _ Esc), (lift_bind_eq _ _ _ _ Etd). reflexivity. }
  split; [eapply scatter_length; eauto|]. split; auto. split; auto.
  split; [intros j Hj; destruct (B4 j Hj); auto|].
  split; [intros j Hj; apply C1; intros Hin; apply B3 in Hin; tauto|].
  intros q j c v Hj Hc Hv. pose proof (Dpn q c j Hc Hj) as D.
  assert (Hv' : nth_error (map (fun r0 => xlog (Fin r0)) vs) q = Some (xlog (Fin v))) by (rewrite nth_error_map, Hv; auto).
  pose proof (zipw_nth _ _ _ _ Eacc q _ _ Hv' D) as A. unfold accepts.
  destruct (xltb (xlog (Fin v)) (xsub (dens c j) mp)) eqn:Ea.
  - pose proof (mask_mem _ _ _ Eta _ _ Hj A) as Hin. split; [|apply B3; auto].
    apply In_nth_error in Hin. destruct Hin as [q' Hq'].
    destruct (nth_error ia q') as [c'|] eqn:Ec'.
    2:{ apply nth_error_None in Ec'. rewrite <- (mask_len_eq _ _ _ _ _ Eta Eia) in Ec'.
        assert (q' < length ta)%nat by (apply nth_error_Some; congruence). lia. }
    destruct (mask_corr _ _ _ _ _ Eta Eia q' j c' Hq' Ec') as (q2 & Q1 & Q2 & Q3).
    assert (q2 = q).
    { pose proof (proj1 (NoDup_nth_error todo) N) as ND. apply ND; [apply nth_error_Some|]; congruence. }
    subst q2. rewrite (C2 q' j c' Hq' Ec'). congruence.
  - eapply mask_mem; [exact Etd|exact Hj|]. rewrite nth_error_map, A. auto.
Qed.
End Rs.
