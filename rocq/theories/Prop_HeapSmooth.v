(** C16 for the smoothers: perform_smoothing (filter.py:1003-1049, smoother.py) changes nothing that existed before, and the smoothed
    trajectory shares no array with the filter trajectory. *)
From Coq Require Import String Bool Reals List Arith Lia Lra.
From Verif Require Import Base XR SampleModel SampleSpec PAModel FilterModel WeightSpec WeightProofs TrajModel SmoothModel SmoothExample
  HeapModel HeapSpec HeapProofs HeapTraj HeapOf HeapSmooth HeapSmoothSpec HeapSmoothProofs HeapSmoothOf Prop_Heap.
Import ListNotations.
Open Scope R_scope.

(** Smoothing with any method name, any options and any number of trajectories, whether it returns or raises: no array and no object
    that existed before is changed, so every stored step (of this trajectory, of the conditioning trajectory, of any other) reads as before. *)
Theorem C16_smoothing {W P U Y V} (sm : hsmodel W P U Y V) (g : rng W) junk fuel pt m method so last_junk (s : hst W P) r s' :
  sframe_ok sm -> h_perform_smoothing sm g junk fuel pt m method so last_junk s = (r, s') ->
  keeps_all s s' /\ forall st v, view s st = Some v -> view s' st = Some v.
Proof.
  intros F E. pose proof (smoothing_no_write sm g junk fuel pt m method so last_junk F s) as K. rewrite E in K. split; [exact K|].
  intros st v. apply keeps_view. exact K.
Qed.

(** If the model's hooks return steps built from what they were handed or from new arrays, the smoothed trajectory consists of objects and
    arrays that did not exist before: writing to it later cannot change the filter trajectory. *)
Theorem C16_smoothing_unshared {W P U Y V} (sm : hsmodel W P U Y V) (g : rng W) junk fuel pt m method so last_junk (s : hst W P) tr s' :
  sframe_ok sm -> (forall f, hs_post sm = Some f -> hook_new f) -> (forall f, hs_pre sm = Some f -> hook_new f) ->
  h_perform_smoothing sm g junk fuel pt m method so last_junk s = (Ok tr, s') -> Forall (unshared s s') tr.
Proof. intros F H1 H2 E. eapply smoothing_new; eassumption. Qed.

(** Filtering and smoothing calls in any order, each returning or raising. *)
Inductive call {U Y : Type} : Type :=
| Filt (o : op (U := U) (Y := Y))
| Smo (m : nat) (method : string) (so : option soptions).
Arguments call : clear implicits.
Fixpoint h_calls {W P U Y V} (sm : hsmodel W P U Y V) (g : rng W) (junk : nat -> nat) (fuel : nat) (last_junk : xr)
    (cs : list (call U Y)) (x : hptraj U Y * hst W P) : hptraj U Y * hst W P :=
  match cs with
  | [] => x
  | Filt o :: cs' => h_calls sm g junk fuel last_junk cs' (snd (h_op (hs_f sm) g o x))
  | Smo m method so :: cs' =>
      h_calls sm g junk fuel last_junk cs' (fst x, snd (h_perform_smoothing sm g junk fuel (fst x) m method so last_junk (snd x)))
  end.

Lemma calls_called {W P U Y V} (sm : hsmodel W P U Y V) (g : rng W) junk fuel lj : sframe_ok sm ->
  forall cs o s, called o s (fst (h_calls sm g junk fuel lj cs (o, s))) (snd (h_calls sm g junk fuel lj cs (o, s))).
Proof.
  intros F. induction cs as [|c cs IH]; intros o s; simpl; [apply called_refl|].
  destruct c as [p|m meth so]; simpl.
  - eapply called_trans; [apply (op_called (hs_f sm) g (so_f sm F) p)|].
    destruct (h_op (hs_f sm) g p (o, s)) as [r [o1 s1]]. apply IH.
  - eapply called_trans; [|apply IH].
    pose proof (app_heap o s (h_perform_smoothing sm g junk fuel o m meth so lj) (smoothing_no_write sm g junk fuel o m meth so lj F s)) as A.
    apply appends_called in A. unfold on_heap in A. simpl in A.
    destruct (h_perform_smoothing sm g junk fuel o m meth so lj s) as [r s1]. exact A.
Qed.

Theorem C16_history_smoothing {W P U Y V} (sm : hsmodel W P U Y V) (g : rng W) junk fuel last_junk N f (s0 : hst W P) cs1 cs2 o1 s1 o2 s2 :
  sframe_ok sm ->
  h_calls sm g junk fuel last_junk cs1 (h_new N f, s0) = (o1, s1) -> h_calls sm g junk fuel last_junk cs2 (o1, s1) = (o2, s2) ->
  Forall (fun st => view s1 st <> None) (hp_traj o1) /\
  (exists new, hp_traj o2 = hp_traj o1 ++ new) /\
  (forall i st, (S i < length (hp_traj o1))%nat -> nth_error (hp_traj o1) i = Some st -> view s2 st = view s1 st) /\
  keeps_all s0 s2 /\
  (forall st v, view s0 st = Some v -> view s2 st = Some v).
Proof.
  intros F E1 E2.
  pose proof (calls_called sm g junk fuel last_junk F cs1 (h_new N f) s0) as H1. rewrite E1 in H1. destruct H1 as (_ & _ & H1). simpl in H1.
  destruct (H1 s0 (keeps_all_refl s0)) as (K1 & G1 & _); [constructor; constructor|].
  pose proof (calls_called sm g junk fuel last_junk F cs2 o1 s1) as H2. rewrite E2 in H2. destruct H2 as (_ & N2 & H2). simpl in H2.
  destruct (H2 s0 K1 G1) as (K2 & G2 & _ & V2).
  assert (R1 : Forall (fun st => view s1 st <> None) (hp_traj o1)).
  { inversion G1 as [? ? Hn _]; subst. eapply Forall_impl; [|exact Hn]. intros st (_ & X & a & Ea & [_ B] & [_ C]). unfold view. rewrite Ea.
    apply nth_error_Some in X, B, C. destruct (nth_error (h_idx s1) (hs_anc st)); [|congruence].
    destruct (nth_error (h_part s1) (ha_part a)); [|congruence]. destruct (nth_error (h_w s1) (ha_w a)); congruence. }
  split; auto. split; auto. split; [|split; auto; intros st v; apply keeps_view; auto].
  intros i st Hi E. rewrite Forall_forall in R1. destruct (view s1 st) as [v|] eqn:Ev.
  - apply (V2 i); auto.
  - exfalso. exact (R1 st (nth_error_In _ _ E) Ev).
Qed.

(** The hypotheses: every model written in the usual style satisfies them, and smoothing does return. *)
Definition ex_heap {W} (w : W) : hst W R := mkHst [[5]] [[Fin 0]] [[0%nat]] [mkHPA 0 0 1 (Fin 0)] w.
Definition ex_obj : hptraj R R := mkHPT 1 (HPF 1) [CNone] [CNone] [0%nat] 1 1 [mkHS 0 0].
Example C16_smoothing_nonvacuous {W} (g : rng W) (w : W) : rng_ok g ->
  let sm := hsm_of (swalk soft) in
  sframe_ok sm /\ (forall f, hs_post sm = Some f -> hook_new f) /\ (forall f, hs_pre sm = Some f -> hook_new f) /\
  exists tr s', h_perform_smoothing sm g (fun _ => 0%nat) 0 ex_obj 2 "ancestor" None (Fin 0) (ex_heap w) = (Ok tr, s') /\
    map (fun st => option_map sv_part (view s' st)) tr = [Some [5; 5]].
Proof.
  intros Hg sm. split; [apply hsm_of_frame|]. split; [apply hsm_of_post|]. split; [apply hsm_of_pre|]. subst sm.
  set (l := exp_norm [Fin (0 + - 0)]).
  destruct (sampleM_ok g l 2 w) as (ind & w' & E); [discriminate|].
  destruct (sampleM_range _ _ _ _ _ _ Hg E) as [L Fa].
  assert (ind = [0%nat; 0%nat]).
  { destruct ind as [|a [|b [|]]]; try discriminate. inversion Fa as [|? ? A B]; subst. inversion B as [|? ? B' _]; subst. simpl in A, B'.
    replace a with 0%nat by lia. replace b with 0%nat by lia. reflexivity. }
  subst ind. eexists; eexists. split; [|].
  { cbv -[sampleM exp_norm Rminus Rltb Rplus Rmult Ropp Rdiv Rinv ln INR IZR exp pow].
    unfold l in E. rewrite E. reflexivity. }
  reflexivity.
Qed.

Print Assumptions C16_smoothing.
Print Assumptions C16_smoothing_unshared.
Print Assumptions C16_history_smoothing.
