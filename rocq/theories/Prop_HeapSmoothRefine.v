(** C79: perform_smoothing on shared mutable arrays computes what the value-level smoothers of the other properties compute.  Statements
    about HeapSmooth against SmoothModel; contracts in HeapSmoothSpec and HeapSmoothRefineSpec. *)
From Coq Require Import Bool Reals Lra String List Arith Lia.
From Verif Require Import Base XR SampleModel SampleSpec PAModel FilterModel WeightSpec TrajModel FilterSpec ExampleModel SmoothModel SmoothSpec SmoothExample HeapModel HeapSpec HeapProofs HeapTraj HeapOf
  HeapSmooth HeapSmoothSpec HeapSmoothProofs HeapSmoothOf HeapRefineSpec HeapRefine HeapRefineTraj HeapSmoothRefineSpec HeapSmoothRefine Prop_Weights Prop_Traj Prop_Smooth Prop_Mh Prop_HeapSmooth
  Prop_HeapRefine.
Import ListNotations.
Open Scope R_scope.

Section C79.
Context {W P U Y V : Type}.
Variable hsm : hsmodel W P U Y V.
Variable sm : smodel W P U Y V.
Variable g : rng W.
Variable junk : nat -> nat.
Variable fuel : nat.
Hypothesis F : sframe_ok hsm.
Hypothesis Im : simplements hsm sm.

(** Any method name, options and number of trajectories, on any stored trajectory: smoothing on the heap returns exactly when the value-level
    smoothing does, its steps then show the value-level result (particles, log-weights, offsets, ancestors of every step), the random
    generator and the model are left in the same state, and the stored trajectory still shows what it showed; otherwise it raises the
    same exception. *)
Theorem C79_smoothing (s : hst W P) (o : hptraj U Y) (v : ptraj P U Y) m method so last_junk : past_shows s o v ->
  match perform_smoothing sm g junk fuel v m method so last_junk (h_world s) with
  | Ok (st, w') => exists tr s', h_perform_smoothing hsm g junk fuel o m method so last_junk s = (Ok tr, s') /\ h_world s' = w' /\
      shows_traj s' tr (sm_traj st) /\ past_shows s' o v
  | Err e => exists s', h_perform_smoothing hsm g junk fuel o m method so last_junk s = (Err e, s') /\ past_shows s' o v
  end.
Proof.
  intros H. pose proof (r_perform_smoothing hsm sm g junk fuel F Im s o v m method so last_junk H) as G. unfold sim in G.
  assert (K : forall s', keeps_all s s' -> past_shows s' o v) by (intros s' K; destruct H as (A & B & C & D); repeat split; auto; eapply showst_keep; eassumption).
  pose proof (smoothing_no_write hsm g junk fuel o m method so last_junk F s) as N.
  destruct (perform_smoothing sm g junk fuel v m method so last_junk (h_world s)) as [[st w']|e].
  - destruct G as (tr & s' & E & Ew & Hs & K'). exists tr, s'. auto.
  - destruct G as [s' E]. exists s'. split; auto. rewrite E in N. auto.
Qed.

(** A history of filtering calls and smoothing calls in any order, on values. *)
Fixpoint v_calls (last_junk : xr) (cs : list (call U Y)) (v : ptraj P U Y) : M W (ptraj P U Y) :=
  match cs with
  | [] => ret v
  | Filt o :: cs' => (do v' <- pt_step (s_f sm) g v o ; v_calls last_junk cs' v')%monad
  | Smo m method so :: cs' => (do _ <- perform_smoothing sm g junk fuel v m method so last_junk ; v_calls last_junk cs' v)%monad
  end.
Lemma calls_shows lj (b : hst W P) cs : forall o s v v' w, keeps_all b s -> growing b s (hp_traj o) -> oshows b o s v ->
  v_calls lj cs v (h_world s) = Ok (v', w) ->
  exists o' s', h_calls hsm g junk fuel lj cs (o, s) = (o', s') /\ h_world s' = w /\ keeps_all b s' /\ growing b s' (hp_traj o') /\ oshows b o' s' v'.
Proof.
  induction cs as [|c cs IH]; intros o s v v' w Kb Hg Hv E.
  - simpl in E. inversion E; subst. exists o, s. auto.
  - destruct c as [p|m method so]; simpl in E |- *; unfold bind in E.
    + pose proof (r_op (hs_f hsm) (s_f sm) g (so_f _ F) (si_f _ _ Im) b p o s v Kb Hg Hv) as H. unfold psim in H.
      destruct (pt_step (s_f sm) g v p (h_world s)) as [[v1 w1]|e]; [|discriminate].
      destruct H as (a & o1 & s1 & E1 & <- & Kb1 & Hg1 & Hv1). rewrite E1. simpl. exact (IH _ _ _ _ _ Kb1 Hg1 Hv1 E).
    + assert (H : past_shows s o v) by (destruct Hv as [(A1 & A2 & A3 & A4 & A5 & A6 & A7) HT]; repeat split; auto).
      pose proof (r_perform_smoothing hsm sm g junk fuel F Im s o v m method so lj H) as G. unfold sim in G.
      destruct (perform_smoothing sm g junk fuel v m method so lj (h_world s)) as [[st w1]|e]; [|discriminate].
      destruct G as (tr & s1 & E1 & <- & _ & K1). rewrite E1. simpl.
      apply (IH o s1 v v' w); auto; [eapply keeps_all_trans; eassumption|eapply growing_keeps; eassumption|].
      destruct Hv as [A HT]. split; auto. eapply showst_keep; eassumption.
Qed.

(** Filtering and smoothing calls in any order (each of which returned): the object and the arrays show the value-level object. *)
Theorem C79_calls N f (s0 : hst W P) thr name opts v0 last_junk cs v w :
  pt_init N thr 0 name opts None = Ok v0 -> same_filter s0 f (pt_f v0) -> v_calls last_junk cs v0 (h_world s0) = Ok (v, w) ->
  exists o s, h_calls hsm g junk fuel last_junk cs (h_new N f, s0) = (o, s) /\ h_world s = w /\ obj_shows s o v.
Proof.
  intros E Sf Er.
  destruct (calls_shows last_junk s0 cs (h_new N f) s0 v0 v w (keeps_all_refl s0) ltac:(repeat constructor) (start_shows _ _ _ _ _ _ _ E Sf) Er)
    as (o & s & E1 & E2 & K & _ & H). exists o, s. split; auto. split; auto. eapply oshows_obj; eassumption.
Qed.

(** After any such history, smoothing gives on the heap what it gives on values, step by step as a reader sees it. *)
Theorem C79_estimation N f (s0 : hst W P) thr name opts v0 last_junk cs v w o s m method so :
  pt_init N thr 0 name opts None = Ok v0 -> same_filter s0 f (pt_f v0) -> v_calls last_junk cs v0 (h_world s0) = Ok (v, w) ->
  h_calls hsm g junk fuel last_junk cs (h_new N f, s0) = (o, s) ->
  match perform_smoothing sm g junk fuel v m method so last_junk w with
  | Ok (st, w') => exists tr s', h_perform_smoothing hsm g junk fuel o m method so last_junk s = (Ok tr, s') /\ h_world s' = w' /\
      length tr = length (sm_traj st) /\
      forall i x, nth_error (sm_traj st) i = Some x -> exists hs, nth_error tr i = Some hs /\
        view s' hs = Some (mkView (part (st_pa x)) (lw (st_pa x)) (num (st_pa x)) (woff (st_pa x)) (st_anc x))
  | Err e => exists s', h_perform_smoothing hsm g junk fuel o m method so last_junk s = (Err e, s')
  end.
Proof.
  intros E Sf Er Eh. destruct (C79_calls N f s0 thr name opts v0 last_junk cs v w E Sf Er) as (o1 & s1 & E1 & Ew & H). rewrite Eh in E1. inversion E1; subst o1 s1.
  assert (Hp : past_shows s o v) by (destruct H as (A1 & A2 & A3 & A4 & A5 & A6 & A7 & A8); repeat split; auto).
  pose proof (C79_smoothing s o v m method so last_junk Hp) as G. rewrite Ew in G.
  destruct (perform_smoothing sm g junk fuel v m method so last_junk w) as [[st w']|e].
  - destruct G as (tr & s' & Et & Ew' & Hs & _). exists tr, s'. split; auto. split; auto.
    clear -Hs. unfold shows_traj in Hs. induction Hs as [|hs x tr T Hx H [IH1 IH2]]; [split; auto; intros [|i] x E; discriminate|]. split; [simpl; congruence|].
    intros [|i] y E; simpl in *; [inversion E; subst; exists hs; auto|apply IH2; exact E].
  - destruct G as (s' & Et & _). exists s'. exact Et.
Qed.
End C79.

(** ** The usual implementation *)
Section Of.
Context {W P U Y V : Type}.
Variable sm : smodel W P U Y V.
Notation hst := (hst W P).
Lemma store_step_shows (s : hst) st : exists x s', store_step st s = (Ok x, s') /\ h_world s' = h_world s /\ shows s' x st /\ keeps_all s s'.
Proof.
  do 2 eexists. split; [reflexivity|]. split; [reflexivity|]. split.
  - unfold shows, view. simpl. rewrite !at_app. simpl. rewrite !at_app. reflexivity.
  - split; [|split; [|split]]; simpl; apply keepsl_app.
Qed.
Lemma store_traj_shows tr : forall (s : hst), exists x s', store_traj tr s = (Ok x, s') /\ h_world s' = h_world s /\ shows_traj s' x tr /\ keeps_all s s'.
Proof.
  induction tr as [|st tr IH]; intros s; cbn [store_traj].
  - exists [], s. split; [reflexivity|]. split; [reflexivity|]. split; [constructor|apply keeps_all_refl].
  - destruct (store_step_shows s st) as (x & s1 & E1 & W1 & H1 & K1). destruct (IH s1) as (xs & s2 & E2 & W2 & H2 & K2).
    exists (x :: xs), s2. unfold ebind. rewrite E1, E2. split; [reflexivity|]. split; [congruence|]. split; [|eapply keeps_all_trans; eassumption].
    constructor; auto. eapply shows_keep; eassumption.
Qed.
Lemma hook_of h : hook_implements (option_map (sof_hook (W := W) (P := P) (U := U) (Y := Y)) h) h.
Proof.
  destruct h as [h|]; simpl; [|exact Logic.I]. intros s tr u y t m T HT. unfold sof_hook. eapply s_read_traj; [exact HT|]. apply sim_world0. intros r w.
  unfold sim, ret. destruct (store_traj_shows r (set_world s w)) as (x & s' & E & Ew & H & _). exists x, s'. auto.
Qed.
Theorem C79_usual_model : simplements (hsm_of sm) sm.
Proof.
  Local Ltac rd := repeat first [eapply s_get_part; [eassumption|] | eapply s_get_idx; [eassumption|] | eapply s_read_traj; [eassumption|]].
  split; simpl; intros; try apply hook_of.
  - apply C78_usual_model.
  - unfold sof_xnext. rd. apply sim_world0. intros. apply new_w_ret.
  - unfold sof_xmax. rd. apply ret_ret.
  - unfold sof_sample. rd. apply sim_world0. intros. apply new_part_ret.
  - unfold sof_cpred. rd. apply sim_world0. intros. apply new_part_ret.
  - unfold sof_cinit. rd. apply sim_world0. intros. apply new_part_ret.
  - unfold sof_propose. rd. apply sim_world0. intros. apply new_part_ret.
  - unfold sof_logprop. rd. apply sim_world0. intros. apply new_w_ret.
  - unfold sof_x0. rd. apply sim_world0. intros. apply new_w_ret.
Qed.
End Of.

(** Every value-level model has an array-level implementation that satisfies both hypotheses; and on a stored two step trajectory
    smoothing returns with each of the methods, so that C79_smoothing speaks about a result. *)
Example C79_contract_nonvacuous {W} : sframe_ok (hsm_of (swalk (W := W) soft)) /\ simplements (hsm_of (swalk (W := W) soft)) (swalk soft).
Proof. split; [apply hsm_of_frame|apply C79_usual_model]. Qed.
Definition c79_heap {W} (w : W) : hst W R :=
  mkHst [[0; 1]; [0; 0]] [[Fin 0; Fin (-1)]; [Fin (-2); Fin 0]] [[0; 1]; [0; 0]]%nat [mkHPA 0 0 2 (Fin 0); mkHPA 1 1 2 (Fin 0)] w.
Definition c79_obj : hptraj R R := mkHPT 2 (HPF 1) [CVal 0; CNone] [CVal 0; CVal 1] [0; 1]%nat 2 2 [mkHS 0 0; mkHS 1 1].
Lemma c79_shows {W} (w : W) : past_shows (c79_heap w) c79_obj ex_pt.
Proof. repeat split. repeat constructor. Qed.
Example C79_smoothing_nonvacuous : exists F, forall (W : Type) (g : rng W) (w : W) method, rng_ok g -> In method ["full"; "mcmc"; "rs"; "rsas"; "mhips"; "mhbp"]%string ->
  exists fuel st w' tr s', (fuel = F \/ fuel = O) /\
    perform_smoothing (swalk soft) g (fun _ => 0%nat) fuel ex_pt 3 method None NaN w = Ok (st, w') /\
    h_perform_smoothing (hsm_of (swalk soft)) g (fun _ => 0%nat) fuel c79_obj 3 method None NaN (c79_heap w) = (Ok tr, s') /\
    h_world s' = w' /\ shows_traj s' tr (sm_traj st).
Proof.
  destruct C29_example as [F HF]. exists F. intros W g w method Hg Hin.
  assert (G : forall fuel st w', perform_smoothing (swalk soft) g (fun _ => 0%nat) fuel ex_pt 3 method None NaN w = Ok (st, w') -> exists tr s',
    h_perform_smoothing (hsm_of (swalk soft)) g (fun _ => 0%nat) fuel c79_obj 3 method None NaN (c79_heap w) = (Ok tr, s') /\ h_world s' = w' /\ shows_traj s' tr (sm_traj st)).
  { intros fuel st w' E. pose proof (C79_smoothing (hsm_of (swalk soft)) (swalk soft) g (fun _ => 0%nat) fuel (hsm_of_frame _) (C79_usual_model _)
      (c79_heap w) c79_obj ex_pt 3 method None NaN (c79_shows w)) as H. simpl h_world in H. rewrite E in H. destruct H as (tr & s' & A & B & C & _). exists tr, s'. auto. }
  assert (D : In method backward_methods \/ In method ["mhips"; "mhbp"]%string) by (simpl in Hin; unfold backward_methods; simpl; tauto).
  destruct D as [D|D].
  - destruct (HF W g w method Hg D) as (st & w' & E). destruct (G F st w' E) as (tr & s' & A). exists F, st, w', tr, s'. tauto.
  - destruct (C28_example W g w method Hg D) as (st & w' & E & _). destruct (G O st w' E) as (tr & s' & A). exists O, st, w', tr, s'. tauto.
Qed.

(** A history for C79_calls and C79_estimation: three filtering calls with each of the filters, then ancestor smoothing. *)
Definition sm_full : smodel unit R R R (list R) :=
  mkSModel walk_full (s_xnext (swalk soft)) (s_xmax (swalk soft)) (s_sample (swalk soft)) (s_cpred (swalk soft)) (s_cinit (swalk soft))
    (s_propose (swalk soft)) (s_logprop (swalk soft)) (s_x0 (swalk soft)) None None.
Lemma v_calls_filt {W P U Y V} (sm : smodel W P U Y V) g junk fuel lj ops cs : forall v w v' w', pt_run (s_f sm) g v ops w = Ok (v', w') ->
  v_calls sm g junk fuel lj (map Filt ops ++ cs) v w = v_calls sm g junk fuel lj cs v' w'.
Proof.
  induction ops as [|o ops IH]; intros v w v' w' E; simpl in *.
  - unfold ret in E. inversion E; subst. reflexivity.
  - unfold bind in *. destruct (pt_step (s_f sm) g v o w) as [[v1 w1]|e]; [|discriminate]. apply IH. exact E.
Qed.
Example C79_calls_nonvacuous : forall name, In name ["PF"; "APF"; "pfy"; "CPFyas"; "CPFAS"; "CPF"; "SIR"; "CSIRAS"]%string ->
  exists f v0 v w o s, pt_init 2 (1/2)%R 0 name (FODict (Some cond3)) None = Ok v0 /\ same_filter c78_heap f (pt_f v0) /\
    v_calls sm_full (const_rng (1/2)) (fun _ => 0%nat) 0 NaN (map Filt ops_ex ++ [Smo 3 "ancestor" None]) v0 tt = Ok (v, w) /\
    h_calls (hsm_of sm_full) (const_rng (1/2)) (fun _ => 0%nat) 0 NaN (map Filt ops_ex ++ [Smo 3 "ancestor" None]) (h_new 2 f, c78_heap) = (o, s) /\
    obj_shows s o v.
Proof.
  intros name Hin. destruct (C78_history_nonvacuous name Hin) as (f & v0 & v & w & _ & _ & E0 & Sf & Er & _).
  assert (Hwf : traj_wf 2 (pt_traj v)).
  { destruct (C13_C15_instance name Hin) as (v0' & E0' & v' & w' & Er' & Hwf). rewrite E0 in E0'. inversion E0'; subst v0'. rewrite Er in Er'. inversion Er'; subst. exact Hwf. }
  assert (Hne : pt_traj v <> []) by (intros E; destruct (replay (using_pfy (pt_f v0)) ops_ex) as [us ys] eqn:Ey;
    destruct (C13_bookkeeping _ _ _ _ _ walk_full _ _ _ _ _ _ _ _ _ _ _ _ _ E0 Er Ey) as [L _]; rewrite E in L; destruct (using_pfy (pt_f v0)); cbn in Ey; inversion Ey; subst; discriminate).
  destruct (C23_ancestor_total unit R R R (list R) sm_full (const_rng (1/2)) (fun _ => 0%nat) 0 v 2 3 (Some no_options) w) as (st & w' & Es);
    auto; [apply const_rng_ok; unfold unit_draw; lra|intros p ptr anc fut find u y t k s; exists p, s; split; reflexivity|apply Hwf|].
  assert (Ev : v_calls sm_full (const_rng (1/2)) (fun _ => 0%nat) 0 NaN (map Filt ops_ex ++ [Smo 3 "ancestor" None]) v0 tt = Ok (v, w')).
  { rewrite (v_calls_filt sm_full _ _ _ _ ops_ex _ v0 tt v w Er). simpl.
    change (perform_smoothing sm_full (const_rng (1/2)) (fun _ => 0%nat) 0 v 3 "ancestor" None NaN) with (smooth sm_full (const_rng (1/2)) (fun _ => 0%nat) 0 v 3 "ancestor" (Some no_options)).
    unfold bind. rewrite Es. reflexivity. }
  destruct (C79_calls (hsm_of sm_full) sm_full (const_rng (1/2)) (fun _ => 0%nat) 0 (hsm_of_frame _) (C79_usual_model _) 2 f c78_heap _ _ _ v0 NaN _ v w' E0 Sf Ev)
    as (o & s & E1 & _ & H). exists f, v0, v, w', o, s. auto.
Qed.

Print Assumptions C79_smoothing.
Print Assumptions C79_calls.
Print Assumptions C79_estimation.
Print Assumptions C79_usual_model.
