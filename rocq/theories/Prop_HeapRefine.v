(** C78: a ParticleTrajectory whose arrays are shared mutable cells does what the value-level ParticleTrajectory of the other properties
    does.  Statements about HeapModel against TrajModel; contracts in HeapSpec and HeapRefineSpec. *)
From Coq Require Import Bool Reals Lra String List Arith Lia.
From Verif Require Import Base XR SampleModel PAModel FilterModel TrajModel ExampleModel HeapModel HeapSpec HeapProofs HeapTraj HeapOf
  HeapRefineSpec HeapRefine HeapRefineTraj Prop_Weights Prop_Traj.
Import ListNotations.
Open Scope R_scope.

Section C78.
Context {W P U Y V : Type}.
Variable hm : hmodel W P U Y V.
Variable mdl : fmodel W P U Y V.
Variable g : rng W.
Hypothesis F : frame_ok hm.
Hypothesis I : implements hm mdl.

Lemma same_filter_keep (b s : hst W P) f f' : keeps_all b s -> same_filter b f f' -> same_filter s f f'.
Proof. intros K. destruct f, f'; simpl; auto; apply showst_keep; auto. Qed.
Lemma oshows_obj (b s : hst W P) (o : hptraj U Y) v : keeps_all b s -> oshows b o s v -> obj_shows s o v.
Proof.
  intros K [(A1 & A2 & A3 & A4 & A5 & A6 & A7) HT]. unfold obj_shows. repeat split; auto. eapply same_filter_keep; eassumption.
Qed.
Lemma start_shows N f (s0 : hst W P) thr name opts (v0 : ptraj P U Y) :
  pt_init N thr 0 name opts None = Ok v0 -> same_filter s0 f (pt_f v0) -> oshows s0 (h_new N f : hptraj U Y) s0 v0.
Proof.
  unfold pt_init. simpl. intros E Sf. destruct (make_filter name thr opts) as [f'|]; [|discriminate]. inversion E; subst. simpl in Sf.
  split; [repeat split; auto|]. constructor.
Qed.

(** Any history of [forward] and [measure] calls, of any filter, with any model: if the value-level history [ops] returns [v], then on the
    heap the same calls end with an object and arrays that show [v] (every step's particles, log-weights, offset and ancestors, the
    stored inputs, measurements and time stamps), and the random generator and the model are in the same state. *)
Theorem C78_history N f (s0 : hst W P) thr name opts v0 ops v w :
  pt_init N thr 0 name opts None = Ok v0 -> same_filter s0 f (pt_f v0) ->
  pt_run mdl g v0 ops (h_world s0) = Ok (v, w) ->
  exists o s, h_run hm g ops (h_new N f, s0) = (o, s) /\ h_world s = w /\ obj_shows s o v.
Proof.
  intros E Sf Er.
  destruct (r_run hm mdl g F I s0 ops (h_new N f) s0 v0 v w (keeps_all_refl s0) ltac:(repeat constructor) (start_shows _ _ _ _ _ _ _ E Sf) Er)
    as (o & s & E1 & E2 & K & _ & H).
  exists o, s. split; auto. split; auto. eapply oshows_obj; eassumption.
Qed.

(** After any such history the next call returns on the heap exactly when the value-level call returns, with the same new state, and
    otherwise raises the same exception; [forward] reports the same [resampled]. *)
Theorem C78_call N f (s0 : hst W P) thr name opts v0 ops v w o s :
  pt_init N thr 0 name opts None = Ok v0 -> same_filter s0 f (pt_f v0) ->
  pt_run mdl g v0 ops (h_world s0) = Ok (v, w) -> h_run hm g ops (h_new N f, s0) = (o, s) ->
  (forall u y, match pt_forward mdl g v u y w with
     | Ok ((v', resampled), w') => exists o' s', h_forward hm g u y (o, s) = (Ok resampled, (o', s')) /\ h_world s' = w' /\ obj_shows s' o' v'
     | Err e => exists o' s', h_forward hm g u y (o, s) = (Err e, (o', s'))
     end) /\
  (forall y, match pt_measure mdl v y w with
     | Ok (v', w') => exists o' s', h_pt_measure hm y (o, s) = (Ok tt, (o', s')) /\ h_world s' = w' /\ obj_shows s' o' v'
     | Err e => exists o' s', h_pt_measure hm y (o, s) = (Err e, (o', s'))
     end).
Proof.
  intros E Sf Er Eh.
  destruct (r_run hm mdl g F I s0 ops (h_new N f) s0 v0 v w (keeps_all_refl s0) ltac:(repeat constructor) (start_shows _ _ _ _ _ _ _ E Sf) Er)
    as (o1 & s1 & E1 & E2 & K & G & H). rewrite Eh in E1. inversion E1; subst o1 s1. clear E1. subst w. split.
  - intros u y. pose proof (r_forward hm mdl g F I s0 o s v u y K H) as R. unfold psim in R.
    destruct (pt_forward mdl g v u y (h_world s)) as [[[v' rs] w']|e]; [|exact R]. destruct R as (rs' & o' & s' & Ef & Ew & Ers & Ho). simpl in Ers, Ho. subst rs'.
    exists o', s'. split; auto. split; auto. pose proof (forward_appends hm g F u y o s) as (_ & [Kf _] & _). rewrite Ef in Kf. simpl in Kf.
    eapply oshows_obj; [exact (keeps_all_trans _ _ _ K Kf)|exact Ho].
  - intros y. pose proof (r_pt_measure hm mdl F I s0 o s v y K G H) as R. unfold psim in R.
    pose proof (pt_measure_called hm F y o s) as (_ & _ & C). destruct (C s0 K G) as (K' & _).
    destruct (pt_measure mdl v y (h_world s)) as [[v' w']|e]; [|exact R]. destruct R as ([] & o' & s' & Ef & Ew & Ho). rewrite Ef in K'. simpl in K'.
    exists o', s'. split; auto. split; auto. eapply oshows_obj; eassumption.
Qed.

(** In particular whatever the other properties say about the value-level trajectory holds of what a reader sees. *)
Theorem C78_steps N f (s0 : hst W P) thr name opts v0 ops v w o s :
  pt_init N thr 0 name opts None = Ok v0 -> same_filter s0 f (pt_f v0) ->
  pt_run mdl g v0 ops (h_world s0) = Ok (v, w) -> h_run hm g ops (h_new N f, s0) = (o, s) ->
  length (hp_traj o) = length (pt_traj v) /\
  forall i st, nth_error (pt_traj v) i = Some st -> exists hs, nth_error (hp_traj o) i = Some hs /\
    view s hs = Some (mkView (part (st_pa st)) (lw (st_pa st)) (num (st_pa st)) (woff (st_pa st)) (st_anc st)).
Proof.
  intros E Sf Er Eh. destruct (C78_history _ _ _ _ _ _ _ _ _ _ E Sf Er) as (o1 & s1 & E1 & _ & H). rewrite Eh in E1. inversion E1; subst o1 s1.
  destruct H as (_ & _ & _ & _ & _ & _ & _ & H). split; [eapply Forall2_length; exact H|]. clear -H. unfold shows_traj in H.
  induction H as [|hs st hl l Hs H IH]; intros [|i] st' E; simpl in *; try discriminate.
  - inversion E; subst. exists hs. split; auto.
  - apply IH. exact E.
Qed.
End C78.

(** ** The usual implementation *)
Section Of.
Context {W P U Y V : Type}.
Variable mdl : fmodel W P U Y V.
Notation hst := (hst W P).
Lemma read_traj_shows (s : hst) tr T : shows_traj s tr T -> read_traj tr s = (Ok T, s).
Proof.
  induction 1 as [|hs st tr T Hs H IH]; [reflexivity|]. simpl.
  destruct (shows_pa _ _ _ Hs) as (a & (E1 & E2 & E3 & E4 & E5) & Ei). unfold ebind at 1. unfold read_step, read_pa, ebind, get_pa, get_part, get_w, get_idx, idx, eret.
  unfold part_at, w_at, idx_at in *. rewrite E1, E2, E3, Ei, IH, E4, E5. destruct st as [[p wv n of] anc]. reflexivity.
Qed.
Lemma s_read_traj {C D} (s : hst) tr T (f : list (tstep P) -> @HM W P C) (v : M W D) R : shows_traj s tr T -> sim s (f T) v R -> sim s (ebind (read_traj tr) f) v R.
Proof. intros H. apply sim_heap; [apply read_traj_shows; exact H|reflexivity]. Qed.
Lemma sim_world0 {A B} (s : hst) (v : M W A) (f : A -> @HM W P B) Q :
  (forall a w, sim (set_world s w) (f a) (ret a) Q) -> sim s (ebind (on_world v) f) v Q.
Proof.
  intros H. pose proof (sim_world s v f ret Q (fun a w _ => H a w)) as G. unfold sim in *. unfold bind, ret in G. destruct (v (h_world s)) as [[a w]|e]; exact G.
Qed.
Lemma new_part_ret (s : hst) x : sim s (new_part x) (ret x) (fun l y s' => part_at s' l y).
Proof. unfold sim, ret, new_part. do 2 eexists. split; [reflexivity|]. split; [reflexivity|]. apply at_app. Qed.
Lemma new_w_ret (s : hst) x : sim s (new_w x) (ret x) (fun l y s' => w_at s' l y).
Proof. unfold sim, ret, new_w. do 2 eexists. split; [reflexivity|]. split; [reflexivity|]. apply at_app. Qed.
Lemma put_part_ret (s : hst) p x0 x : part_at s p x0 -> sim s (put_part p x) (ret x) (fun _ y s' => part_at s' p y).
Proof. intros H. unfold sim, ret, put_part. do 2 eexists. split; [reflexivity|]. split; [reflexivity|]. eapply put_at_eq; exact H. Qed.
Lemma put_new_ret (s : hst) p x0 xw : part_at s p x0 ->
  sim s (ebind (put_part p (fst xw)) (fun _ => new_w (snd xw))) (ret xw) (fun l y s' => part_at s' p (fst y) /\ w_at s' l (snd y)).
Proof.
  intros H. unfold sim, ret, ebind, put_part, new_w. simpl. do 2 eexists. split; [reflexivity|]. split; [reflexivity|].
  split; [eapply put_at_eq; exact H|apply at_app].
Qed.
Lemma ret_ret {A} (s : hst) (x : M W A) : sim s (on_world x) x (fun a b _ => a = b).
Proof. unfold sim, on_world. destruct (x (h_world s)) as [[a w]|e]; eauto. Qed.

Theorem C78_usual_model : implements (hm_of mdl) mdl.
Proof.
  split; simpl; intros.
  - unfold of_create. apply sim_world0. intros. apply new_part_ret.
  - unfold of_copy. eapply s_get_part; [eassumption|]. eapply s_get_idx; [eassumption|]. apply sim_world0. intros. apply new_part_ret.
  - unfold of_copy. eapply s_get_part; [eassumption|]. apply sim_world0. intros. apply new_part_ret.
  - unfold of_noise. eapply s_read_traj; [eassumption|]. eapply s_get_idx; [eassumption|]. apply ret_ret.
  - unfold of_update. eapply s_get_part; [eassumption|]. eapply s_read_traj; [eassumption|]. eapply s_get_idx; [eassumption|].
    apply sim_world0. intros. eapply put_part_ret. eassumption.
  - unfold of_measure. eapply s_read_traj; [eassumption|]. eapply s_get_idx; [eassumption|]. eapply s_get_part; [eassumption|].
    apply sim_world0. intros. eapply put_new_ret. eassumption.
  - unfold of_xnext1. eapply s_get_part; [eassumption|]. eapply s_read_traj; [eassumption|]. eapply s_get_idx; [eassumption|].
    eapply s_get_part; [eassumption|]. eapply s_get_idx; [eassumption|]. apply sim_world0. intros. apply new_w_ret.
  - unfold of_stage1. eapply s_get_part; [eassumption|]. apply sim_world0. intros. apply new_w_ret.
  - unfold of_qsample. eapply s_get_part; [eassumption|]. apply sim_world0. intros. apply new_part_ret.
  - unfold of_logp_q. eapply s_get_part; [eassumption|]. eapply s_get_part; [eassumption|]. apply sim_world0. intros. apply new_w_ret.
  - unfold of_logp_xnext. eapply s_get_part; [eassumption|]. eapply s_get_part; [eassumption|]. apply sim_world0. intros. apply new_w_ret.
  - unfold of_meas1. eapply s_get_part; [eassumption|]. apply sim_world0. intros. eapply put_new_ret. eassumption.
  - unfold of_propose_y. apply sim_world0. intros. apply new_part_ret.
Qed.
End Of.

(** Every value-level model has an array-level implementation that satisfies both hypotheses. *)
Example C78_contract_nonvacuous : frame_ok (hm_of walk_full) /\ implements (hm_of walk_full) walk_full.
Proof. split; [apply hm_of_frame|apply C78_usual_model]. Qed.

(** A history of C78_history's kind for each filter (three calls, one of them a [measure]); the conditioning trajectory of the conditional
    filters lives in the initial heap. *)
Definition c78_heap : hst unit R :=
  mkHst [[5]; [6]; [7]] [[Fin 0]; [Fin 0]; [Fin 0]] [[0%nat]; [0%nat]; [0%nat]] [mkHPA 0 0 1 (Fin 0); mkHPA 1 1 1 (Fin 0); mkHPA 2 2 1 (Fin 0)] tt.
Example C78_history_nonvacuous : forall name, In name ["PF"; "APF"; "pfy"; "CPFyas"; "CPFAS"; "CPF"; "SIR"; "CSIRAS"]%string ->
  exists f v0 v w o s, pt_init 2 (1/2)%R 0 name (FODict (Some cond3)) None = Ok v0 /\ same_filter c78_heap f (pt_f v0) /\
    pt_run walk_full (const_rng (1/2)) v0 ops_ex tt = Ok (v, w) /\
    h_run (hm_of walk_full) (const_rng (1/2)) ops_ex (h_new 2 f, c78_heap) = (o, s) /\ obj_shows s o v.
Proof.
  intros name Hin. destruct (C13_C15_instance name Hin) as (v0 & E0 & v & w & Er & _).
  assert (Hf : exists f, same_filter c78_heap f (pt_f v0)).
  { unfold pt_init in E0. simpl in E0. simpl in Hin.
    assert (G : forall ct CT, ct = [mkHS 0 0; mkHS 1 1; mkHS 2 2] -> CT = cond3 -> shows_traj c78_heap ct CT) by (intros ? ? -> ->; repeat constructor).
    repeat (destruct Hin as [<-|Hin]; [vm_compute in E0; inversion E0; subst v0; clear E0;
      first [exists (HPF (1/2)); reflexivity | exists (HAPF (1/2)); reflexivity | exists (HPFY (1/2)); reflexivity | exists (HSIR (1/2)); reflexivity
            | exists (HCPFYAS [mkHS 0 0; mkHS 1 1; mkHS 2 2]); apply G; reflexivity | exists (HCPFAS [mkHS 0 0; mkHS 1 1; mkHS 2 2]); apply G; reflexivity
            | exists (HCPF [mkHS 0 0; mkHS 1 1; mkHS 2 2]); apply G; reflexivity | exists (HCSIRAS [mkHS 0 0; mkHS 1 1; mkHS 2 2]); apply G; reflexivity ]|]).
    contradiction. }
  destruct Hf as [f Hf].
  destruct (C78_history (hm_of walk_full) walk_full (const_rng (1/2)) (hm_of_frame _) (C78_usual_model _) 2 f c78_heap _ _ _ v0 ops_ex v w E0 Hf Er)
    as (o & s & E1 & _ & H).
  exists f, v0, v, w, o, s. auto.
Qed.

Print Assumptions C78_history.
Print Assumptions C78_call.
Print Assumptions C78_steps.
Print Assumptions C78_usual_model.
