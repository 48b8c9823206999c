(** C16: filtering forward never changes earlier steps, nor the conditioning trajectory.  The statements are about HeapModel, where
    arrays are shared mutable cells and the heap survives exceptions. *)
From Coq Require Import Bool Reals Lra List Arith Lia.
From Verif Require Import Base XR SampleModel PAModel FilterModel TrajModel ExampleModel HeapModel HeapSpec HeapProofs HeapTraj HeapOf.
Import ListNotations.
Open Scope R_scope.

Section C16.
Context {W P U Y V : Type}.
Variable hm : hmodel W P U Y V.
Variable g : rng W.
Hypothesis F : frame_ok hm.

(** One call of [forward], from any state of the object and the heap (also one in which arrays are shared arbitrarily), whether it
    returns or raises: no array and no object that existed before is changed; whatever step could be read before the call (of this
    trajectory, of the conditioning trajectory, of any other) reads the same after it; the trajectory keeps its steps and may gain some. *)
Theorem C16_forward o (s : hst W P) u y r o' s' : h_forward hm g u y (o, s) = (r, (o', s')) ->
  keeps_all s s' /\
  (forall st v, view s st = Some v -> view s' st = Some v) /\
  exists new, hp_traj o' = hp_traj o ++ new.
Proof.
  intros E. pose proof (forward_appends hm g F u y o s) as H. rewrite E in H. destruct H as (_ & [K _] & N). simpl in *.
  split; auto. split; auto. intros st v. apply keeps_view; auto.
Qed.

(** The same for any number of calls of [forward]. *)
Theorem C16_forwards uys : forall o (s : hst W P) o' s', h_run hm g (map (fun uy => Fwd (fst uy) (snd uy)) uys) (o, s) = (o', s') ->
  keeps_all s s' /\
  (forall st v, view s st = Some v -> view s' st = Some v) /\
  exists new, hp_traj o' = hp_traj o ++ new.
Proof.
  induction uys as [|[u y] uys IH]; intros o s o' s' E.
  - simpl in E. inversion E; subst. split; [apply keeps_all_refl|]. split; auto. exists []. now rewrite app_nil_r.
  - simpl in E. unfold ebind in E. destruct (h_forward hm g u y (o, s)) as [r [o1 s1]] eqn:E1.
    destruct (C16_forward _ _ _ _ _ _ _ E1) as (K1 & V1 & n1 & N1).
    assert (E2 : h_run hm g (map (fun uy => Fwd (fst uy) (snd uy)) uys) (o1, s1) = (o', s')) by (destruct r; exact E).
    destruct (IH _ _ _ _ E2) as (K2 & V2 & n2 & N2). split; [eapply keeps_all_trans; eassumption|]. split; auto.
    exists (n1 ++ n2). rewrite N2, N1, app_assoc. reflexivity.
Qed.

(** Any history of [forward] and [measure] calls on a new ParticleTrajectory, some of which may raise: after [ops1] every step of the
    trajectory can be read; the further calls [ops2] keep these steps in place and leave all of them but the last as they were; nothing
    that existed when the trajectory was created (such as the conditioning trajectory) is ever changed. *)
Theorem C16_history N f (s0 : hst W P) ops1 ops2 o1 s1 o2 s2 :
  h_run hm g ops1 (h_new N f, s0) = (o1, s1) -> h_run hm g ops2 (o1, s1) = (o2, s2) ->
  Forall (fun st => view s1 st <> None) (hp_traj o1) /\
  (exists new, hp_traj o2 = hp_traj o1 ++ new) /\
  (forall i st, (S i < length (hp_traj o1))%nat -> nth_error (hp_traj o1) i = Some st -> view s2 st = view s1 st) /\
  keeps_all s0 s2 /\
  (forall st v, view s0 st = Some v -> view s2 st = Some v).
Proof.
  intros E1 E2.
  pose proof (run_called hm g F ops1 (h_new N f) s0) as H1. rewrite E1 in H1. destruct H1 as (_ & _ & H1). simpl in H1.
  destruct (H1 s0 (keeps_all_refl s0)) as (K1 & G1 & _); [constructor; constructor|].
  pose proof (run_called hm g F ops2 o1 s1) as H2. rewrite E2 in H2. destruct H2 as (_ & N2 & H2). simpl in H2.
  destruct (H2 s0 K1 G1) as (K2 & G2 & _ & V2).
  assert (R1 : Forall (fun st => view s1 st <> None) (hp_traj o1)).
  { inversion G1 as [? ? Hn _]; subst. eapply Forall_impl; [|exact Hn]. intros st (_ & X & a & Ea & [_ B] & [_ C]). unfold view. rewrite Ea.
    apply nth_error_Some in X, B, C. destruct (nth_error (h_idx s1) (hs_anc st)); [|congruence].
    destruct (nth_error (h_part s1) (ha_part a)); [|congruence]. destruct (nth_error (h_w s1) (ha_w a)); congruence. }
  split; auto. split; auto. split; [|split; auto; intros st v; apply keeps_view; auto].
  intros i st Hi E. rewrite Forall_forall in R1. destruct (view s1 st) as [v|] eqn:Ev.
  - apply (V2 i); auto.
  - exfalso. exact (R1 st (nth_error_In _ _ E) Ev).
Qed.
End C16.

(** Every model written in the usual style satisfies the hypothesis. *)
Example C16_contract_nonvacuous : frame_ok (hm_of walk_full).
Proof. apply hm_of_frame. Qed.

Lemma sir_no_resampling {W P U Y V} (hm : hmodel W P U Y V) g : h_filter_forward hm g (HSIR 0) =
  fun N traj yvec uvec tvec cur_ind =>
  ebind (elift (idx_last traj)) (fun last => ebind (get_pa (hs_pa last)) (fun a => ebind (h_pa_init (ha_part a) (Some (ha_w a))) (fun pa =>
  ebind (ebind (get_pa pa) (fun a => ebind (new_idx (seq 0 (ha_num a))) (fun anc => eret (false, anc)))) (fun ra =>
  ebind (elift (idx uvec cur_ind)) (fun u => ebind (elift (idx yvec (cur_ind + 1))) (fun y =>
  ebind (elift (idx tvec cur_ind)) (fun t => ebind (elift (idx tvec (cur_ind + 1))) (fun t1 =>
  ebind (get_pa pa) (fun a => ebind (hm_qsample hm (ha_part a) u y t) (fun pnext =>
  ebind (hm_logp_q hm (ha_part a) pnext u y t) (fun qw => ebind (hm_logp_xnext hm (ha_part a) pnext u t) (fun nw =>
  ebind (hm_meas1 hm pnext y t1) (fun yw => ebind (get_w yw) (fun yv => ebind (get_w nw) (fun nv => ebind (get_w qw) (fun qv =>
  ebind (elift (zipw xadd yv nv)) (fun s => ebind (elift (zipw xsub s qv)) (fun nwv => ebind (new_w nwv) (fun new_weights =>
  ebind (h_add_weights pa new_weights) (fun _ => ebind (set_part pa pnext) (fun _ => eret (pa, fst ra, snd ra)))))))))))))))))))))).
Proof.
  assert (E : Rltb 0 0 = false) by (apply Rltb_false; lra).
  unfold h_filter_forward, h_sir_forward, h_maybe_resample. rewrite E. reflexivity.
Qed.
Ltac ev := cbv -[h_filter_forward Rltb Rplus Rminus Rmult Ropp pow ln INR IZR]; rewrite sir_no_resampling;
  cbv -[Rltb Rplus Rminus Rmult Ropp pow ln INR IZR]; reflexivity.

(** A run of C16_history's kind: two steps are stored by [ops1], a third by [ops2]. *)
Example C16_history_nonvacuous (g : rng unit) :
  exists o1 s1 o2 s2,
    h_run (hm_of walk_full) g [Fwd (Some 1) (Some 2)] (h_new 1 (HSIR 0), mkHst [] [] [] [] tt) = (o1, s1) /\
    h_run (hm_of walk_full) g [Fwd (Some 1) None] (o1, s1) = (o2, s2) /\
    length (hp_traj o1) = 2%nat /\ length (hp_traj o2) = 3%nat.
Proof.
  do 4 eexists. split; [ev|]. split; [ev|]. split; reflexivity.
Qed.

(** ** The contract is needed *)
(** Particles that are Python objects (an array of dtype object): the arrays only hold references, [numpy.copy] and indexing copy the
    references.  [P = nat] is an object's identity, the objects' contents are in the world.  The model's [update] moves each object by
    one; it writes to no array at all. *)
Definition bump (w : list R) (ids : list nat) : list R := fold_left (fun w i => put w i (nth i w 0 + 1)) ids w.
Definition obj_model : fmodel (list R) nat unit unit unit :=
  mkModel (fun n w => Ok (seq (length w) n, w ++ repeat 0 n))
          (fun p i => lift (take p i)) (fun p => ret p) (fun _ _ _ _ => ret tt)
          (fun p _ _ _ _ _ _ w => Ok (p, bump w p))
          (fun _ _ p _ _ _ => ret (p, repeat (Fin 0) (length p)))
          (fun p _ _ _ _ _ _ _ _ => ret (repeat (Fin 0) (length p)))
          (fun p _ _ _ => ret (repeat (Fin 0) (length p)))
          (fun p _ _ _ => ret p) (fun p _ _ _ _ => ret (repeat (Fin 0) (length p))) (fun p _ _ _ => ret (repeat (Fin 0) (length p)))
          (fun p _ _ => ret (p, repeat (Fin 0) (length p))) (fun n _ _ w => Ok (seq (length w) n, w ++ repeat 0 n)).
Definition empty_heap {W P} (w : W) : hst W P := mkHst [] [] [] [] w.
(** The particles of a step as a reader sees them. *)
Definition contents (s : hst (list R) nat) (st : hstep) : option (list R) :=
  match view s st with Some v => Some (map (fun i => nth i (h_world s) 0) (sv_part v)) | None => None end.

Lemma pf_no_resampling {W P U Y V} (hm : hmodel W P U Y V) g : h_filter_forward hm g (HPF 0) =
  fun N traj yvec uvec tvec cur_ind =>
  ebind (elift (idx_last traj)) (fun last => ebind (get_pa (hs_pa last)) (fun a => ebind (h_pa_init (ha_part a) (Some (ha_w a))) (fun pa =>
  ebind (ebind (get_pa pa) (fun a => ebind (new_idx (seq 0 (ha_num a))) (fun anc => eret (false, anc)))) (fun ra =>
  ebind (h_update hm traj (snd ra) uvec yvec tvec cur_ind pa) (fun _ =>
  ebind (h_measure hm traj (snd ra) pa uvec yvec tvec (cur_ind + 1)) (fun _ => eret (pa, fst ra, snd ra))))))).
Proof.
  assert (E : Rltb 0 0 = false) by (apply Rltb_false; lra).
  unfold h_filter_forward, h_pf_forward, h_maybe_resample. rewrite E. reflexivity.
Qed.

(** With such particles an earlier step does change: [measure] stores the first step, the next [forward] moves its particles. *)
Theorem C16_object_particles_refuted (g : rng (list R)) :
  frame_ok (hm_of obj_model) /\
  exists o1 s1 o2 s2 st, h_run (hm_of obj_model) g [Meas None] (h_new 1 (HPF 0), empty_heap []) = (o1, s1) /\
    h_run (hm_of obj_model) g [Fwd None None] (o1, s1) = (o2, s2) /\
    hp_traj o1 = [st] /\ length (hp_traj o2) = 2%nat /\ contents s1 st = Some [0] /\ contents s2 st = Some [0 + 1].
Proof.
  split; [apply hm_of_frame|].
  do 5 eexists. split; [cbv -[Rltb Rplus Rminus Rmult ln INR IZR]; reflexivity|].
  split; [cbv -[h_filter_forward Rltb Rplus Rminus Rmult ln INR IZR]; rewrite pf_no_resampling;
    cbv -[Rltb Rplus Rminus Rmult ln INR IZR]; reflexivity|].
  split; [reflexivity|]. split; [reflexivity|]. split; reflexivity.
Qed.

(** A model that returns one and the same array of log-weights at each call: [new_weights -= m] changes the model's array, so that the
    model returns a wrong likelihood at the next call. *)
Definition hm_with_measure {W P U Y V} (h : hmodel W P U Y V) m : hmodel W P U Y V :=
  mkHM (hm_create h) (hm_copy h) (hm_noise h) (hm_update h) m (hm_xnext1 h) (hm_stage1 h) (hm_qsample h) (hm_logp_q h) (hm_logp_xnext h)
    (hm_meas1 h) (hm_propose_y h).
Theorem C16_shared_weights_refuted (g : rng (list R)) :
  exists o1 s1, h_run (hm_with_measure (hm_of obj_model) (fun _ _ _ _ _ _ => eret 0%nat)) g [Meas None]
      (h_new 1 (HPF 0), mkHst [] [[Fin 5]] [] [] []) = (o1, s1) /\
    length (hp_traj o1) = 1%nat /\ nth_error (h_w s1) 0 = Some [Fin (5 - 5)].
Proof.
  do 2 eexists. split; [cbv -[Rltb Rplus Rminus Rmult ln INR IZR]; reflexivity|]. split; reflexivity.
Qed.

(** A model whose [qsample] reuses one buffer: SIR keeps the buffer as the step's particle array, and the next [forward] overwrites it. *)
Definition buffer_q {W U Y V} (h : hmodel W R U Y V) : hmodel W R U Y V :=
  mkHM (hm_create h) (hm_copy h) (hm_noise h) (hm_update h) (hm_measure h) (hm_xnext1 h) (hm_stage1 h)
    (fun p _ _ _ => ebind (get_part p) (fun x => ebind (put_part 0 (map (fun z => z + 1) x)) (fun _ => eret 0%nat)))
    (hm_logp_q h) (hm_logp_xnext h) (hm_meas1 h) (hm_propose_y h).
Theorem C16_sir_buffer_refuted (g : rng unit) :
  exists o1 s1 o2 s2 st v1 v2,
    h_run (buffer_q (hm_of walk_full)) g [Fwd None None] (h_new 1 (HSIR 0), mkHst [[0]] [] [] [] tt) = (o1, s1) /\
    h_run (buffer_q (hm_of walk_full)) g [Fwd None None] (o1, s1) = (o2, s2) /\
    nth_error (hp_traj o1) 1 = Some st /\ length (hp_traj o2) = 3%nat /\
    view s1 st = Some v1 /\ sv_part v1 = [0 + 1] /\ view s2 st = Some v2 /\ sv_part v2 = [0 + 1 + 1].
Proof.
  do 7 eexists.
  split; [ev|]. split; [ev|]. repeat (split; [reflexivity|]). reflexivity.
Qed.

Print Assumptions C16_forward.
Print Assumptions C16_forwards.
Print Assumptions C16_history.
Print Assumptions C16_object_particles_refuted.
Print Assumptions C16_shared_weights_refuted.
Print Assumptions C16_sir_buffer_refuted.
