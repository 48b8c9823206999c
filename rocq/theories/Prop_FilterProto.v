(** C85: the filters call the user's model only with the data of the steps so far, at the right step: two models that agree on the calls
    described in FilterProtoSpec cannot be told apart by any history of calls of [forward] and [measure]. *)
From Coq Require Import String Bool Reals Lra Lia List Arith.
From Verif Require Import Base XR SampleModel SampleSpec PAModel WeightSpec WeightProofs
  FilterModel TrajModel FilterSpec FilterProofs TrajProofs FilterTotal FilterSem ExampleModel Prop_Weights Prop_Filter FilterProtoSpec FilterProto.
Import ListNotations.
Open Scope nat_scope.

Section C85.
Context {W P U Y V : Type}.
Variables (g : rng W) (m m' : fmodel W P U Y V).

Lemma pfy_state N r name o T (s0 s : ptraj P U Y) ops w0 w1 : pt_init N r 0 name o T = Ok s0 -> (T = None \/ forall thr, pt_f s0 <> FPFY thr) ->
  pt_run m g s0 ops w0 = Ok (s, w1) -> (exists thr, pt_f s = FPFY thr) -> pt_T s <= pt_ind1 s.
Proof.
  intros Hi HT Hr [thr Ef]. pose proof (book_init _ _ _ _ _ _ Hi) as B0. destruct (book_run m g ops _ _ _ _ _ B0 Hr) as [_ E].
  destruct HT as [->|HT]; [|exfalso; apply (HT thr); congruence].
  eapply (pfy_T_run m g ops s0 s); [exact B0| | |exact Hr].
  - rewrite <- E, Ef. reflexivity.
  - unfold pt_init in Hi. simpl in Hi. minv Hi. inversion Hi. simpl. lia.
Qed.

(** One call on any state that can be reached, constructed with or without preallocated T ('PFY': without). *)
Theorem C85_call : forall N r name o T s0 past s w0 w1 c w,
  pt_init N r 0 name o T = Ok s0 -> (T = None \/ forall thr, pt_f s0 <> FPFY thr) ->
  pt_run m g s0 past w0 = Ok (s, w1) ->
  same_filter_calls N (replay (using_pfy (pt_f s0)) (past ++ [c])) c m m' ->
  pt_step m g s c w = pt_step m' g s c w.
Proof.
  intros N r name o T s0 past s w0 w1 c w Hi HT Hr HS.
  pose proof (book_init _ _ _ _ _ _ Hi) as B0. destruct (book_run m g past _ _ _ _ _ B0 Hr) as [B E].
  assert (EN : pt_N s = N).
  { rewrite (pt_run_N m g past _ _ _ _ Hr). unfold pt_init in Hi. cbn [Nat.eqb negb] in Hi. destruct T; apply rbind_ok in Hi; destruct Hi as (t1 & _ & Hi); apply rbind_ok in Hi; destruct Hi as (f1 & _ & Hi); inversion Hi; reflexivity. }
  unfold replay in HS. rewrite fold_left_app in HS. cbn [fold_left] in HS. rewrite <- EN in HS.
  destruct c as [u y|y]; cbn [pt_step].
  - apply bind_ext; [|reflexivity]. eapply forward_same; [exact B| |rewrite E; exact HS].
    eapply pfy_state; eauto.
  - eapply measure_same; [exact B|]. rewrite E. exact HS.
Qed.

(** Every history: models that agree on the calls of each of its operations give the same states, draws and exceptions. *)
Theorem C85_history : forall N r name o T s0 ops w,
  pt_init N r 0 name o T = Ok s0 -> (T = None \/ forall thr, pt_f s0 <> FPFY thr) ->
  (forall past c rest, ops = past ++ c :: rest -> same_filter_calls N (replay (using_pfy (pt_f s0)) (past ++ [c])) c m m') ->
  pt_run m g s0 ops w = pt_run m' g s0 ops w.
Proof.
  intros N r name o T s0 ops w Hi HT HS.
  assert (Q : forall todo done s w1, ops = done ++ todo -> pt_run m g s0 done w = Ok (s, w1) -> pt_run m g s todo w1 = pt_run m' g s todo w1).
  { induction todo as [|c todo IH]; intros done s w1 E Hr; [reflexivity|]. cbn [pt_run]. apply bind_ext.
    - eapply C85_call; eauto.
    - intros s2 w2 Hc. apply (IH (done ++ [c])).
      + rewrite <- app_assoc. exact E.
      + clear - Hr Hc. revert s0 w Hr. induction done as [|d done IH]; intros s0 w Hr; cbn [app pt_run] in Hr |- *.
        * apply ret_ok in Hr. inversion Hr; subst. unfold bind. rewrite Hc. reflexivity.
        * apply bind_ok in Hr. destruct Hr as (s3 & w3 & H1 & H2). unfold bind at 1. rewrite H1. apply IH. exact H2. }
  apply (Q ops [] s0 w eq_refl). reflexivity.
Qed.
End C85.

(** A model that refuses (AssertionError) every call whose arguments do not fit together. *)
Definition guarded {W P U Y V} (m : fmodel W P U Y V) : fmodel W P U Y V :=
  let check {A} (b : bool) (x : M W A) : M W A := if b then x else raise AssertionError in
  let stamps (t : list nat) (n : nat) := if list_eq_dec Nat.eq_dec t (seq 0 n) then true else false in
  mkModel (m_create m) (m_copy m) (m_copy_all m)
    (fun tr a u t => check ((length u =? length tr) && stamps t (length tr))%bool (m_noise m tr a u t))
    (fun p tr u y t a v => check ((length u =? length tr) && (length y =? length tr) && stamps t (length tr))%bool (m_update m p tr u y t a v))
    (fun tr a p u y t => check (((length y =? length tr) || (length y =? length tr + 1)) && stamps t (length y))%bool (m_measure m tr a p u y t))
    (fun p past pi fp fi u y t k => check (k =? length past) (m_xnext1 m p past pi fp fi u y t k))
    (m_stage1 m) (m_qsample m) (m_logp_q m) (m_logp_xnext m) (m_meas1 m) (m_propose_y m).

(** Hence a model may refuse all other calls: no history of any filter notices. *)
Theorem C85_no_stray_calls : forall W P U Y V (g : rng W) (m : fmodel W P U Y V) N r name o T s0 ops w,
  pt_init N r 0 name o T = Ok s0 -> (T = None \/ forall thr, pt_f s0 <> FPFY thr) ->
  pt_run (guarded m) g s0 ops w = pt_run m g s0 ops w.
Proof.
  intros W P U Y V g m N r name o T s0 ops w Hi HT. symmetry. eapply C85_history; eauto. clear.
  assert (St : forall n, (if list_eq_dec Nat.eq_dec (seq 0 n) (seq 0 n) then true else false) = true).
  { intros n. destruct (list_eq_dec Nat.eq_dec (seq 0 n) (seq 0 n)); congruence. }
  intros past [u y|y] rest _; cbn [same_filter_calls]; constructor; unfold guarded; cbn [m_create m_copy m_copy_all m_noise m_update m_measure m_xnext1 m_stage1 m_qsample m_logp_q m_logp_xnext m_meas1 m_propose_y]; intros; try reflexivity.
  - rewrite H, H0, Nat.eqb_refl, St. reflexivity.
  - rewrite H, H0, H2, !Nat.eqb_refl, St. reflexivity.
  - rewrite H, H1. replace (length (snd (replay (using_pfy (pt_f s0)) (past ++ [Fwd u y]))) - 2 + 2) with (length (snd (replay (using_pfy (pt_f s0)) (past ++ [Fwd u y]))) - 2 + 1 + 1) by lia.
    rewrite Nat.eqb_refl, orb_true_r, St. reflexivity.
  - rewrite H, Nat.eqb_refl. reflexivity.
  - rewrite H, H1, Nat.eqb_refl, St. reflexivity.
Qed.

(** The statement at a concrete trajectory: 'CPFAS' with a conditioning trajectory of one step, and any history of calls on it. *)
Example C85_instance : forall ops w, exists s0, pt_init (P := R) (U := R) (Y := R) 2 1 0 "CPFAS" (FODict (Some [mkStep (mkPA [0%R] [Fin 0] 1 (Fin 0)) [0]])) None = Ok s0 /\
  pt_run (guarded walk_full) (const_rng 0) s0 ops w = pt_run walk_full (const_rng 0) s0 ops w.
Proof.
  intros ops w. destruct (pt_init (P := R) (U := R) (Y := R) 2 1 0 "CPFAS" (FODict (Some [mkStep (mkPA [0%R] [Fin 0] 1 (Fin 0)) [0]])) None) as [s0|e] eqn:E; [|discriminate].
  exists s0. split; [reflexivity|]. eapply C85_no_stray_calls; [exact E|left; reflexivity].
Qed.
(** The guard does refuse: two steps with one input. *)
Example C85_guard_refuses : m_noise (guarded walk_full) [mkStep (mkPA [0%R] [Fin 0] 1 (Fin 0)) [0]; mkStep (mkPA [0%R] [Fin 0] 1 (Fin 0)) [0]] [0] [CVal 1%R] [0; 1] tt = Err AssertionError.
Proof. reflexivity. Qed.

Print Assumptions C85_call.
Print Assumptions C85_history.
Print Assumptions C85_no_stray_calls.
