(** Specification for C85: which arguments the filters may hand to the user's model, in terms of the caller's own record of the inputs and
    measurements supplied (the ledger of FilterSpec).  Two models that agree on all these calls must be indistinguishable to the caller. *)
From Coq Require Import List Arith.
From Verif Require Import Base XR PAModel FilterModel TrajModel FilterSpec.
Import ListNotations.

Section Spec.
Context {W P U Y V : Type}.

(** The vector of inputs (measurements) holds at every step what the caller supplied for it. *)
Definition shows_u (us : list (option (option U))) (v : list (cell U)) : Prop :=
  forall k u, nth_error us k = Some (Some u) -> nth_error v k = Some (cell_of u).
Definition shows_y (ys : list (option Y)) (v : list (cell Y)) : Prop :=
  forall k y, nth_error ys k = Some y -> nth_error v k = Some (cell_of y).

(** The calls that [forward(u, y)] may make when it advances from step [k] to step [k+1]; [us] and [ys] are the caller's records including
    this [u] and [y].
    - process noise and dynamics get all steps up to [k], the inputs and time stamps of the steps 0..k, the dynamics also the measurements
      of the steps 0..k;
    - the measurement callback gets all steps up to [k], the measurements and time stamps of the steps 0..k+1, and the vector of inputs
      from step 0 on, which may be followed by padding;
    - the transition density (conditional filters, 'PFY') gets the steps before [k], all vectors (padded alike) and the index [k];
    - the callbacks of 'SIR' and 'APF' get [u], [y], and the time stamp [k], or [k+1] for measuring;
    - a proposal from the measurement gets [y] and [k+1]. *)
Record same_forward_calls (N k : nat) (us : list (option (option U))) (ys : list (option Y)) (u : option U) (y : option Y)
    (m m' : fmodel W P U Y V) : Prop := {
  sf_create : forall w, m_create m N w = m_create m' N w;
  sf_copy : forall p i w, m_copy m p i w = m_copy m' p i w;
  sf_copy_all : forall p w, m_copy_all m p w = m_copy_all m' p w;
  sf_noise : forall tr anc uv w, length tr = k + 1 -> length uv = k + 1 -> shows_u us uv ->
    m_noise m tr anc uv (seq 0 (k + 1)) w = m_noise m' tr anc uv (seq 0 (k + 1)) w;
  sf_update : forall p tr uv yv anc v w, length tr = k + 1 -> length uv = k + 1 -> shows_u us uv -> length yv = k + 1 -> shows_y (firstn (k + 1) ys) yv ->
    m_update m p tr uv yv (seq 0 (k + 1)) anc v w = m_update m' p tr uv yv (seq 0 (k + 1)) anc v w;
  sf_measure : forall tr anc p uv yv w, length tr = k + 1 -> shows_u us uv -> length yv = k + 2 -> shows_y ys yv ->
    m_measure m tr anc p uv yv (seq 0 (k + 2)) w = m_measure m' tr anc p uv yv (seq 0 (k + 2)) w;
  sf_xnext1 : forall p past pind fp find uv yv tv w, length past = k -> shows_u us uv -> shows_y ys yv -> firstn (k + 2) tv = seq 0 (k + 2) ->
    m_xnext1 m p past pind fp find uv yv tv k w = m_xnext1 m' p past pind fp find uv yv tv k w;
  sf_stage1 : forall p w, m_stage1 m p (cell_of u) (cell_of y) k w = m_stage1 m' p (cell_of u) (cell_of y) k w;
  sf_qsample : forall p w, m_qsample m p (cell_of u) (cell_of y) k w = m_qsample m' p (cell_of u) (cell_of y) k w;
  sf_logp_q : forall p pn w, m_logp_q m p pn (cell_of u) (cell_of y) k w = m_logp_q m' p pn (cell_of u) (cell_of y) k w;
  sf_logp_xnext : forall p pn w, m_logp_xnext m p pn (cell_of u) k w = m_logp_xnext m' p pn (cell_of u) k w;
  sf_meas1 : forall p w, m_meas1 m p (cell_of y) (k + 1) w = m_meas1 m' p (cell_of y) (k + 1) w;
  sf_propose_y : forall n w, m_propose_y m n (cell_of y) (k + 1) w = m_propose_y m' n (cell_of y) (k + 1) w }.

(** The calls that [measure(y)] may make when [k] is the step that is measured, [ys] including [y]: initial particles; for most filters the
    measurement callback with all steps up to and including [k] and the measurements and time stamps of the steps 0..k; for 'PFY' and
    'CPFYAS' a proposal from [y] at time [k]. *)
Record same_measure_calls (N k : nat) (us : list (option (option U))) (ys : list (option Y)) (y : option Y) (m m' : fmodel W P U Y V) : Prop := {
  sm_create : forall w, m_create m N w = m_create m' N w;
  sm_measure : forall tr anc p uv yv w, length tr = k + 1 -> shows_u us uv -> length yv = k + 1 -> shows_y ys yv ->
    m_measure m tr anc p uv yv (seq 0 (k + 1)) w = m_measure m' tr anc p uv yv (seq 0 (k + 1)) w;
  sm_propose_y : forall w, m_propose_y m N (cell_of y) k w = m_propose_y m' N (cell_of y) k w }.

(** The calls of the last operation of a history, given the record [l] of the whole history. *)
Definition same_filter_calls (N : nat) (l : @ledger U Y) (o : @op U Y) (m m' : fmodel W P U Y V) : Prop :=
  match o with
  | Fwd u y => same_forward_calls N (length (snd l) - 2) (fst l) (snd l) u y m m'
  | Meas y => same_measure_calls N (length (snd l) - 1) (fst l) (snd l) y m m'
  end.
End Spec.
