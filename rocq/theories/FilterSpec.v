(** Specification vocabulary for filters and trajectories: contracts on the user's
    model and the shape of stored steps. *)
From Coq Require Import Reals List.
From Verif Require Import Base XR SampleSpec PAModel FilterModel TrajModel.
Import ListNotations.
Open Scope R_scope.

(** Every method of the user's model returns arrays of the documented first
    dimension (when it returns at all). *)
Record shape_ok {W P U Y V} (m : fmodel W P U Y V) : Prop := {
  sh_create : forall n s l s', m_create m n s = Ok (l, s') -> length l = n;
  sh_copy : forall p i s l s', m_copy m p i s = Ok (l, s') -> length l = length i;
  sh_copy_all : forall p s l s', m_copy_all m p s = Ok (l, s') -> length l = length p;
  sh_update : forall p tr u y t a v s l s', m_update m p tr u y t a v s = Ok (l, s') ->
      length l = length p;
  sh_measure : forall tr a p u y t s l w s', m_measure m tr a p u y t s = Ok ((l, w), s') ->
      length l = length p /\ length w = length p;
  sh_xnext1 : forall p tr pi fp fi u y t k s w s',
      m_xnext1 m p tr pi fp fi u y t k s = Ok (w, s') -> length w = length p;
  sh_stage1 : forall p u y t s w s', m_stage1 m p u y t s = Ok (w, s') -> length w = length p;
  sh_qsample : forall p u y t s l s', m_qsample m p u y t s = Ok (l, s') -> length l = length p;
  sh_logp_q : forall p q u y t s w s', m_logp_q m p q u y t s = Ok (w, s') -> length w = length p;
  sh_logp_xnext : forall p q u t s w s', m_logp_xnext m p q u t s = Ok (w, s') -> length w = length p;
  sh_meas1 : forall p y t s l w s', m_meas1 m p y t s = Ok ((l, w), s') ->
      length l = length p /\ length w = length p;
  sh_propose_y : forall n y t s l s', m_propose_y m n y t s = Ok (l, s') -> length l = n }.

(** A stored step with N particles, N log weights and N ancestor indices that
    are valid for a previous step of N particles. *)
Definition step_wf {P} (N : nat) (st : tstep P) : Prop :=
  length (part (st_pa st)) = N /\ length (lw (st_pa st)) = N /\ num (st_pa st) = N /\
  length (st_anc st) = N /\ Forall (fun a => (a < N)%nat) (st_anc st).

(** A stored trajectory: all steps well formed, ancestors of the first step are
    the identity. *)
Definition traj_wf {P} (N : nat) (tr : list (tstep P)) : Prop :=
  Forall (step_wf N) tr /\
  (forall st, nth_error tr 0 = Some st -> st_anc st = seq 0 N).

(** Number of steps, inputs and measurements implied by a list of operations.
    [replay ops] is the caller's own bookkeeping, independent of the library: the
    list of inputs and, for each step, the last measurement supplied. *)
Section Replay.
Context {U Y : Type}.

(** State: for each transition the input supplied by the caller ([None]: no input
    was supplied, which happens when a step was created by a measurement), and for
    each step the last measurement supplied ([None]: none). *)
Definition ledger : Type := (list (option (option U)) * list (option Y))%type.

(** Replace the last entry. *)
Definition set_last (l : list (option Y)) (y : option Y) : list (option Y) := removelast l ++ [y].

(** [pfy]: filters that create a new step from each measurement; for all others a
    measurement refers to the current step (the initial one if none exists).
    A first [forward] call creates the initial step, which has no measurement. *)
Definition ledger_step (pfy : bool) (s : ledger) (o : @op U Y) : ledger :=
  let (us, ys) := s in
  match o with
  | Fwd u y =>
      match ys with
      | [] => ([Some u], [None; y])
      | _ => (us ++ [Some u], ys ++ [y])
      end
  | Meas y =>
      match ys with
      | [] => (us, [y])
      | _ => if pfy then (us ++ [None], ys ++ [y]) else (us, set_last ys y)
      end
  end.

Definition replay (pfy : bool) (ops : list (@op U Y)) : ledger :=
  fold_left (ledger_step pfy) ops ([], []).

(** Number of [forward] calls. *)
Fixpoint forwards (ops : list (@op U Y)) : nat :=
  match ops with
  | [] => 0
  | Fwd _ _ :: l => S (forwards l)
  | Meas _ :: l => forwards l
  end.
End Replay.

(** Reference filtering loop: one [forward] per (input, measurement) pair, recording
    for each call whether it resampled. *)
Fixpoint run_flags {W P U Y V} (mdl : fmodel W P U Y V) (g : rng W) (s : ptraj P U Y)
    (l : list (option U * option Y)) : M W (ptraj P U Y * list bool) :=
  match l with
  | [] => ret (s, [])
  | (u, y) :: l' =>
      do r <- pt_forward mdl g s u y ;
      do r' <- run_flags mdl g (fst r) l' ;
      ret (fst r', snd r :: snd r')
  end.

(** A computation that never raises, whatever the world, and whose result satisfies
    [Q]. *)
Definition runs {W A} (m : M W A) (Q : A -> Prop) : Prop :=
  forall s, exists a s', m s = Ok (a, s') /\ Q a.

(** Contract of a model that never raises when it is handed arrays of [N] particles,
    non-empty histories and valid indices, and that returns arrays of the documented
    length. *)
Record total_ok {W P U Y V} (N : nat) (m : fmodel W P U Y V) : Prop := {
  to_create : runs (m_create m N) (fun l => length l = N);
  to_copy : forall p i, length p = N -> length i = N -> Forall (fun a => (a < N)%nat) i ->
      runs (m_copy m p i) (fun l => length l = N);
  to_copy_all : forall p, length p = N -> runs (m_copy_all m p) (fun l => length l = N);
  to_noise : forall tr a u t, tr <> [] -> Forall (step_wf N) tr -> Forall (fun a => (a < N)%nat) a ->
      u <> [] -> t <> [] -> runs (m_noise m tr a u t) (fun _ => True);
  to_update : forall p tr u y t a v, length p = N -> u <> [] -> t <> [] ->
      runs (m_update m p tr u y t a v) (fun l => length l = N);
  to_measure : forall tr a p u y t, length p = N -> y <> [] -> t <> [] ->
      runs (m_measure m tr a p u y t) (fun lw => length (fst lw) = N /\ length (snd lw) = N);
  to_xnext1 : forall p tr pi fp fi u y t k, length p = N -> length fi = N ->
      Forall (fun a => (a < length fp)%nat) fi -> (k < length u)%nat -> (k < length t)%nat ->
      runs (m_xnext1 m p tr pi fp fi u y t k) (fun w => length w = N);
  to_stage1 : forall p u y t, length p = N -> runs (m_stage1 m p u y t) (fun w => length w = N);
  to_qsample : forall p u y t, length p = N -> runs (m_qsample m p u y t) (fun l => length l = N);
  to_logp_q : forall p q u y t, length p = N -> length q = N ->
      runs (m_logp_q m p q u y t) (fun w => length w = N);
  to_logp_xnext : forall p q u t, length p = N -> length q = N ->
      runs (m_logp_xnext m p q u t) (fun w => length w = N);
  to_meas1 : forall p y t, length p = N ->
      runs (m_meas1 m p y t) (fun lw => length (fst lw) = N /\ length (snd lw) = N);
  to_propose_y : forall y t, runs (m_propose_y m N y t) (fun l => length l = N) }.

(** What a filter needs beyond a total model to survive [n] steps: the auxiliary
    filter a measurement in every forward call, the conditional filters a
    conditioning trajectory covering all steps (with a single state per step for
    CPFYAS). *)
Definition filter_ready {P} (f : filt P) (n : nat) : Prop :=
  match f with
  | FCPFYAS ct => forall k, (k < n)%nat -> exists st, nth_error ct k = Some st /\ length (part (st_pa st)) = 1%nat
  | FCPFAS ct | FCPF ct | FCSIRAS ct =>
      forall k, (k < n)%nat -> exists st, nth_error ct k = Some st /\ part (st_pa st) <> []
  | _ => True
  end.

Definition op_ready {P U Y} (f : filt P) (o : @op U Y) : Prop :=
  match f, o with FAPF _, Fwd _ None => False | _, _ => True end.

(** States a caller can reach: any constructor arguments, any history of calls. *)
Definition reachable {W P U Y V} (mdl : fmodel W P U Y V) (g : rng W) (s : ptraj P U Y) : Prop :=
  exists N r name o T s0 ops w0 w1,
    pt_init N r 0 name o T = Ok s0 /\ pt_run mdl g s0 ops w0 = Ok (s, w1).

(** Log weights before the measurement of a step is taken into account: uniform after
    resampling, the previous step's otherwise. *)
Definition prior_lw (resampled : bool) (N : nat) (w : list xr) : list xr :=
  if resampled then repeat (Fin (- ln (INR N))) N else w.

(** [new] is Bayes' rule applied to [prior] and the log likelihoods [ll]: normalised
    weight of [i] proportional to prior weight times likelihood. *)
Definition bayes (prior ll new : list xr) : Prop :=
  length new = length prior /\ length ll = length prior /\
  forall i, (i < length prior)%nat ->
    lin (nth i new NInf) / rsum (map lin new) =
    lin (nth i prior NInf) * lin (nth i ll NInf) /
      rsum (map (fun ab => lin (fst ab) * lin (snd ab)) (combine prior ll)).
