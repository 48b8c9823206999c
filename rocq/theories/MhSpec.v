(** Specification vocabulary for the Metropolis-Hastings moves of smoother.py
    ('mhips', 'mhips_reduced', 'mhbp'). *)
From Coq Require Import Reals List.
From Verif Require Import Base XR PAModel FilterModel FilterSpec SmoothModel SmoothSpec.
Import ListNotations.
Open Scope R_scope.

(** The log densities of a Markov model with a smoothing proposal: initial state (at a
    time), transition (input, time, from, to), measurement (measurement, time, state), and
    proposal (for trajectory number [j], given everything [propose_smooth] is given). *)
Record densities (P U Y : Type) : Type := mkDens {
  e_init : nat -> P -> xr;
  e_trans : cell U -> nat -> P -> P -> xr;
  e_meas : cell Y -> nat -> P -> xr;
  e_prop : list (tstep P) -> list nat -> list (tstep P) -> list nat ->
           list (cell U) -> list (cell Y) -> list nat -> nat -> nat -> P -> xr }.
Arguments mkDens {P U Y}. Arguments e_init {P U Y}. Arguments e_trans {P U Y}.
Arguments e_meas {P U Y}. Arguments e_prop {P U Y}.

(** Apply a function to every element together with its index. *)
Fixpoint mapi_from {A B} (f : nat -> A -> B) (n : nat) (l : list A) : list B :=
  match l with [] => [] | a :: l' => f n a :: mapi_from f (S n) l' end.
Definition mapi {A B} (f : nat -> A -> B) (l : list A) : list B := mapi_from f 0 l.

(** Contract of a Markov model with densities [e]: every density method evaluates its
    density for each particle, without side effects, and raises only if an index is out of
    range or the arrays do not match; nothing is stored inside the particles, so the
    methods that recompute stored statistics return their particles. *)
Definition mh_model {W P U Y V} (sm : smodel W P U Y V) (e : densities P U Y) : Prop :=
  markov_density sm (e_trans e) /\
  (forall p past pind x find u y t k s, s_cpred sm p past pind x find u y t k s = Ok (x, s)) /\
  (forall p t s, s_cinit sm p t s = Ok (p, s)) /\
  (forall p t s, s_x0 sm p t s = Ok (map (e_init e t) p, s)) /\
  (forall p past pind fut find u y t k s,
     s_logprop sm p past pind fut find u y t k s = Ok (mapi (e_prop e past pind fut find u y t k) p, s)) /\
  (forall p past pind x find u y t k s, m_xnext1 (s_f sm) p past pind x find u y t k s =
     (dor nx <- take x find ; dor uk <- idx u k ; dor tk <- idx t k ;
      dor r <- zipw (e_trans e uk tk) p nx ; Ok (r, s))) /\
  (forall past anc p u y t s, m_measure (s_f sm) past anc p u y t s =
     (dor yk <- idx_last y ; dor tk <- idx_last t ; Ok ((p, map (e_meas e yk tk) p), s))).

(** The prior log density [l] of state [x] of trajectory [j] at step [k]: the transition
    density from the state before it (particle [pind_j] of the last step of the past), or
    the density of the initial state if there is no past. *)
Definition prior_is {P U Y} (e : densities P U Y) (past : option (list (tstep P))) (pind : list nat)
    (u : list (cell U)) (t : list nat) (k j : nat) (x : P) (l : xr) : Prop :=
  match past with
  | Some tr => exists last i prev uk tk,
      idx_last tr = Ok last /\ nth_error pind j = Some i /\ nth_error (part (st_pa last)) i = Some prev /\
      nth_error u (k - 1) = Some uk /\ nth_error t (k - 1) = Some tk /\ l = e_trans e uk tk prev x
  | None => exists t0, nth_error t 0 = Some t0 /\ l = e_init e t0 x
  end.

(** The log likelihood [l] of state [x] at step [k] (0 without a measurement). *)
Definition meas_is {P U Y} (e : densities P U Y) (y : list (cell Y)) (t : list nat) (k : nat) (x : P) (l : xr) : Prop :=
  exists yk, nth_error y k = Some yk /\
    match yk with
    | CNone => l = Fin 0
    | _ => exists tk, nth_error t k = Some tk /\ l = e_meas e yk tk x
    end.

(** The log density [l] of the trajectory's next state given [x] (0 at the end). *)
Definition next_is {P U Y} (e : densities P U Y) (fut : option (list (tstep P))) (find : list nat)
    (u : list (cell U)) (t : list nat) (k j : nat) (x : P) (l : xr) : Prop :=
  match fut with
  | Some f => exists f0 i next uk tk,
      nth_error f 0 = Some f0 /\ nth_error find j = Some i /\ nth_error (part (st_pa f0)) i = Some next /\
      nth_error u k = Some uk /\ nth_error t k = Some tk /\ l = e_trans e uk tk x next
  | None => l = Fin 0
  end.

(** Log acceptance ratio from a state with prior, likelihood, next-state and proposal log
    densities [pc yc nc qc] to one with [pp yp np qp]. *)
Definition log_ratio (pc yc nc qc pp yp np qp : xr) : xr :=
  xadd (xadd (xadd (xsub pp pc) (xsub yp yc)) (xsub np nc)) (xsub qc qp).

(** A Metropolis-Hastings move of one state: the new state is the proposed one if the
    logarithm of the draw is below the log ratio, otherwise the current one. *)
Definition mh_move {P} (ratio : xr) (x x' : P) (v : R) : P := if xltb (xlog (Fin v)) ratio then x' else x.

(** The (unnormalised) posterior density of a state given its neighbours and the
    measurement, from the three log densities. *)
Definition posterior (prior like next : xr) : R := lin prior * lin like * lin next.

(** Contract: [propose_smooth] never raises and proposes one state per trajectory. *)
Definition proposing {W P U Y V} (sm : smodel W P U Y V) : Prop :=
  forall past anc fut find u y t k, runs (s_propose sm past anc fut find u y t k) (fun l => length l = length find).
