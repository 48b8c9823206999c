(** Specification of the calls the library makes to the user's model: which
    arguments a callback may receive.  Two models that agree on all these calls must
    be indistinguishable to the caller of the library. *)
From Coq Require Import Reals List Arith.
From Verif Require Import Base XR SampleModel PAModel FilterModel TrajModel SmoothModel.
Import ListNotations.

(** The callback is about step [k] of [T]: the past it receives are the [k] steps
    before, the future it receives are all later steps. *)
Definition at_step {P} (T k : nat) (past future : list (tstep P)) : Prop :=
  length past = k /\ (k + 1 + length future = T)%nat.

(** The callback is about the transition from step [k] to step [k+1] of [T]. *)
Definition at_move {P} (T k : nat) (past : list (tstep P)) : Prop :=
  length past = k /\ (k + 1 < T)%nat.

(** Two hooks do the same with every trajectory of [T] steps (both may be absent). *)
Definition same_hook {W P U Y} (T m : nat) (u : list (cell U)) (y : list (cell Y)) (t : list nat)
    (h h' : option (list (tstep P) -> list (cell U) -> list (cell Y) -> list nat -> nat ->
                    M W (list (tstep P)))) : Prop :=
  match h, h' with
  | None, None => True
  | Some f, Some f' => forall tr s, length tr = T -> f tr u y t m s = f' tr u y t m s
  | _, _ => False
  end.

(** A hook keeps the number of steps. *)
Definition hook_keeps_length {W P U Y} (T m : nat) (u : list (cell U)) (y : list (cell Y)) (t : list nat)
    (h : option (list (tstep P) -> list (cell U) -> list (cell Y) -> list nat -> nat ->
                 M W (list (tstep P)))) : Prop :=
  match h with
  | None => True
  | Some f => forall tr s tr' s', length tr = T -> f tr u y t m s = Ok (tr', s') -> length tr' = T
  end.

(** The models [sm] and [sm'] behave alike on the calls a smoother may make for a
    filter result of [T] steps with inputs [u], measurements [y], time stamps [t], to
    produce [m] trajectories:
    - densities of the future, proposals and [sample_smooth] are called for a step [k]
      with its whole past and future, all of [u], [y], [t], and the index [k];
    - transition densities and conditional predictions to a single next step are
      called for a move from step [k] to [k+1] with the past of step [k] and index [k];
    - process noise and time updates leading to step [k] get the first [k] inputs,
      measurements and time stamps; measurement updates of step [k] the first [k+1];
    - bounds on the transition density are called for moves only;
    - initial densities get the first time stamp. *)
Definition same_smoother_calls {W P U Y V} (T m : nat) (u : list (cell U)) (y : list (cell Y)) (t : list nat)
    (sm sm' : smodel W P U Y V) : Prop :=
  (forall p past pind fut find k s, at_step T k past fut -> fut <> [] ->
     s_xnext sm p past pind fut find u y t k s = s_xnext sm' p past pind fut find u y t k s) /\
  (forall p past pind k s, at_move T k past ->
     s_xmax sm p past pind u y t k s = s_xmax sm' p past pind u y t k s) /\
  (forall p past pind fut find k s, at_step T k past fut ->
     s_sample sm p past pind fut find u y t k s = s_sample sm' p past pind fut find u y t k s) /\
  (forall p past pind fp k s, at_move T k past ->
     s_cpred sm p past pind fp (seq 0 (length pind)) u y t k s =
     s_cpred sm' p past pind fp (seq 0 (length pind)) u y t k s) /\
  (forall p t0 s, nth_error t 0 = Some t0 -> s_cinit sm p t0 s = s_cinit sm' p t0 s) /\
  (forall past pind fut find k s, at_step T k past fut ->
     s_propose sm past pind fut find u y t k s = s_propose sm' past pind fut find u y t k s) /\
  (forall p past pind fut find k s, at_step T k past fut ->
     s_logprop sm p past pind fut find u y t k s = s_logprop sm' p past pind fut find u y t k s) /\
  (forall p t0 s, nth_error t 0 = Some t0 -> s_x0 sm p t0 s = s_x0 sm' p t0 s) /\
  (forall p past pind fp k s, at_move T k past ->
     m_xnext1 (s_f sm) p past pind fp (seq 0 (length fp)) u y t k s =
     m_xnext1 (s_f sm') p past pind fp (seq 0 (length fp)) u y t k s) /\
  (forall past pind k s, length past = k -> (0 < k < T)%nat ->
     m_noise (s_f sm) past pind (firstn k u) (firstn k t) s =
     m_noise (s_f sm') past pind (firstn k u) (firstn k t) s) /\
  (forall p past pind v k s, length past = k -> (0 < k < T)%nat ->
     m_update (s_f sm) p past (firstn k u) (firstn k y) (firstn k t) pind v s =
     m_update (s_f sm') p past (firstn k u) (firstn k y) (firstn k t) pind v s) /\
  (forall p past pind k s, length past = k -> (k < T)%nat ->
     m_measure (s_f sm) past pind p (firstn (k + 1) u) (firstn (k + 1) y) (firstn (k + 1) t) s =
     m_measure (s_f sm') past pind p (firstn (k + 1) u) (firstn (k + 1) y) (firstn (k + 1) t) s) /\
  (forall n s, m_create (s_f sm) n s = m_create (s_f sm') n s) /\
  same_hook T m u y t (s_post sm) (s_post sm') /\ same_hook T m u y t (s_pre sm) (s_pre sm') /\
  hook_keeps_length T m u y t (s_post sm) /\ hook_keeps_length T m u y t (s_pre sm).

(** Backward simulation and ancestor paths over the filter result [tr]: the model is
    only asked about particles [p] of step [k], with the recorded ancestors [pind] of
    these same particles; the past is the filter's own first [k] steps. *)
Definition of_step {P} (tr : list (tstep P)) (k : nat) (p : list P) (pind : list nat) : Prop :=
  exists st, nth_error tr k = Some st /\
    ((p = part (st_pa st) /\ pind = st_anc st) \/
     exists ind, take (part (st_pa st)) ind = Ok p /\ take (st_anc st) ind = Ok pind).

(** The models agree on these calls: transition densities to the future (at least one
    later step; [find] selects among the [m] trajectories) and [sample_smooth], which
    gets an empty future and no selection at the last step, else the trajectories
    0..m-1. *)
Definition same_backward_calls {W P U Y V} (m : nat) (tr : list (tstep P)) (u : list (cell U))
    (y : list (cell Y)) (t : list nat) (sm sm' : smodel W P U Y V) : Prop :=
  (forall p pind fut find k s, of_step tr k p pind -> at_step (length tr) k (firstn k tr) fut ->
     fut <> [] -> length find = length p -> Forall (fun j => (j < m)%nat) find ->
     s_xnext sm p (firstn k tr) pind fut find u y t k s = s_xnext sm' p (firstn k tr) pind fut find u y t k s) /\
  (forall p pind fut find k s, of_step tr k p pind -> at_step (length tr) k (firstn k tr) fut ->
     length p = m -> find = match fut with [] => [] | _ => seq 0 m end ->
     s_sample sm p (firstn k tr) pind fut find u y t k s = s_sample sm' p (firstn k tr) pind fut find u y t k s) /\
  (forall st k s, nth_error tr k = Some st -> (k + 1 < length tr)%nat ->
     s_xmax sm (part (st_pa st)) (firstn k tr) (st_anc st) u y t k s =
     s_xmax sm' (part (st_pa st)) (firstn k tr) (st_anc st) u y t k s) /\
  same_hook (length tr) m u y t (s_post sm) (s_post sm') /\
  hook_keeps_length (length tr) m u y t (s_post sm).

(** [c] reads a number off the world that the computation leaves alone. *)
Definition leaves {W A} (c : W -> nat) (x : M W A) : Prop :=
  forall s a s', x s = Ok (a, s') -> c s' = c s.

(** Nothing but the two hooks touches the counter [c]. *)
Definition only_hooks_count {W P U Y V} (c : W -> nat) (g : rng W) (sm : smodel W P U Y V) : Prop :=
  (forall s, c (snd (rand g s)) = c s) /\ (forall n s, c (snd (permutation g n s)) = c s) /\
  (forall p past pind fut find u y t k, leaves c (s_xnext sm p past pind fut find u y t k)) /\
  (forall p past pind u y t k, leaves c (s_xmax sm p past pind u y t k)) /\
  (forall p past pind fut find u y t k, leaves c (s_sample sm p past pind fut find u y t k)) /\
  (forall p past pind fp find u y t k, leaves c (s_cpred sm p past pind fp find u y t k)) /\
  (forall p t, leaves c (s_cinit sm p t)) /\
  (forall past pind fut find u y t k, leaves c (s_propose sm past pind fut find u y t k)) /\
  (forall p past pind fut find u y t k, leaves c (s_logprop sm p past pind fut find u y t k)) /\
  (forall p t, leaves c (s_x0 sm p t)) /\
  (forall p past pind fp find u y t k, leaves c (m_xnext1 (s_f sm) p past pind fp find u y t k)) /\
  (forall past pind u t, leaves c (m_noise (s_f sm) past pind u t)) /\
  (forall p past u y t pind v, leaves c (m_update (s_f sm) p past u y t pind v)) /\
  (forall past pind p u y t, leaves c (m_measure (s_f sm) past pind p u y t)) /\
  (forall n, leaves c (m_create (s_f sm) n)).

(** A hook that adds [d] to the counter each time it is called ([0] if absent). *)
Definition hook_adds {W P U Y} (c : W -> nat) (d : nat)
    (h : option (list (tstep P) -> list (cell U) -> list (cell Y) -> list nat -> nat ->
                 M W (list (tstep P)))) : Prop :=
  exists f, h = Some f /\
  forall tr u y t m s tr' s', f tr u y t m s = Ok (tr', s') -> c s' = (c s + d)%nat.
