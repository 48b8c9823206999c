(** Specification vocabulary for the smoothers. *)
From Coquelicot Require Import Coquelicot.
From Coq Require Import ZArith Reals List Permutation.
From Verif Require Import Base XR SampleSpec PAModel WeightSpec FilterModel TrajModel FilterSpec SmoothModel.
Import ListNotations.
Open Scope R_scope.

(** [path k] is a particle index for every step of a filter trajectory, and the
    recorded ancestor of [path (k+1)] is [path k]. *)
Definition lineage {P} (tr : list (tstep P)) (path : nat -> nat) : Prop :=
  forall k st, nth_error tr (S k) = Some st -> nth_error (st_anc st) (path (S k)) = Some (path k).

(** The [j]-th smoothed trajectory consists of the filter particles with indices
    [path 0], [path 1], ... *)
Definition visits {P} (tr : list (tstep P)) (path : nat -> nat) (out : list (tstep P)) (j : nat) : Prop :=
  length out = length tr /\
  forall k st st', nth_error tr k = Some st -> nth_error out k = Some st' ->
    exists x, nth_error (part (st_pa st)) (path k) = Some x /\ nth_error (part (st_pa st')) j = Some x.

(** Every smoothed step holds [m] particles with uniform weights. *)
Definition smooth_wf {P} (m : nat) (out : list (tstep P)) : Prop :=
  forall k st, nth_error out k = Some st ->
    length (part (st_pa st)) = m /\ lw (st_pa st) = repeat (Fin (- ln (INR m))) m.

(** Contract: [sample_smooth] returns its particles unchanged (the default). *)
Definition copying {W P U Y V} (sm : smodel W P U Y V) : Prop :=
  forall p ptr anc fut find u y t k s r s', s_sample sm p ptr anc fut find u y t k s = Ok (r, s') -> r = p.

(** Contract of a Markov model: [logp_xnext_full] returns, for each particle [p_i],
    the log density [ld u t p_i x'_i] of the next state it is paired with (the
    particle [find_i] of the first future step), for the input and time stamp of
    step [k], without side effects; it raises only if an index is out of range or the
    arrays do not match. *)
Definition markov_density {W P U Y V} (sm : smodel W P U Y V) (ld : cell U -> nat -> P -> P -> xr) : Prop :=
  forall p past pind fut find u y t k s,
    s_xnext sm p past pind fut find u y t k s =
    (dor f0 <- idx fut 0 ;
     dor nx <- take (part (st_pa f0)) find ;
     dor uk <- idx u k ;
     dor tk <- idx t k ;
     dor r <- zipw (ld uk tk) p nx ;
     Ok (r, s)).

(** Weight times transition density to [x'], for every particle. *)
Definition backward_weights {P} (ld : P -> P -> xr) (pa : papprox P) (x' : P) : list R :=
  map (fun wp => lin (fst wp) * lin (ld (snd wp) x')) (combine (lw pa) (part pa)).

(** The particle system can reach [x']: log weights and transition log densities are
    finite or -inf and some particle has both finite. *)
Definition usable {P} (ld : P -> P -> xr) (pa : papprox P) (x' : P) : Prop :=
  length (part pa) = length (lw pa) /\ Forall logish (lw pa) /\
  (forall p, In p (part pa) -> logish (ld p x')) /\ 0 < rsum (backward_weights ld pa x').

(** The successive uniform draws a random generator returns from state [s]. *)
Fixpoint stream {W} (g : rng W) (n : nat) (s : W) : list R * W :=
  match n with
  | O => ([], s)
  | S n' => let (r, s1) := rand g s in let (l, s2) := stream g n' s1 in (r :: l, s2)
  end.

(** Probability that [log u < a] for a uniform draw [u]. *)
Definition accept_prob (a : xr) : R :=
  match a with
  | Fin x => Rmin 1 (exp x)
  | PInf => 1
  | NInf | NaN => 0
  end.

(** All permutations of a list. *)
Fixpoint insert_all {A} (a : A) (l : list A) : list (list A) :=
  match l with
  | [] => [[a]]
  | b :: l' => (a :: b :: l') :: map (cons b) (insert_all a l')
  end.
Fixpoint perms {A} (l : list A) : list (list A) :=
  match l with
  | [] => [[]]
  | a :: l' => flat_map (insert_all a) (perms l')
  end.

(** The index [floor(r K)] in 0..K-1 selected by a uniform draw [r] in (0,1). *)
Definition unif_index (K : nat) (r : R) : nat := Z.to_nat (up (r * INR K) - 1).

(** A generator that reads its uniform draws from a tape; a permutation consumes one
    draw, which selects one of all permutations uniformly.  (Numbers outside [0,1) are
    read as 0.)  Used to speak about the law of an algorithm's result. *)
Definition unit_of (r : R) : R := if Rle_dec 0 r then if Rlt_dec r 1 then r else 0 else 0.
Definition tape : rng (list R) :=
  mkRng (fun s => match s with [] => (0, []) | r :: s' => (unit_of r, s') end)
        (fun n s => match s with
                    | [] => (seq 0 n, [])
                    | r :: s' => (nth (unif_index (length (perms (seq 0 n))) (unit_of r)) (perms (seq 0 n)) (seq 0 n), s')
                    end).

(** [expect n f v]: the expected value of [f] over a tape of [n] independent uniform
    draws is [v] (iterated Riemann integral over [0,1]). *)
Fixpoint expect (n : nat) (f : list R -> R) (v : R) : Prop :=
  match n with
  | O => v = f []
  | S n' => exists h, (forall r, 0 < r < 1 -> expect n' (fun l => f (r :: l)) (h r)) /\ is_RInt h 0 1 v
  end.

(** Indicator of an outcome. *)
Definition outcome {W A} (eqb : A -> A -> bool) (m : M W A) (a : A) (s : W) : R :=
  match m s with Ok (b, _) => if eqb b a then 1 else 0 | Err _ => 0 end.

Definition nats_eqb (a b : list nat) : bool := if list_eq_dec Nat.eq_dec a b then true else false.

(** Product of a list of reals. *)
Definition rprod (l : list R) : R := fold_right Rmult 1 l.

(** Indicator of the event that entry [j] of the returned index list is [i]. *)
Definition entry_is {W} (m : M W (list nat)) (j i : nat) (s : W) : R :=
  match m s with
  | Ok (l, _) => match nth_error l j with Some i' => if Nat.eqb i' i then 1 else 0 | None => 0 end
  | Err _ => 0
  end.

(** Metropolis-Hastings acceptance probability for target densities [cur] (current
    state) and [prop] (proposed state). *)
Definition mh_prob (cur prop : R) : R :=
  if Req_EM_T cur 0 then (if Req_EM_T prop 0 then 0 else 1) else Rmin 1 (prop / cur).

(** Probability that a chain started at index [a], which [n] times proposes an index
    [c] with probability w_c / sum w and accepts it with probability
    [mh_prob (f a) (f c)], ends at index [i]. *)
Fixpoint mh_chain (w : list R) (f : nat -> R) (n a i : nat) : R :=
  match n with
  | O => if Nat.eqb a i then 1 else 0
  | S n' => rsum (map (fun c => nth c w 0 / rsum w *
                        (mh_prob (f a) (f c) * mh_chain w f n' c i +
                         (1 - mh_prob (f a) (f c)) * mh_chain w f n' a i)) (seq 0 (length w)))
  end.

(** The data of one backward step [k]: [d p x'] is the log density of moving from
    particle [p] to state [x'] during this step, [xs] are the states of the
    trajectories at step [k+1]; the filter's particles [pa] (with recorded ancestors
    [pind]) carry usable weights. *)
Definition backward_step {P U} (ld : cell U -> nat -> P -> P -> xr) (u : list (cell U)) (t : list nat)
    (k : nat) (pa : papprox P) (pind : list nat) (fut : list (tstep P)) (d : P -> P -> xr) (xs : list P) : Prop :=
  (exists uk tk, nth_error u k = Some uk /\ nth_error t k = Some tk /\ d = ld uk tk) /\
  (exists f0, nth_error fut 0 = Some f0 /\ xs = part (st_pa f0)) /\
  length (part pa) = length (lw pa) /\ length pind = length (part pa) /\ live (lw pa).

(** Every listed trajectory's next state can be reached from some particle. *)
Definition all_reachable {P} (d : P -> P -> xr) (pa : papprox P) (xs : list P) (find : list nat) : Prop :=
  Forall (fun j => exists x', nth_error xs j = Some x' /\ usable d pa x') find.

(** The backward kernel: probability of particle [i] given next state [x']. *)
Definition backward_prob {P} (d : P -> P -> xr) (pa : papprox P) (x' : P) (i : nat) : R :=
  nth i (backward_weights d pa x') 0 / rsum (backward_weights d pa x').

(** [l] is a list of [m] indices of particles of [pa]. *)
Definition indices {P} (pa : papprox P) (m : nat) (l : list nat) : Prop :=
  length l = m /\ Forall (fun i => (i < length (part pa))%nat) l.

(** Contract: [sample_smooth] never raises and returns its particles unchanged. *)
Definition copy_smooth {W P U Y V} (sm : smodel W P U Y V) : Prop :=
  forall p ptr anc fut find u y t k, runs (s_sample sm p ptr anc fut find u y t k) (fun r => r = p).

(** A filter result the backward simulators can work on: every stored step is well
    formed with usable weights, and every stored particle can be reached from the step
    before it (with the input and time stamp recorded for that step). *)
Definition smoothable {P U Y} (ld : cell U -> nat -> P -> P -> xr) (N : nat) (pt : ptraj P U Y) : Prop :=
  pt_traj pt <> [] /\ Forall (step_wf N) (pt_traj pt) /\ Forall (fun st => live (lw (st_pa st))) (pt_traj pt) /\
  forall k st st', nth_error (pt_traj pt) k = Some st -> nth_error (pt_traj pt) (S k) = Some st' ->
    exists uk tk, nth_error (pt_u pt) k = Some uk /\ nth_error (pt_t pt) k = Some tk /\
      forall x', In x' (part (st_pa st')) -> usable (ld uk tk) (st_pa st) x'.
