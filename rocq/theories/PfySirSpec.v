(** Specification for C86: what it means that one model's proposal from the measurement is another model's importance proposal, and the
    estimate that the 'PFY' filter computes. Nothing here refers to how the filters work. *)
From Coquelicot Require Import Coquelicot.
From Coq Require Import Reals List Arith.
From Verif Require Import Base XR PAModel FilterModel TrajModel WeightSpec FilterSpec EvidenceSpec SirSpec.
Import ListNotations.
Open Scope R_scope.

(** [b'] uses the proposal of [b] ([propose_from_y], from the measurement alone) as importance proposal, has the same initial particles and
    transition density, and states one and the same finite log density for the proposal and for the measurement. *)
Record as_importance {W P U Y V V'} (b : bmodel W P U Y V) (b' : bmodel W P U Y V') : Prop := {
  ai_create : forall n w, b_create b' n w = b_create b n w;
  ai_qsample : forall p u y t w, b_qsample b' p u y t w = b_propose_y b (length p) y (t + 1) w;
  ai_xnext : forall p q u t w, b_xnext b' p q u t w = b_xnext b p q u t w;
  ai_density : forall p q u y t, length p = length q -> exists l, length l = length q /\
     forall w, b_logp_q b' p q u y t w = Ok (map Fin l, w) /\ b_measure b' q y (t + 1) w = Ok ((q, map Fin l), w) }.

(** The trajectory object [s] with its filter exchanged. *)
Definition with_filter {P U Y} (f : filt P) (s : ptraj P U Y) : ptraj P U Y :=
  mkPT (pt_N s) f (pt_u s) (pt_y s) (pt_t s) (pt_T s) (pt_ind1 s) (pt_traj s).

Section Proposal.
Context {P U Y V Q : Type}.

(** A proposal from the measurement: x = ydraw y t q with proposal noise q; [ylog x y t] its log density; [ytrans x x' u t] the log density
    of the state dynamics. *)
Record y_proposal := mkYProposal {
  ydraw : cell Y -> nat -> Q -> P;
  ylog : P -> cell Y -> nat -> R;
  ytrans : P -> P -> cell U -> nat -> R }.

(** The two densities are what they claim to be, with respect to one common measure [mu] on the states. *)
Record y_proposal_ok (m : ssm P U Y V) (noise : (V -> R) -> R) (d : y_proposal) (qnoise : (Q -> R) -> R) (mu : (P -> R) -> R) : Prop := {
  yo_ext : forall f h, (forall x, f x = h x) -> mu f = mu h;
  yo_dynamics : forall x u t f, noise (fun v => f (move m x u t v)) = mu (fun x' => exp (ytrans d x x' u t) * f x');
  yo_proposal : forall y t f, qnoise (fun q => f (ydraw d y t q)) = mu (fun x' => exp (ylog d x' y t) * f x') }.

(** The model object handed to the library: it can make initial particles, propose from a measurement and evaluate the transition density;
    'PFY' asks for nothing else (everything else raises). Its randomness in one call is the uniform number and the proposal noises. *)
Definition pfy_model (d : y_proposal) (x0 : list P) (dq : Q) : bmodel (@call_world Q) P U Y unit :=
  mkBasic (fun n => if Nat.eqb (length x0) n then ret x0 else raise ValueError)
    (fun _ _ _ => raise NotImplementedError)
    (fun _ _ _ _ => raise NotImplementedError)
    (fun _ _ _ => raise NotImplementedError)
    (fun p nx u t => if Nat.eqb (length p) (length nx) then ret (map (fun xx => Fin (ytrans d (fst xx) (snd xx) u t)) (combine p nx)) else raise ValueError)
    (fun _ _ _ _ => raise NotImplementedError)
    (fun _ _ _ _ => raise NotImplementedError)
    (fun _ _ _ _ _ => raise NotImplementedError)
    (fun n y t w => Ok (map (fun i => ydraw d y t (nth i (snd w) dq)) (seq 0 n), w)).
End Proposal.
Arguments y_proposal : clear implicits.
Arguments mkYProposal {P U Y Q}.

Section Mean.
Context {P U Y Q : Type}.
Variables (d : y_proposal P U Y Q) (qnoise : (Q -> R) -> R) (x0 : list P) (dq : Q).

(** Average of [F] over the randomness of one [forward]: a uniform number and one independent proposal noise per particle. *)
Definition pfy_outcome (s : ptraj P U Y) u y (F : ptraj P U Y -> bool -> R) (r : R) : R :=
  iid qnoise (length x0) (fun qs =>
    match pt_forward (full_of_basic (pfy_model d x0 dq)) call_rng s u y (r, qs) with
    | Ok ((s', resampled), _) => F s' resampled
    | Err _ => 0
    end).

(** Expected value, over the calls [forward(u, y)] made on [s], of the product of the factors times the final weighted mean of [phi]. *)
Fixpoint pfy_estimate (fwds : list (option U * option Y)) (s : ptraj P U Y) (phi : P -> R) : R :=
  match fwds with
  | [] => current x0 s phi
  | (u, y) :: fwds' => RInt (pfy_outcome s u y (fun s' resampled => fwd_factor s' resampled * pfy_estimate fwds' s' phi)) 0 1
  end.
End Mean.

Definition fwd_ops {U Y} (fwds : list (option U * option Y)) : list (@op U Y) := map (fun uy => Fwd (fst uy) (snd uy)) fwds.

(** Product of a constant per measurement, from step [k] on. *)
Fixpoint scales {U Y} (c : cell Y -> nat -> R) (k : nat) (fwds : list (option U * option Y)) : R :=
  match fwds with [] => 1 | (_, y) :: fwds' => c (cell_of y) (k + 1)%nat * scales c (k + 1) fwds' end.
