(** Specification for C83: importance proposals, and the estimate of the 'SIR' filter that uses them. The state-space model, its exact
    likelihood [future], and the factors of the estimate are those of EvidenceSpec. Nothing here refers to how the filter works. *)
From Coquelicot Require Import Coquelicot.
From Coq Require Import Reals List.
From Verif Require Import Base XR PAModel FilterModel TrajModel WeightSpec EvidenceSpec.
Import ListNotations.
Open Scope R_scope.

Section Proposal.
Context {P U Y V Q : Type}.

(** A proposal: x' = draw x u y t q with proposal noise q; [lq x x' u y t] its log density, [lp x x' u t] the log density of the state
    dynamics (what [logp_q] and [logp_xnext] return). *)
Record proposal := mkProposal {
  draw : P -> cell U -> cell Y -> nat -> Q -> P;
  lq : P -> P -> cell U -> cell Y -> nat -> R;
  lp : P -> P -> cell U -> nat -> R }.

(** The two log densities are what they claim to be, with respect to one common measure [mu] on the states. *)
Record proposal_ok (m : ssm P U Y V) (noise : (V -> R) -> R) (d : proposal) (qnoise : (Q -> R) -> R) (mu : (P -> R) -> R) : Prop := {
  po_ext : forall f h, (forall x, f x = h x) -> mu f = mu h;
  po_dynamics : forall x u t f, noise (fun v => f (move m x u t v)) = mu (fun x' => exp (lp d x x' u t) * f x');
  po_proposal : forall x u y t f, qnoise (fun q => f (draw d x u y t q)) = mu (fun x' => exp (lq d x x' u y t) * f x') }.

(** The model object handed to the library (interfaces.py:9-38, 234-289).  Its randomness in one call of [forward] is the uniform number
    and the proposal noises [qs]. 'SIR' never asks for process noise or first stage weights. *)
Definition sir_model (m : ssm P U Y V) (d : proposal) (x0 : list P) (dq : Q) : bmodel (@call_world Q) P U Y unit :=
  mkBasic (fun n => if Nat.eqb (length x0) n then ret x0 else raise ValueError)
    (fun _ _ _ => ret tt)
    (fun p _ _ _ => ret p)
    (fun p y t => ret (p, map (fun x => Fin (ll m x y t)) p))
    (fun p nx u t => if Nat.eqb (length p) (length nx) then ret (map (fun xx => Fin (lp d (fst xx) (snd xx) u t)) (combine p nx)) else raise ValueError)
    (fun p _ _ _ => ret (map (fun _ => Fin 0) p))
    (fun p u y t w => Ok (map (fun ix => draw d (snd ix) u y t (nth (fst ix) (snd w) dq)) (combine (seq 0 (length p)) p), w))
    (fun p nx u y t => if Nat.eqb (length p) (length nx) then ret (map (fun xx => Fin (lq d (fst xx) (snd xx) u y t)) (combine p nx)) else raise ValueError)
    (fun n _ _ => if Nat.eqb (length x0) n then ret x0 else raise ValueError).
End Proposal.
Arguments proposal : clear implicits.
Arguments mkProposal {P U Y Q}.

Section Mean.
Context {P U Y V Q : Type}.
Variables (m : ssm P U Y V) (d : proposal P U Y Q) (qnoise : (Q -> R) -> R) (x0 : list P) (dq : Q).

(** Average of [F] over the randomness of one [forward]: a uniform number and one independent proposal noise per particle. *)
Definition sir_outcome (s : ptraj P U Y) u y (F : ptraj P U Y -> bool -> R) (r : R) : R :=
  iid qnoise (length x0) (fun qs =>
    match pt_forward (full_of_basic (sir_model m d x0 dq)) call_rng s u y (r, qs) with
    | Ok ((s', resampled), _) => F s' resampled
    | Err _ => 0
    end).

(** Expected value, over the calls [ops] made on [s], of the product of the factors times the final weighted mean of [phi]. *)
Fixpoint sir_estimate (ops : list op) (s : ptraj P U Y) (phi : P -> R) : R :=
  match ops with
  | [] => current x0 s phi
  | Fwd u y :: ops' => RInt (sir_outcome s u y (fun s' resampled => fwd_factor s' resampled * sir_estimate ops' s' phi)) 0 1
  | Meas y :: ops' =>
      match pt_measure (full_of_basic (sir_model m d x0 dq)) s y (0, []) with
      | Ok (s', _) => meas_factor s s' * sir_estimate ops' s' phi
      | Err _ => 0
      end
  end.
End Mean.
