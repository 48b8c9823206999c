(** Specification for C80: what the likelihood estimate of a particle filter is, what it should average to, and how the average is taken.
    Nothing here refers to how the filters work. *)
From Coquelicot Require Import Coquelicot.
From Coq Require Import Reals List.
From Verif Require Import Base XR PAModel FilterModel TrajModel WeightSpec.
Import ListNotations.
Open Scope R_scope.

(** ** Averages *)

(** An expectation over [A]: a linear functional with the constant 1 averaging to 1. *)
Record average {A} (E : (A -> R) -> R) : Prop := {
  av_ext : forall F G, (forall a, F a = G a) -> E F = E G;
  av_lin : forall c F G, E (fun a => c * F a + G a) = c * E F + E G;
  av_one : E (fun _ => 1) = 1 }.

(** Average over [n] independent draws. *)
Fixpoint iid {A} (E : (A -> R) -> R) (n : nat) (F : list A -> R) : R :=
  match n with
  | O => F []
  | S n' => E (fun a => iid E n' (fun l => F (a :: l)))
  end.

(** ** The state-space model *)
Section Model.
Context {P U Y V : Type}.

(** x_{t+1} = move x_t u_t t v_t with noise v_t; log density [ll x y t] of the measurement. *)
Record ssm := mkSSM { move : P -> cell U -> nat -> V -> P; ll : P -> cell Y -> nat -> R }.

Variable m : ssm.
Variable noise : (V -> R) -> R.      (* distribution of v_t *)

(** What remains to be observed: the exact value of E[ p(y's of ops | path) * phi(last state) ] given that the state at time [k] is
    [x]. With phi = 1 this is the likelihood of the measurements in [ops]. *)
Fixpoint future (k : nat) (ops : list (@op U Y)) (phi : P -> R) (x : P) : R :=
  match ops with
  | [] => phi x
  | Fwd u y :: ops' =>
      noise (fun v => let x' := move m x (cell_of u) k v in exp (ll m x' (cell_of y) (k + 1)) * future (k + 1) ops' phi x')
  | Meas y :: ops' => exp (ll m x (cell_of y) k) * future k ops' phi x
  end.

(** ** The model object handed to the library (interfaces.py:234-289). Its randomness in one call of [forward] is the uniform number [r]
    and the noises [vs]; [dv] stands in for a noise that is missing (never used when there are as many noises as particles).  The
    initial particles are [x0] (only this number of particles can be asked for). *)
Definition call_world : Type := (R * list V)%type.

Definition call_rng : rng call_world :=
  mkRng (fun w => (if Rle_dec 0 (fst w) then if Rlt_dec (fst w) 1 then fst w else 0 else 0, w)) (fun n w => (seq 0 n, w)).

Definition ssm_model (x0 : list P) (dv : V) : bmodel call_world P U Y (list V) :=
  mkBasic (fun n => if Nat.eqb (length x0) n then ret x0 else raise ValueError)
    (fun _ _ _ w => Ok (snd w, w))
    (fun p u t vs => ret (map (fun ix => move m (snd ix) u t (nth (fst ix) vs dv)) (combine (seq 0 (length p)) p)))
    (fun p y t => ret (p, map (fun x => Fin (ll m x y t)) p))
    (fun p _ _ _ => ret (map (fun _ => Fin 0) p))
    (fun p _ _ _ => ret (map (fun _ => Fin 0) p))
    (fun p _ _ _ => ret p)
    (fun p _ _ _ _ => ret (map (fun _ => Fin 0) p))
    (fun n _ _ => if Nat.eqb (length x0) n then ret x0 else raise ValueError).
End Model.
Arguments ssm : clear implicits.
Arguments mkSSM {P U Y V}.

(** ** The estimate, from what the calls return and store *)
Section Estimate.
Context {P U Y : Type}.

(** Weighted mean of [phi] over the particles of a step. *)
Definition wmean (pa : papprox P) (phi : P -> R) : R :=
  rsum (map (fun xw => lin (snd xw) * phi (fst xw)) (combine (part pa) (lw pa))) / total (lw pa).

(** Sum of the weights with the offset put back. *)
Definition mass (pa : papprox P) : R := total (lw pa) * lin (woff pa).

(** Factor contributed by a [forward] that led to the trajectory [s'] and returned [resampled]: the new mass, relative to the weights it
    started from (which sum to one after resampling). *)
Definition fwd_factor (s' : ptraj P U Y) (resampled : bool) : R :=
  match rev (pt_traj s') with
  | new :: old :: _ => mass (st_pa new) / (if resampled then 1 else total (lw (st_pa old)))
  | _ => 0
  end.

(** Factor contributed by a [measure] from [s] to [s']: new mass over old mass (1 for the initial particles). *)
Definition meas_factor (s s' : ptraj P U Y) : R :=
  match rev (pt_traj s') with
  | new :: _ => mass (st_pa new) / match rev (pt_traj s) with old :: _ => mass (st_pa old) | [] => 1 end
  | [] => 0
  end.

(** Weighted mean over the current particles; before the first call over the initial ones. *)
Definition current (x0 : list P) (s : ptraj P U Y) (phi : P -> R) : R :=
  match rev (pt_traj s) with
  | st :: _ => wmean (st_pa st) phi
  | [] => rsum (map phi x0) / INR (length x0)
  end.
End Estimate.

Section Mean.
Context {P U Y V : Type}.
Variables (m : ssm P U Y V) (noise : (V -> R) -> R) (x0 : list P) (dv : V).

(** Average of [F] over the randomness of one [forward]: a uniform number and one independent noise per particle. *)
Definition fwd_outcome (s : ptraj P U Y) u y (F : ptraj P U Y -> bool -> R) (r : R) : R :=
  iid noise (length x0) (fun vs =>
    match pt_forward (full_of_basic (ssm_model m x0 dv)) call_rng s u y (r, vs) with
    | Ok ((s', resampled), _) => F s' resampled
    | Err _ => 0
    end).

(** Expected value, over the calls [ops] made on [s], of the product of the factors times the final weighted mean of [phi]. *)
Fixpoint estimate (ops : list op) (s : ptraj P U Y) (phi : P -> R) : R :=
  match ops with
  | [] => current x0 s phi
  | Fwd u y :: ops' => RInt (fwd_outcome s u y (fun s' resampled => fwd_factor s' resampled * estimate ops' s' phi)) 0 1
  | Meas y :: ops' =>
      match pt_measure (full_of_basic (ssm_model m x0 dv)) s y (0, []) with
      | Ok (s', _) => meas_factor s s' * estimate ops' s' phi
      | Err _ => 0
      end
  end.
End Mean.
