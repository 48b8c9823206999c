(** Specification for C87: the correction factor of one step of the auxiliary particle filter, from public data only, and the average of
    the resulting estimate.  [average], [iid], [ssm], [future], [current], [wmean], [meas_factor] are those of EvidenceSpec. *)
From Coquelicot Require Import Coquelicot.
From Coq Require Import Reals List.
From Verif Require Import Base XR PAModel FilterModel TrajModel WeightSpec EvidenceSpec.
Import ListNotations.
Open Scope R_scope.

Section Apf.
Context {P U Y V : Type}.
Variables (m : ssm P U Y V).
Variable l1 : P -> cell U -> cell Y -> nat -> R.     (* log first stage weight of a particle; any function *)

(** The model object: the one of EvidenceSpec, which also answers [eval_1st_stage_weights] (interfaces.py:300-316), with [l1]. *)
Definition apf_model (x0 : list P) (dv : V) : bmodel (call_world (V := V)) P U Y (list V) :=
  mkBasic (fun n => if Nat.eqb (length x0) n then ret x0 else raise ValueError)
    (fun _ _ _ w => Ok (snd w, w))
    (fun p u t vs => ret (map (fun ix => move m (snd ix) u t (nth (fst ix) vs dv)) (combine (seq 0 (length p)) p)))
    (fun p y t => ret (p, map (fun x => Fin (ll m x y t)) p))
    (fun p _ _ _ => ret (map (fun _ => Fin 0) p))
    (fun p u y t => ret (map (fun x => Fin (l1 x u y t)) p))
    (fun p _ _ _ => ret p)
    (fun p _ _ _ _ => ret (map (fun _ => Fin 0) p))
    (fun n _ _ => if Nat.eqb (length x0) n then ret x0 else raise ValueError).

(** Factor contributed by a [forward] with input [u] and measurement [y] that led to [s']: the mean of the likelihoods under the old
    weights when the particles were not resampled; when they were, the weighted mean of the first stage weights, times the average over
    the new particles of likelihood divided by the ancestor's first stage weight. *)
Definition apf_factor (u : option U) (y : option Y) (s' : ptraj P U Y) (resampled : bool) : R :=
  match rev (pt_traj s') with
  | new :: old :: before =>
      let k := length before in
      let first x := exp (l1 x (cell_of u) (cell_of y) k) in
      let lik x := exp (ll m x (cell_of y) (k + 1)) in
      if resampled then
        wmean (st_pa old) first *
        (rsum (map (fun xa => lik (fst xa) / nth (snd xa) (map first (part (st_pa old))) 0) (combine (part (st_pa new)) (st_anc new)))
         / INR (length (part (st_pa new))))
      else
        rsum (map (fun xw => lin (snd xw) * lik (fst xw)) (combine (part (st_pa new)) (lw (st_pa old)))) / total (lw (st_pa old))
  | _ => 0
  end.

Variables (noise : (V -> R) -> R) (x0 : list P) (dv : V).

(** Average of [F] over the randomness of one [forward]. *)
Definition apf_outcome (s : ptraj P U Y) u y (F : ptraj P U Y -> bool -> R) (r : R) : R :=
  iid noise (length x0) (fun vs =>
    match pt_forward (full_of_basic (apf_model x0 dv)) call_rng s u y (r, vs) with
    | Ok ((s', resampled), _) => F s' resampled
    | Err _ => 0
    end).

(** Expected value, over the calls [ops] made on [s], of the product of the factors times the final weighted mean of [phi]. *)
Fixpoint apf_estimate (ops : list op) (s : ptraj P U Y) (phi : P -> R) : R :=
  match ops with
  | [] => current x0 s phi
  | Fwd u y :: ops' => RInt (apf_outcome s u y (fun s' resampled => apf_factor u y s' resampled * apf_estimate ops' s' phi)) 0 1
  | Meas y :: ops' =>
      match pt_measure (full_of_basic (apf_model x0 dv)) s y (0, []) with
      | Ok (s', _) => meas_factor s s' * apf_estimate ops' s' phi
      | Err _ => 0
      end
  end.
End Apf.

(** Every [forward] comes with a measurement (the auxiliary filter fails without one, C21_needs_measurement). *)
Definition measured {U Y : Type} (ops : list (@op U Y)) : Prop :=
  Forall (fun o => match o with Fwd _ None => False | _ => True end) ops.
