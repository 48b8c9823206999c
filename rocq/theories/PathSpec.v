(** Specification for C88: the ancestral lines of the filter's particles, the exact path average they should reproduce, and the average of
    the weighted lines.  [average], [iid], [ssm], [fwd_factor], [meas_factor], [fwd_outcome] are those of EvidenceSpec. *)
From Coquelicot Require Import Coquelicot.
From Coq Require Import Reals List.
From Verif Require Import Base XR PAModel FilterModel TrajModel WeightSpec EvidenceSpec.
Import ListNotations.
Open Scope R_scope.

Section Lines.
Context {P U Y V : Type}.

(** The line of every particle of the last step: the line of its ancestor, then the particle itself. *)
Definition lines (tr : list (tstep P)) : list (list P) :=
  fold_left (fun ls st => map (fun xa => nth (snd xa) ls [] ++ [fst xa]) (combine (part (st_pa st)) (st_anc st))) tr [].

(** Weighted mean of a function of the line; before the first call over the initial particles. *)
Definition line_mean (x0 : list P) (s : ptraj P U Y) (phi : list P -> R) : R :=
  match rev (pt_traj s) with
  | st :: _ => rsum (map (fun hw => lin (snd hw) * phi (fst hw)) (combine (lines (pt_traj s)) (lw (st_pa st)))) / total (lw (st_pa st))
  | [] => rsum (map (fun x => phi [x]) x0) / INR (length x0)
  end.

Variables (m : ssm P U Y V) (noise : (V -> R) -> R).

(** The exact value of E[ p(y's of ops | path) * phi(path) ] given the path so far (newest state last), at time [k]. *)
Fixpoint path_future (k : nat) (ops : list (@op U Y)) (phi : list P -> R) (path : list P) : R :=
  match ops, rev path with
  | [], _ => phi path
  | _, [] => 0
  | Fwd u y :: ops', x :: _ =>
      noise (fun v => let x' := move m x (cell_of u) k v in exp (ll m x' (cell_of y) (k + 1)) * path_future (k + 1) ops' phi (path ++ [x']))
  | Meas y :: ops', x :: _ => exp (ll m x (cell_of y) k) * path_future k ops' phi path
  end.

Variables (x0 : list P) (dv : V).

(** Expected value, over the calls [ops] made on [s], of the product of the factors times the final weighted mean of [phi] of the lines. *)
Fixpoint line_estimate (ops : list op) (s : ptraj P U Y) (phi : list P -> R) : R :=
  match ops with
  | [] => line_mean x0 s phi
  | Fwd u y :: ops' => RInt (fwd_outcome m noise x0 dv s u y (fun s' resampled => fwd_factor s' resampled * line_estimate ops' s' phi)) 0 1
  | Meas y :: ops' =>
      match pt_measure (full_of_basic (ssm_model m x0 dv)) s y (0, []) with
      | Ok (s', _) => meas_factor s s' * line_estimate ops' s' phi
      | Err _ => 0
      end
  end.
End Lines.
