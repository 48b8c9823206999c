(** Specification for C81: the distribution of a trajectory drawn by forward filtering / backward simulation. *)
From Coq Require Import Reals List.
From Verif Require Import Base XR SampleSpec PAModel WeightSpec FilterModel TrajModel SmoothModel SmoothSpec.
Import ListNotations.
Open Scope R_scope.

Section Ffbsi.
Context {P U Y V : Type}.
Variable ld : cell U -> nat -> P -> P -> xr.     (* transition log density *)
Variable pt : ptraj P U Y.                       (* the filter's result *)

(** Mean of [phi] over the particles of a step, particle number i with probability [pr i]. *)
Definition choice (st : tstep P) (pr : nat -> R) (phi : P -> R) : R :=
  rsum (map (fun ix => pr (fst ix) * phi (snd ix)) (combine (seq 0 (length (part (st_pa st)))) (part (st_pa st)))).

(** [future] holds the states x_n, x_{n+1}, ... already drawn.  x_{n-1}, ..., x_0 are then drawn one after the other: the state before x'
    is the particle i of its step with probability proportional to w_i p(x' | x_i).  The result is the mean of [phi] over the completed
    trajectory (x_0, x_1, ...). *)
Fixpoint extend (phi : list P -> R) (n : nat) (future : list P) : R :=
  match n with
  | O => phi future
  | S k =>
      match nth_error (pt_traj pt) k, nth_error (pt_u pt) k, nth_error (pt_t pt) k, future with
      | Some st, Some uk, Some tk, x' :: _ =>
          choice st (backward_prob (ld uk tk) (st_pa st) x') (fun x => extend phi k (x :: future))
      | _, _, _, _ => 0
      end
  end.

(** The last state is drawn from the filter's weighted particles. *)
Definition ffbsi_mean (phi : list P -> R) : R :=
  match rev (pt_traj pt) with
  | last :: _ => choice last (nweight (lw (st_pa last))) (fun x => extend phi (length (pt_traj pt) - 1) [x])
  | [] => 0
  end.

(** The [j]-th smoothed trajectory. *)
Definition trajectory (out : list (tstep P)) (j : nat) : list P :=
  flat_map (fun st => match nth_error (part (st_pa st)) j with Some x => [x] | None => [] end) out.

(** Contract: the default [sample_smooth] (a copy, no use of the random generator). *)
Definition plain_copy {W} (sm : smodel W P U Y V) : Prop :=
  forall p ptr anc fut find u y t k s, s_sample sm p ptr anc fut find u y t k s = Ok (p, s).
End Ffbsi.
