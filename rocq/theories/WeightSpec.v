(** Specification vocabulary for particle weights.  [lin] (XR.v) is the linear
    weight denoted by a log weight. *)
From Coq Require Import Reals List Permutation.
From Verif Require Import Base XR SampleSpec PAModel.
Import ListNotations.
Open Scope R_scope.

(** Log weights of a usable particle set: every entry finite or -inf, at least
    one finite. *)
Definition live (w : list xr) : Prop :=
  Forall logish w /\ exists r, In (Fin r) w.

(** Rescaled log weights: finite or -inf, and the largest one is 0. *)
Definition rescaled (w : list xr) : Prop :=
  Forall (fun x => xle x (Fin 0)) w /\ In (Fin 0) w.

(** Some particle has non-zero previous weight and non-zero likelihood. *)
Definition survivor (w nw : list xr) : Prop :=
  exists i a b, nth_error w i = Some (Fin a) /\ nth_error nw i = Some (Fin b).

(** All weights lost. *)
Definition all_nan (w : list xr) : Prop := w <> [] /\ Forall (fun x => x = NaN) w.

(** Total linear weight, and normalised weight of entry [i]. *)
Definition total (w : list xr) : R := rsum (map lin w).
Definition nweight (w : list xr) (i : nat) : R := lin (nth i w NInf) / total w.

(** The usual effective sample size: (sum w)^2 / sum w^2. *)
Definition ess (w : list R) : R := (rsum w) ^ 2 / rsum (map (fun x => x ^ 2) w).

(** Contract of the random generator. *)
Definition rng_ok {W} (g : rng W) : Prop :=
  (forall s, unit_draw (fst (rand g s))) /\
  (forall n s, Permutation (fst (permutation g n s)) (seq 0 n)).
