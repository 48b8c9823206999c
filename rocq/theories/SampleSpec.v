(** Specification vocabulary for [sample]; does not mention the model. *)
From Coq Require Import Reals List.
From Verif Require Import Base XR.
Import ListNotations.
Open Scope R_scope.

(** A usable weight vector: non-negative reals, positive total. *)
Definition weights_ok (w : list R) : Prop :=
  Forall (fun x => 0 <= x) w /\ 0 < rsum w.

(** Sum of the first [i] weights. *)
Definition psum (w : list R) (i : nat) : R := rsum (firstn i w).

(** Number of occurrences of [i] in the list of drawn indices. *)
Definition occurrences (i : nat) (l : list nat) : nat := count_occ Nat.eq_dec l i.

(** A value that [numpy.random.rand] can return. *)
Definition unit_draw (r : R) : Prop := 0 <= r < 1.

(** Indices in non-decreasing order. *)
Definition nondecreasing (l : list nat) : Prop :=
  forall j k a b, (j <= k)%nat -> nth_error l j = Some a -> nth_error l k = Some b -> (a <= b)%nat.
