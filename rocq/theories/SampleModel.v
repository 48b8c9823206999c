(** Model of pyparticleest/filter.py:10-23 ([sample]): systematic resampling. *)
From Coq Require Import Reals List.
From Verif Require Import Base XR.
Import ListNotations.
Open Scope R_scope.

(** numpy.cumsum (used at filter.py:20): running sums starting from [a]. *)
Fixpoint xcumsum_from (a : xr) (l : list xr) : list xr :=
  match l with
  | [] => []
  | x :: l' => let b := xadd a x in b :: xcumsum_from b l'
  end.

(** filter.py:20 [wc = numpy.cumsum(w)]. *)
Definition xcumsum (l : list xr) : list xr := xcumsum_from (Fin 0) l.

(** numpy.searchsorted(a, u), side='left' (filter.py:23): the left insertion
    point, i.e. the number of leading entries strictly below [u] in numpy's sort
    order (NaN last).  Simplification: numpy's binary search is represented by a
    left-to-right scan, which returns the same index on the sorted arrays it is
    specified for. *)
Fixpoint searchsorted (a : list xr) (u : xr) : nat :=
  match a with
  | [] => 0%nat
  | x :: a' => if np_less x u then S (searchsorted a' u) else 0%nat
  end.

(** filter.py:22 [u = (range(n) + numpy.random.rand(1)) / n], entry [k]; [r] is
    the single uniform draw. *)
Definition sample_key (n : nat) (r : R) (k : nat) : xr :=
  Fin ((INR k + r) / INR n).

(** filter.py:10-23 [sample(w, n)] with [r] the value returned by
    [numpy.random.rand(1)].  [wc[-1]] raises IndexError on an empty array. *)
Definition np_sample (w : list xr) (n : nat) (r : R) : res (list nat) :=
  let wc := xcumsum w in
  dor z <- idx_last wc ;
  let wc := map (fun x => xdiv x z) wc in
  Ok (map (fun k => searchsorted wc (sample_key n r k)) (seq 0 n)).
