(** Model of the estimate getters (pyparticleest/simulator.py:114-185,
    smoother.py:609-629).  A particle is a row of [D] real numbers. *)
From Coq Require Import Bool Reals List Arith.
From Verif Require Import Base XR PAModel FilterModel.
Import ListNotations.
Open Scope R_scope.

(** [a.shape[1]] of a two dimensional array; its rows have equal length (simplified: an
    array without rows has no columns, numpy would remember the number). *)
(** simulator.py:125-126, 153; smoother.py:621-622 *)
Definition ncols (p : list (list R)) : nat := match p with [] => 0%nat | r :: _ => length r end.

(** [est[t] = p] into an array of [n] rows and [d] columns (simplified: numpy would also
    broadcast a single row or column). *)
(** simulator.py:135; smoother.py:627 *)
Definition assign (n d : nat) (p : list (list R)) : res (list (list R)) :=
  if (Nat.eqb (length p) n && forallb (fun r => Nat.eqb (length r) d) p)%bool then Ok p else Err ValueError.

(** simulator.py:130-133: the weights of one step. *)
Definition step_weights (w : list xr) : list xr :=
  let wtmp := map xexp w in map (fun x => xdiv x (xsum wtmp)) wtmp.

(** [w[t] = v] into an array of [n] columns. *)
(** simulator.py:134 *)
Definition assign1 (n : nat) (v : list xr) : res (list xr) := if Nat.eqb (length v) n then Ok v else Err ValueError.

(** simulator.py:130-135: the loop. *)
Fixpoint est_loop (n d : nat) (tr : list (tstep (list R))) : res (list (list (list R)) * list (list xr)) :=
  match tr with
  | [] => Ok ([], [])
  | st :: tr' =>
      dor w <- assign1 n (step_weights (lw (st_pa st))) ;
      dor p <- assign n d (part (st_pa st)) ;
      dor r <- est_loop n d tr' ;
      Ok (p :: fst r, w :: snd r)
  end.

(** simulator.py:114-137 [get_filtered_estimates]. *)
Definition get_filtered_estimates (tr : list (tstep (list R))) : res (list (list (list R)) * list (list xr)) :=
  dor st0 <- idx tr 0 ;
  est_loop (length (part (st_pa st0))) (ncols (part (st_pa st0))) tr.

(** Column [c] of an array (entries exist for c < number of columns). *)
(** numpy [a[:, c]], simulator.py:157, 185 *)
Definition column (p : list (list R)) (c : nat) : list R := map (fun r => nth c r 0) p.

(** simulator.py:157: [numpy.sum((w.ravel() * est.T).T, 0)]. *)
Definition wmean (d : nat) (w : list xr) (p : list (list R)) : res (list xr) :=
  fold_right (fun c acc => dor z <- zipw (fun a x => xmul a (Fin x)) w (column p c) ; dor r <- acc ; Ok (xsum z :: r)) (Ok []) (seq 0 d).

(** simulator.py:139-159 [get_filtered_mean]. *)
Fixpoint mean_loop (d : nat) (est : list (list (list R))) (w : list (list xr)) : res (list (list xr)) :=
  match est, w with
  | p :: est', wt :: w' => dor m <- wmean d wt p ; dor r <- mean_loop d est' w' ; Ok (m :: r)
  | _, _ => Ok []
  end.
Definition get_filtered_mean (tr : list (tstep (list R))) : res (list (list xr)) :=
  dor ew <- get_filtered_estimates tr ;
  dor st0 <- idx tr 0 ;
  mean_loop (ncols (part (st_pa st0))) (fst ew) (snd ew).

(** smoother.py:609-629 [SmoothTrajectory.get_smoothed_estimates]. *)
Fixpoint sest_loop (n d : nat) (tr : list (tstep (list R))) : res (list (list (list R))) :=
  match tr with
  | [] => Ok []
  | st :: tr' => dor p <- assign n d (part (st_pa st)) ; dor r <- sest_loop n d tr' ; Ok (p :: r)
  end.
Definition get_smoothed_estimates (tr : list (tstep (list R))) : res (list (list (list R))) :=
  dor st0 <- idx tr 0 ;
  sest_loop (length (part (st_pa st0))) (ncols (part (st_pa st0))) tr.

(** simulator.py:175-185 [get_smoothed_mean]: [numpy.mean(est, 1)], the mean over the
    particles of every component. *)
Definition pmean (d : nat) (p : list (list R)) : list xr :=
  map (fun c => xdiv (xsum (map Fin (column p c))) (Fin (INR (length p)))) (seq 0 d).
Definition get_smoothed_mean (tr : list (tstep (list R))) : res (list (list xr)) :=
  dor est <- get_smoothed_estimates tr ;
  dor st0 <- idx tr 0 ;
  Ok (map (pmean (ncols (part (st_pa st0)))) est).
