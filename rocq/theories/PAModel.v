(** Model of ParticleApproximation (pyparticleest/filter.py:1052-1143) and of the
    weight update shared by the filters. *)
From Coq Require Import Reals List.
From Verif Require Import Base XR SampleModel.
Import ListNotations.
Open Scope R_scope.

(** filter.py:1052-1084: the fields of a ParticleApproximation.  [lw] is the log
    weight vector [w]; [woff] is [w_offset]. *)
Record papprox (P : Type) : Type := mkPA {
  part : list P;
  lw : list xr;
  num : nat;
  woff : xr }.
Arguments mkPA {P}. Arguments part {P}. Arguments lw {P}.
Arguments num {P}. Arguments woff {P}.

(** filter.py:1066-1084 with [particles] given.  [logw = None] gives uniform
    weights; [math.log(0)] raises ValueError for an empty collection.  The
    [seed]/[num] branch (1070-1073) is not modelled (not used by the library). *)
Definition pa_init {P} (particles : list P) (logw : option (list xr)) : res (papprox P) :=
  match logw with
  | Some w => Ok (mkPA particles w (length particles) (Fin 0))
  | None =>
      match particles with
      | [] => Err ValueError
      | _ => Ok (mkPA particles
                      (repeat (Fin (- ln (INR (length particles)))) (length particles))
                      (length particles) (Fin 0))
      end
  end.

(** filter.py:1097-1099 on a log weight vector. *)
Definition neff_of (w : list xr) : res xr :=
  dor m <- xmax w ;
  let tmp := map (fun x => xexp (xsub x m)) w in
  let s := xsum tmp in
  let tmp := map (fun x => xdiv x s) tmp in
  Ok (xdiv (Fin 1) (xsum (map (fun x => xmul x x) tmp))).

(** filter.py:1089-1099 [calc_Neff]. *)
Definition calc_Neff {P} (pa : papprox P) : res xr := neff_of (lw pa).

(** filter.py:1115-1116: the indices drawn by [resample] for the draw [r]. *)
Definition resample_ind (w : list xr) (n : nat) (r : R) : res (list nat) :=
  dor m <- xmax w ;
  np_sample (map (fun x => xexp (xsub x m)) w) n r.

(** Random generator: a stateful source of uniform draws
    ([numpy.random.rand]/[uniform]) and random permutations
    ([numpy.random.permutation]). *)
Record rng (W : Type) : Type := mkRng {
  rand : W -> R * W;
  permutation : nat -> W -> list nat * W }.
Arguments rand {W}. Arguments permutation {W}. Arguments mkRng {W}.

(** [numpy.random.rand], filter.py:22 *)
Definition draw {W} (g : rng W) : M W R := fun s => let (r, s') := rand g s in Ok (r, s').

(** filter.py:10-23 including the call to [numpy.random.rand(1)] at line 22
    (made after [wc[-1]] has been read). *)
Definition sampleM {W} (g : rng W) (w : list xr) (n : nat) : M W (list nat) :=
  do _ <- lift (idx_last (xcumsum w)) ;
  do r <- draw g ;
  lift (np_sample w n r).

(** filter.py:1119: [numpy.log(numpy.ones(N) / N)]. *)
Definition uniform_lw (n : nat) : list xr := repeat (Fin (ln (1 / INR n))) n.

(** filter.py:1101-1123 [resample(model, N)]; [copy] is [model.copy_ind]. *)
Definition pa_resample {W P} (g : rng W) (copy : list P -> list nat -> M W (list P))
    (pa : papprox P) (n : nat) : M W (papprox P * list nat) :=
  do m <- lift (xmax (lw pa)) ;
  let tmp := map (fun x => xsub x m) (lw pa) in
  do new_ind <- sampleM g (map xexp tmp) n ;
  do new_part <- copy (part pa) new_ind ;
  ret (mkPA new_part (uniform_lw n) n (Fin 0), new_ind).

(** filter.py:1125-1131 [sample()]: draw one particle. *)
Definition pa_sample {W P} (g : rng W) (pa : papprox P) : M W P :=
  do l <- sampleM g (map xexp (lw pa)) 1 ;
  do i <- lift (idx l 0) ;
  lift (idx (part pa) i).

(** The weight update shared by filter.py:159-169, 247-257, 314-324, 468-478:
    subtract the maximum of the new log-weights, add them, subtract the maximum
    of the result, accumulating both maxima in [w_offset]. *)
Definition add_weights {P} (pa : papprox P) (new_weights : list xr) : res (papprox P) :=
  dor m <- xmax new_weights ;
  let off := xadd (woff pa) m in
  let nw := map (fun x => xsub x m) new_weights in
  dor w <- zipw xadd (lw pa) nw ;
  dor m2 <- xmax w ;
  Ok (mkPA (part pa) (map (fun x => xsub x m2) w) (num pa) (xadd off m2)).

(** numpy.argsort of the log weights: a stable insertion sort of the indices in
    numpy's order (filter.py:1142).  Simplification: numpy's default sort is not
    stable, so the order of ties may differ. *)
Fixpoint ins_by (key : nat -> xr) (i : nat) (l : list nat) : list nat :=
  match l with
  | [] => [i]
  | j :: l' => if np_less (key j) (key i) then j :: ins_by key i l' else i :: l
  end.
(** filter.py:1142 *)
Definition argsort (w : list xr) : list nat :=
  fold_right (ins_by (fun i => nth i w NaN)) [] (seq 0 (length w)).

(** filter.py:1133-1143 [find_best_particles(n)]: [indices[range(n)]]. *)
Definition find_best_particles {P} (pa : papprox P) (n : nat) : res (list nat) :=
  take (argsort (lw pa)) (seq 0 n).
