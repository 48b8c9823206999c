(** Specification for C82: one iteration of the particle Gibbs sampler that a user runs with the conditional filters ('cpf', 'cpfas'), and the
    smoothing distribution it is supposed to leave invariant.  Nothing here refers to how the filters work. *)
From Coquelicot Require Import Coquelicot.
From Coq Require Import String Reals List.
From Verif Require Import Base XR PAModel FilterModel TrajModel SmoothModel SmoothSpec EvidenceSpec FfbsiSpec.
Import ListNotations.
Open Scope R_scope.

(** Two averages can be taken in either order (Fubini). *)
Definition exchange {A B} (E : (A -> R) -> R) (E' : (B -> R) -> R) : Prop :=
  forall F : A -> B -> R, E (fun a => E' (fun b => F a b)) = E' (fun b => E (fun a => F a b)).

Section Gibbs.
Context {P U Y V : Type}.
Variable m : ssm P U Y V.                        (* dynamics and measurement log density *)
Variable ld : P -> cell U -> nat -> P -> R.      (* transition log density *)
Variable noise : (V -> R) -> R.                  (* distribution of the process noise *)
Variable start : (P -> R) -> R.                  (* distribution of the initial state *)

(** [ld] is the density of the dynamics with respect to some measure [nu]. *)
Definition density_wrt (nu : (P -> R) -> R) : Prop :=
  forall x u k f, noise (fun v => f (move m x u k v)) = nu (fun x' => exp (ld x u k x') * f x').

(** ** The smoothing distribution *)

(** Likelihood of a measurement; a missing one has no influence. *)
Definition lik (x : P) (y : option Y) (k : nat) : R := match y with None => 1 | Some _ => exp (ll m x (cell_of y) k) end.

(** Mean, over the states [x1; x2; ...] that follow the state [x] of time [k], of G [x1; x2; ...] times the likelihood of all
    measurements in [ops]. *)
Fixpoint weigh (k : nat) (ops : list (@op U Y)) (x : P) (G : list P -> R) : R :=
  match ops with
  | [] => G []
  | Fwd u y :: ops' =>
      noise (fun v => let x' := move m x (cell_of u) k v in lik x' y (k + 1) * weigh (k + 1) ops' x' (fun l => G (x' :: l)))
  | Meas y :: ops' => exp (ll m x (cell_of y) k) * weigh k ops' x G
  end.

(** E[ p(measurements | path) G(path) ]: the smoothing mean of G times the likelihood of the measurements. *)
Definition smoothing_mass (ops : list op) (G : list P -> R) : R := start (fun x => weigh 0 ops x (fun l => G (x :: l))).

(** ** The model object handed to the library.  The randomness of one call is a list of uniform numbers and one noise per particle. *)
Definition gibbs_world : Type := (list R * list V)%type.
Definition gibbs_rng : rng gibbs_world :=
  mkRng (fun w => match fst w with [] => (0, w) | r :: l => (unit_of r, (l, snd w)) end) (fun n w => (seq 0 n, w)).

Definition gibbs_model (x0 : list P) (dv : V) : bmodel gibbs_world P U Y (list V) :=
  mkBasic (fun n => if Nat.eqb (length x0) n then ret x0 else raise ValueError)
    (fun _ _ _ w => Ok (snd w, w))
    (fun p u t vs => ret (map (fun ix => move m (snd ix) u t (nth (fst ix) vs dv)) (combine (seq 0 (length p)) p)))
    (fun p y t => ret (p, map (fun x => Fin (ll m x y t)) p))
    (fun p nx u t => ret (map (fun xx => Fin (ld (fst xx) u t (snd xx))) (combine p nx)))
    (fun p _ _ _ => ret (map (fun _ => Fin 0) p))
    (fun p _ _ _ => ret p)
    (fun p _ _ _ _ => ret (map (fun _ => Fin 0) p))
    (fun n _ _ => if Nat.eqb (length x0) n then ret x0 else raise ValueError).

(** The trajectory to condition on, one state per step (as a smoother with M = 1 returns it). *)
Definition cond_path (ref : list P) : list (tstep P) := map (fun x => mkStep (mkPA [x] [Fin 0] 1 (Fin 0)) [0%nat]) ref.

(** ** One iteration: run the conditional filter, then draw one trajectory with the 'ancestor' smoother *)
Variable dv : V.
Context {V' : Type}.
Variable sm : smodel (list R) P U Y V'.
Variables (junk : nat -> nat) (fuel : nat) (so : option soptions) (lj : xr).

(** [v] is the average of phi(drawn trajectory) over all random numbers of the calls [ops] on [s] and of the final smoothing (all of
    which succeed).  At most two uniform numbers are used by a forward call. *)
Fixpoint continue (x0 : list P) (ops : list op) (s : ptraj P U Y) (phi : list P -> R) (v : R) : Prop :=
  match ops with
  | [] => exists c, (forall r, 0 < r < 1 -> exists st w', perform_smoothing sm tape junk fuel s 1 "ancestor" so lj [r] = Ok (st, w') /\
                                           c r = phi (trajectory (sm_traj st) 0)) /\
                    is_RInt c 0 1 v
  | Fwd u y :: ops' =>
      exists c, (forall r1 r2 vs, 0 < r1 < 1 -> 0 < r2 < 1 -> length vs = length x0 ->
                   exists s' resampled w', pt_forward (full_of_basic (gibbs_model x0 dv)) gibbs_rng s u y ([r1; r2], vs) = Ok ((s', resampled), w') /\
                                    continue x0 ops' s' phi (c [r1; r2] vs)) /\
                expect 2 (fun draws => iid noise (length x0) (c draws)) v
  | Meas y :: ops' =>
      exists s' w', pt_measure (full_of_basic (gibbs_model x0 dv)) s y ([], []) = Ok (s', w') /\ continue x0 ops' s' phi v
  end.

(** [v] is the average of phi(new trajectory), given the old trajectory [ref]; [n] particles. *)
Definition iteration (filter : string) (n : nat) (thr : R) (T : option nat) (ops : list op) (ref : list P) (phi : list P -> R) (v : R) : Prop :=
  exists c, (forall x0, length x0 = n -> exists s0, pt_init n thr 0 filter (FODict (Some (cond_path ref))) T = Ok s0 /\ continue x0 ops s0 phi (c x0)) /\
            v = iid start n c.
End Gibbs.
