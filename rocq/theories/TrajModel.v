(** Model of ParticleTrajectory (pyparticleest/filter.py:825-1049) and of
    Simulator.simulate (pyparticleest/simulator.py:44-112). *)
From Coq Require Import String Ascii Bool Reals List Arith.
From Verif Require Import Base XR SampleModel PAModel FilterModel.
Import ListNotations.
Open Scope R_scope.

(** filter.py:844-889: the state of a ParticleTrajectory.  [pt_ind1] is
    [self.ind + 1] (so 0 initially); [pt_T] is [self.T]. *)
Record ptraj (P U Y : Type) : Type := mkPT {
  pt_N : nat;
  pt_f : filt P;
  pt_u : list (cell U);
  pt_y : list (cell Y);
  pt_t : list nat;
  pt_T : nat;
  pt_ind1 : nat;
  pt_traj : list (tstep P) }.
Arguments mkPT {P U Y}. Arguments pt_N {P U Y}. Arguments pt_f {P U Y}. Arguments pt_u {P U Y}.
Arguments pt_y {P U Y}. Arguments pt_t {P U Y}. Arguments pt_T {P U Y}. Arguments pt_ind1 {P U Y}.
Arguments pt_traj {P U Y}.

(** [str.lower()] on one character.  Simplification: strings are ASCII. *)
(** [filter.lower()], filter.py:866-882 *)
Definition lower_ascii (c : ascii) : ascii :=
  let n := nat_of_ascii c in
  if (Nat.leb 65 n && Nat.leb n 90)%bool then ascii_of_nat (n + 32) else c.
(** [filter.lower()], filter.py:866-882 *)
Fixpoint lower (s : string) : string :=
  match s with
  | EmptyString => EmptyString
  | String c s' => String (lower_ascii c) (lower s')
  end.

(** The [filter_options] argument: the only key read is 'cond_traj'
    (filter.py:874-883); Simulator passes None by default. *)
Inductive foptions (P : Type) : Type :=
| FONone                               (* None: not subscriptable *)
| FODict (cond_traj : option (list (tstep P))).
Arguments FONone {P}. Arguments FODict {P}.

(** [filter_options['cond_traj']]. *)
(** filter.py:866-889 *)
Definition get_cond {P} (o : foptions P) : res (list (tstep P)) :=
  match o with
  | FONone => Err TypeError
  | FODict None => Err KeyError
  | FODict (Some c) => Ok c
  end.

(** filter.py:866-885: choose the filter object. *)
Definition make_filter {P} (name : string) (resample : R) (o : foptions P) : res (filt P) :=
  let n := lower name in
  if String.eqb n "pf" then Ok (FPF resample)
  else if String.eqb n "apf" then Ok (FAPF resample)
  else if String.eqb n "pfy" then Ok (FPFY resample)
  else if String.eqb n "cpfyas" then dor c <- get_cond o ; Ok (FCPFYAS c)
  else if String.eqb n "cpfas" then dor c <- get_cond o ; Ok (FCPFAS c)
  else if String.eqb n "cpf" then dor c <- get_cond o ; Ok (FCPF c)
  else if String.eqb n "sir" then Ok (FSIR resample)
  else if String.eqb n "csiras" then dor c <- get_cond o ; Ok (FCSIRAS c)
  else Err ValueError.

(** filter.py:844-889 [__init__].  [numpy.empty(n, dtype=object)] is filled with
    None; [self.tvec[0] = t0] raises IndexError for T = 0. *)
Definition pt_init {P U Y} (N : nat) (resample : R) (t0 : nat) (filter : string)
    (o : foptions P) (T : option nat) : res (ptraj P U Y) :=
  let '(u, y, t, TT) :=
    match T with
    | Some n => (repeat CNone n, repeat CNone n, seq 0 n, n)
    | None => (repeat CNone 1, repeat CNone 1, [0%nat], 0%nat)
    end in
  if negb (Nat.eqb t0 0) then Err AssertionError
  else
    dor t <- upd t 0 t0 ;
    dor f <- make_filter filter resample o ;
    Ok (mkPT N f u y t TT 0 []).

(** A user supplied measurement or input: None or a value. *)
(** arguments of filter.py:891, 936 *)
Definition cell_of {A} (o : option A) : cell A :=
  match o with None => CNone | Some a => CVal a end.

Section Trajectory.
Context {W P U Y V : Type}.
Variable mdl : fmodel W P U Y V.
Variable g : rng W.

(** filter.py:904-907 and 976-980: initial step (ancestors 0..N-1). *)
Definition initial_step (f : filt P) (N : nat) : M W (tstep P) :=
  do p <- create_initial mdl f N ;
  do pa <- lift (pa_init p None) ;
  ret (mkStep pa (seq 0 N)).

(** filter.py:891-934 [forward(u, y)]; returns the new state and [resampled]. *)
Definition pt_forward (s : ptraj P U Y) (u : option U) (y : option Y) : M W (ptraj P U Y * bool) :=
  do ti <- (match pt_traj s with
            | [] => do st <- initial_step (pt_f s) (pt_N s) ; ret ([st], 0%nat)
            | tr => match pt_ind1 s with
                    | O => raise IndexError (* unreachable: ind = -1 with steps stored *)
                    | S i => ret (tr, i)
                    end
            end) ;
  let '(tr, ind) := ti in
  let '(uv, yv, tv, TT) :=
    if Nat.leb (pt_T s) (ind + 1)
    then (resize CZero (ind + 1) (pt_u s), resize CZero (ind + 2) (pt_y s),
          resize 0%nat (ind + 2) (pt_t s), (ind + 2)%nat)
    else (pt_u s, pt_y s, pt_t s, pt_T s) in
  do uv <- lift (upd uv ind (cell_of u)) ;
  do yv <- lift (upd yv (ind + 1) (cell_of y)) ;
  do tv <- lift (upd tv (ind + 1) (ind + 1)%nat) ;
  do r <- filter_forward mdl g (pt_f s) (pt_N s) tr yv uv tv ind ;
  let '(pa, resampled, anc) := r in
  ret (mkPT (pt_N s) (pt_f s) uv yv tv TT (ind + 2) (tr ++ [mkStep pa anc]), resampled).

(** filter.py:936-988 [measure(y)]. *)
Definition pt_measure (s : ptraj P U Y) (y : option Y) : M W (ptraj P U Y) :=
  let ind1 := pt_ind1 s in
  let '(uv, yv, tv, TT) :=
    if Nat.leb (pt_T s) ind1
    then (resize CZero (ind1 + 1) (pt_u s), resize CZero (ind1 + 1) (pt_y s),
          resize 0%nat (ind1 + 1) (pt_t s), (ind1 + 1)%nat)
    else (pt_u s, pt_y s, pt_t s, pt_T s) in
  if using_pfy (pt_f s) then
    let ind := ind1 in
    do yv <- lift (upd yv ind (cell_of y)) ;
    do tv <- lift (upd tv ind ind) ;
    do pa <- (match pt_f s with
              | FCPFYAS ct => cpfyas_measure mdl (pt_N s) ct yv tv ind
              | _ => pfy_measure mdl (pt_N s) yv tv ind
              end) ;
    ret (mkPT (pt_N s) (pt_f s) uv yv tv TT (ind + 1)
              (pt_traj s ++ [mkStep pa (seq 0 (pt_N s))]))
  else
    do ti <- (match pt_traj s with
              | [] => do st <- initial_step (pt_f s) (pt_N s) ; ret ([st], 0%nat)
              | tr => match ind1 with
                      | O => raise IndexError (* unreachable *)
                      | S i => ret (tr, i)
                      end
              end) ;
    let '(tr, ind) := ti in
    do yv <- lift (upd yv ind (cell_of y)) ;
    do tv <- lift (upd tv ind ind) ;
    do last <- lift (idx_last tr) ;
    do pa <- pf_measure mdl tr (st_anc last) (st_pa last) uv yv tv ind ;
    do tr <- lift (upd_last tr (mkStep pa (st_anc last))) ;
    ret (mkPT (pt_N s) (pt_f s) uv yv tv TT (ind + 1) tr).

(** The operations a caller can perform on a trajectory. *)
(** filter.py:891 [forward], 936 [measure] *)
Inductive op : Type := Fwd (u : option U) (y : option Y) | Meas (y : option Y).

(** one call of filter.py:891 or 936 *)
Definition pt_step (s : ptraj P U Y) (o : op) : M W (ptraj P U Y) :=
  match o with
  | Fwd u y => do r <- pt_forward s u y ; ret (fst r)
  | Meas y => pt_measure s y
  end.

(** a sequence of calls of filter.py:891 and 936 *)
Fixpoint pt_run (s : ptraj P U Y) (ops : list op) : M W (ptraj P U Y) :=
  match ops with
  | [] => ret s
  | o :: ops' => do s' <- pt_step s o ; pt_run s' ops'
  end.

(** simulator.py:103-106: the filtering loop, counting resamplings. *)
Fixpoint sim_loop (s : ptraj P U Y) (us : list (option U)) (ys : list (option Y))
    (i offset n : nat) (count : nat) : M W (ptraj P U Y * nat) :=
  match n with
  | O => ret (s, count)
  | S n' =>
      do u <- lift (idx us (i - offset)) ;
      do y <- lift (idx ys i) ;
      do r <- pt_forward s u y ;
      sim_loop (fst r) us ys (i + 1) offset n' (if snd r then count + 1 else count)%nat
  end.

(** simulator.py:23-32 [__init__]: [u = None] is replaced by a list of None. *)
Definition sim_inputs (us : option (list (option U))) (ys : list (option Y)) : list (option U) :=
  match us with Some l => l | None => repeat None (length ys) end.

(** simulator.py:91-106: construct the trajectory and run the filter; returns the
    final trajectory and the number of resamplings. *)
Definition simulate_filter (us : option (list (option U))) (ys : list (option Y))
    (num_part : nat) (filter : string) (o : foptions P) (resv : R) (meas_first : bool)
    : M W (ptraj P U Y * nat) :=
  do s0 <- lift (pt_init num_part resv 0 filter o None) ;
  if meas_first then
    do y0 <- lift (idx ys 0) ;
    do s1 <- pt_measure s0 y0 ;
    sim_loop s1 (sim_inputs us ys) ys 1 1 (length ys - 1) 0
  else sim_loop s0 (sim_inputs us ys) ys 0 0 (length ys) 0.

(** filter.py:996-1001 [spawn()]: arguments are evaluated left to right;
    [self.traj[-1]] on an empty list raises IndexError; then
    [resample=self.pf.res] (the conditional filters have no [res]) and
    [t0=self.traj[-1].t] (TrajectoryStep has no [t]) raise AttributeError. *)
Definition spawn (s : ptraj P U Y) : res (ptraj P U Y) :=
  dor _ <- idx_last (pt_traj s) ;
  match pt_f s with
  | FCPFYAS _ | FCPFAS _ | FCPF _ | FCSIRAS _ => Err AttributeError (* self.pf.res *)
  | _ => Err AttributeError (* self.traj[-1].t *)
  end.
End Trajectory.
