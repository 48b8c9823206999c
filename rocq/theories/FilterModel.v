(** Model of the filter classes of pyparticleest/filter.py:26-803 and of the
    default Markov callbacks of pyparticleest/interfaces.py. *)
From Coq Require Import Reals List Arith.
From Verif Require Import Base XR SampleModel PAModel.
Import ListNotations.
Open Scope R_scope.

(** An entry of the object arrays [uvec], [yvec]: [None] (numpy.empty of an
    object dtype or a user supplied None), the integer 0 that [ndarray.resize]
    pads with, or a user supplied value. *)
Inductive cell (A : Type) : Type := CNone | CZero | CVal (a : A).
Arguments CNone {A}. Arguments CZero {A}. Arguments CVal {A} a.

(** Python [y is not None], filter.py:574 and the like *)
Definition is_none {A} (c : cell A) : bool := match c with CNone => true | _ => false end.

(** filter.py:806-822 TrajectoryStep. *)
Record tstep (P : Type) : Type := mkStep { st_pa : papprox P; st_anc : list nat }.
Arguments mkStep {P}. Arguments st_pa {P}. Arguments st_anc {P}.

(** The methods of the user's model object that the filters call.  Each may draw
    random numbers, raise, or change the model's own state (all in the world [W]).
    A method that updates its [particles] argument in place returns the new
    contents of that array; methods are assumed not to write to their other
    array arguments.  Time stamps are the step numbers (filter.py:924, 962, 983). *)
Record fmodel (W P U Y V : Type) : Type := mkModel {
  m_create : nat -> M W (list P);
  m_copy : list P -> list nat -> M W (list P);
  m_copy_all : list P -> M W (list P);
  m_noise : list (tstep P) -> list nat -> list (cell U) -> list nat -> M W V;
  m_update : list P -> list (tstep P) -> list (cell U) -> list (cell Y) -> list nat ->
             list nat -> V -> M W (list P);
  m_measure : list (tstep P) -> list nat -> list P -> list (cell U) -> list (cell Y) ->
              list nat -> M W (list P * list xr);
  m_xnext1 : list P -> list (tstep P) -> list nat -> list P -> list nat ->
             list (cell U) -> list (cell Y) -> list nat -> nat -> M W (list xr);
  m_stage1 : list P -> cell U -> cell Y -> nat -> M W (list xr);
  m_qsample : list P -> cell U -> cell Y -> nat -> M W (list P);
  m_logp_q : list P -> list P -> cell U -> cell Y -> nat -> M W (list xr);
  m_logp_xnext : list P -> list P -> cell U -> nat -> M W (list xr);
  m_meas1 : list P -> cell Y -> nat -> M W (list P * list xr);
  m_propose_y : nat -> cell Y -> nat -> M W (list P) }.
Arguments m_create {W P U Y V}. Arguments m_copy {W P U Y V}. Arguments m_copy_all {W P U Y V}.
Arguments m_noise {W P U Y V}. Arguments m_update {W P U Y V}. Arguments m_measure {W P U Y V}.
Arguments m_xnext1 {W P U Y V}. Arguments m_stage1 {W P U Y V}. Arguments m_qsample {W P U Y V}.
Arguments m_logp_q {W P U Y V}. Arguments m_logp_xnext {W P U Y V}. Arguments m_meas1 {W P U Y V}.
Arguments m_propose_y {W P U Y V}. Arguments mkModel {W P U Y V}.

(** The methods a Markov model implements (interfaces.py:252-289, 300-317,
    333-338, 409-426 and the SIR interface 9-29). *)
Record bmodel (W P U Y V : Type) : Type := mkBasic {
  b_create : nat -> M W (list P);
  b_noise : list P -> cell U -> nat -> M W V;
  b_update : list P -> cell U -> nat -> V -> M W (list P);
  b_measure : list P -> cell Y -> nat -> M W (list P * list xr);
  b_xnext : list P -> list P -> cell U -> nat -> M W (list xr);
  b_stage1 : list P -> cell U -> cell Y -> nat -> M W (list xr);
  b_qsample : list P -> cell U -> cell Y -> nat -> M W (list P);
  b_logp_q : list P -> list P -> cell U -> cell Y -> nat -> M W (list xr);
  b_propose_y : nat -> cell Y -> nat -> M W (list P) }.
Arguments b_create {W P U Y V}. Arguments b_noise {W P U Y V}. Arguments b_update {W P U Y V}.
Arguments b_measure {W P U Y V}. Arguments b_xnext {W P U Y V}. Arguments b_stage1 {W P U Y V}.
Arguments b_qsample {W P U Y V}. Arguments b_logp_q {W P U Y V}. Arguments b_propose_y {W P U Y V}.
Arguments mkBasic {W P U Y V}.

Section Defaults.
Context {W P U Y V : Type}.
Variable b : bmodel W P U Y V.

(** interfaces.py:137-154 [copy_ind]. *)
Definition def_copy (particles : list P) (ind : list nat) : M W (list P) := lift (take particles ind).

(** interfaces.py:242-244 [sample_process_noise_full]: particles
    [ptraj[-1].pa.part[ancestors]], input [ut[-1]], time [tt[-1]]. *)
Definition def_noise (ptraj : list (tstep P)) (ancestors : list nat)
    (ut : list (cell U)) (tt : list nat) : M W V :=
  do st <- lift (idx_last ptraj) ;
  do p <- lift (take (part (st_pa st)) ancestors) ;
  do u <- lift (idx_last ut) ;
  do t <- lift (idx_last tt) ;
  b_noise b p u t.

(** interfaces.py:246-247 [update_full]. *)
Definition def_update (particles : list P) (traj : list (tstep P)) (uvec : list (cell U))
    (yvec : list (cell Y)) (tvec : list nat) (ancestors : list nat) (noise : V) : M W (list P) :=
  do u <- lift (idx_last uvec) ;
  do t <- lift (idx_last tvec) ;
  b_update b particles u t noise.

(** interfaces.py:249-250 [measure_full]. *)
Definition def_measure (traj : list (tstep P)) (ancestors : list nat) (particles : list P)
    (uvec : list (cell U)) (yvec : list (cell Y)) (tvec : list nat) : M W (list P * list xr) :=
  do y <- lift (idx_last yvec) ;
  do t <- lift (idx_last tvec) ;
  b_measure b particles y t.

(** interfaces.py:380-407 [logp_xnext_singlestep]. *)
Definition def_xnext1 (p : list P) (past : list (tstep P)) (pind : list nat)
    (future_parts : list P) (find : list nat) (ut : list (cell U)) (yt : list (cell Y))
    (tt : list nat) (cur_ind : nat) : M W (list xr) :=
  do nx <- lift (take future_parts find) ;
  do u <- lift (idx ut cur_ind) ;
  do t <- lift (idx tt cur_ind) ;
  b_xnext b p nx u t.

(** A Markov model seen through the default callbacks. *)
(** interfaces.py:234-251, 341-407 *)
Definition full_of_basic : fmodel W P U Y V :=
  mkModel (b_create b) def_copy (fun p => ret p) def_noise def_update def_measure def_xnext1
    (b_stage1 b) (b_qsample b) (b_logp_q b) (b_xnext b) (b_measure b) (b_propose_y b).
End Defaults.

Section Filters.
Context {W P U Y V : Type}.
Variable mdl : fmodel W P U Y V.
Variable g : rng W.

(** What [forward] returns: (pa, resampled, ancestors). *)
(** filter.py:94, 260, 395, 480, 578, 648, 707, 777 *)
Definition fwd_result : Type := (papprox P * bool * list nat)%type.

(** filter.py:77-83 (also 224-230, 450-456): resample when
    [res > 0 and pa.calc_Neff() < res * pa.num]. *)
Definition maybe_resample (thr : R) (pa : papprox P) : M W fwd_result :=
  if Rltb 0 thr then
    do ne <- lift (calc_Neff pa) ;
    if xltb ne (Fin (thr * INR (num pa))) then
      do pr <- pa_resample g (m_copy mdl) pa (num pa) ;
      ret (fst pr, true, snd pr)
    else ret (pa, false, seq 0 (num pa))
  else ret (pa, false, seq 0 (num pa)).

(** filter.py:96-127 [ParticleFilter.update], inplace=True. *)
Definition pf_update (traj : list (tstep P)) (ancestors : list nat) (uvec : list (cell U))
    (yvec : list (cell Y)) (tvec : list nat) (cur_ind : nat) (pa : papprox P) : M W (papprox P) :=
  do v <- m_noise mdl traj ancestors (firstn (cur_ind + 1) uvec) (firstn (cur_ind + 1) tvec) ;
  do p <- m_update mdl (part pa) traj (firstn (cur_ind + 1) uvec) (firstn (cur_ind + 1) yvec)
             (firstn (cur_ind + 1) tvec) ancestors v ;
  ret (mkPA p (lw pa) (num pa) (woff pa)).

(** filter.py:130-171 [ParticleFilter.measure] and 285-326 [SIR.measure] (same
    code).  The deepcopy for inplace=False does not change the value. *)
Definition pf_measure (traj : list (tstep P)) (ancestors : list nat) (pa : papprox P)
    (uvec : list (cell U)) (yvec : list (cell Y)) (tvec : list nat) (cur_ind : nat)
    : M W (papprox P) :=
  do pw <- m_measure mdl traj ancestors (part pa) uvec (firstn (cur_ind + 1) yvec)
              (firstn (cur_ind + 1) tvec) ;
  lift (add_weights (mkPA (fst pw) (lw pa) (num pa) (woff pa)) (snd pw)).

(** filter.py:57-94 [ParticleFilter.forward] ([yvec] is always an array). *)
Definition pf_forward (thr : R) (traj : list (tstep P)) (yvec : list (cell Y))
    (uvec : list (cell U)) (tvec : list nat) (cur_ind : nat) : M W fwd_result :=
  do last <- lift (idx_last traj) ;
  do pa <- lift (pa_init (part (st_pa last)) (Some (lw (st_pa last)))) ;
  do rs <- maybe_resample thr pa ;
  let '(pa, resampled, ancestors) := rs in
  do pa <- pf_update traj ancestors uvec yvec tvec cur_ind pa ;
  do pa <- pf_measure traj ancestors pa uvec yvec tvec (cur_ind + 1) ;
  ret (pa, resampled, ancestors).

(** filter.py:204-260 [SIR.forward]. *)
Definition sir_forward (thr : R) (traj : list (tstep P)) (yvec : list (cell Y))
    (uvec : list (cell U)) (tvec : list nat) (cur_ind : nat) : M W fwd_result :=
  do last <- lift (idx_last traj) ;
  do pa <- lift (pa_init (part (st_pa last)) (Some (lw (st_pa last)))) ;
  do rs <- maybe_resample thr pa ;
  let '(pa, resampled, ancestors) := rs in
  do u <- lift (idx uvec cur_ind) ;
  do y <- lift (idx yvec (cur_ind + 1)) ;
  do t <- lift (idx tvec cur_ind) ;
  do t1 <- lift (idx tvec (cur_ind + 1)) ;
  do pnext <- m_qsample mdl (part pa) u y t ;
  do qw <- m_logp_q mdl (part pa) pnext u y t ;
  do nw <- m_logp_xnext mdl (part pa) pnext u t ;
  do yw <- m_meas1 mdl pnext y t1 ;
  do s <- lift (zipw xadd (snd yw) nw) ;
  do new_weights <- lift (zipw xsub s qw) ;
  do pa' <- lift (add_weights pa new_weights) ;
  ret (mkPA (fst yw) (lw pa') (num pa') (woff pa'), resampled, ancestors).

(** filter.py:353-354 (558-559, 611-612, 736-737): exp of the log weights,
    divided by their sum. *)
Definition exp_norm (w : list xr) : list xr :=
  let tmp := map xexp w in
  let s := xsum tmp in map (fun x => xdiv x s) tmp.

(** filter.py:365-369 (627-631, 753-757): draw the conditional ancestor from
    transition weight times particle weight. *)
Definition cond_ancestor (wtrans w : list xr) : M W nat :=
  do wanc <- lift (zipw xadd wtrans w) ;
  do m <- lift (xmax wanc) ;
  let wanc := map (fun x => xsub x m) wanc in
  do l <- sampleM g (exp_norm wanc) 1 ;
  lift (idx l 0).

(** filter.py:328-395 [CSIRAS.forward]. *)
Definition csiras_forward (ctraj : list (tstep P)) (traj : list (tstep P)) (yvec : list (cell Y))
    (uvec : list (cell U)) (tvec : list nat) (cur_ind : nat) : M W fwd_result :=
  do last <- lift (idx_last traj) ;
  let N := length (part (st_pa last)) in
  do anc0 <- sampleM g (exp_norm (lw (st_pa last))) (N - 1) ;
  do cur <- lift (idx traj cur_ind) ;
  do cst <- lift (idx ctraj (cur_ind + 1)) ;
  do nextp <- lift (take (part (st_pa cst)) (repeat 0%nat N)) ;
  do u <- lift (idx uvec cur_ind) ;
  do t <- lift (idx tvec cur_ind) ;
  do wtrans <- m_logp_xnext mdl (part (st_pa cur)) nextp u t ;
  do w <- lift (take (lw (st_pa last)) (seq 0 N)) ;
  do condind <- cond_ancestor wtrans w ;
  let ancestors := anc0 ++ [condind] in
  do cp <- m_copy mdl (part (st_pa last)) ancestors ;
  do pa <- lift (pa_init cp None) ;
  do y <- lift (idx yvec (cur_ind + 1)) ;
  do pnext <- m_qsample mdl (part pa) u y t ;
  do c0 <- lift (idx (part (st_pa cst)) 0) ;
  do pnext <- lift (upd_last pnext c0) ;
  do qw <- m_logp_q mdl (part pa) pnext u y t ;
  do nw <- m_logp_xnext mdl (part pa) pnext u t ;
  do t1 <- lift (idx tvec (cur_ind + 1)) ;
  do yw <- m_meas1 mdl pnext y t1 ;
  do s <- lift (zipw xadd (snd yw) nw) ;
  do w <- lift (zipw xsub s qw) ;
  ret (mkPA (fst yw) w (num pa) (woff pa), true, ancestors).

(** filter.py:429-480 [FFPropY.forward]; [N] is [self.N].  Note [yvec[-1]],
    [tvec[-1]] at line 458. *)
Definition pfy_forward (N : nat) (thr : R) (traj : list (tstep P)) (yvec : list (cell Y))
    (uvec : list (cell U)) (tvec : list nat) (cur_ind : nat) : M W fwd_result :=
  do last <- lift (idx_last traj) ;
  do cp <- m_copy_all mdl (part (st_pa last)) ;
  do pa <- lift (pa_init cp (Some (lw (st_pa last)))) ;
  do rs <- maybe_resample thr pa ;
  let '(pa, resampled, ancestors) := rs in
  do y <- lift (idx_last yvec) ;
  do t <- lift (idx_last tvec) ;
  do partn <- m_propose_y mdl (length (part pa)) y t ;
  do cur <- lift (idx traj cur_ind) ;
  do pp <- lift (take (part (st_pa cur)) ancestors) ;
  do pind <- lift (take (st_anc cur) ancestors) ;
  do wn <- m_xnext1 mdl pp (firstn cur_ind traj) pind partn (seq 0 N) uvec yvec tvec cur_ind ;
  do pa' <- lift (add_weights (mkPA partn (lw pa) (num pa) (woff pa)) wn) ;
  ret (pa', resampled, ancestors).

(** filter.py:482-505 [FFPropY.measure] (called with inplace=False). *)
Definition pfy_measure (N : nat) (yvec : list (cell Y)) (tvec : list nat) (cur_ind : nat)
    : M W (papprox P) :=
  do y <- lift (idx yvec cur_ind) ;
  do t <- lift (idx tvec cur_ind) ;
  do p <- m_propose_y mdl N y t ;
  lift (pa_init p None).

(** filter.py:570-578 (640-648): common tail of CPF and CPFAS. *)
Definition cpf_tail (ctraj : list (tstep P)) (traj : list (tstep P)) (ancestors : list nat)
    (yvec : list (cell Y)) (uvec : list (cell U)) (tvec : list nat) (cur_ind : nat)
    (pa : papprox P) : M W fwd_result :=
  do pa <- pf_update traj ancestors uvec yvec tvec cur_ind pa ;
  do cst <- lift (idx ctraj (cur_ind + 1)) ;
  do c0 <- lift (idx (part (st_pa cst)) 0) ;
  do p <- lift (upd_last (part pa) c0) ;
  let pa := mkPA p (lw pa) (num pa) (woff pa) in
  do y <- lift (idx yvec (cur_ind + 1)) ;
  if is_none y then ret (pa, true, ancestors)
  else
    do pa <- pf_measure traj ancestors pa uvec yvec tvec (cur_ind + 1) ;
    ret (pa, true, ancestors).

(** filter.py:539-578 [CPF.forward]. *)
Definition cpf_forward (ctraj : list (tstep P)) (traj : list (tstep P)) (yvec : list (cell Y))
    (uvec : list (cell U)) (tvec : list nat) (cur_ind : nat) : M W fwd_result :=
  do cur <- lift (idx traj cur_ind) ;
  let N := length (part (st_pa cur)) in
  do last <- lift (idx_last traj) ;
  do anc0 <- sampleM g (exp_norm (lw (st_pa last))) (N - 1) ;
  let ancestors := anc0 ++ [(N - 1)%nat] in
  do cp <- m_copy mdl (part (st_pa last)) ancestors ;
  do pa <- lift (pa_init cp None) ;
  cpf_tail ctraj traj ancestors yvec uvec tvec cur_ind pa.

(** filter.py:592-648 [CPFAS.forward]. *)
Definition cpfas_forward (ctraj : list (tstep P)) (traj : list (tstep P)) (yvec : list (cell Y))
    (uvec : list (cell U)) (tvec : list nat) (cur_ind : nat) : M W fwd_result :=
  do last <- lift (idx_last traj) ;
  let N := length (part (st_pa last)) in
  do anc0 <- sampleM g (exp_norm (lw (st_pa last))) (N - 1) ;
  do cur <- lift (idx traj cur_ind) ;
  do pp <- lift (take (part (st_pa cur)) (seq 0 N)) ;
  do pind <- lift (take (st_anc cur) (seq 0 N)) ;
  do cst <- lift (idx ctraj (cur_ind + 1)) ;
  do wtrans <- m_xnext1 mdl pp (firstn cur_ind traj) pind (part (st_pa cst)) (repeat 0%nat N)
                  uvec yvec tvec cur_ind ;
  do w <- lift (take (lw (st_pa last)) (seq 0 N)) ;
  do condind <- cond_ancestor wtrans w ;
  let ancestors := anc0 ++ [condind] in
  do cp <- m_copy mdl (part (st_pa last)) ancestors ;
  do pa <- lift (pa_init cp None) ;
  cpf_tail ctraj traj ancestors yvec uvec tvec cur_ind pa.

(** filter.py:657-707 [AuxiliaryParticleFilter.forward].  [l1w] is unbound when
    the measurement is None (lines 680-686), so lines 691 and 704 then raise. *)
Definition apf_forward (thr : R) (traj : list (tstep P)) (yvec : list (cell Y))
    (uvec : list (cell U)) (tvec : list nat) (cur_ind : nat) : M W fwd_result :=
  do last <- lift (idx_last traj) ;
  do pa <- lift (pa_init (part (st_pa last)) (Some (lw (st_pa last)))) ;
  do y <- lift (idx yvec (cur_ind + 1)) ;
  do pl <- (if is_none y then ret (pa, None)
            else
              do u <- lift (idx uvec cur_ind) ;
              do t <- lift (idx tvec cur_ind) ;
              do l1w <- m_stage1 mdl (part pa) u y t ;
              do w <- lift (zipw xadd (lw pa) l1w) ;
              do m <- lift (xmax w) ;
              ret (mkPA (part pa) (map (fun x => xsub x m) w) (num pa) (woff pa), Some l1w)) ;
  let '(pa, l1w) := pl in
  do cond <- (if Reqb thr 0 then ret false
              else do ne <- lift (calc_Neff pa) ; ret (xltb ne (Fin (thr * INR (num pa))))) ;
  do rs <- (if (cond : bool) then
              do pr <- pa_resample g (m_copy mdl) pa (num pa) ;
              match l1w with
              | None => raise UnboundLocalError
              | Some l => do l' <- lift (take l (snd pr)) ;
                          ret (fst pr, true, snd pr, Some l')
              end
            else ret (pa, false, seq 0 (num pa), l1w)) ;
  let '(pa, resampled, ancestors, l1w) := rs in
  do pa <- pf_update traj ancestors uvec yvec tvec cur_ind pa ;
  do pa <- pf_measure traj ancestors pa uvec yvec tvec (cur_ind + 1) ;
  match l1w with
  | None => raise UnboundLocalError
  | Some l =>
      do w <- lift (zipw xsub (lw pa) l) ;
      do m <- lift (xmax w) ;
      ret (mkPA (part pa) (map (fun x => xsub x m) w) (num pa) (woff pa), resampled, ancestors)
  end.

(** filter.py:762, 801: [part[-1] = ctraj[k].pa.part] assigns a whole (n, D) array
    to one row; numpy accepts this only for n = 1. *)
Definition set_last_row (p : list P) (rows : list P) : res (list P) :=
  match rows with [c] => upd_last p c | _ => Err ValueError end.

(** filter.py:717-777 [CPFYAS.forward]; [N] is [self.N]. *)
Definition cpfyas_forward (N : nat) (ctraj : list (tstep P)) (traj : list (tstep P))
    (yvec : list (cell Y)) (uvec : list (cell U)) (tvec : list nat) (cur_ind : nat)
    : M W fwd_result :=
  do cur <- lift (idx traj cur_ind) ;
  do anc0 <- sampleM g (exp_norm (lw (st_pa cur))) (N - 1) ;
  do pp <- lift (take (part (st_pa cur)) (seq 0 N)) ;
  do pind <- lift (take (st_anc cur) (seq 0 N)) ;
  do cst <- lift (idx ctraj (cur_ind + 1)) ;
  do wtrans <- m_xnext1 mdl pp (firstn cur_ind traj) pind (part (st_pa cst)) (repeat 0%nat N)
                  uvec yvec tvec cur_ind ;
  do w <- lift (take (lw (st_pa cur)) (seq 0 N)) ;
  do condind <- cond_ancestor wtrans w ;
  let ancestors := anc0 ++ [condind] in
  do y <- lift (idx yvec (cur_ind + 1)) ;
  do t1 <- lift (idx tvec (cur_ind + 1)) ;
  do partn <- m_propose_y mdl N y t1 ;
  do partn <- lift (set_last_row partn (part (st_pa cst))) ;
  do last <- lift (idx_last traj) ;
  do pp2 <- lift (take (part (st_pa last)) ancestors) ;
  do pind2 <- lift (take (st_anc cur) ancestors) ;
  do wn <- m_xnext1 mdl pp2 (firstn cur_ind traj) pind2 partn (seq 0 N) uvec yvec tvec cur_ind ;
  do m <- lift (xmax wn) ;
  do pa <- lift (pa_init partn (Some (map (fun x => xsub x m) wn))) ;
  ret (mkPA (part pa) (lw pa) (num pa) (xadd (woff pa) m), true, ancestors).

(** filter.py:779-803 [CPFYAS.measure] (called with inplace=False). *)
Definition cpfyas_measure (N : nat) (ctraj : list (tstep P)) (yvec : list (cell Y))
    (tvec : list nat) (cur_ind : nat) : M W (papprox P) :=
  do y <- lift (idx yvec cur_ind) ;
  do t <- lift (idx tvec cur_ind) ;
  do p <- m_propose_y mdl N y t ;
  do cst <- lift (idx ctraj cur_ind) ;
  do p <- lift (set_last_row p (part (st_pa cst))) ;
  lift (pa_init p None).

(** The filter objects that ParticleTrajectory can hold (filter.py:866-883). *)
Inductive filt : Type :=
| FPF (thr : R) | FAPF (thr : R) | FPFY (thr : R) | FSIR (thr : R)
| FCPFYAS (ctraj : list (tstep P)) | FCPFAS (ctraj : list (tstep P))
| FCPF (ctraj : list (tstep P)) | FCSIRAS (ctraj : list (tstep P)).

(** filter.py:872, 875 [using_pfy]. *)
Definition using_pfy (f : filt) : bool :=
  match f with FPFY _ | FCPFYAS _ => true | _ => false end.

(** [create_initial_estimate]: filter.py:44-55, 191-202, 415-427; CPF, CPFAS and
    CPFYAS pin the last particle (524-537); CSIRAS inherits SIR's. *)
Definition create_initial (f : filt) (N : nat) : M W (list P) :=
  match f with
  | FCPFYAS ct | FCPFAS ct | FCPF ct =>
      do p <- m_create mdl N ;
      do cst <- lift (idx ct 0) ;
      do c0 <- lift (idx (part (st_pa cst)) 0) ;
      lift (upd_last p c0)
  | _ => m_create mdl N
  end.

(** Dynamic dispatch of [self.pf.forward] (filter.py:927). *)
Definition filter_forward (f : filt) (N : nat) (traj : list (tstep P)) (yvec : list (cell Y))
    (uvec : list (cell U)) (tvec : list nat) (cur_ind : nat) : M W fwd_result :=
  match f with
  | FPF thr => pf_forward thr traj yvec uvec tvec cur_ind
  | FAPF thr => apf_forward thr traj yvec uvec tvec cur_ind
  | FPFY thr => pfy_forward N thr traj yvec uvec tvec cur_ind
  | FSIR thr => sir_forward thr traj yvec uvec tvec cur_ind
  | FCPFYAS ct => cpfyas_forward N ct traj yvec uvec tvec cur_ind
  | FCPFAS ct => cpfas_forward ct traj yvec uvec tvec cur_ind
  | FCPF ct => cpf_forward ct traj yvec uvec tvec cur_ind
  | FCSIRAS ct => csiras_forward ct traj yvec uvec tvec cur_ind
  end.
End Filters.
Arguments filt P : clear implicits.
