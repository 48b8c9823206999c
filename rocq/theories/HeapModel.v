(** Model of the filters (pyparticleest/filter.py:26-988, 1052-1143) at the level of mutable arrays: particle arrays, weight
    arrays, index arrays and ParticleApproximation objects are heap cells that may be shared; assignments such as [pa.w -= m] change a cell,
    assignments such as [pa.part = x] make an object refer to another cell.  Unlike in the other model files, the heap survives an
    exception.  The vectors uvec, yvec, tvec are values (the library only passes them on), as are TrajectoryStep objects (never
    changed after construction). *)
From Coq Require Import Bool Reals List Arith.
From Verif Require Import Base XR SampleModel PAModel FilterModel TrajModel.
Import ListNotations.
Open Scope R_scope.

(** Computations with a state that survives exceptions. *)
(** Python exceptions (no counterpart in /repo) *)
Definition EM (S A : Type) : Type := S -> res A * S.
(** Python (no counterpart in /repo) *)
Definition eret {S A} (a : A) : EM S A := fun s => (Ok a, s).
(** Python [raise] *)
Definition eraise {S A} (e : exn) : EM S A := fun s => (Err e, s).
(** Python sequencing of statements *)
Definition ebind {S A B} (x : EM S A) (f : A -> EM S B) : EM S B :=
  fun s => match x s with (Ok a, s') => f a s' | (Err e, s') => (Err e, s') end.
(** Python: an expression that may raise and changes nothing *)
Definition elift {S A} (x : res A) : EM S A := fun s => (x, s).
Notation "'edo' x <- a ; b" := (ebind a (fun x => b)) (at level 200, x pattern, a at level 100, b at level 200) : monad_scope.
Notation "'edo' ' x <- a ; b" := (ebind a (fun x => b)) (at level 200, x pattern, a at level 100, b at level 200, only parsing) : monad_scope.

(** filter.py:1052-1084: a ParticleApproximation object: its arrays are heap cells. *)
Record hpa := mkHPA { ha_part : nat; ha_w : nat; ha_num : nat; ha_off : xr }.
(** filter.py:806-822 TrajectoryStep: a ParticleApproximation object and an index array. *)
Record hstep := mkHS { hs_pa : nat; hs_anc : nat }.

Section Heap.
Context {W P U Y V : Type}.

(** The heap: four kinds of cells, named by their number, and the world of the other models (random generator, model object). *)
(** Python/numpy object memory *)
Record hst := mkHst {
  h_part : list (list P); h_w : list (list xr); h_idx : list (list nat); h_pa : list hpa; h_world : W }.
(** Python statements on that memory *)
Definition HM := EM hst.

(** Replace entry [i]. *)
(** numpy item assignment *)
Fixpoint put {A} (l : list A) (i : nat) (a : A) : list A :=
  match l, i with
  | [], _ => []
  | _ :: l', O => a :: l'
  | b :: l', S i' => b :: put l' i' a
  end.
(** Python memory update *)
Definition set_parts (s : hst) x := mkHst x (h_w s) (h_idx s) (h_pa s) (h_world s).
(** Python memory update *)
Definition set_ws (s : hst) x := mkHst (h_part s) x (h_idx s) (h_pa s) (h_world s).
(** Python memory update *)
Definition set_idxs (s : hst) x := mkHst (h_part s) (h_w s) x (h_pa s) (h_world s).
(** Python memory update *)
Definition set_pas (s : hst) x := mkHst (h_part s) (h_w s) (h_idx s) x (h_world s).
(** Python memory update *)
Definition set_world (s : hst) x := mkHst (h_part s) (h_w s) (h_idx s) (h_pa s) x.

(** New arrays and objects; reading; overwriting the contents ([x[:] = ...], [x -= ...]). A reference to a cell that does not
    exist is not possible in Python (here: IndexError). *)
Definition new_part (x : list P) : HM nat := fun s => (Ok (length (h_part s)), set_parts s (h_part s ++ [x])).
(** numpy array creation *)
Definition new_w (x : list xr) : HM nat := fun s => (Ok (length (h_w s)), set_ws s (h_w s ++ [x])).
(** numpy array creation *)
Definition new_idx (x : list nat) : HM nat := fun s => (Ok (length (h_idx s)), set_idxs s (h_idx s ++ [x])).
(** Python object creation *)
Definition new_pa (x : hpa) : HM nat := fun s => (Ok (length (h_pa s)), set_pas s (h_pa s ++ [x])).
(** numpy array read *)
Definition get_part (i : nat) : HM (list P) := fun s => (idx (h_part s) i, s).
(** numpy array read *)
Definition get_w (i : nat) : HM (list xr) := fun s => (idx (h_w s) i, s).
(** numpy array read *)
Definition get_idx (i : nat) : HM (list nat) := fun s => (idx (h_idx s) i, s).
(** Python attribute read *)
Definition get_pa (i : nat) : HM hpa := fun s => (idx (h_pa s) i, s).
(** numpy in-place update *)
Definition put_part (i : nat) (x : list P) : HM unit := fun s => (Ok tt, set_parts s (put (h_part s) i x)).
(** numpy in-place update *)
Definition put_w (i : nat) (x : list xr) : HM unit := fun s => (Ok tt, set_ws s (put (h_w s) i x)).
(** numpy in-place update *)
Definition put_idx (i : nat) (x : list nat) : HM unit := fun s => (Ok tt, set_idxs s (put (h_idx s) i x)).
(** Python attribute assignment *)
Definition put_pa (i : nat) (x : hpa) : HM unit := fun s => (Ok tt, set_pas s (put (h_pa s) i x)).
(** A computation on the world only (random draws). *)
(** calls to numpy.random, filter.py:22 *)
Definition on_world {A} (x : M W A) : HM A :=
  fun s => match x (h_world s) with Ok (a, w) => (Ok a, set_world s w) | Err e => (Err e, s) end.

(** The methods of the user's model: they receive references and may read and write the whole heap. *)
(** interfaces.py:9-341 *)
Record hmodel := mkHM {
  hm_create : nat -> HM nat;
  hm_copy : nat -> option nat -> HM nat;
  hm_noise : list hstep -> nat -> list (cell U) -> list nat -> HM V;
  hm_update : nat -> list hstep -> list (cell U) -> list (cell Y) -> list nat -> nat -> V -> HM unit;
  hm_measure : list hstep -> nat -> nat -> list (cell U) -> list (cell Y) -> list nat -> HM nat;
  hm_xnext1 : nat -> list hstep -> nat -> nat -> nat -> list (cell U) -> list (cell Y) -> list nat -> nat -> HM nat;
  hm_stage1 : nat -> cell U -> cell Y -> nat -> HM nat;
  hm_qsample : nat -> cell U -> cell Y -> nat -> HM nat;
  hm_logp_q : nat -> nat -> cell U -> cell Y -> nat -> HM nat;
  hm_logp_xnext : nat -> nat -> cell U -> nat -> HM nat;
  hm_meas1 : nat -> cell Y -> nat -> HM nat;
  hm_propose_y : nat -> cell Y -> nat -> HM nat }.
Variable hm : hmodel.
Variable g : rng W.

(** filter.py:1066-1084 [ParticleApproximation(particles, logw)]: both arrays are copied. *)
Definition h_pa_init (particles : nat) (logw : option nat) : HM nat :=
  edo p <- get_part particles ;
  edo p' <- new_part p ;
  edo w' <- match logw with
            | Some w => edo x <- get_w w ; new_w x
            | None => match p with
                      | [] => eraise ValueError
                      | _ => new_w (repeat (Fin (- ln (INR (length p)))) (length p))
                      end
            end ;
  new_pa (mkHPA p' w' (length p) (Fin 0)).

(** The arrays of a ParticleApproximation, and assignments to its attributes. *)
(** [pa.part], filter.py:1066-1084 *)
Definition part_of (pa : nat) : HM (list P) := edo a <- get_pa pa ; get_part (ha_part a).
(** [pa.w], filter.py:1066-1084 *)
Definition w_of (pa : nat) : HM (list xr) := edo a <- get_pa pa ; get_w (ha_w a).
(** [pa.part = ...], filter.py:258, 467 *)
Definition set_part (pa : nat) (p : nat) : HM unit := edo a <- get_pa pa ; put_pa pa (mkHPA p (ha_w a) (ha_num a) (ha_off a)).
(** [pa.w = ...], filter.py:164, 252, 319, 390, 473 *)
Definition set_w (pa : nat) (w : nat) : HM unit := edo a <- get_pa pa ; put_pa pa (mkHPA (ha_part a) w (ha_num a) (ha_off a)).
(** [pa.w_offset += ...], filter.py:161, 168 and similar *)
Definition add_off (pa : nat) (m : xr) : HM unit := edo a <- get_pa pa ; put_pa pa (mkHPA (ha_part a) (ha_w a) (ha_num a) (xadd (ha_off a) m)).

(** filter.py:1101-1123 [resample(model, N)] *)
Definition h_resample (pa : nat) (n : nat) : HM nat :=
  edo w <- w_of pa ;
  edo m <- elift (xmax w) ;
  edo ind <- on_world (sampleM g (map xexp (map (fun x => xsub x m) w)) n) ;
  edo new_ind <- new_idx ind ;
  edo a <- get_pa pa ;
  edo new_part <- hm_copy hm (ha_part a) (Some new_ind) ;
  edo w' <- new_w (uniform_lw n) ;
  edo _ <- put_pa pa (mkHPA new_part w' n (Fin 0)) ;
  eret new_ind.

(** filter.py:77-83, 224-230, 450-456: returns (resampled, ancestors) *)
Definition h_maybe_resample (thr : R) (pa : nat) : HM (bool * nat) :=
  edo a <- get_pa pa ;
  if Rltb 0 thr then
    edo w <- w_of pa ;
    edo ne <- elift (neff_of w) ;
    if xltb ne (Fin (thr * INR (ha_num a))) then
      edo anc <- h_resample pa (ha_num a) ;
      eret (true, anc)
    else edo anc <- new_idx (seq 0 (ha_num a)) ; eret (false, anc)
  else edo anc <- new_idx (seq 0 (ha_num a)) ; eret (false, anc).

(** filter.py:96-127 [update], inplace=True *)
Definition h_update (traj : list hstep) (ancestors : nat) (uvec : list (cell U)) (yvec : list (cell Y)) (tvec : list nat)
    (cur_ind : nat) (pa : nat) : HM unit :=
  edo v <- hm_noise hm traj ancestors (firstn (cur_ind + 1) uvec) (firstn (cur_ind + 1) tvec) ;
  edo a <- get_pa pa ;
  hm_update hm (ha_part a) traj (firstn (cur_ind + 1) uvec) (firstn (cur_ind + 1) yvec) (firstn (cur_ind + 1) tvec) ancestors v.

(** filter.py:159-169, 247-257, 314-324, 468-478: [new_weights -= m] changes the array, [pa.w = pa.w + new_weights] creates one,
    [pa.w -= m] changes it *)
Definition h_add_weights (pa : nat) (nw : nat) : HM unit :=
  edo x <- get_w nw ;
  edo m <- elift (xmax x) ;
  edo _ <- add_off pa m ;
  edo _ <- put_w nw (map (fun v => xsub v m) x) ;
  edo x <- get_w nw ;
  edo w <- w_of pa ;
  edo w' <- elift (zipw xadd w x) ;
  edo wl <- new_w w' ;
  edo _ <- set_w pa wl ;
  edo w' <- w_of pa ;
  edo m2 <- elift (xmax w') ;
  edo _ <- add_off pa m2 ;
  edo a <- get_pa pa ;
  put_w (ha_w a) (map (fun v => xsub v m2) w').

(** filter.py:130-171, 285-326 [measure], inplace=True *)
Definition h_measure (traj : list hstep) (ancestors : nat) (pa : nat) (uvec : list (cell U)) (yvec : list (cell Y)) (tvec : list nat)
    (cur_ind : nat) : HM unit :=
  edo a <- get_pa pa ;
  edo nw <- hm_measure hm traj ancestors (ha_part a) uvec (firstn (cur_ind + 1) yvec) (firstn (cur_ind + 1) tvec) ;
  h_add_weights pa nw.

(** What forward returns: (pa, resampled, ancestors) *)
(** filter.py:94, 260, 395, 480, 578, 648, 707, 777 *)
Definition hfwd : Type := (nat * bool * nat)%type.

(** filter.py:57-94 [ParticleFilter.forward] *)
Definition h_pf_forward (thr : R) (traj : list hstep) (yvec : list (cell Y)) (uvec : list (cell U)) (tvec : list nat) (cur_ind : nat)
    : HM hfwd :=
  edo last <- elift (idx_last traj) ;
  edo a <- get_pa (hs_pa last) ;
  edo pa <- h_pa_init (ha_part a) (Some (ha_w a)) ;
  edo ra <- h_maybe_resample thr pa ;
  edo _ <- h_update traj (snd ra) uvec yvec tvec cur_ind pa ;
  edo _ <- h_measure traj (snd ra) pa uvec yvec tvec (cur_ind + 1) ;
  eret (pa, fst ra, snd ra).

(** filter.py:204-260 [SIR.forward]: [pa.part = pnext] keeps the array the model returned *)
Definition h_sir_forward (thr : R) (traj : list hstep) (yvec : list (cell Y)) (uvec : list (cell U)) (tvec : list nat) (cur_ind : nat)
    : HM hfwd :=
  edo last <- elift (idx_last traj) ;
  edo a <- get_pa (hs_pa last) ;
  edo pa <- h_pa_init (ha_part a) (Some (ha_w a)) ;
  edo ra <- h_maybe_resample thr pa ;
  edo u <- elift (idx uvec cur_ind) ;
  edo y <- elift (idx yvec (cur_ind + 1)) ;
  edo t <- elift (idx tvec cur_ind) ;
  edo t1 <- elift (idx tvec (cur_ind + 1)) ;
  edo a <- get_pa pa ;
  edo pnext <- hm_qsample hm (ha_part a) u y t ;
  edo qw <- hm_logp_q hm (ha_part a) pnext u y t ;
  edo nw <- hm_logp_xnext hm (ha_part a) pnext u t ;
  edo yw <- hm_meas1 hm pnext y t1 ;
  edo yv <- get_w yw ; edo nv <- get_w nw ; edo qv <- get_w qw ;
  edo s <- elift (zipw xadd yv nv) ;
  edo nwv <- elift (zipw xsub s qv) ;
  edo new_weights <- new_w nwv ;
  edo _ <- h_add_weights pa new_weights ;
  edo _ <- set_part pa pnext ;
  eret (pa, fst ra, snd ra).

(** filter.py:353-355, 360-370 and similar: the ancestor indices; the last one is drawn given the conditional trajectory *)
Definition h_cond_ancestor (wtrans : nat) (w : list xr) : HM nat :=
  edo x <- get_w wtrans ; on_world (cond_ancestor g x w).

(** filter.py:328-395 [CSIRAS.forward]: [pnext[-1] = ...] writes into the array the model returned, [pa.part[:] = pnext] copies *)
Definition h_csiras_forward (ctraj traj : list hstep) (yvec : list (cell Y)) (uvec : list (cell U)) (tvec : list nat) (cur_ind : nat)
    : HM hfwd :=
  edo last <- elift (idx_last traj) ;
  edo al <- get_pa (hs_pa last) ;
  edo pl <- get_part (ha_part al) ;
  edo wl <- get_w (ha_w al) ;
  let N := length pl in
  edo anc0 <- on_world (sampleM g (exp_norm wl) (N - 1)) ;
  edo cur <- elift (idx traj cur_ind) ;
  edo ac <- get_pa (hs_pa cur) ;
  edo cst <- elift (idx ctraj (cur_ind + 1)) ;
  edo pc <- part_of (hs_pa cst) ;
  edo nextp <- elift (take pc (repeat 0%nat N)) ;
  edo nextl <- new_part nextp ;
  edo u <- elift (idx uvec cur_ind) ;
  edo t <- elift (idx tvec cur_ind) ;
  edo wtrans <- hm_logp_xnext hm (ha_part ac) nextl u t ;
  edo wl <- get_w (ha_w al) ;
  edo w <- elift (take wl (seq 0 N)) ;
  edo condind <- h_cond_ancestor wtrans w ;
  edo anc <- new_idx (anc0 ++ [condind]) ;
  edo cp <- hm_copy hm (ha_part al) (Some anc) ;
  edo pa <- h_pa_init cp None ;
  edo y <- elift (idx yvec (cur_ind + 1)) ;
  edo a <- get_pa pa ;
  edo pnext <- hm_qsample hm (ha_part a) u y t ;
  edo pc <- part_of (hs_pa cst) ;
  edo c0 <- elift (idx pc 0) ;
  edo pv <- get_part pnext ;
  edo pv' <- elift (upd_last pv c0) ;
  edo _ <- put_part pnext pv' ;
  edo qw <- hm_logp_q hm (ha_part a) pnext u y t ;
  edo nw <- hm_logp_xnext hm (ha_part a) pnext u t ;
  edo t1 <- elift (idx tvec (cur_ind + 1)) ;
  edo yw <- hm_meas1 hm pnext y t1 ;
  edo yv <- get_w yw ; edo nv <- get_w nw ; edo qv <- get_w qw ;
  edo s <- elift (zipw xadd yv nv) ;
  edo wv <- elift (zipw xsub s qv) ;
  edo w <- new_w wv ;
  edo _ <- set_w pa w ;
  edo pv <- get_part pnext ;
  edo _ <- put_part (ha_part a) pv ;
  eret (pa, true, anc).

(** filter.py:429-480 [FFPropY.forward]: [pa.part = partn] keeps the array the model returned *)
Definition h_pfy_forward (N : nat) (thr : R) (traj : list hstep) (yvec : list (cell Y)) (uvec : list (cell U)) (tvec : list nat) (cur_ind : nat)
    : HM hfwd :=
  edo last <- elift (idx_last traj) ;
  edo al <- get_pa (hs_pa last) ;
  edo cp <- hm_copy hm (ha_part al) None ;
  edo pa <- h_pa_init cp (Some (ha_w al)) ;
  edo ra <- h_maybe_resample thr pa ;
  edo y <- elift (idx_last yvec) ;
  edo t <- elift (idx_last tvec) ;
  edo pv <- part_of pa ;
  edo partn <- hm_propose_y hm (length pv) y t ;
  edo cur <- elift (idx traj cur_ind) ;
  edo pc <- part_of (hs_pa cur) ;
  edo anc <- get_idx (snd ra) ;
  edo pp <- elift (take pc anc) ;
  edo ppl <- new_part pp ;
  edo ca <- get_idx (hs_anc cur) ;
  edo pind <- elift (take ca anc) ;
  edo pindl <- new_idx pind ;
  edo find <- new_idx (seq 0 N) ;
  edo wn <- hm_xnext1 hm ppl (firstn cur_ind traj) pindl partn find uvec yvec tvec cur_ind ;
  edo _ <- set_part pa partn ;
  edo _ <- h_add_weights pa wn ;
  eret (pa, fst ra, snd ra).

(** filter.py:482-505 [FFPropY.measure] *)
Definition h_pfy_measure (N : nat) (yvec : list (cell Y)) (tvec : list nat) (cur_ind : nat) : HM nat :=
  edo y <- elift (idx yvec cur_ind) ;
  edo t <- elift (idx tvec cur_ind) ;
  edo p <- hm_propose_y hm N y t ;
  h_pa_init p None.

(** filter.py:570-578, 640-648: [pa.part[-1] = ...] writes into the new object's array *)
Definition h_cpf_tail (ctraj traj : list hstep) (anc : nat) (yvec : list (cell Y)) (uvec : list (cell U)) (tvec : list nat)
    (cur_ind : nat) (pa : nat) : HM hfwd :=
  edo _ <- h_update traj anc uvec yvec tvec cur_ind pa ;
  edo cst <- elift (idx ctraj (cur_ind + 1)) ;
  edo pc <- part_of (hs_pa cst) ;
  edo c0 <- elift (idx pc 0) ;
  edo a <- get_pa pa ;
  edo pv <- get_part (ha_part a) ;
  edo pv' <- elift (upd_last pv c0) ;
  edo _ <- put_part (ha_part a) pv' ;
  edo y <- elift (idx yvec (cur_ind + 1)) ;
  if is_none y then eret (pa, true, anc)
  else
    edo _ <- h_measure traj anc pa uvec yvec tvec (cur_ind + 1) ;
    eret (pa, true, anc).

(** filter.py:539-578 [CPF.forward] *)
Definition h_cpf_forward (ctraj traj : list hstep) (yvec : list (cell Y)) (uvec : list (cell U)) (tvec : list nat) (cur_ind : nat)
    : HM hfwd :=
  edo cur <- elift (idx traj cur_ind) ;
  edo pc <- part_of (hs_pa cur) ;
  let N := length pc in
  edo last <- elift (idx_last traj) ;
  edo al <- get_pa (hs_pa last) ;
  edo wl <- get_w (ha_w al) ;
  edo anc0 <- on_world (sampleM g (exp_norm wl) (N - 1)) ;
  edo anc <- new_idx (anc0 ++ [(N - 1)%nat]) ;
  edo cp <- hm_copy hm (ha_part al) (Some anc) ;
  edo pa <- h_pa_init cp None ;
  h_cpf_tail ctraj traj anc yvec uvec tvec cur_ind pa.

(** filter.py:592-648 [CPFAS.forward] *)
Definition h_cpfas_forward (ctraj traj : list hstep) (yvec : list (cell Y)) (uvec : list (cell U)) (tvec : list nat) (cur_ind : nat)
    : HM hfwd :=
  edo last <- elift (idx_last traj) ;
  edo al <- get_pa (hs_pa last) ;
  edo pl <- get_part (ha_part al) ;
  edo wl <- get_w (ha_w al) ;
  let N := length pl in
  edo anc0 <- on_world (sampleM g (exp_norm wl) (N - 1)) ;
  edo cur <- elift (idx traj cur_ind) ;
  edo pc <- part_of (hs_pa cur) ;
  edo pp <- elift (take pc (seq 0 N)) ;
  edo ppl <- new_part pp ;
  edo ca <- get_idx (hs_anc cur) ;
  edo pind <- elift (take ca (seq 0 N)) ;
  edo pindl <- new_idx pind ;
  edo cst <- elift (idx ctraj (cur_ind + 1)) ;
  edo acs <- get_pa (hs_pa cst) ;
  edo find <- new_idx (repeat 0%nat N) ;
  edo wtrans <- hm_xnext1 hm ppl (firstn cur_ind traj) pindl (ha_part acs) find uvec yvec tvec cur_ind ;
  edo wl <- get_w (ha_w al) ;
  edo w <- elift (take wl (seq 0 N)) ;
  edo condind <- h_cond_ancestor wtrans w ;
  edo anc <- new_idx (anc0 ++ [condind]) ;
  edo cp <- hm_copy hm (ha_part al) (Some anc) ;
  edo pa <- h_pa_init cp None ;
  h_cpf_tail ctraj traj anc yvec uvec tvec cur_ind pa.

(** filter.py:657-707 [AuxiliaryParticleFilter.forward]: [pa.w += l1w], [pa.w -= ...] change the new object's array *)
Definition h_apf_forward (thr : R) (traj : list hstep) (yvec : list (cell Y)) (uvec : list (cell U)) (tvec : list nat) (cur_ind : nat)
    : HM hfwd :=
  edo last <- elift (idx_last traj) ;
  edo al <- get_pa (hs_pa last) ;
  edo pa <- h_pa_init (ha_part al) (Some (ha_w al)) ;
  edo y <- elift (idx yvec (cur_ind + 1)) ;
  edo l1w <- (if is_none y then eret None
              else
                edo u <- elift (idx uvec cur_ind) ;
                edo t <- elift (idx tvec cur_ind) ;
                edo a <- get_pa pa ;
                edo l1w <- hm_stage1 hm (ha_part a) u y t ;
                edo x <- get_w l1w ;
                edo w <- get_w (ha_w a) ;
                edo w <- elift (zipw xadd w x) ;
                edo _ <- put_w (ha_w a) w ;
                edo m <- elift (xmax w) ;
                edo _ <- put_w (ha_w a) (map (fun v => xsub v m) w) ;
                eret (Some l1w)) ;
  edo a <- get_pa pa ;
  edo cond <- (if Reqb thr 0 then eret false
               else edo w <- w_of pa ; edo ne <- elift (neff_of w) ; eret (xltb ne (Fin (thr * INR (ha_num a))))) ;
  edo rs <- (if (cond : bool) then
               edo anc <- h_resample pa (ha_num a) ;
               match l1w with
               | None => eraise UnboundLocalError
               | Some l => edo x <- get_w l ; edo ind <- get_idx anc ; edo x' <- elift (take x ind) ; edo l' <- new_w x' ;
                           eret (true, anc, Some l')
               end
             else edo anc <- new_idx (seq 0 (ha_num a)) ; eret (false, anc, l1w)) ;
  edo _ <- h_update traj (snd (fst rs)) uvec yvec tvec cur_ind pa ;
  edo _ <- h_measure traj (snd (fst rs)) pa uvec yvec tvec (cur_ind + 1) ;
  match snd rs with
  | None => eraise UnboundLocalError
  | Some l =>
      edo x <- get_w l ;
      edo a <- get_pa pa ;
      edo w <- get_w (ha_w a) ;
      edo w <- elift (zipw xsub w x) ;
      edo _ <- put_w (ha_w a) w ;
      edo m <- elift (xmax w) ;
      edo _ <- put_w (ha_w a) (map (fun v => xsub v m) w) ;
      eret (pa, fst (fst rs), snd (fst rs))
  end.

(** filter.py:717-777 [CPFYAS.forward]: [partn[-1] = ...] and [wn -= m] write into arrays the model returned, which
    ParticleApproximation then copies *)
Definition h_cpfyas_forward (N : nat) (ctraj traj : list hstep) (yvec : list (cell Y)) (uvec : list (cell U)) (tvec : list nat)
    (cur_ind : nat) : HM hfwd :=
  edo cur <- elift (idx traj cur_ind) ;
  edo ac <- get_pa (hs_pa cur) ;
  edo wc <- get_w (ha_w ac) ;
  edo anc0 <- on_world (sampleM g (exp_norm wc) (N - 1)) ;
  edo pc <- get_part (ha_part ac) ;
  edo pp <- elift (take pc (seq 0 N)) ;
  edo ppl <- new_part pp ;
  edo ca <- get_idx (hs_anc cur) ;
  edo pind <- elift (take ca (seq 0 N)) ;
  edo pindl <- new_idx pind ;
  edo cst <- elift (idx ctraj (cur_ind + 1)) ;
  edo acs <- get_pa (hs_pa cst) ;
  edo find <- new_idx (repeat 0%nat N) ;
  edo wtrans <- hm_xnext1 hm ppl (firstn cur_ind traj) pindl (ha_part acs) find uvec yvec tvec cur_ind ;
  edo wc <- get_w (ha_w ac) ;
  edo w <- elift (take wc (seq 0 N)) ;
  edo condind <- h_cond_ancestor wtrans w ;
  edo anc <- new_idx (anc0 ++ [condind]) ;
  edo y <- elift (idx yvec (cur_ind + 1)) ;
  edo t1 <- elift (idx tvec (cur_ind + 1)) ;
  edo partn <- hm_propose_y hm N y t1 ;
  edo pv <- get_part partn ;
  edo cpv <- get_part (ha_part acs) ;
  edo pv' <- elift (set_last_row pv cpv) ;
  edo _ <- put_part partn pv' ;
  edo last <- elift (idx_last traj) ;
  edo pl <- part_of (hs_pa last) ;
  edo av <- get_idx anc ;
  edo pp2 <- elift (take pl av) ;
  edo pp2l <- new_part pp2 ;
  edo ca <- get_idx (hs_anc cur) ;
  edo pind2 <- elift (take ca av) ;
  edo pind2l <- new_idx pind2 ;
  edo find2 <- new_idx (seq 0 N) ;
  edo wn <- hm_xnext1 hm pp2l (firstn cur_ind traj) pind2l partn find2 uvec yvec tvec cur_ind ;
  edo wv <- get_w wn ;
  edo m <- elift (xmax wv) ;
  edo _ <- put_w wn (map (fun x => xsub x m) wv) ;
  edo pa <- h_pa_init partn (Some wn) ;
  edo _ <- add_off pa m ;
  eret (pa, true, anc).

(** filter.py:779-803 [CPFYAS.measure] *)
Definition h_cpfyas_measure (N : nat) (ctraj : list hstep) (yvec : list (cell Y)) (tvec : list nat) (cur_ind : nat) : HM nat :=
  edo y <- elift (idx yvec cur_ind) ;
  edo t <- elift (idx tvec cur_ind) ;
  edo p <- hm_propose_y hm N y t ;
  edo cst <- elift (idx ctraj cur_ind) ;
  edo pc <- part_of (hs_pa cst) ;
  edo pv <- get_part p ;
  edo pv' <- elift (set_last_row pv pc) ;
  edo _ <- put_part p pv' ;
  h_pa_init p None.

(** filter.py:866-883: the filter objects *)
Inductive hfilt : Type :=
| HPF (thr : R) | HAPF (thr : R) | HPFY (thr : R) | HSIR (thr : R)
| HCPFYAS (ctraj : list hstep) | HCPFAS (ctraj : list hstep) | HCPF (ctraj : list hstep) | HCSIRAS (ctraj : list hstep).
(** filter.py:848, 872, 875, 959 *)
Definition h_using_pfy (f : hfilt) : bool := match f with HPFY _ | HCPFYAS _ => true | _ => false end.

(** [create_initial_estimate]: filter.py:44-55, 191-202, 415-427, 524-537: [part[-1] = ...] writes into the array the model returned *)
Definition h_create_initial (f : hfilt) (N : nat) : HM nat :=
  match f with
  | HCPFYAS ct | HCPFAS ct | HCPF ct =>
      edo p <- hm_create hm N ;
      edo cst <- elift (idx ct 0) ;
      edo pc <- part_of (hs_pa cst) ;
      edo c0 <- elift (idx pc 0) ;
      edo pv <- get_part p ;
      edo pv' <- elift (upd_last pv c0) ;
      edo _ <- put_part p pv' ;
      eret p
  | _ => hm_create hm N
  end.

(** filter.py:926-931: the call of the filter object's [forward] *)
Definition h_filter_forward (f : hfilt) (N : nat) (traj : list hstep) (yvec : list (cell Y)) (uvec : list (cell U)) (tvec : list nat)
    (cur_ind : nat) : HM hfwd :=
  match f with
  | HPF thr => h_pf_forward thr traj yvec uvec tvec cur_ind
  | HAPF thr => h_apf_forward thr traj yvec uvec tvec cur_ind
  | HPFY thr => h_pfy_forward N thr traj yvec uvec tvec cur_ind
  | HSIR thr => h_sir_forward thr traj yvec uvec tvec cur_ind
  | HCPFYAS ct => h_cpfyas_forward N ct traj yvec uvec tvec cur_ind
  | HCPFAS ct => h_cpfas_forward ct traj yvec uvec tvec cur_ind
  | HCPF ct => h_cpf_forward ct traj yvec uvec tvec cur_ind
  | HCSIRAS ct => h_csiras_forward ct traj yvec uvec tvec cur_ind
  end.

(** ** ParticleTrajectory, filter.py:825-988 *)
(** Its attributes; [hp_ind1] is [self.ind + 1]. *)
(** filter.py:844-889 *)
Record hptraj := mkHPT {
  hp_N : nat; hp_f : hfilt; hp_u : list (cell U); hp_y : list (cell Y); hp_t : list nat; hp_T : nat; hp_ind1 : nat;
  hp_traj : list hstep }.
(** The object and the heap; both survive an exception. *)
(** Python statements in methods of ParticleTrajectory, filter.py:891-988 *)
Definition PM := EM (hptraj * hst).
(** filter.py:905, 926-931 *)
Definition on_heap {A} (x : HM A) : PM A := fun s => let '(r, h) := x (snd s) in (r, (fst s, h)).
(** Python [self], filter.py:891-988 *)
Definition self : PM hptraj := fun s => (Ok (fst s), s).
(** [self.traj], filter.py:907, 932, 973, 980 *)
Definition with_traj (tr : list hstep) : PM unit :=
  fun s => let o := fst s in (Ok tt, (mkHPT (hp_N o) (hp_f o) (hp_u o) (hp_y o) (hp_t o) (hp_T o) (hp_ind1 o) tr, snd s)).
(** [self.ind], filter.py:904, 925, 960, 976 *)
Definition with_ind1 (i : nat) : PM unit :=
  fun s => let o := fst s in (Ok tt, (mkHPT (hp_N o) (hp_f o) (hp_u o) (hp_y o) (hp_t o) (hp_T o) i (hp_traj o), snd s)).
(** [self.uvec], [self.yvec], [self.tvec], filter.py:909-919, 947-957 *)
Definition with_vecs (u : list (cell U)) (y : list (cell Y)) (t : list nat) (T : nat) : PM unit :=
  fun s => let o := fst s in (Ok tt, (mkHPT (hp_N o) (hp_f o) u y t T (hp_ind1 o) (hp_traj o), snd s)).

(** filter.py:904-907, 975-980 *)
Definition h_first_step : PM unit :=
  edo o <- self ;
  match hp_traj o with
  | [] =>
      edo _ <- with_ind1 1 ;
      edo p <- on_heap (h_create_initial (hp_f o) (hp_N o)) ;
      edo pa <- on_heap (h_pa_init p None) ;
      edo anc <- on_heap (new_idx (seq 0 (hp_N o))) ;
      with_traj [mkHS pa anc]
  | _ => eret tt
  end.

(** filter.py:891-934 [forward(u, y)] *)
Definition h_forward (u : option U) (y : option Y) : PM bool :=
  edo _ <- h_first_step ;
  edo o <- self ;
  edo ind <- (match hp_ind1 o with O => eraise IndexError | S i => eret i end) ;
  edo _ <- (if Nat.leb (hp_T o) (ind + 1)
            then with_vecs (resize CZero (ind + 1) (hp_u o)) (resize CZero (ind + 2) (hp_y o)) (resize 0%nat (ind + 2) (hp_t o)) (ind + 2)
            else eret tt) ;
  edo o <- self ;
  edo uv <- elift (upd (hp_u o) ind (cell_of u)) ;
  edo _ <- with_vecs uv (hp_y o) (hp_t o) (hp_T o) ;
  edo yv <- elift (upd (hp_y o) (ind + 1) (cell_of y)) ;
  edo _ <- with_vecs uv yv (hp_t o) (hp_T o) ;
  edo tv <- elift (upd (hp_t o) (ind + 1) (ind + 1)%nat) ;
  edo _ <- with_vecs uv yv tv (hp_T o) ;
  edo _ <- with_ind1 (ind + 2) ;
  edo r <- on_heap (h_filter_forward (hp_f o) (hp_N o) (hp_traj o) yv uv tv ind) ;
  let '(pa, resampled, anc) := r in
  edo _ <- with_traj (hp_traj o ++ [mkHS pa anc]) ;
  eret resampled.

(** filter.py:936-988 [measure(y)] *)
Definition h_pt_measure (y : option Y) : PM unit :=
  edo o <- self ;
  let ind1 := hp_ind1 o in
  edo _ <- (if Nat.leb (hp_T o) ind1
            then with_vecs (resize CZero (ind1 + 1) (hp_u o)) (resize CZero (ind1 + 1) (hp_y o)) (resize 0%nat (ind1 + 1) (hp_t o)) (ind1 + 1)
            else eret tt) ;
  if h_using_pfy (hp_f o) then
    edo _ <- with_ind1 (ind1 + 1) ;
    edo o <- self ;
    edo yv <- elift (upd (hp_y o) ind1 (cell_of y)) ;
    edo _ <- with_vecs (hp_u o) yv (hp_t o) (hp_T o) ;
    edo tv <- elift (upd (hp_t o) ind1 ind1) ;
    edo _ <- with_vecs (hp_u o) yv tv (hp_T o) ;
    edo anc <- on_heap (new_idx (seq 0 (hp_N o))) ;
    edo pa <- on_heap (match hp_f o with
                       | HCPFYAS ct => h_cpfyas_measure (hp_N o) ct yv tv ind1
                       | _ => h_pfy_measure (hp_N o) yv tv ind1
                       end) ;
    with_traj (hp_traj o ++ [mkHS pa anc])
  else
    edo _ <- h_first_step ;
    edo o <- self ;
    edo ind <- (match hp_ind1 o with O => eraise IndexError | S i => eret i end) ;
    edo yv <- elift (upd (hp_y o) ind (cell_of y)) ;
    edo _ <- with_vecs (hp_u o) yv (hp_t o) (hp_T o) ;
    edo tv <- elift (upd (hp_t o) ind ind) ;
    edo _ <- with_vecs (hp_u o) yv tv (hp_T o) ;
    edo last <- elift (idx_last (hp_traj o)) ;
    on_heap (h_measure (hp_traj o) (hs_anc last) (hs_pa last) (hp_u o) yv tv ind).

(** filter.py:844-889 [__init__] without preallocation: the filter object is given. *)
Definition h_new (N : nat) (f : hfilt) : hptraj := mkHPT N f [CNone] [CNone] [0%nat] 0 0 [].

(** A history of calls; a caller may go on after an exception. *)
(** a call of filter.py:891 [forward] or 936 [measure] *)
Definition h_op (o : op (U := U) (Y := Y)) : PM unit :=
  match o with Fwd u y => edo _ <- h_forward u y ; eret tt | Meas y => h_pt_measure y end.
(** a sequence of calls of filter.py:891 and 936 *)
Fixpoint h_run (ops : list (op (U := U) (Y := Y))) (s : hptraj * hst) : hptraj * hst :=
  match ops with [] => s | o :: ops' => h_run ops' (snd (h_op o s)) end.
End Heap.
Arguments hst : clear implicits.
Arguments hmodel : clear implicits.
Arguments hptraj : clear implicits.
