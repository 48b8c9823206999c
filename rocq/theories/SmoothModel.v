(** Model of the smoothing algorithms, pyparticleest/smoother.py, of
    ParticleTrajectory.perform_smoothing (filter.py:1003-1049), of the default
    smoothing callbacks of interfaces.py, and of the smoothing part and the
    estimate getters of simulator.py:108-185.  Python 3 division; numpy older than
    1.24 (smoother.py:366 and 526 use [numpy.int]). *)
From Coq Require Import String Ascii Bool ZArith Reals List Arith.
From Verif Require Import Base XR SampleModel PAModel FilterModel TrajModel.
Import ListNotations.
Open Scope R_scope.

(** The methods of the user's model that the smoothers call.  [s_f] holds the
    filtering methods.  In callback arguments Python's [None] (no past, no future,
    no index) is represented by the empty list.  [s_post]/[s_pre]: the optional
    hooks [post_smoothing]/[pre_mhips_pass] ([hasattr], smoother.py:247, 234); they
    receive the SmoothTrajectory: its traj, u, y, t and M. *)
Record smodel (W P U Y V : Type) : Type := mkSModel {
  s_f : fmodel W P U Y V;
  s_xnext : list P -> list (tstep P) -> list nat -> list (tstep P) -> list nat ->
            list (cell U) -> list (cell Y) -> list nat -> nat -> M W (list xr);
  s_xmax : list P -> list (tstep P) -> list nat -> list (cell U) -> list (cell Y) ->
           list nat -> nat -> M W xr;
  s_sample : list P -> list (tstep P) -> list nat -> list (tstep P) -> list nat ->
             list (cell U) -> list (cell Y) -> list nat -> nat -> M W (list P);
  s_cpred : list P -> list (tstep P) -> list nat -> list P -> list nat ->
            list (cell U) -> list (cell Y) -> list nat -> nat -> M W (list P);
  s_cinit : list P -> nat -> M W (list P);
  s_propose : list (tstep P) -> list nat -> list (tstep P) -> list nat ->
              list (cell U) -> list (cell Y) -> list nat -> nat -> M W (list P);
  s_logprop : list P -> list (tstep P) -> list nat -> list (tstep P) -> list nat ->
              list (cell U) -> list (cell Y) -> list nat -> nat -> M W (list xr);
  s_x0 : list P -> nat -> M W (list xr);
  s_post : option (list (tstep P) -> list (cell U) -> list (cell Y) -> list nat -> nat ->
                   M W (list (tstep P)));
  s_pre : option (list (tstep P) -> list (cell U) -> list (cell Y) -> list nat -> nat ->
                  M W (list (tstep P))) }.
Arguments mkSModel {W P U Y V}. Arguments s_f {W P U Y V}. Arguments s_xnext {W P U Y V}.
Arguments s_xmax {W P U Y V}. Arguments s_sample {W P U Y V}. Arguments s_cpred {W P U Y V}.
Arguments s_cinit {W P U Y V}. Arguments s_propose {W P U Y V}. Arguments s_logprop {W P U Y V}.
Arguments s_x0 {W P U Y V}. Arguments s_post {W P U Y V}. Arguments s_pre {W P U Y V}.

Section SDefaults.
Context {W P U Y V : Type}.
Variable b : bmodel W P U Y V.

(** interfaces.py:348-378 [FFBSi.logp_xnext_full]. *)
Definition def_xnext_full (p : list P) (past : list (tstep P)) (pind : list nat)
    (future : list (tstep P)) (find : list nat) (ut : list (cell U)) (yt : list (cell Y))
    (tt : list nat) (cur_ind : nat) : M W (list xr) :=
  do f0 <- lift (idx future 0) ;
  do nx <- lift (take (part (st_pa f0)) find) ;
  do u <- lift (idx ut cur_ind) ;
  do t <- lift (idx tt cur_ind) ;
  b_xnext b p nx u t.

(** interfaces.py:481-482 [FFBSiRS.logp_xnext_max_full]; [xmax] is the model's
    [logp_xnext_max]. *)
Definition def_xmax_full (xmaxf : list P -> cell U -> nat -> M W xr)
    (p : list P) (past : list (tstep P)) (pind : list nat)
    (uvec : list (cell U)) (yvec : list (cell Y)) (tvec : list nat) (cur_ind : nat) : M W xr :=
  do u <- lift (idx uvec cur_ind) ;
  do t <- lift (idx tvec cur_ind) ;
  xmaxf p u t.

(** interfaces.py:157-188 [sample_smooth]: a copy. *)
Definition def_sample (p : list P) (ptr : list (tstep P)) (anc : list nat)
    (future : list (tstep P)) (find : list nat) (ut : list (cell U)) (yt : list (cell Y))
    (tt : list nat) (cur_ind : nat) : M W (list P) := ret p.

(** interfaces.py:190-216 [cond_predict_single_step]: a copy of the future state. *)
Definition def_cpred (p : list P) (past : list (tstep P)) (pind : list nat)
    (future_parts : list P) (find : list nat) (ut : list (cell U)) (yt : list (cell Y))
    (tt : list nat) (cur_ind : nat) : M W (list P) := ret future_parts.

(** interfaces.py:218-231 [cond_sampled_initial]: a copy. *)
Definition def_cinit (p : list P) (t : nat) : M W (list P) := ret p.

(** A Markov model seen through the default smoothing callbacks (no hooks). *)
(** interfaces.py:157-231, 341-407, 456-482 *)
Definition smooth_of_basic (xmaxf : list P -> cell U -> nat -> M W xr)
    (prop : list (tstep P) -> list nat -> list (tstep P) -> list nat ->
            list (cell U) -> list (cell Y) -> list nat -> nat -> M W (list P))
    (lprop : list P -> list (tstep P) -> list nat -> list (tstep P) -> list nat ->
             list (cell U) -> list (cell Y) -> list nat -> nat -> M W (list xr))
    (x0 : list P -> nat -> M W (list xr)) : smodel W P U Y V :=
  mkSModel (full_of_basic b) def_xnext_full (def_xmax_full xmaxf) def_sample def_cpred def_cinit
    prop lprop x0 None None.
End SDefaults.

(** [numpy.random.uniform(size=n)]: [n] successive draws. *)
Fixpoint draws {W} (g : rng W) (n : nat) : M W (list R) :=
  match n with
  | O => ret []
  | S n' => do r <- draw g ; do l <- draws g n' ; ret (r :: l)
  end.

(** [numpy.log(numpy.random.uniform(size=n))] (smoother.py:74, 131, 189, 776). *)
Definition log_draws {W} (g : rng W) (n : nat) : M W (list xr) :=
  do l <- draws g n ; ret (map (fun r => xlog (Fin r)) l).

(** [numpy.random.permutation(x)] for an array [x]. *)
Definition permute {W A} (g : rng W) (x : list A) : M W (list A) :=
  do p <- (fun s => let (p, s') := permutation g (length x) s in Ok (p, s')) ;
  lift (take x p).

(** Boolean mask indexing [x[m]]; numpy raises IndexError if the lengths differ. *)
Fixpoint mask {A} (x : list A) (m : list bool) : res (list A) :=
  match x, m with
  | [], [] => Ok []
  | a :: x', c :: m' => dor r <- mask x' m' ; Ok (if c then a :: r else r)
  | _, _ => Err IndexError
  end.

(** Boolean mask assignment [x[m] = y[m]]. *)
(** smoother.py:191-192, 492, 778 *)
Fixpoint mask_set {A} (x : list A) (m : list bool) (y : list A) : res (list A) :=
  match x, m, y with
  | [], [], [] => Ok []
  | a :: x', c :: m', a' :: y' => dor r <- mask_set x' m' y' ; Ok ((if c then a' else a) :: r)
  | _, _, _ => Err IndexError
  end.

(** Integer array assignment [x[ind] = v]. *)
(** smoother.py:76, 84, 135, 150 *)
Fixpoint scatter {A} (x : list A) (ind : list nat) (v : list A) : res (list A) :=
  match ind, v with
  | [], [] => Ok x
  | i :: ind', a :: v' => dor x' <- upd x i a ; scatter x' ind' v'
  | _, _ => Err ValueError
  end.

(** smoother.py:36-39, 64-67, 313-316 and others: log weights, minus their maximum,
    exponentiated and divided by their sum. *)
Definition norm_weights (w : list xr) : res (list xr) :=
  dor m <- xmax w ; Ok (exp_norm (map (fun x => xsub x m) w)).

Section Backward.
Context {W P U Y V : Type}.
Variable sm : smodel W P U Y V.
Variable g : rng W.
(** Contents of arrays allocated with [numpy.empty] (never read before being
    written; the theorems hold for all contents). *)
Variable junk : nat -> nat.

(** smoother.py:30-40: the loop body of [bsi_full] for one future index. *)
Definition bsi_one (pa : papprox P) (ptr : list (tstep P)) (pind : list nat)
    (future : list (tstep P)) (fi : nat) (ut : list (cell U)) (yt : list (cell Y))
    (tt : list nat) (cur_ind : nat) : M W nat :=
  do p_next <- s_xnext sm (part pa) ptr pind future (repeat fi (length (lw pa))) ut yt tt cur_ind ;
  do w <- lift (zipw xadd (lw pa) p_next) ;
  do wn <- lift (norm_weights w) ;
  do l <- sampleM g wn 1 ;
  lift (idx l 0).

(** smoother.py:11-41 [bsi_full]. *)
Fixpoint bsi_full (pa : papprox P) (ptr : list (tstep P)) (pind : list nat)
    (future : list (tstep P)) (find : list nat) (ut : list (cell U)) (yt : list (cell Y))
    (tt : list nat) (cur_ind : nat) : M W (list nat) :=
  match find with
  | [] => ret []
  | fi :: find' =>
      do i <- bsi_one pa ptr pind future fi ut yt tt cur_ind ;
      do r <- bsi_full pa ptr pind future find' ut yt tt cur_ind ;
      ret (i :: r)
  end.

(** smoother.py:70-77 (bsi_rs) and 127-136 (bsi_rsas): one round of
    rejection sampling; returns the new result array, the remaining trajectories
    and the number accepted. *)
Definition rs_round (pa : papprox P) (ptr : list (tstep P)) (pind : list nat)
    (future : list (tstep P)) (ut : list (cell U)) (yt : list (cell Y)) (tt : list nat)
    (cur_ind : nat) (maxpdf : xr) (weights : list xr) (todo : list nat) (result : list nat)
    : M W (list nat * list nat * nat) :=
  do s <- sampleM g weights (length todo) ;
  do ind <- permute g s ;
  do p <- lift (take (part pa) ind) ;
  do pi <- lift (take pind ind) ;
  do pn <- s_xnext sm p ptr pi future todo ut yt tt cur_ind ;
  do test <- log_draws g (length todo) ;
  do accept <- lift (zipw (fun t p => xltb t (xsub p maxpdf)) test pn) ;
  do ta <- lift (mask todo accept) ;
  do ia <- lift (mask ind accept) ;
  do result <- lift (scatter result ta ia) ;
  do todo <- lift (mask todo (map negb accept)) ;
  ret (result, todo, count_occ bool_dec accept true).

(** smoother.py:68-85: the for loop of [bsi_rs] and the fallback. *)
Fixpoint rs_loop (n : nat) (pa : papprox P) (ptr : list (tstep P)) (pind : list nat)
    (future : list (tstep P)) (ut : list (cell U)) (yt : list (cell Y)) (tt : list nat)
    (cur_ind : nat) (maxpdf : xr) (weights : list xr) (todo result : list nat) : M W (list nat) :=
  match n with
  | O =>
      do r <- bsi_full pa ptr pind future todo ut yt tt cur_ind ;
      lift (scatter result todo r)
  | S n' =>
      do rt <- rs_round pa ptr pind future ut yt tt cur_ind maxpdf weights todo result ;
      let '(result, todo, _) := rt in
      match todo with
      | [] => ret result
      | _ => rs_loop n' pa ptr pind future ut yt tt cur_ind maxpdf weights todo result
      end
  end.

(** smoother.py:44-85 [bsi_rs].  Note that [find] is used only for its length. *)
Definition bsi_rs (pa : papprox P) (ptr : list (tstep P)) (pind : list nat)
    (future : list (tstep P)) (find : list nat) (ut : list (cell U)) (yt : list (cell Y))
    (tt : list nat) (cur_ind : nat) (maxpdf : xr) (max_iter : nat) : M W (list nat) :=
  let m := length find in
  do weights <- lift (norm_weights (lw pa)) ;
  rs_loop max_iter pa ptr pind future ut yt tt cur_ind maxpdf weights (seq 0 m) (map junk (seq 0 m)).

(** smoother.py:139-146: Kalman filter tracking the acceptance rate: [m]
    trajectories tried, [a] accepted.  A zero denominator raises ZeroDivisionError
    (simplification: after the first round Python would continue with nan). *)
Definition accept_kf (sv sw : R) (m a : nat) (pk Pk : R) : res (R * R) :=
  let mk := INR m in let ak := INR a in
  let mk2 := mk * mk in let sw2 := sw * sw in
  if Reqb (mk2 * Pk + sw2) 0 then Err ZeroDivisionError
  else
    let pk := pk + (mk * Pk) / (mk2 * Pk + sw2) * (ak - mk * pk) in
    let Pk := (1 - (mk2 * Pk) / (mk2 * Pk + sw2)) * Pk in
    if Reqb mk 0 then Err ZeroDivisionError
    else Ok ((1 - ak / mk) * pk, (1 - ak / mk) ^ 2 * Pk + sv * sv).

(** smoother.py:125-151: the [while (True)] loop of [bsi_rsas], at most [fuel]
    rounds. *)
Fixpoint rsas_loop (fuel : nat) (pa : papprox P) (ptr : list (tstep P)) (pind : list nat)
    (future : list (tstep P)) (ut : list (cell U)) (yt : list (cell Y)) (tt : list nat)
    (cur_ind : nat) (maxpdf : xr) (sv sw stop : R) (weights : list xr) (pk Pk : R)
    (todo result : list nat) : M W (list nat) :=
  match fuel with
  | O => raise OutOfFuel
  | S fuel' =>
      do rt <- rs_round pa ptr pind future ut yt tt cur_ind maxpdf weights todo result ;
      let '(result', todo', ak) := rt in
      match todo' with
      | [] => ret result'
      | _ =>
          do kf <- lift (accept_kf sv sw (length todo) ak pk Pk) ;
          let '(pk, Pk) := kf in
          if Rltb pk stop then
            do r <- bsi_full pa ptr pind future todo' ut yt tt cur_ind ;
            lift (scatter result' todo' r)
          else rsas_loop fuel' pa ptr pind future ut yt tt cur_ind maxpdf sv sw stop weights pk Pk
                 todo' result'
      end
  end.

(** smoother.py:87-151 [bsi_rsas] ([stop_criteria = ratio / len(pa)]; an empty
    particle set raises earlier, in [numpy.max]). *)
Definition bsi_rsas (fuel : nat) (pa : papprox P) (ptr : list (tstep P)) (pind : list nat)
    (future : list (tstep P)) (find : list nat) (ut : list (cell U)) (yt : list (cell Y))
    (tt : list nat) (cur_ind : nat) (maxpdf : xr) (x1 P1 sv sw ratio : R) : M W (list nat) :=
  let m := length find in
  do weights <- lift (norm_weights (lw pa)) ;
  rsas_loop fuel pa ptr pind future ut yt tt cur_ind maxpdf sv sw (ratio / INR (length (part pa)))
    weights x1 P1 (seq 0 m) (map junk (seq 0 m)).

(** smoother.py:187-188 [diff[diff > 0.0] = 0.0]. *)
Definition clip0 (d : xr) : xr := if xltb (Fin 0) d then Fin 0 else d.

(** smoother.py:183-192: one iteration of the Markov chain. *)
Definition mcmc_round (pa : papprox P) (ptr : list (tstep P)) (pind : list nat)
    (future : list (tstep P)) (find : list nat) (ut : list (cell U)) (yt : list (cell Y))
    (tt : list nat) (cur_ind : nat) (weights : list xr) (ind : list nat) (pcurr : list xr)
    : M W (list nat * list xr) :=
  do s <- sampleM g weights (length find) ;
  do propind <- permute g s ;
  do p <- lift (take (part pa) propind) ;
  do pi <- lift (take pind propind) ;
  do pprop <- s_xnext sm p ptr pi future find ut yt tt cur_ind ;
  do diff <- lift (zipw xsub pprop pcurr) ;
  let diff := map clip0 diff in
  do test <- log_draws g (length find) ;
  do accept <- lift (zipw xltb test diff) ;
  do ind <- lift (mask_set ind accept propind) ;
  do pcurr <- lift (mask_set pcurr accept pprop) ;
  ret (ind, pcurr).

(** smoother.py:182-192 *)
Fixpoint mcmc_loop (n : nat) (pa : papprox P) (ptr : list (tstep P)) (pind : list nat)
    (future : list (tstep P)) (find : list nat) (ut : list (cell U)) (yt : list (cell Y))
    (tt : list nat) (cur_ind : nat) (weights : list xr) (ind : list nat) (pcurr : list xr)
    : M W (list nat) :=
  match n with
  | O => ret ind
  | S n' =>
      do r <- mcmc_round pa ptr pind future find ut yt tt cur_ind weights ind pcurr ;
      mcmc_loop n' pa ptr pind future find ut yt tt cur_ind weights (fst r) (snd r)
  end.

(** smoother.py:153-194 [bsi_mcmc]. *)
Definition bsi_mcmc (pa : papprox P) (ptr : list (tstep P)) (pind : list nat)
    (future : list (tstep P)) (find : list nat) (ut : list (cell U)) (yt : list (cell Y))
    (tt : list nat) (cur_ind : nat) (R_ : nat) (ancestors : list nat) : M W (list nat) :=
  do weights <- lift (norm_weights (lw pa)) ;
  do p <- lift (take (part pa) ancestors) ;
  do pi <- lift (take pind ancestors) ;
  do pcurr <- s_xnext sm p ptr pi future find ut yt tt cur_ind ;
  mcmc_loop R_ pa ptr pind future find ut yt tt cur_ind weights ancestors pcurr.

(** smoother.py:632-779: a log-density term that is either a scalar 0.0 ([None]) or
    an array.  The difference and the sum of such terms. *)
Definition term : Type := option (list xr).
(** smoother.py:771-774 *)
Definition tsub (a b : term) : res term :=
  match a, b with
  | None, None => Ok None
  | Some x, Some y => dor r <- zipw xsub x y ; Ok (Some r)
  | Some x, None => Ok (Some x)
  | None, Some y => Ok (Some (map xopp y))
  end.
(** smoother.py:771-774 *)
Definition tadd (a b : term) : res term :=
  match a, b with
  | None, t | t, None => Ok t
  | Some x, Some y => dor r <- zipw xadd x y ; Ok (Some r)
  end.

(** smoother.py:655-661: recompute the current particles. *)
Definition mc_current (part_ : list P) (ptr : option (list (tstep P))) (pind_curr : list nat)
    (ut : list (cell U)) (yt : list (cell Y)) (tt : list nat) (cur_ind : nat) : M W (list P) :=
  match ptr with
  | Some tr =>
      do last <- lift (idx_last tr) ;
      do old <- lift (take (part (st_pa last)) pind_curr) ;
      do pi <- lift (take (st_anc last) pind_curr) ;
      s_cpred sm old (removelast tr) pi part_ (seq 0 (length pind_curr)) ut yt tt (cur_ind - 1)
  | None =>
      do t <- lift (idx tt cur_ind) ;
      s_cinit sm part_ t
  end.

(** The past as handed to callbacks ([None] is the empty list). *)
(** smoother.py:632-779 *)
Definition opt_past (ptr : option (list (tstep P))) : list (tstep P) :=
  match ptr with Some tr => tr | None => [] end.
(** The future as handed to callbacks ([None] is the empty list). *)
(** smoother.py:632-779 *)
Definition opt_future (f : option (list (tstep P))) : list (tstep P) :=
  match f with Some l => l | None => [] end.

(** smoother.py:663-684 (reduced) and 686-708 (propose_smooth): the proposal. *)
Definition mc_propose (reduced : bool) (ptr : option (list (tstep P))) (pind_prop : list nat)
    (future : option (list (tstep P))) (find : list nat)
    (ut : list (cell U)) (yt : list (cell Y)) (tt : list nat) (cur_ind : nat) : M W (list P) :=
  if reduced then
    match ptr with
    | Some tr =>
        do noise <- m_noise (s_f sm) tr pind_prop (firstn cur_ind ut) (firstn cur_ind tt) ;
        do last <- lift (idx_last tr) ;
        do xprop <- lift (take (part (st_pa last)) pind_prop) ;
        m_update (s_f sm) xprop tr (firstn cur_ind ut) (firstn cur_ind yt) (firstn cur_ind tt)
          pind_prop noise
    | None =>
        match future with
        | None => raise TypeError (* future_trajs[0] on None *)
        | Some f =>
            do f0 <- lift (idx f 0) ;
            m_create (s_f sm) (length (part (st_pa f0)))
        end
    end
  else s_propose sm (opt_past ptr) pind_prop (opt_future future) find ut yt tt cur_ind.

(** smoother.py:678-682 (reduced: all zero) and 697-739: the log densities of the
    proposal [q] and of the transition from the previous state (or of the initial
    state) for proposed and current particles: (q_prop, q_curr, prev_prop,
    prev_curr). *)
Definition mc_prior_terms (reduced : bool) (xprop cur : list P) (ptr : option (list (tstep P)))
    (pind_prop pind_curr : list nat) (future : option (list (tstep P))) (find : list nat)
    (ut : list (cell U)) (yt : list (cell Y)) (tt : list nat) (cur_ind : nat)
    : M W (term * term * term * term) :=
  if reduced then ret (None, None, None, None)
  else
    do qp <- s_logprop sm xprop (opt_past ptr) pind_prop (opt_future future) find ut yt tt cur_ind ;
    do qc <- s_logprop sm cur (opt_past ptr) pind_curr (opt_future future) find ut yt tt cur_ind ;
    match ptr with
    | Some tr =>
        do last <- lift (idx_last tr) ;
        do pp <- lift (take (part (st_pa last)) pind_prop) ;
        do ip <- lift (take (st_anc last) pind_prop) ;
        do lp <- m_xnext1 (s_f sm) pp (removelast tr) ip xprop (seq 0 (length xprop)) ut yt tt
                   (cur_ind - 1) ;
        do pc <- lift (take (part (st_pa last)) pind_curr) ;
        do ic <- lift (take (st_anc last) pind_curr) ;
        do lc <- m_xnext1 (s_f sm) pc (removelast tr) ic cur (seq 0 (length cur)) ut yt tt
                   (cur_ind - 1) ;
        ret (Some qp, Some qc, Some lp, Some lc)
    | None =>
        do t0 <- lift (idx tt 0) ;
        do lp <- s_x0 sm xprop t0 ;
        do lc <- s_x0 sm cur t0 ;
        ret (Some qp, Some qc, Some lp, Some lc)
    end.

(** smoother.py:740-752: measure both (updating them in place) if there is a
    measurement: (proposed, current, y_prop, y_curr). *)
Definition mc_meas_terms (xprop cur : list P) (ptr : option (list (tstep P)))
    (pind_prop pind_curr : list nat) (ut : list (cell U)) (yt : list (cell Y)) (tt : list nat)
    (cur_ind : nat) : M W (list P * list P * term * term) :=
  do y <- lift (idx yt cur_ind) ;
  if is_none y then ret (xprop, cur, None, None)
  else
    do rp <- m_measure (s_f sm) (opt_past ptr) pind_prop xprop (firstn (cur_ind + 1) ut)
               (firstn (cur_ind + 1) yt) (firstn (cur_ind + 1) tt) ;
    do rc <- m_measure (s_f sm) (opt_past ptr) pind_curr cur (firstn (cur_ind + 1) ut)
               (firstn (cur_ind + 1) yt) (firstn (cur_ind + 1) tt) ;
    ret (fst rp, fst rc, Some (snd rp), Some (snd rc)).

(** smoother.py:754-776: density of the future for both: (next_prop, next_curr). *)
Definition mc_next_terms (xpropy cury : list P) (ptr : option (list (tstep P)))
    (pind_prop pind_curr : list nat) (future : option (list (tstep P))) (find : list nat)
    (ut : list (cell U)) (yt : list (cell Y)) (tt : list nat) (cur_ind : nat) : M W (term * term) :=
  match future with
  | None => ret (None, None)
  | Some f =>
      do np <- s_xnext sm xpropy (opt_past ptr) pind_prop f find ut yt tt cur_ind ;
      do nc <- s_xnext sm cury (opt_past ptr) pind_curr f find ut yt tt cur_ind ;
      ret (Some np, Some nc)
  end.

(** smoother.py:632-779 [mc_step]; [len(ratio)] of a scalar raises TypeError. *)
Definition mc_step (part_ : list P) (ptr : option (list (tstep P))) (pind_prop pind_curr : list nat)
    (future : option (list (tstep P))) (find : list nat) (ut : list (cell U)) (yt : list (cell Y))
    (tt : list nat) (cur_ind : nat) (reduced : bool) : M W (list P * list bool) :=
  do cur <- mc_current part_ ptr pind_curr ut yt tt cur_ind ;
  do xprop <- mc_propose reduced ptr pind_prop future find ut yt tt cur_ind ;
  do pt <- mc_prior_terms reduced xprop cur ptr pind_prop pind_curr future find ut yt tt cur_ind ;
  let '(q_prop, q_curr, prev_prop, prev_curr) := pt in
  do mt <- mc_meas_terms xprop cur ptr pind_prop pind_curr ut yt tt cur_ind ;
  let '(xpropy, cury, y_prop, y_curr) := mt in
  do nt <- mc_next_terms xpropy cury ptr pind_prop pind_curr future find ut yt tt cur_ind ;
  let '(next_prop, next_curr) := nt in
  do d1 <- lift (tsub prev_prop prev_curr) ;
  do d2 <- lift (tsub y_prop y_curr) ;
  do d3 <- lift (tsub next_prop next_curr) ;
  do d4 <- lift (tsub q_curr q_prop) ;
  do s1 <- lift (tadd d1 d2) ;
  do s2 <- lift (tadd s1 d3) ;
  do s3 <- lift (tadd s2 d4) ;
  match s3 with
  | None => raise TypeError
  | Some ratio =>
      do test <- log_draws g (length ratio) ;
      do acc <- lift (zipw xltb test ratio) ;
      do cury <- lift (mask_set cury acc xpropy) ;
      ret (cury, acc)
  end.
End Backward.

(** A number in an options dict. *)
(** option values, filter.py:1034-1047 *)
Inductive pynum := PyInt (z : Z) | PyFloat (r : R).

(** [int(x)]: truncation towards zero; used as an iteration count, so negative
    values count as 0 ([range] of a negative number is empty). *)
(** [int(x)], smoother.py:378 *)
Definition py_int (x : pynum) : nat :=
  match x with
  | PyInt z => Z.to_nat z
  | PyFloat r => Z.to_nat (Int_part r)
  end.
(** [range(x)]: floats raise TypeError. *)
(** [range(x)], smoother.py:68, 182, 235, 472 *)
Definition py_range (x : pynum) : res nat :=
  match x with PyInt z => Ok (Z.to_nat z) | PyFloat _ => Err TypeError end.
(** Numeric value. *)
(** Python arithmetic on an int or float, smoother.py:122-147 *)
Definition py_val (x : pynum) : R := match x with PyInt z => IZR z | PyFloat r => r end.

(** The options dict: keys the smoothers read (smoother.py:228-232, 240-244,
    355-364, 384, 392, 399). *)
Record soptions : Type := mkOpt {
  o_R : option pynum;
  o_maxpdf : option (list xr);
  o_x1 : option pynum;
  o_P1 : option pynum;
  o_sv : option pynum;
  o_sw : option pynum;
  o_ratio : option pynum }.
(** [{}], filter.py:1018 *)
Definition no_options : soptions := mkOpt None None None None None None None.

(** [dict.update]. *)
(** [dict.update], filter.py:1047 *)
Definition ov {A} (a b : option A) : option A := match b with Some _ => b | None => a end.
(** filter.py:1046-1047 *)
Definition opt_update (a b : soptions) : soptions :=
  mkOpt (ov (o_R a) (o_R b)) (ov (o_maxpdf a) (o_maxpdf b)) (ov (o_x1 a) (o_x1 b))
        (ov (o_P1 a) (o_P1 b)) (ov (o_sv a) (o_sv b)) (ov (o_sw a) (o_sw b)) (ov (o_ratio a) (o_ratio b)).

(** [options[key]]: [options = None] raises TypeError, a missing key KeyError. *)
(** [options[key]], smoother.py:353-391 *)
Definition get_opt {A} (o : option soptions) (f : soptions -> option A) : res A :=
  match o with
  | None => Err TypeError
  | Some d => match f d with Some a => Ok a | None => Err KeyError end
  end.
(** ['R' in options]: TypeError if options is None; default 10 (smoother.py:228-231,
    240-243). *)
Definition get_R10 (o : option soptions) : res pynum :=
  match o with
  | None => Err TypeError
  | Some d => match o_R d with Some r => Ok r | None => Ok (PyInt 10) end
  end.

(** smoother.py:197-248: a SmoothTrajectory. *)
Record straj (P U Y : Type) : Type := mkST {
  sm_traj : list (tstep P);
  sm_u : list (cell U);
  sm_y : list (cell Y);
  sm_t : list nat;
  sm_M : nat }.
Arguments mkST {P U Y}. Arguments sm_traj {P U Y}. Arguments sm_u {P U Y}. Arguments sm_y {P U Y}.
Arguments sm_t {P U Y}. Arguments sm_M {P U Y}.

(** The four backward simulators. *)
(** smoother.py:218-220 *)
Inductive bsi_kind := BFull | BMcmc | BRs | BRsas.

Section Smoothers.
Context {W P U Y V : Type}.
Variable sm : smodel W P U Y V.
Variable g : rng W.
Variable junk : nat -> nat.
(** Bound on the number of rounds of the adaptive rejection sampler's unbounded
    loop. *)
Variable fuel : nat.

(** smoother.py:270-301: the loop over earlier times, [n] steps remaining.
    [ind] are the selected particles of step [n-1]. *)
Fixpoint ancestors_loop (n : nat) (tr : list (tstep P)) (u : list (cell U)) (y : list (cell Y))
    (t : list nat) (find ancestors : list nat) (future : list (tstep P)) : M W (list (tstep P)) :=
  match n with
  | O => ret future
  | S k =>
      do st <- lift (idx tr k) ;
      let ind := ancestors in
      do anc <- lift (take (st_anc st) ind) ;
      do p <- lift (take (part (st_pa st)) ind) ;
      do p' <- s_sample sm p (firstn k tr) anc future find u y t k ;
      do pa <- lift (pa_init p' None) ;
      ancestors_loop k tr u y t find anc (mkStep pa find :: future)
  end.

(** smoother.py:270-301 [calculate_ancestors(pt, ind)] ([pt[T-1]] with T = 0 is
    [pt[-1]] and raises IndexError). *)
Definition calculate_ancestors (tr : list (tstep P)) (u : list (cell U)) (y : list (cell Y))
    (t : list nat) (ind : list nat) : M W (list (tstep P)) :=
  do last <- lift (idx_last tr) ;
  do anc <- lift (take (st_anc last) ind) ;
  do p <- lift (take (part (st_pa last)) ind) ;
  do p' <- s_sample sm p (removelast tr) anc [] [] u y t (length tr - 1) ;
  do pa <- lift (pa_init p' None) ;
  let find := seq 0 (length ind) in
  ancestors_loop (length tr - 1) tr u y t find anc [mkStep pa find].

(** smoother.py:303-319 [perform_ancestors_int]. *)
Definition perform_ancestors_int (tr : list (tstep P)) (u : list (cell U)) (y : list (cell Y))
    (t : list nat) (m : nat) : M W (list (tstep P)) :=
  do last <- lift (idx_last tr) ;
  do w <- lift (norm_weights (lw (st_pa last))) ;
  do ind <- sampleM g w m ;
  calculate_ancestors tr u y t ind.

(** smoother.py:373-400: choose the particles of step [k] with the given backward
    simulator; [ancestors] is used by 'mcmc' only. *)
Definition bsi_select (kind : bsi_kind) (o : option soptions) (st : tstep P) (k : nat)
    (tr : list (tstep P)) (future : list (tstep P)) (find : list nat) (u : list (cell U))
    (y : list (cell Y)) (t : list nat) (ancestors : list nat) : M W (list nat) :=
  match kind with
  | BRs =>
      do mp <- lift (get_opt o o_maxpdf) ;
      do mk <- lift (idx mp k) ;
      do r <- lift (get_opt o o_R) ;
      bsi_rs sm g junk (st_pa st) (firstn k tr) (st_anc st) future find u y t k mk (py_int r)
  | BRsas =>
      do mp <- lift (get_opt o o_maxpdf) ;
      do mk <- lift (idx mp k) ;
      do x1 <- lift (get_opt o o_x1) ;
      do P1 <- lift (get_opt o o_P1) ;
      do sv <- lift (get_opt o o_sv) ;
      do sw <- lift (get_opt o o_sw) ;
      do ratio <- lift (get_opt o o_ratio) ;
      bsi_rsas sm g junk fuel (st_pa st) (firstn k tr) (st_anc st) future find u y t k mk
        (py_val x1) (py_val P1) (py_val sv) (py_val sw) (py_val ratio)
  | BMcmc =>
      do r <- lift (get_opt o o_R) ;
      do n <- lift (py_range r) ;
      bsi_mcmc sm g (st_pa st) (firstn k tr) (st_anc st) future find u y t k n ancestors
  | BFull =>
      bsi_full sm g (st_pa st) (firstn k tr) (st_anc st) future find u y t k
  end.

(** smoother.py:368-410: the backward loop of [perform_bsi], [n] steps remaining. *)
Fixpoint bsi_loop (kind : bsi_kind) (o : option soptions) (m n : nat) (tr : list (tstep P))
    (u : list (cell U)) (y : list (cell Y)) (t : list nat) (ancestors : list nat)
    (future : list (tstep P)) : M W (list (tstep P)) :=
  match n with
  | O => ret future
  | S k =>
      do st <- lift (idx tr k) ;
      do ind <- bsi_select kind o st k tr future (seq 0 m) u y t ancestors ;
      do anc <- lift (take (st_anc st) ind) ;
      do p <- lift (take (part (st_pa st)) ind) ;
      do p' <- s_sample sm p (firstn k tr) anc future (seq 0 m) u y t k ;
      do pa <- lift (pa_init p' None) ;
      bsi_loop kind o m k tr u y t anc (mkStep pa (seq 0 m) :: future)
  end.

(** smoother.py:349-364: options read before the loop. *)
Definition bsi_options (kind : bsi_kind) (o : option soptions) : res unit :=
  match kind with
  | BFull | BMcmc => Ok tt
  | BRs => dor _ <- get_opt o o_R ; Ok tt
  | BRsas =>
      dor _ <- get_opt o o_x1 ; dor _ <- get_opt o o_P1 ; dor _ <- get_opt o o_sv ;
      dor _ <- get_opt o o_sw ; dor _ <- get_opt o o_ratio ; Ok tt
  end.

(** smoother.py:321-410 [perform_bsi]. *)
Definition perform_bsi (kind : bsi_kind) (o : option soptions) (tr : list (tstep P))
    (u : list (cell U)) (y : list (cell Y)) (t : list nat) (m : nat) : M W (list (tstep P)) :=
  do last <- lift (idx_last tr) ;
  do w <- lift (norm_weights (lw (st_pa last))) ;
  do ind <- sampleM g w m ;
  do anc <- lift (take (st_anc last) ind) ;
  do p <- lift (take (part (st_pa last)) ind) ;
  do p' <- s_sample sm p (removelast tr) anc [] [] u y t (length tr - 1) ;
  do pa <- lift (pa_init p' None) ;
  do _ <- lift (bsi_options kind o) ;
  bsi_loop kind o m (length tr - 1) tr u y t anc [mkStep pa (seq 0 m)].

(** Reading a local variable that may be unbound. *)
(** a local variable before its first assignment, smoother.py:452-492 *)
Definition bound {A} (v : option A) : res A :=
  match v with Some a => Ok a | None => Err UnboundLocalError end.

(** smoother.py:472-492: the proposals at one time of [perform_mhbp] ([n] left).
    [weights]: the normalised weights of the previous step, absent at time 0. *)
Fixpoint mhbp_inner (n : nat) (m : nat) (weights : option (list xr)) (ptr : option (list (tstep P)))
    (future : option (list (tstep P))) (u : list (cell U)) (y : list (cell Y)) (t : list nat)
    (k : nat) (reduced : bool) (pnew : list P) (panc anc : option (list nat))
    : M W (list P * option (list nat) * option (list nat)) :=
  match n with
  | O => ret (pnew, panc, anc)
  | S n' =>
      do panc <- (match weights with
                  | Some w => do l <- sampleM g w m ; ret (Some l)
                  | None => ret panc
                  end) ;
      do pv <- lift (bound panc) ;
      do av <- lift (bound anc) ;
      do r <- mc_step sm g pnew ptr pv av future (seq 0 m) u y t k reduced ;
      do av <- lift (mask_set av (snd r) pv) ;
      mhbp_inner n' m weights ptr future u y t k reduced (fst r) panc (Some av)
  end.

(** smoother.py:452-501: the loop over time ([n] steps left, the next one is
    [n-1]). *)
Fixpoint mhbp_loop (n : nat) (m R_ : nat) (reduced : bool) (tr : list (tstep P)) (u : list (cell U))
    (y : list (cell Y)) (t : list nat) (cind : list nat) (panc anc : option (list nat))
    (future : list (tstep P)) : M W (list (tstep P)) :=
  match n with
  | O => ret future
  | S k =>
      let ft := match future with [] => None | _ => Some future end in
      do st <- lift (idx tr k) ;
      do pnew <- lift (take (part (st_pa st)) cind) ;
      do setup <- (match k with
                   | O => ret (None, None, anc)
                   | S k' =>
                       do a <- lift (take (st_anc st) cind) ;
                       do prev <- lift (idx tr k') ;
                       do w <- lift (norm_weights (lw (st_pa prev))) ;
                       ret (Some w, Some (firstn k tr), Some a)
                   end) ;
      let '(weights, ptr, anc) := setup in
      do r <- mhbp_inner R_ m weights ptr ft u y t k reduced pnew panc anc ;
      let '(pnew, panc, anc) := r in
      do av <- lift (bound anc) ;
      do p' <- s_sample sm pnew (opt_past ptr) av (opt_future ft) (seq 0 m) u y t k ;
      do pa <- lift (pa_init p' None) ;
      mhbp_loop k m R_ reduced tr u y t av panc anc (mkStep pa [] :: future)
  end.

(** smoother.py:421-502 [perform_mhbp] without the final hook. *)
Definition perform_mhbp (R_ : nat) (reduced : bool) (tr : list (tstep P)) (u : list (cell U))
    (y : list (cell Y)) (t : list nat) (m : nat) : M W (list (tstep P)) :=
  do last <- lift (idx_last tr) ;
  do w <- lift (norm_weights (lw (st_pa last))) ;
  do cind <- sampleM g w m ;
  mhbp_loop (length tr) m R_ reduced tr u y t cind None None [].

(** smoother.py:547-584: the inner steps of a MHIPS pass, from [n] down to 1. *)
Fixpoint mhips_loop (n : nat) (m : nat) (reduced : bool) (tr : list (tstep P)) (u : list (cell U))
    (y : list (cell Y)) (t : list nat) (future : list (tstep P)) : M W (list (tstep P)) :=
  match n with
  | O => ret future
  | S n' =>
      let i := n in
      let pind := seq 0 m in
      do st <- lift (idx tr i) ;
      do r <- mc_step sm g (part (st_pa st)) (Some (firstn i tr)) pind pind (Some future) pind u y t
                i reduced ;
      do p' <- s_sample sm (fst r) (firstn i tr) pind future pind u y t i ;
      do pa <- lift (pa_init p' None) ;
      mhips_loop n' m reduced tr u y t (mkStep pa pind :: future)
  end.

(** smoother.py:511-607 [perform_mhips_pass]; [tr] is [self.traj], [m] is [self.M]. *)
Definition perform_mhips_pass (reduced : bool) (tr : list (tstep P)) (u : list (cell U))
    (y : list (cell Y)) (t : list nat) (m : nat) : M W (list (tstep P)) :=
  let T := length tr in
  let pind := seq 0 m in
  let past := firstn (T - 1) tr in
  do last <- lift (idx_last tr) ;
  do r <- mc_step sm g (part (st_pa last)) (Some past) pind pind None pind u y t (T - 1) reduced ;
  do p' <- s_sample sm (fst r) past pind [] pind u y t (T - 1) ;
  do pa <- lift (pa_init p' None) ;
  do ft <- mhips_loop (T - 2) m reduced tr u y t [mkStep pa pind] ;
  do st0 <- lift (idx tr 0) ;
  do r <- mc_step sm g (part (st_pa st0)) None [] [] (Some ft) pind u y t 0 reduced ;
  do p' <- s_sample sm (fst r) [] pind ft pind u y t 0 ;
  do pa <- lift (pa_init p' None) ;
  ret (mkStep pa pind :: ft).

(** Call an optional hook on the current trajectory (smoother.py:234, 247, 266, 505). *)
Definition hook (h : option (list (tstep P) -> list (cell U) -> list (cell Y) -> list nat -> nat ->
                             M W (list (tstep P))))
    (tr : list (tstep P)) (u : list (cell U)) (y : list (cell Y)) (t : list nat) (m : nat)
    : M W (list (tstep P)) :=
  match h with None => ret tr | Some f => f tr u y t m end.

(** smoother.py:233-236: [R] passes, each preceded by the optional hook. *)
Fixpoint mhips_passes (n : nat) (reduced : bool) (tr : list (tstep P)) (u : list (cell U))
    (y : list (cell Y)) (t : list nat) (m : nat) : M W (list (tstep P)) :=
  match n with
  | O => ret tr
  | S n' =>
      do tr <- hook (s_pre sm) tr u y t m ;
      do tr <- perform_mhips_pass reduced tr u y t m ;
      mhips_passes n' reduced tr u y t m
  end.

(** smoother.py:208-248 [SmoothTrajectory.__init__(pt, M, method, options)]. *)
Definition smooth (pt : ptraj P U Y) (m : nat) (method : string) (o : option soptions)
    : M W (straj P U Y) :=
  let tr := pt_traj pt in let u := pt_u pt in let y := pt_y pt in let t := pt_t pt in
  do traj <-
    (if String.eqb method "full" then perform_bsi BFull o tr u y t m
     else if String.eqb method "mcmc" then perform_bsi BMcmc o tr u y t m
     else if String.eqb method "rs" then perform_bsi BRs o tr u y t m
     else if String.eqb method "rsas" then perform_bsi BRsas o tr u y t m
     else if String.eqb method "ancestor" then
       (* smoother.py:253-268 [perform_ancestors] *)
       do a <- perform_ancestors_int tr u y t m ;
       hook (s_post sm) a u y t m
     else if (String.eqb method "mhips" || String.eqb method "mhips_reduced")%bool then
       do a <- perform_ancestors_int tr u y t m ;
       do r <- lift (get_R10 o) ;
       do n <- lift (py_range r) ;
       mhips_passes n (String.eqb method "mhips_reduced") a u y t m
     else if String.eqb method "mhbp" then
       do r <- lift (get_R10 o) ;
       do n <- lift (py_range r) ;
       do a <- perform_mhbp n false tr u y t m ;
       hook (s_post sm) a u y t m
     else raise ValueError) ;
  do traj <- hook (s_post sm) traj u y t m ;
  ret (mkST traj u y t m).

(** filter.py:1020-1029: bounds on the transition density of steps 0..T-2; the last
    entry of [numpy.empty] is arbitrary ([last_junk]). *)
Fixpoint maxpdf_coeffs (n k : nat) (pt : ptraj P U Y) (last_junk : xr) : M W (list xr) :=
  match n with
  | O => ret [last_junk]
  | S n' =>
      do st <- lift (idx (pt_traj pt) k) ;
      do c <- s_xmax sm (part (st_pa st)) (firstn k (pt_traj pt)) (st_anc st)
                (pt_u pt) (pt_y pt) (pt_t pt) k ;
      do r <- maxpdf_coeffs n' (k + 1) pt last_junk ;
      ret (c :: r)
  end.

(** filter.py:1018-1047: default options of each method. *)
Definition default_options (pt : ptraj P U Y) (method : string) (last_junk : xr) : M W soptions :=
  if (String.eqb method "rs" || String.eqb method "rsas")%bool then
    do c <- (match pt_traj pt with
             | [] => ret []
             | tr => maxpdf_coeffs (length tr - 1) 0 pt last_junk
             end) ;
    if String.eqb method "rs" then
      do st0 <- lift (idx (pt_traj pt) 0) ;
      ret (mkOpt (Some (PyFloat (0.1 * INR (length (lw (st_pa st0)))))) (Some c)
                 None None None None None)
    else ret (mkOpt None (Some c) (Some (PyFloat 1)) (Some (PyFloat 1)) (Some (PyFloat 1))
                    (Some (PyFloat 1)) (Some (PyFloat 1)))
  else if (String.eqb method "mcmc" || String.eqb method "mhips" || String.eqb method "mhbp")%bool
  then ret (mkOpt (Some (PyInt 30)) None None None None None None)
  else ret no_options.

(** filter.py:1003-1049 [perform_smoothing(M, method, smoother_options)]. *)
Definition perform_smoothing (pt : ptraj P U Y) (m : nat) (method : string)
    (so : option soptions) (last_junk : xr) : M W (straj P U Y) :=
  do d <- default_options pt method last_junk ;
  let o := match so with None => d | Some s => opt_update d s end in
  smooth pt m method (Some o).

(** simulator.py:91-112 [simulate]: filtering, then smoothing if a smoother is given
    and num_traj > 0; returns the filter trajectory, the smoothed trajectory (None:
    [self.straj] stays None) and the number of resamplings. *)
Definition simulate (us : option (list (option U))) (ys : list (option Y)) (num_part num_traj : nat)
    (filter : string) (fo : foptions P) (resv : R) (meas_first : bool)
    (smoother : option string) (so : option soptions) (last_junk : xr)
    : M W (ptraj P U Y * option (straj P U Y) * nat) :=
  do r <- simulate_filter (s_f sm) g us ys num_part filter fo resv meas_first ;
  match smoother with
  | Some name =>
      if Nat.ltb 0 num_traj then
        do st <- perform_smoothing (fst r) num_traj name so last_junk ;
        ret (fst r, Some st, snd r)
      else ret (fst r, None, snd r)
  | None => ret (fst r, None, snd r)
  end.
End Smoothers.
