(** Model of the smoothers (pyparticleest/smoother.py:11-780) and of ParticleTrajectory.perform_smoothing (filter.py:1003-1049) at the
    level of mutable arrays, on the heap of HeapModel.  Arrays the code passes on without copying are passed as references; [x[ind]]
    creates an array; [x[ind] = v] and [x -= v] change one.  Python's None for an index array is represented by a new empty array and for
    a trajectory by the empty list, as in SmoothModel.  Options and the vectors u, y, t are values. *)
From Coq Require Import String Ascii Bool ZArith Reals List Arith.
From Verif Require Import Base XR SampleModel PAModel FilterModel TrajModel SmoothModel HeapModel.
Import ListNotations.
Open Scope R_scope.

Section HeapS.
Context {W P U Y V : Type}.
Notation hmodel := (hmodel W P U Y V).
Notation HM := (@HM W P).

(** The methods of the user's model that the smoothers call (SmoothModel.smodel), on references. *)
(** interfaces.py:157-231, 319-536 *)
Record hsmodel := mkHSM {
  hs_f : hmodel;
  hs_xnext : nat -> list hstep -> nat -> list hstep -> nat -> list (cell U) -> list (cell Y) -> list nat -> nat -> HM nat;
  hs_xmax : nat -> list hstep -> nat -> list (cell U) -> list (cell Y) -> list nat -> nat -> HM xr;
  hs_sample : nat -> list hstep -> nat -> list hstep -> nat -> list (cell U) -> list (cell Y) -> list nat -> nat -> HM nat;
  hs_cpred : nat -> list hstep -> nat -> nat -> nat -> list (cell U) -> list (cell Y) -> list nat -> nat -> HM nat;
  hs_cinit : nat -> nat -> HM nat;
  hs_propose : list hstep -> nat -> list hstep -> nat -> list (cell U) -> list (cell Y) -> list nat -> nat -> HM nat;
  hs_logprop : nat -> list hstep -> nat -> list hstep -> nat -> list (cell U) -> list (cell Y) -> list nat -> nat -> HM nat;
  hs_x0 : nat -> nat -> HM nat;
  hs_post : option (list hstep -> list (cell U) -> list (cell Y) -> list nat -> nat -> HM (list hstep));
  hs_pre : option (list hstep -> list (cell U) -> list (cell Y) -> list nat -> nat -> HM (list hstep)) }.

Variable sm : hsmodel.
Variable g : rng W.
(** Contents of arrays allocated with [numpy.empty]. *)
Variable junk : nat -> nat.
(** Bound on the number of rounds of the adaptive rejection sampler's unbounded loop. *)
Variable fuel : nat.

(** [x[ind]] for an index array [ind]: a new array. *)
(** numpy indexing, smoother.py:71, 128, 179, 184, 291, 404, 461 *)
Definition h_take_part (x ind : nat) : HM nat :=
  edo v <- get_part x ; edo i <- get_idx ind ; edo r <- elift (take v i) ; new_part r.
(** numpy indexing, smoother.py:71, 128, 179, 184, 289, 401, 463 *)
Definition h_take_idx (x ind : nat) : HM nat :=
  edo v <- get_idx x ; edo i <- get_idx ind ; edo r <- elift (take v i) ; new_idx r.
(** [x[m] = y[m]] for a boolean mask [m]. *)
(** smoother.py:778 *)
Definition h_mask_set_part (x : nat) (m : list bool) (y : nat) : HM unit :=
  edo v <- get_part x ; edo z <- get_part y ; edo r <- elift (mask_set v m z) ; put_part x r.
(** smoother.py:192 *)
Definition h_mask_set_w (x : nat) (m : list bool) (y : nat) : HM unit :=
  edo v <- get_w x ; edo z <- get_w y ; edo r <- elift (mask_set v m z) ; put_w x r.
(** smoother.py:191, 492 *)
Definition h_mask_set_idx (x : nat) (m : list bool) (y : nat) : HM unit :=
  edo v <- get_idx x ; edo z <- get_idx y ; edo r <- elift (mask_set v m z) ; put_idx x r.
(** [x[ind] = v] for index arrays. *)
(** smoother.py:76, 84, 135, 150 *)
Definition h_scatter (x : nat) (ind v : list nat) : HM unit :=
  edo c <- get_idx x ; edo r <- elift (scatter c ind v) ; put_idx x r.

(** smoother.py:64-67, 118-121, 174-177, 313-316, 333-336, 437-440, 464-467: [tmp = numpy.copy(pa.w); tmp -= numpy.max(tmp);
    tmp = numpy.exp(tmp); tmp /= numpy.sum(tmp)]; the result (a new array that is only read afterwards) is returned as a value *)
Definition h_norm_weights (w : nat) : HM (list xr) :=
  edo x <- get_w w ;
  edo tmp <- new_w x ;
  edo m <- elift (xmax x) ;
  edo _ <- put_w tmp (map (fun v => xsub v m) x) ;
  edo x <- get_w tmp ;
  eret (exp_norm x).
(** smoother.py:64-67, 118-121, 174-177, 333-336, 464-467 *)
Definition h_pa_weights (pa : nat) : HM (list xr) := edo a <- get_pa pa ; h_norm_weights (ha_w a).

(** smoother.py:30-40: the loop body of [bsi_full] for one future index *)
Definition h_bsi_one (pa : nat) (ptr : list hstep) (pind : nat) (future : list hstep) (fi : nat) (ut : list (cell U)) (yt : list (cell Y))
    (tt : list nat) (cur_ind : nat) : HM nat :=
  edo w <- w_of pa ;
  edo currfind <- new_idx (repeat fi (length w)) ;
  edo a <- get_pa pa ;
  edo p_next <- hs_xnext sm (ha_part a) ptr pind future currfind ut yt tt cur_ind ;
  edo w <- w_of pa ;
  edo pn <- get_w p_next ;
  edo w <- elift (zipw xadd w pn) ;
  edo wn <- elift (norm_weights w) ;
  edo l <- on_world (sampleM g wn 1) ;
  elift (idx l 0).

(** smoother.py:31-40: the loop over [j], [n] iterations left; [res[j] = ...] *)
Fixpoint h_bsi_full_loop (n j : nat) (res : nat) (pa : nat) (ptr : list hstep) (pind : nat) (future : list hstep) (find : nat)
    (ut : list (cell U)) (yt : list (cell Y)) (tt : list nat) (cur_ind : nat) : HM unit :=
  match n with
  | O => eret Datatypes.tt
  | S n' =>
      edo fv <- get_idx find ;
      edo fi <- elift (idx fv j) ;
      edo i <- h_bsi_one pa ptr pind future fi ut yt tt cur_ind ;
      edo r <- get_idx res ;
      edo r' <- elift (upd r j i) ;
      edo _ <- put_idx res r' ;
      h_bsi_full_loop n' (j + 1) res pa ptr pind future find ut yt tt cur_ind
  end.

(** smoother.py:11-41 [bsi_full] *)
Definition h_bsi_full (pa : nat) (ptr : list hstep) (pind : nat) (future : list hstep) (find : nat) (ut : list (cell U))
    (yt : list (cell Y)) (tt : list nat) (cur_ind : nat) : HM nat :=
  edo fv <- get_idx find ;
  edo res <- new_idx (map junk (seq 0 (length fv))) ;
  edo _ <- h_bsi_full_loop (length fv) 0 res pa ptr pind future find ut yt tt cur_ind ;
  eret res.

(** smoother.py:70-77, 127-136: one round of rejection sampling; [res[todo[accept]] = ind[accept]] changes [res],
    [todo = todo[~accept]] creates an array; returns the new [todo] and the number accepted *)
Definition h_rs_round (pa : nat) (ptr : list hstep) (pind : nat) (future : list hstep) (ut : list (cell U)) (yt : list (cell Y))
    (tt : list nat) (cur_ind : nat) (maxpdf : xr) (weights : list xr) (todo res : nat) : HM (nat * nat) :=
  edo tv <- get_idx todo ;
  edo s <- on_world (sampleM g weights (length tv)) ;
  edo iv <- on_world (permute g s) ;
  edo ind <- new_idx iv ;
  edo a <- get_pa pa ;
  edo p <- h_take_part (ha_part a) ind ;
  edo pi <- h_take_idx pind ind ;
  edo pn <- hs_xnext sm p ptr pi future todo ut yt tt cur_ind ;
  edo test <- on_world (log_draws g (length tv)) ;
  edo pv <- get_w pn ;
  edo accept <- elift (zipw (fun t p => xltb t (xsub p maxpdf)) test pv) ;
  edo tv <- get_idx todo ;
  edo ta <- elift (mask tv accept) ;
  edo iv <- get_idx ind ;
  edo ia <- elift (mask iv accept) ;
  edo _ <- h_scatter res ta ia ;
  edo tv' <- elift (mask tv (map negb accept)) ;
  edo todo' <- new_idx tv' ;
  eret (todo', count_occ bool_dec accept true).

(** smoother.py:84, 150: [res[todo] = bsi_full(...)] *)
Definition h_fallback (pa : nat) (ptr : list hstep) (pind : nat) (future : list hstep) (ut : list (cell U)) (yt : list (cell Y))
    (tt : list nat) (cur_ind : nat) (todo res : nat) : HM nat :=
  edo r <- h_bsi_full pa ptr pind future todo ut yt tt cur_ind ;
  edo tv <- get_idx todo ;
  edo rv <- get_idx r ;
  edo _ <- h_scatter res tv rv ;
  eret res.

(** smoother.py:68-85: the for loop of [bsi_rs] and the fallback *)
Fixpoint h_rs_loop (n : nat) (pa : nat) (ptr : list hstep) (pind : nat) (future : list hstep) (ut : list (cell U)) (yt : list (cell Y))
    (tt : list nat) (cur_ind : nat) (maxpdf : xr) (weights : list xr) (todo res : nat) : HM nat :=
  match n with
  | O => h_fallback pa ptr pind future ut yt tt cur_ind todo res
  | S n' =>
      edo ta <- h_rs_round pa ptr pind future ut yt tt cur_ind maxpdf weights todo res ;
      edo tv <- get_idx (fst ta) ;
      match tv with
      | [] => eret res
      | _ => h_rs_loop n' pa ptr pind future ut yt tt cur_ind maxpdf weights (fst ta) res
      end
  end.

(** smoother.py:44-85 [bsi_rs] *)
Definition h_bsi_rs (pa : nat) (ptr : list hstep) (pind : nat) (future : list hstep) (find : nat) (ut : list (cell U))
    (yt : list (cell Y)) (tt : list nat) (cur_ind : nat) (maxpdf : xr) (max_iter : nat) : HM nat :=
  edo fv <- get_idx find ;
  let m := length fv in
  edo todo <- new_idx (seq 0 m) ;
  edo res <- new_idx (map junk (seq 0 m)) ;
  edo weights <- h_pa_weights pa ;
  h_rs_loop max_iter pa ptr pind future ut yt tt cur_ind maxpdf weights todo res.

(** smoother.py:125-151: the [while (True)] loop of [bsi_rsas], at most [fuel] rounds *)
Fixpoint h_rsas_loop (fuel : nat) (pa : nat) (ptr : list hstep) (pind : nat) (future : list hstep) (ut : list (cell U))
    (yt : list (cell Y)) (tt : list nat) (cur_ind : nat) (maxpdf : xr) (sv sw stop : R) (weights : list xr) (pk Pk : R)
    (todo res : nat) : HM nat :=
  match fuel with
  | O => eraise OutOfFuel
  | S fuel' =>
      edo tv0 <- get_idx todo ;
      edo ta <- h_rs_round pa ptr pind future ut yt tt cur_ind maxpdf weights todo res ;
      edo tv <- get_idx (fst ta) ;
      match tv with
      | [] => eret res
      | _ =>
          edo kf <- elift (accept_kf sv sw (length tv0) (snd ta) pk Pk) ;
          if Rltb (fst kf) stop then h_fallback pa ptr pind future ut yt tt cur_ind (fst ta) res
          else h_rsas_loop fuel' pa ptr pind future ut yt tt cur_ind maxpdf sv sw stop weights (fst kf) (snd kf) (fst ta) res
      end
  end.

(** smoother.py:87-151 [bsi_rsas] *)
Definition h_bsi_rsas (pa : nat) (ptr : list hstep) (pind : nat) (future : list hstep) (find : nat) (ut : list (cell U))
    (yt : list (cell Y)) (tt : list nat) (cur_ind : nat) (maxpdf : xr) (x1 P1 sv sw ratio : R) : HM nat :=
  edo fv <- get_idx find ;
  let m := length fv in
  edo todo <- new_idx (seq 0 m) ;
  edo res <- new_idx (map junk (seq 0 m)) ;
  edo weights <- h_pa_weights pa ;
  edo pv <- part_of pa ;
  h_rsas_loop fuel pa ptr pind future ut yt tt cur_ind maxpdf sv sw (ratio / INR (length pv)) weights x1 P1 todo res.

(** smoother.py:183-192: one iteration of the Markov chain; [ind[accept] = ...] and [pcurr[accept] = ...] change arrays *)
Definition h_mcmc_round (pa : nat) (ptr : list hstep) (pind : nat) (future : list hstep) (find : nat) (ut : list (cell U))
    (yt : list (cell Y)) (tt : list nat) (cur_ind : nat) (weights : list xr) (ind pcurr : nat) : HM unit :=
  edo fv <- get_idx find ;
  edo s <- on_world (sampleM g weights (length fv)) ;
  edo pv <- on_world (permute g s) ;
  edo propind <- new_idx pv ;
  edo a <- get_pa pa ;
  edo p <- h_take_part (ha_part a) propind ;
  edo pi <- h_take_idx pind propind ;
  edo pprop <- hs_xnext sm p ptr pi future find ut yt tt cur_ind ;
  edo a' <- get_w pprop ;
  edo b <- get_w pcurr ;
  edo diff <- elift (zipw xsub a' b) ;
  edo test <- on_world (log_draws g (length fv)) ;
  edo accept <- elift (zipw xltb test (map clip0 diff)) ;
  edo _ <- h_mask_set_idx ind accept propind ;
  h_mask_set_w pcurr accept pprop.

(** smoother.py:182-192 *)
Fixpoint h_mcmc_loop (n : nat) (pa : nat) (ptr : list hstep) (pind : nat) (future : list hstep) (find : nat) (ut : list (cell U))
    (yt : list (cell Y)) (tt : list nat) (cur_ind : nat) (weights : list xr) (ind pcurr : nat) : HM unit :=
  match n with
  | O => eret Datatypes.tt
  | S n' =>
      edo _ <- h_mcmc_round pa ptr pind future find ut yt tt cur_ind weights ind pcurr ;
      h_mcmc_loop n' pa ptr pind future find ut yt tt cur_ind weights ind pcurr
  end.

(** smoother.py:153-194 [bsi_mcmc]: [ind = ancestors] is the caller's array, changed in place and returned *)
Definition h_bsi_mcmc (pa : nat) (ptr : list hstep) (pind : nat) (future : list hstep) (find : nat) (ut : list (cell U))
    (yt : list (cell Y)) (tt : list nat) (cur_ind : nat) (R_ : nat) (ancestors : nat) : HM nat :=
  edo weights <- h_pa_weights pa ;
  edo a <- get_pa pa ;
  edo p <- h_take_part (ha_part a) ancestors ;
  edo pi <- h_take_idx pind ancestors ;
  edo pcurr <- hs_xnext sm p ptr pi future find ut yt tt cur_ind ;
  edo _ <- h_mcmc_loop R_ pa ptr pind future find ut yt tt cur_ind weights ancestors pcurr ;
  eret ancestors.

(** smoother.py:655-661: recompute the current particles *)
Definition h_mc_current (part_ : nat) (ptr : option (list hstep)) (pind_curr : nat) (ut : list (cell U)) (yt : list (cell Y))
    (tt : list nat) (cur_ind : nat) : HM nat :=
  match ptr with
  | Some tr =>
      edo last <- elift (idx_last tr) ;
      edo a <- get_pa (hs_pa last) ;
      edo old <- h_take_part (ha_part a) pind_curr ;
      edo pi <- h_take_idx (hs_anc last) pind_curr ;
      edo pv <- get_idx pind_curr ;
      edo find <- new_idx (seq 0 (length pv)) ;
      hs_cpred sm old (removelast tr) pi part_ find ut yt tt (cur_ind - 1)
  | None =>
      edo t <- elift (idx tt cur_ind) ;
      hs_cinit sm part_ t
  end.

(** The past and the future as handed to callbacks ([None] is the empty list). *)
(** smoother.py:632-779 pass None for a missing past or future *)
Definition h_opt (ptr : option (list hstep)) : list hstep := match ptr with Some tr => tr | None => [] end.

(** smoother.py:663-684 (reduced: update_full on a copy of the ancestors' particles) and 686-708 (propose_smooth) *)
Definition h_mc_propose (reduced : bool) (ptr : option (list hstep)) (pind_prop : nat) (future : option (list hstep)) (find : nat)
    (ut : list (cell U)) (yt : list (cell Y)) (tt : list nat) (cur_ind : nat) : HM nat :=
  if reduced then
    match ptr with
    | Some tr =>
        edo noise <- hm_noise (hs_f sm) tr pind_prop (firstn cur_ind ut) (firstn cur_ind tt) ;
        edo last <- elift (idx_last tr) ;
        edo a <- get_pa (hs_pa last) ;
        edo xprop <- h_take_part (ha_part a) pind_prop ;
        edo _ <- hm_update (hs_f sm) xprop tr (firstn cur_ind ut) (firstn cur_ind yt) (firstn cur_ind tt) pind_prop noise ;
        eret xprop
    | None =>
        match future with
        | None => eraise TypeError
        | Some f =>
            edo f0 <- elift (idx f 0) ;
            edo pv <- part_of (hs_pa f0) ;
            hm_create (hs_f sm) (length pv)
        end
    end
  else hs_propose sm (h_opt ptr) pind_prop (h_opt future) find ut yt tt cur_ind.

(** A log-density term: an array or the scalar 0.0; its value. *)
(** smoother.py:678-682, 697-776 *)
Definition h_term (x : option nat) : HM term :=
  match x with Some w => edo v <- get_w w ; eret (Some v) | None => eret None end.

(** smoother.py:678-682 (reduced: all zero) and 697-739 *)
Definition h_mc_prior_terms (reduced : bool) (xprop cur : nat) (ptr : option (list hstep)) (pind_prop pind_curr : nat)
    (future : option (list hstep)) (find : nat) (ut : list (cell U)) (yt : list (cell Y)) (tt : list nat) (cur_ind : nat)
    : HM (option nat * option nat * option nat * option nat) :=
  if reduced then eret (None, None, None, None)
  else
    edo qp <- hs_logprop sm xprop (h_opt ptr) pind_prop (h_opt future) find ut yt tt cur_ind ;
    edo qc <- hs_logprop sm cur (h_opt ptr) pind_curr (h_opt future) find ut yt tt cur_ind ;
    match ptr with
    | Some tr =>
        edo last <- elift (idx_last tr) ;
        edo a <- get_pa (hs_pa last) ;
        edo pp <- h_take_part (ha_part a) pind_prop ;
        edo ip <- h_take_idx (hs_anc last) pind_prop ;
        edo xv <- get_part xprop ;
        edo fp <- new_idx (seq 0 (length xv)) ;
        edo lp <- hm_xnext1 (hs_f sm) pp (removelast tr) ip xprop fp ut yt tt (cur_ind - 1) ;
        edo pc <- h_take_part (ha_part a) pind_curr ;
        edo ic <- h_take_idx (hs_anc last) pind_curr ;
        edo cv <- get_part cur ;
        edo fc <- new_idx (seq 0 (length cv)) ;
        edo lc <- hm_xnext1 (hs_f sm) pc (removelast tr) ic cur fc ut yt tt (cur_ind - 1) ;
        eret (Some qp, Some qc, Some lp, Some lc)
    | None =>
        edo t0 <- elift (idx tt 0) ;
        edo lp <- hs_x0 sm xprop t0 ;
        edo lc <- hs_x0 sm cur t0 ;
        eret (Some qp, Some qc, Some lp, Some lc)
    end.

(** smoother.py:740-752: [xpropy] and [curparty] are copies; measure_full updates them in place: (y_prop, y_curr) *)
Definition h_mc_meas_terms (xpropy cury : nat) (ptr : option (list hstep)) (pind_prop pind_curr : nat) (ut : list (cell U))
    (yt : list (cell Y)) (tt : list nat) (cur_ind : nat) : HM (option nat * option nat) :=
  edo y <- elift (idx yt cur_ind) ;
  if is_none y then eret (None, None)
  else
    edo rp <- hm_measure (hs_f sm) (h_opt ptr) pind_prop xpropy (firstn (cur_ind + 1) ut) (firstn (cur_ind + 1) yt)
                (firstn (cur_ind + 1) tt) ;
    edo rc <- hm_measure (hs_f sm) (h_opt ptr) pind_curr cury (firstn (cur_ind + 1) ut) (firstn (cur_ind + 1) yt)
                (firstn (cur_ind + 1) tt) ;
    eret (Some rp, Some rc).

(** smoother.py:754-776 *)
Definition h_mc_next_terms (xpropy cury : nat) (ptr : option (list hstep)) (pind_prop pind_curr : nat) (future : option (list hstep))
    (find : nat) (ut : list (cell U)) (yt : list (cell Y)) (tt : list nat) (cur_ind : nat) : HM (option nat * option nat) :=
  match future with
  | None => eret (None, None)
  | Some f =>
      edo np <- hs_xnext sm xpropy (h_opt ptr) pind_prop f find ut yt tt cur_ind ;
      edo nc <- hs_xnext sm cury (h_opt ptr) pind_curr f find ut yt tt cur_ind ;
      eret (Some np, Some nc)
  end.

(** smoother.py:632-779 [mc_step]: [curparty[acc] = xpropy[acc]] changes the copy; returns it and [acc] *)
Definition h_mc_step (part_ : nat) (ptr : option (list hstep)) (pind_prop pind_curr : nat) (future : option (list hstep)) (find : nat)
    (ut : list (cell U)) (yt : list (cell Y)) (tt : list nat) (cur_ind : nat) (reduced : bool) : HM (nat * list bool) :=
  edo cur <- h_mc_current part_ ptr pind_curr ut yt tt cur_ind ;
  edo xprop <- h_mc_propose reduced ptr pind_prop future find ut yt tt cur_ind ;
  edo pt <- h_mc_prior_terms reduced xprop cur ptr pind_prop pind_curr future find ut yt tt cur_ind ;
  let '(qp, qc, lp, lc) := pt in
  edo xv <- get_part xprop ;
  edo xpropy <- new_part xv ;
  edo cv <- get_part cur ;
  edo cury <- new_part cv ;
  edo mt <- h_mc_meas_terms xpropy cury ptr pind_prop pind_curr ut yt tt cur_ind ;
  edo nt <- h_mc_next_terms xpropy cury ptr pind_prop pind_curr future find ut yt tt cur_ind ;
  edo prev_prop <- h_term lp ; edo prev_curr <- h_term lc ;
  edo y_prop <- h_term (fst mt) ; edo y_curr <- h_term (snd mt) ;
  edo next_prop <- h_term (fst nt) ; edo next_curr <- h_term (snd nt) ;
  edo q_curr <- h_term qc ; edo q_prop <- h_term qp ;
  edo d1 <- elift (tsub prev_prop prev_curr) ;
  edo d2 <- elift (tsub y_prop y_curr) ;
  edo d3 <- elift (tsub next_prop next_curr) ;
  edo d4 <- elift (tsub q_curr q_prop) ;
  edo s1 <- elift (tadd d1 d2) ;
  edo s2 <- elift (tadd s1 d3) ;
  edo s3 <- elift (tadd s2 d4) ;
  match s3 with
  | None => eraise TypeError
  | Some ratio =>
      edo test <- on_world (log_draws g (length ratio)) ;
      edo acc <- elift (zipw xltb test ratio) ;
      edo _ <- h_mask_set_part cury acc xpropy ;
      eret (cury, acc)
  end.

(** smoother.py:283-301: the loop over earlier times of [calculate_ancestors], [n] steps remaining; all steps share [find] *)
Fixpoint h_ancestors_loop (n : nat) (tr : list hstep) (u : list (cell U)) (y : list (cell Y)) (t : list nat) (find ancestors : nat)
    (future : list hstep) : HM (list hstep) :=
  match n with
  | O => eret future
  | S k =>
      edo st <- elift (idx tr k) ;
      let ind := ancestors in
      edo anc <- h_take_idx (hs_anc st) ind ;
      edo a <- get_pa (hs_pa st) ;
      edo p <- h_take_part (ha_part a) ind ;
      edo p' <- hs_sample sm p (firstn k tr) anc future find u y t k ;
      edo pa <- h_pa_init p' None ;
      h_ancestors_loop k tr u y t find anc (mkHS pa find :: future)
  end.

(** smoother.py:268-301 [calculate_ancestors(pt, ind)] *)
Definition h_calculate_ancestors (tr : list hstep) (u : list (cell U)) (y : list (cell Y)) (t : list nat) (ind : nat) : HM (list hstep) :=
  edo last <- elift (idx_last tr) ;
  edo iv <- get_idx ind ;
  edo anc <- h_take_idx (hs_anc last) ind ;
  edo find <- new_idx (seq 0 (length iv)) ;
  edo a <- get_pa (hs_pa last) ;
  edo p <- h_take_part (ha_part a) ind ;
  edo none <- new_idx [] ;
  edo p' <- hs_sample sm p (removelast tr) anc [] none u y t (length tr - 1) ;
  edo pa <- h_pa_init p' None ;
  edo find2 <- new_idx (seq 0 (length iv)) ;
  h_ancestors_loop (length tr - 1) tr u y t find anc [mkHS pa find2].

(** smoother.py:303-319 [perform_ancestors_int] *)
Definition h_perform_ancestors_int (tr : list hstep) (u : list (cell U)) (y : list (cell Y)) (t : list nat) (m : nat) : HM (list hstep) :=
  edo last <- elift (idx_last tr) ;
  edo w <- h_pa_weights (hs_pa last) ;
  edo iv <- on_world (sampleM g w m) ;
  edo ind <- new_idx iv ;
  h_calculate_ancestors tr u y t ind.

(** smoother.py:373-400: choose the particles of step [k]; 'mcmc' changes [ancestors] *)
Definition h_bsi_select (kind : bsi_kind) (o : option soptions) (st : hstep) (k : nat) (tr future : list hstep) (find : nat)
    (u : list (cell U)) (y : list (cell Y)) (t : list nat) (ancestors : nat) : HM nat :=
  match kind with
  | BRs =>
      edo mp <- elift (get_opt o o_maxpdf) ;
      edo mk <- elift (idx mp k) ;
      edo r <- elift (get_opt o o_R) ;
      h_bsi_rs (hs_pa st) (firstn k tr) (hs_anc st) future find u y t k mk (py_int r)
  | BRsas =>
      edo mp <- elift (get_opt o o_maxpdf) ;
      edo mk <- elift (idx mp k) ;
      edo x1 <- elift (get_opt o o_x1) ;
      edo P1 <- elift (get_opt o o_P1) ;
      edo sv <- elift (get_opt o o_sv) ;
      edo sw <- elift (get_opt o o_sw) ;
      edo ratio <- elift (get_opt o o_ratio) ;
      h_bsi_rsas (hs_pa st) (firstn k tr) (hs_anc st) future find u y t k mk
        (py_val x1) (py_val P1) (py_val sv) (py_val sw) (py_val ratio)
  | BMcmc =>
      edo r <- elift (get_opt o o_R) ;
      edo n <- elift (py_range r) ;
      h_bsi_mcmc (hs_pa st) (firstn k tr) (hs_anc st) future find u y t k n ancestors
  | BFull => h_bsi_full (hs_pa st) (firstn k tr) (hs_anc st) future find u y t k
  end.

(** smoother.py:368-410: the backward loop of [perform_bsi], [n] steps remaining; [find] is the array of the previous iteration *)
Fixpoint h_bsi_loop (kind : bsi_kind) (o : option soptions) (m n : nat) (tr : list hstep) (u : list (cell U)) (y : list (cell Y))
    (t : list nat) (find ancestors : nat) (future : list hstep) : HM (list hstep) :=
  match n with
  | O => eret future
  | S k =>
      edo st <- elift (idx tr k) ;
      edo ind <- h_bsi_select kind o st k tr future find u y t ancestors ;
      edo anc <- h_take_idx (hs_anc st) ind ;
      edo find <- new_idx (seq 0 m) ;
      edo a <- get_pa (hs_pa st) ;
      edo p <- h_take_part (ha_part a) ind ;
      edo p' <- hs_sample sm p (firstn k tr) anc future find u y t k ;
      edo pa <- h_pa_init p' None ;
      edo ai <- new_idx (seq 0 m) ;
      h_bsi_loop kind o m k tr u y t find anc (mkHS pa ai :: future)
  end.

(** smoother.py:321-410 [perform_bsi] *)
Definition h_perform_bsi (kind : bsi_kind) (o : option soptions) (tr : list hstep) (u : list (cell U)) (y : list (cell Y))
    (t : list nat) (m : nat) : HM (list hstep) :=
  edo last <- elift (idx_last tr) ;
  edo w <- h_pa_weights (hs_pa last) ;
  edo iv <- on_world (sampleM g w m) ;
  edo ind <- new_idx iv ;
  edo anc <- h_take_idx (hs_anc last) ind ;
  edo a <- get_pa (hs_pa last) ;
  edo p <- h_take_part (ha_part a) ind ;
  edo none <- new_idx [] ;
  edo p' <- hs_sample sm p (removelast tr) anc [] none u y t (length tr - 1) ;
  edo pa <- h_pa_init p' None ;
  edo ai <- new_idx (seq 0 m) ;
  edo _ <- elift (bsi_options kind o) ;
  edo find <- new_idx (seq 0 m) ;
  h_bsi_loop kind o m (length tr - 1) tr u y t find anc [mkHS pa ai].

(** smoother.py:472-492: the proposals at one time of [perform_mhbp]; [anc[acc] = panc[acc]] changes [anc] *)
Fixpoint h_mhbp_inner (n : nat) (m : nat) (weights : option (list xr)) (ptr future : option (list hstep)) (find : nat)
    (u : list (cell U)) (y : list (cell Y)) (t : list nat) (k : nat) (reduced : bool) (pnew : nat) (panc anc : option nat)
    : HM (nat * option nat) :=
  match n with
  | O => eret (pnew, panc)
  | S n' =>
      edo panc <- (match weights with
                   | Some w => edo l <- on_world (sampleM g w m) ; edo pi <- new_idx l ; eret (Some pi)
                   | None => eret panc
                   end) ;
      edo pv <- elift (bound panc) ;
      edo av <- elift (bound anc) ;
      edo r <- h_mc_step pnew ptr pv av future find u y t k reduced ;
      edo _ <- h_mask_set_idx av (snd r) pv ;
      h_mhbp_inner n' m weights ptr future find u y t k reduced (fst r) panc anc
  end.

(** smoother.py:452-501: the loop over time ([n] steps left); [cind = anc] is the same array *)
Fixpoint h_mhbp_loop (n : nat) (m R_ : nat) (reduced : bool) (tr : list hstep) (u : list (cell U)) (y : list (cell Y)) (t : list nat)
    (find cind : nat) (panc anc : option nat) (future : list hstep) : HM (list hstep) :=
  match n with
  | O => eret future
  | S k =>
      let ft := match future with [] => None | _ => Some future end in
      edo st <- elift (idx tr k) ;
      edo a <- get_pa (hs_pa st) ;
      edo pnew <- h_take_part (ha_part a) cind ;
      edo setup <- (match k with
                    | O => eret (None, None, anc)
                    | S k' =>
                        edo ai <- h_take_idx (hs_anc st) cind ;
                        edo prev <- elift (idx tr k') ;
                        edo w <- h_pa_weights (hs_pa prev) ;
                        eret (Some w, Some (firstn k tr), Some ai)
                    end) ;
      let '(weights, ptr, anc) := setup in
      edo r <- h_mhbp_inner R_ m weights ptr ft find u y t k reduced pnew panc anc ;
      let '(pnew, panc) := r in
      edo av <- elift (bound anc) ;
      edo p' <- hs_sample sm pnew (h_opt ptr) av (h_opt ft) find u y t k ;
      edo pa <- h_pa_init p' None ;
      edo none <- new_idx [] ;
      h_mhbp_loop k m R_ reduced tr u y t find av panc anc (mkHS pa none :: future)
  end.

(** smoother.py:421-502 [perform_mhbp] without the final hook *)
Definition h_perform_mhbp (R_ : nat) (reduced : bool) (tr : list hstep) (u : list (cell U)) (y : list (cell Y)) (t : list nat) (m : nat)
    : HM (list hstep) :=
  edo last <- elift (idx_last tr) ;
  edo w <- h_pa_weights (hs_pa last) ;
  edo cv <- on_world (sampleM g w m) ;
  edo cind <- new_idx cv ;
  edo find <- new_idx (seq 0 m) ;
  h_mhbp_loop (length tr) m R_ reduced tr u y t find cind None None [].

(** smoother.py:547-584: the inner steps of a MHIPS pass, from [n] down to 1; [traj[i].pa.part] is handed over itself, not a copy;
    all steps share [pind] *)
Fixpoint h_mhips_loop (n : nat) (reduced : bool) (tr : list hstep) (u : list (cell U)) (y : list (cell Y)) (t : list nat) (pind : nat)
    (future : list hstep) : HM (list hstep) :=
  match n with
  | O => eret future
  | S n' =>
      let i := n in
      edo st <- elift (idx tr i) ;
      edo a <- get_pa (hs_pa st) ;
      edo r <- h_mc_step (ha_part a) (Some (firstn i tr)) pind pind (Some future) pind u y t i reduced ;
      edo p' <- hs_sample sm (fst r) (firstn i tr) pind future pind u y t i ;
      edo pa <- h_pa_init p' None ;
      h_mhips_loop n' reduced tr u y t pind (mkHS pa pind :: future)
  end.

(** smoother.py:511-607 [perform_mhips_pass] (line 538 copies what sample_smooth returned) *)
Definition h_perform_mhips_pass (reduced : bool) (tr : list hstep) (u : list (cell U)) (y : list (cell Y)) (t : list nat) (m : nat)
    : HM (list hstep) :=
  let T := length tr in
  edo pind <- new_idx (seq 0 m) ;
  let past := firstn (T - 1) tr in
  edo last <- elift (idx_last tr) ;
  edo a <- get_pa (hs_pa last) ;
  edo r <- h_mc_step (ha_part a) (Some past) pind pind None pind u y t (T - 1) reduced ;
  edo p' <- hs_sample sm (fst r) past pind [] pind u y t (T - 1) ;
  edo pv <- get_part p' ;
  edo tmp <- new_part pv ;
  edo pa <- h_pa_init tmp None ;
  edo ft <- h_mhips_loop (T - 2) reduced tr u y t pind [mkHS pa pind] ;
  edo st0 <- elift (idx tr 0) ;
  edo a <- get_pa (hs_pa st0) ;
  edo none1 <- new_idx [] ;
  edo none2 <- new_idx [] ;
  edo r <- h_mc_step (ha_part a) None none1 none2 (Some ft) pind u y t 0 reduced ;
  edo p' <- hs_sample sm (fst r) [] pind ft pind u y t 0 ;
  edo pa <- h_pa_init p' None ;
  eret (mkHS pa pind :: ft).

(** Call an optional hook on the current trajectory (smoother.py:234, 247, 266, 505) *)
Definition h_hook (h : option (list hstep -> list (cell U) -> list (cell Y) -> list nat -> nat -> HM (list hstep)))
    (tr : list hstep) (u : list (cell U)) (y : list (cell Y)) (t : list nat) (m : nat) : HM (list hstep) :=
  match h with None => eret tr | Some f => f tr u y t m end.

(** smoother.py:233-236 *)
Fixpoint h_mhips_passes (n : nat) (reduced : bool) (tr : list hstep) (u : list (cell U)) (y : list (cell Y)) (t : list nat) (m : nat)
    : HM (list hstep) :=
  match n with
  | O => eret tr
  | S n' =>
      edo tr <- h_hook (hs_pre sm) tr u y t m ;
      edo tr <- h_perform_mhips_pass reduced tr u y t m ;
      h_mhips_passes n' reduced tr u y t m
  end.

(** smoother.py:208-248 [SmoothTrajectory.__init__(pt, M, method, options)]: the steps of the result (u, y, t are copied, 212-214) *)
Definition h_smooth (pt : hptraj U Y) (m : nat) (method : string) (o : option soptions) : HM (list hstep) :=
  let tr := hp_traj pt in let u := hp_u pt in let y := hp_y pt in let t := hp_t pt in
  edo traj <-
    (if String.eqb method "full" then h_perform_bsi BFull o tr u y t m
     else if String.eqb method "mcmc" then h_perform_bsi BMcmc o tr u y t m
     else if String.eqb method "rs" then h_perform_bsi BRs o tr u y t m
     else if String.eqb method "rsas" then h_perform_bsi BRsas o tr u y t m
     else if String.eqb method "ancestor" then
       edo a <- h_perform_ancestors_int tr u y t m ;
       h_hook (hs_post sm) a u y t m
     else if (String.eqb method "mhips" || String.eqb method "mhips_reduced")%bool then
       edo a <- h_perform_ancestors_int tr u y t m ;
       edo r <- elift (get_R10 o) ;
       edo n <- elift (py_range r) ;
       h_mhips_passes n (String.eqb method "mhips_reduced") a u y t m
     else if String.eqb method "mhbp" then
       edo r <- elift (get_R10 o) ;
       edo n <- elift (py_range r) ;
       edo a <- h_perform_mhbp n false tr u y t m ;
       h_hook (hs_post sm) a u y t m
     else eraise ValueError) ;
  h_hook (hs_post sm) traj u y t m.

(** filter.py:1020-1029: bounds on the transition density of steps 0..T-2 *)
Fixpoint h_maxpdf_coeffs (n k : nat) (pt : hptraj U Y) (last_junk : xr) : HM (list xr) :=
  match n with
  | O => eret [last_junk]
  | S n' =>
      edo st <- elift (idx (hp_traj pt) k) ;
      edo a <- get_pa (hs_pa st) ;
      edo c <- hs_xmax sm (ha_part a) (firstn k (hp_traj pt)) (hs_anc st) (hp_u pt) (hp_y pt) (hp_t pt) k ;
      edo r <- h_maxpdf_coeffs n' (k + 1) pt last_junk ;
      eret (c :: r)
  end.

(** filter.py:1018-1047: default options of each method *)
Definition h_default_options (pt : hptraj U Y) (method : string) (last_junk : xr) : HM soptions :=
  if (String.eqb method "rs" || String.eqb method "rsas")%bool then
    edo c <- (match hp_traj pt with
              | [] => eret []
              | tr => h_maxpdf_coeffs (length tr - 1) 0 pt last_junk
              end) ;
    if String.eqb method "rs" then
      edo st0 <- elift (idx (hp_traj pt) 0) ;
      edo w <- w_of (hs_pa st0) ;
      eret (mkOpt (Some (PyFloat (0.1 * INR (length w)))) (Some c) None None None None None)
    else eret (mkOpt None (Some c) (Some (PyFloat 1)) (Some (PyFloat 1)) (Some (PyFloat 1)) (Some (PyFloat 1)) (Some (PyFloat 1)))
  else if (String.eqb method "mcmc" || String.eqb method "mhips" || String.eqb method "mhbp")%bool
  then eret (mkOpt (Some (PyInt 30)) None None None None None None)
  else eret no_options.

(** filter.py:1003-1049 [perform_smoothing(M, method, smoother_options)] *)
Definition h_perform_smoothing (pt : hptraj U Y) (m : nat) (method : string) (so : option soptions) (last_junk : xr) : HM (list hstep) :=
  edo d <- h_default_options pt method last_junk ;
  let o := match so with None => d | Some s => opt_update d s end in
  h_smooth pt m method (Some o).
End HeapS.
Arguments hsmodel : clear implicits.
