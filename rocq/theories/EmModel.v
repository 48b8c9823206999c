(** Model of the EM drivers (pyparticleest/paramest/paramest.py).

    The drivers call the simulator, the user's model and the user's callbacks.  Those are
    arbitrary functions of the history of calls made so far (which determines the state
    they have been brought into) and may raise; the driver appends every call that
    succeeded to the history.  A smoothed trajectory is an element of an arbitrary type
    [X] (one column of the arrays of shape (T, K, D) the code concatenates along axis 1).
    The code uses [xrange] (a Python 2 name); it is read as [range]. *)
From Coq Require Import Bool Reals ZArith List Arith.
From Verif Require Import Base.
Import ListNotations.
Open Scope R_scope.

Section Em.
Context {Par X : Type}.

(** An int or an array-like of ints (paramest.py:50-63). *)
Inductive sizes := Scalar (n : nat) | Sched (l : list nat).

(** the calls made by paramest.py:47-80, 135-179, 233-288, 334-385 *)
Inductive event :=
| ESet (p : Par)                                       (* self.set_params(p) *)
| ESim (num_part num_traj : nat) (smoothed : list X)   (* self.simulate(...), and the smoothed trajectories *)
| ECbSim                                               (* callback_sim(self) *)
| ECond (smoothed : list X)                            (* filter_options['cond_traj'] = ... *)
| EMax (p : Par)                                       (* model.maximize(straj) -> p *)
| EMaxW (trajs : list X) (w : list R) (p : Par)        (* model.maximize_weighted(straj, trajs, w) -> p *)
| ECb (p : Par) (cur_iter : nat).                      (* callback(params=p, Q=-inf, cur_iter) *)
Definition hist := list event.

(** what paramest.py calls: set_params, simulate, callbacks, maximize, maximize_weighted *)
Record env := mkEnv {
  v_set : hist -> Par -> res unit;
  v_sim : hist -> nat -> nat -> res (list X);
  v_cbsim : option (hist -> res unit);
  v_max : hist -> res Par;
  v_maxw : hist -> list X -> list R -> res Par;
  v_cb : option (hist -> Par -> nat -> res bool);      (* truth value of the result *)
  v_lastw : hist -> res (list R);                      (* self.pt.traj[-1].pa.w after a simulation *)
  v_junk : hist -> nat -> X                            (* contents of an uninitialised array *)
}.

(** Make a call and record it. *)
(** a call at paramest.py:49, 65, 68, 70, 80, 235-286, 335-385 *)
Definition call {A} (f : hist -> res A) (ev : A -> event) : M hist A :=
  fun h => match f h with Ok a => Ok (a, h ++ [ev a]) | Err e => Err e end.

(** Call an optional callback. *)
(** paramest.py:67-68, 79-80, 261-262, 360-361 *)
Definition call_opt {A} (f : option (hist -> res A)) (ev : event) : M hist unit :=
  match f with
  | None => ret tt
  | Some f => do _ <- call f (fun _ => ev) ; ret tt
  end.

(** paramest.py:50-56, 57-63, 137-150: the size to use in iteration [i]. *)
Definition pick (s : sizes) (i : nat) : res nat :=
  match s with
  | Scalar n => Ok n
  | Sched l => if Nat.ltb i (length l) then idx l i else idx_last l
  end.

Section Env.
Variable v : env.

(** paramest.py:47-79: [n] further iterations of EM, the next one is number [i]. *)
Fixpoint em_loop (n i : nat) (num_part num_traj : sizes) (params : Par) : M hist Par :=
  match n with
  | O => ret params
  | S n' =>
      do _ <- call (fun h => v_set v h params) (fun _ => ESet params) ;
      do nump <- lift (pick num_part i) ;
      do numt <- lift (pick num_traj i) ;
      do _ <- call (fun h => v_sim v h nump numt) (ESim nump numt) ;
      do _ <- call_opt (v_cbsim v) ECbSim ;
      do params' <- call (v_max v) EMax ;
      do _ <- call_opt (option_map (fun f h => f h params' i) (v_cb v)) (ECb params' i) ;
      em_loop n' (S i) num_part num_traj params'
  end.

(** paramest.py:16-84 [ParamEstimation.maximize] (the second component of the result,
    -inf, is omitted). *)
Definition em_maximize (param0 : Par) (num_part num_traj : sizes) (max_iter : nat) (tol : R) : M hist Par :=
  em_loop max_iter 0 num_part num_traj param0.

(** paramest.py:86-91 [alpha_gen]. *)
Definition alpha_gen (it : nat) : R :=
  if Nat.leb it 100 then 1 else Rpower (INR (it - 100)) (-51 / 100).

(** paramest.py:93-180 [ParamEstimationSAEM.maximize].  [self.straj.traj] is a one
    dimensional array of steps, so [alltrajs[:, ~zero_ind]] (line 173) has one index too
    many and raises IndexError; what would follow is not reached. *)
Definition saem_maximize (param0 : Par) (num_part num_traj : sizes) (max_iter : nat) : M hist Par :=
  match max_iter with
  | O => ret param0
  | S _ =>
      do _ <- call (fun h => v_set v h param0) (fun _ => ESet param0) ;
      do nump <- lift (pick num_part 0) ;
      do numt <- lift (pick num_traj 0) ;
      do _ <- call (fun h => v_sim v h nump numt) (ESim nump numt) ;
      do _ <- call_opt (v_cbsim v) ECbSim ;
      raise IndexError
  end.

(** ** numpy.percentile (linear interpolation) *)

(** sorting inside [numpy.percentile], paramest.py:270, 371 *)
Fixpoint insert (x : R) (l : list R) : list R :=
  match l with
  | [] => [x]
  | y :: l' => if Rle_dec x y then x :: l else y :: insert x l'
  end.
(** sorting inside [numpy.percentile], paramest.py:270, 371 *)
Definition sort (l : list R) : list R := fold_right insert [] l.

(** Largest natural number not above [x >= 0]. *)
(** index computation of [numpy.percentile] *)
Definition nat_floor (x : R) : nat := Z.to_nat (Int_part x).

(** numpy.percentile(w, q). *)
(** paramest.py:270, 371 *)
Definition percentile (w : list R) (q : R) : res R :=
  if Rle_dec 0 q then
    if Rle_dec q 100 then
      match w with
      | [] => Err IndexError
      | _ =>
          let a := sort w in
          let n := length w in
          let pos := q / 100 * INR (n - 1) in
          let lo := nat_floor pos in
          let hi := Nat.min (lo + 1) (n - 1) in
          dor x <- idx a lo ;
          dor y <- idx a hi ;
          Ok (x + (pos - INR lo) * (y - x))
      end
    else Err ValueError
  else Err ValueError.

(** ** PSAEM *)

(** [numpy.max] of a non-empty list. *)
(** paramest.py:271, 372 *)
Definition maxl (d : R) (l : list R) : R := fold_left Rmax l d.

(** numpy [<=], paramest.py:273, 375 *)
Definition rleb (a b : R) : bool := if Rle_dec a b then true else false.
(** numpy [<], paramest.py:271, 372 *)
Definition rltb (a b : R) : bool := if Rlt_dec a b then true else false.

(** Boolean indexing [a[mask]]. *)
(** paramest.py:274-275, 377-378 *)
Fixpoint compress {A} (mask : list bool) (l : list A) : res (list A) :=
  match mask, l with
  | [], [] => Ok []
  | b :: mask', a :: l' => dor r <- compress mask' l' ; Ok (if b then a :: r else r)
  | _, _ => Err IndexError
  end.

(** [a[-n:]] for [0 < n]. *)
(** paramest.py:278-279 *)
Definition last_n {A} (n : nat) (l : list A) : list A := skipn (length l - n) l.

(** [numpy.sum], paramest.py:243, 281, 380 *)
Definition total (l : list R) : R := fold_right Rplus 0 l.

(** [w /= numpy.sum(w)]; an empty array stays empty. *)
(** paramest.py:281, 380 *)
Definition renorm (w : list R) : res (list R) :=
  match w with
  | [] => Ok []
  | _ => if Req_EM_T (total w) 0 then Err NotFinite else Ok (map (fun x => x / total w) w)
  end.

(** paramest.py:254-258 (and 353-355): weights of the old and the new trajectories. *)
Definition blend (alpha : R) (old : option (list R)) (w : list R) : list R :=
  match old with
  | None => w
  | Some ws => map (Rmult (1 - alpha)) ws ++ map (Rmult alpha) w
  end.

(** paramest.py:270-273: which trajectories stay. *)
Definition keep_mask (eps pct : R) (weights : list R) : res (list bool) :=
  dor tmp <- percentile weights pct ;
  let wlow := maxl 0 (filter (fun w => rltb w tmp) weights) in
  let threshold := Rmin eps wlow in
  Ok (map (fun w => negb (rleb w threshold)) weights).

(** paramest.py:270-281: discard, limit the number, normalise. *)
Definition discard (eps pct : R) (max_traj : nat) (weights : list R) (trajs : list X)
    : res (list R * list X) :=
  dor keep <- keep_mask eps pct weights ;
  dor w1 <- compress keep weights ;
  dor t1 <- compress keep trajs ;
  let cut := Nat.ltb 0 max_traj && Nat.ltb max_traj (length w1) in
  let w2 := if cut then last_n max_traj w1 else w1 in
  let t2 := if cut then last_n max_traj t1 else t1 in
  dor w3 <- renorm w2 ;
  Ok (w3, t2).

(** paramest.py:249-252, with [raoblackwell] 240-247: the new weights and trajectories.
    With [raoblackwell] the array is allocated but never filled; the call of calculate_ancestors at line 241, of whose result
    only the shape is used, is not recorded. *)
Definition new_trajs (rb : bool) (smoothed : list X) : M hist (list R * list X) :=
  if rb then
    do lw <- (fun h => lift (v_lastw v h) h) ;
    let e := map exp lw in
    fun h => Ok ((map (fun x => x / total e) e, map (v_junk v h) (seq 0 (length lw))), h)
  else ret (map (fun _ => 1 / INR (length smoothed)) smoothed, smoothed).

(** paramest.py:264-267 *)
Definition append_trajs (old : option (list X)) (new : list X) : list X :=
  match old with None => new | Some l => l ++ new end.

(** State carried between iterations: [weights] and [alltrajs], None before the first. *)
(** paramest.py:220-222, 255-258, 264-267 *)
Definition pstate : Type := option (list R * list X).
(** [weights], paramest.py:254-258 *)
Definition pw (st : pstate) : option (list R) := option_map fst st.
(** [alltrajs], paramest.py:264-267 *)
Definition ptr (st : pstate) : option (list X) := option_map snd st.

(** paramest.py:254-281: one update of weights and trajectories. *)
Definition psaem_update (eps pct : R) (max_traj : nat) (alpha : R) (st : pstate) (w : list R) (new : list X)
    : res (list R * list X) :=
  discard eps pct max_traj (blend alpha (pw st) w) (append_trajs (ptr st) new).

(** The callback in use: the default stops at max_iter (paramest.py:224-229). *)
Definition stop_test (max_iter : nat) (p : Par) (i : nat) : M hist bool :=
  match v_cb v with
  | None => ret (Nat.leb max_iter i)
  | Some f => call (fun h => f h p i) (fun _ => ECb p i)
  end.

(** paramest.py:231-288: the [while True] loop, at most [fuel] rounds of it. [opts] says
    whether [filter_options] is a dictionary. *)
Fixpoint psaem_loop (fuel : nat) (agen : nat -> R) (eps pct : R) (max_traj : nat) (M_ num_part max_iter : nat)
    (rb opts : bool) (i : nat) (st : pstate) (params : Par) : M hist Par :=
  match fuel with
  | O => raise OutOfFuel
  | S fuel' =>
      let i := S i in
      do _ <- call (fun h => v_set v h params) (fun _ => ESet params) ;
      do sm <- call (fun h => v_sim v h num_part M_) (ESim num_part M_) ;
      do wn <- new_trajs rb sm ;
      do _ <- (if opts then call (fun _ => Ok tt) (fun _ => ECond sm) else raise TypeError) ;
      do _ <- call_opt (v_cbsim v) ECbSim ;
      do r <- lift (psaem_update eps pct max_traj (agen (i - 1)%nat) st (fst wn) (snd wn)) ;
      do params' <- call (fun h => v_maxw v h (snd r) (fst r)) (EMaxW (snd r) (fst r)) ;
      do stop <- stop_test max_iter params' i ;
      if stop then ret params'
      else psaem_loop fuel' agen eps pct max_traj M_ num_part max_iter rb opts i (Some r) params'
  end.

(** paramest.py:189-289 [ParamEstimationPSAEM.maximize]. *)
Definition psaem_maximize (fuel : nat) (agen : nat -> R) (eps pct : R) (max_traj : nat) (M_ num_part max_iter : nat)
    (rb opts : bool) (param0 : Par) : M hist Par :=
  psaem_loop fuel agen eps pct max_traj M_ num_part max_iter rb opts 0 None param0.

(** ** PSAEM2: preallocated arrays *)

(** [a[:k] = new]; lengths must agree. *)
(** paramest.py:377-378 *)
Definition set_prefix {A} (k : nat) (new a : list A) : res (list A) :=
  if Nat.eqb (length new) (Nat.min k (length a)) then Ok (new ++ skipn k a) else Err ValueError.

(** [a[k:k+1] = x]: no effect beyond the end. *)
(** paramest.py:355 *)
Definition set_slice1 {A} (k : nat) (x : A) (a : list A) : list A :=
  if Nat.ltb k (length a) then firstn k a ++ x :: skipn (k + 1) a else a.

(** paramest.py:329-333 *)
Record p2state := mkP2 { p2_w : list R; p2_tr : option (list X); p2_len : nat }.

(** paramest.py:353-380: one update. *)
Definition psaem2_update (eps pct alpha : R) (st : p2state) (new : list X) : res p2state :=
  let n := p2_len st in
  let w1 := map (Rmult (1 - alpha)) (firstn n (p2_w st)) ++ skipn n (p2_w st) in
  let w2 := set_slice1 n alpha w1 in
  let tr1 := match p2_tr st with None => new | Some l => firstn n l ++ new end in
  let n1 := (n + 1)%nat in
  dor keep <- keep_mask eps pct (firstn n1 w2) ;
  let zerolen := length (filter negb keep) in
  dor wk <- compress keep (firstn n1 w2) ;
  dor w3 <- set_prefix (n1 - zerolen) wk w2 ;
  dor tk <- compress keep (firstn n1 tr1) ;
  dor tr2 <- set_prefix (n1 - zerolen) tk tr1 ;
  let n2 := (n1 - zerolen)%nat in
  dor wn <- renorm (firstn n2 w3) ;
  Ok (mkP2 (wn ++ skipn n2 w3) (Some tr2) n2).

(** paramest.py:334-386. *)
Fixpoint psaem2_loop (n i : nat) (agen : nat -> R) (eps pct : R) (num_part : nat) (opts : bool) (st : p2state)
    (params : Par) : M hist Par :=
  match n with
  | O => ret params
  | S n' =>
      do _ <- call (fun h => v_set v h params) (fun _ => ESet params) ;
      do sm <- call (fun h => v_sim v h num_part 1%nat) (ESim num_part 1) ;
      do _ <- (if opts then call (fun _ => Ok tt) (fun _ => ECond sm) else raise TypeError) ;
      do _ <- call_opt (v_cbsim v) ECbSim ;
      do st' <- lift (psaem2_update eps pct (agen i) st sm) ;
      let tr := match p2_tr st' with Some l => firstn (p2_len st') l | None => [] end in
      let w := firstn (p2_len st') (p2_w st') in
      do params' <- call (fun h => v_maxw v h tr w) (EMaxW tr w) ;
      do _ <- call_opt (option_map (fun f h => f h params' (i + 1)%nat) (v_cb v)) (ECb params' (i + 1)) ;
      psaem2_loop n' (S i) agen eps pct num_part opts st' params'
  end.

(** paramest.py:298-386 [ParamEstimationPSAEM2.maximize]; [junk] is the content of
    [numpy.empty]. *)
Definition psaem2_maximize (agen : nat -> R) (eps pct : R) (num_part max_iter : nat) (opts : bool) (junk : list R)
    (param0 : Par) : M hist Par :=
  psaem2_loop max_iter 0 agen eps pct num_part opts (mkP2 (firstn (max_iter * num_part) junk) None 0) param0.
End Env.
End Em.
Arguments event : clear implicits.
Arguments hist : clear implicits.
Arguments env : clear implicits.
Arguments pstate : clear implicits.
Arguments p2state : clear implicits.
