(** Model of pyparticleest/models/hierarchial.py: hierarchical models, where the nonlinear state evolves by itself and the linear state
    is linear Gaussian given it.  A particle is a row xi | z | P.  Matrix dimensions are in the types; arithmetic is exact. *)
From mathcomp Require Import all_ssreflect all_algebra.
From Coq Require Import Reals List.
From Verif Require Import Base RMat KalmanModel Storage MlnlgModel.
Set Implicit Arguments.
Unset Strict Implicit.
Unset Printing Implicit Defensive.
Import GRing.Theory.
Local Open Scope ring_scope.

Section HIER.
Context {lxi lz m : nat} {U Y Tm V : Type}.
(** hierarchial.py:30-32, rbpf.py:33-41: the stored Kalman filter, and the methods a user implements; [V] is the type of the noise *)
Record hier := mkHier {
  hr_kf : kf lz m;
  hr_lin : list row -> U -> Tm -> option (list 'M[R]_lz) * option (list 'cV[R]_lz) * option (list 'M[R]_lz);
  hr_meas : list row -> Y -> Tm -> 'cV[R]_m * option (list 'M[R]_(m, lz)) * option (list 'cV[R]_m) * option (list 'M[R]_m);
  hr_measure_nonlin : list row -> Y -> Tm -> list R;
  hr_calc_xi_next : list row -> U -> Tm -> V -> list 'cV[R]_lxi;
  hr_logp_xi : list row -> list 'cV[R]_lxi -> U -> Tm -> list R;
  hr_logp_xi_max : list row -> U -> Tm -> list R }.
Variable L : hier.

(** rbpf.py:135-171 [get_lin_pred_dynamics_int] *)
Definition hr_lin_int (particles : list row) (u : U) (t : Tm) :=
  let '(Az, fz, Qz) := hr_lin L particles u t in
  let N := length particles in
  ((fill N Az (kf_A (hr_kf L))).1, (fill N fz (Some (kf_f (hr_kf L)))).1, (fill N Qz (kf_Q (hr_kf L))).1).

(** hierarchial.py:34-66 [measure]: the stored matrices must not be None when they are used *)
Definition hr_measure (particles : list row) (y : Y) (t : Tm) : res (list row * list R) :=
  let lyxi := hr_measure_nonlin L particles y t in
  dor Ss <- get_states3 (lxi := lxi) (lz := lz) particles ;
  let N := length particles in
  let '(y, Cz, hz, Rz) := hr_meas L particles y t in
  dor r <- forr (length Ss) (fun i =>
    dor s <- idx Ss i ;
    dor C <- at_ (fill N Cz (kf_C (hr_kf L))).1 i ; dor h <- at_ (fill N hz (kf_h (hr_kf L))).1 i ; dor Rn <- at_ (fill N Rz (kf_R (hr_kf L))).1 i ;
    dor r <- measure_full y s.1.2 s.2 (Some C) (Some h) Rn ;
    Ok (r.1.1, (s.1.1, r.1.2, r.2))) ;
  dor particles <- set_states3 particles (List.map snd r) ;
  dor lp <- map2r (fun a b => Ok (a + b)%Re) lyxi (List.map fst r) ;
  Ok (particles, lp).

(** hierarchial.py:68-87 [calc_cond_dynamics], 89-92 [meas_xi_next] (the identity), rbpf.py:288-309 [cond_predict] *)
Definition hr_cond_predict (particles : list row) (xi_next : list 'cV[R]_lxi) (u : U) (t : Tm) : res (list row) :=
  let '(Az, fz, Qz) := hr_lin_int particles u t in
  dor Ss <- get_states3 (lxi := lxi) (lz := lz) particles ;
  dor r <- forr (length Ss) (fun i =>
    dor s <- idx Ss i ; dor A <- at_ Az i ; dor f <- at_ fz i ; dor Q <- at_ Qz i ;
    dor x <- idx xi_next i ;
    let r := predict_full s.1.2 s.2 A f Q in
    Ok (x, r.1, r.2)) ;
  set_states3 particles r.
(** rbpf.py:238-258 [update] *)
Definition hr_update (particles : list row) (u : U) (t : Tm) (noise : V) : res (list row) :=
  hr_cond_predict particles (hr_calc_xi_next L particles u t noise) u t.

(** hierarchial.py:94-136 [logp_xnext] *)
Definition hr_logp_xnext (particles next_part : list row) (u : U) (t : Tm) : res (list R) :=
  let N := length particles in
  let next_part := match next_part with
                   | cons p nil => if (1 < N)%nat then List.repeat p N else next_part
                   | _ => next_part end in
  let '(Az, fz, Qz) := hr_lin_int particles u t in
  dor Ss <- get_states3 (lxi := lxi) (lz := lz) particles ;
  dor xin <- mapr (fun p => reshape lxi 1 (slice p 0 lxi)) next_part ;
  let lpxi := hr_logp_xi L particles xin u t in
  dor lpz <- forr N (fun i =>
    dor s <- idx Ss i ; dor A <- at_ Az i ; dor f <- at_ fz i ; dor Q <- at_ Qz i ;
    let r := predict_full s.1.2 s.2 A f Q in
    dor p <- idx next_part i ;
    dor zn <- reshape lz 1 (slice p lxi (lxi + lz)) ;
    lognormpdf (zn - r.1) r.2) ;
  map2r (fun a b => Ok (a + b)%Re) lpxi lpz.

(** hierarchial.py:238-264 [logp_xnext_max]; slogdet(Pn)[1] is -inf (None) for a singular matrix *)
Definition add_inf (a : R) (b : option R) : option R := match b with Some b => Some (a + b)%Re | None => None end.
(** [numpy.max], hierarchial.py:264 *)
Definition max_inf (a b : option R) : option R := match a, b with Some a, Some b => Some (Rmax a b) | None, b => b | a, None => a end.
(** hierarchial.py:238-264 *)
Definition hr_logp_xnext_max (particles : list row) (u : U) (t : Tm) : res (option R) :=
  let lpxi := hr_logp_xi_max L particles u t in
  let '(Az, _, Qz) := hr_lin_int particles u t in
  dor Ss <- get_states3 (lxi := lxi) (lz := lz) particles ;
  dor Q0 <- at_ Qz 0 ;
  dor lpz <- forr (length particles) (fun i =>
    dor s <- idx Ss i ; dor A <- at_ Az i ; dor Q <- at_ Qz i ;
    let Pn := A *m s.2 *m A^T + Q in
    Ok (if \det Pn == 0 then None else Some (- (1 / 2) * INR lz * ln (2 * PI) + ln (Rabs (\det Pn)))%Re)) ;
  dor l <- map2r (fun a b => Ok (add_inf a b)) lpxi lpz ;
  match l with nil => Err ValueError | cons x l' => Ok (List.fold_left max_inf l' x) end.

(** hierarchial.py:138-177 [sample_smooth]: the loop over the trajectories [js]; [xil[0]], [zl[0]], [Pl[0]] are views of the first particle's
    state [s0], which [measure_full] updates in place; [nexts]: the rows [future_trajs[0].pa.part[find]], None at the last step;
    [mvn j] is the j-th draw of numpy's multivariate_normal *)
Fixpoint hr_smooth_loop (mvn : nat -> 'cV[R]_lz -> 'M[R]_lz -> 'cV[R]_lz) (part : list row) (nexts : option (list row)) (u : U) (t : Tm)
  (s0 : st3 (lxi := lxi) (lz := lz)) (js : list nat) : res (list row) :=
  match js with
  | nil => Ok nil
  | cons j js' =>
      dor s0 <- match nexts with
                | None => Ok s0
                | Some nexts =>
                    dor pj <- idx part j ;
                    let '(Az, fz, Qz) := hr_lin_int (cons pj nil) u t in
                    dor A <- at_ Az 0 ; dor f <- at_ fz 0 ; dor Q <- at_ Qz 0 ;
                    dor p <- idx nexts j ;
                    dor zn <- reshape lz 1 (slice p lxi (lxi + lz)) ;
                    dor r <- measure_full zn s0.1.2 s0.2 (Some A) (Some f) Q ;
                    Ok (s0.1.1, r.1.2, r.2)
                end ;
      dor rows <- hr_smooth_loop mvn part nexts u t s0 js' ;
      Ok (cons (ravel s0.1.1 ++ ravel (mvn j s0.1.2 s0.2) ++ nseq (2 * (lz * lz)) 0%Re)%SEQ rows)
  end.
(** hierarchial.py:138-177 *)
Definition hr_sample_smooth (mvn : nat -> 'cV[R]_lz -> 'M[R]_lz -> 'cV[R]_lz) (part : list row) (nexts : option (list row)) (u : U) (t : Tm) : res (list row) :=
  match part with
  | nil => Ok nil
  | cons p0 _ => dor s0 <- get_state3 p0 ; hr_smooth_loop mvn part nexts u t s0 (List.seq 0 (length part))
  end.
End HIER.
Arguments hier : clear implicits.
