(** Model of pyparticleest/models/ltv.py and of the parts of pyparticleest/utils/mlnlg_compute.py it uses.
    A particle is a row of numbers z | P (| Mz after smoothing), rows are modified in place.  The model object's
    mutable state is its Kalman filter (the matrices set last); it is passed in and returned. *)
From mathcomp Require Import all_ssreflect all_algebra.
From Coq Require Import Reals List.
From Verif Require Import Base RMat KalmanModel Storage.
Set Implicit Arguments.
Unset Strict Implicit.
Unset Printing Implicit Defensive.
Import GRing.Theory.
Local Open Scope ring_scope.

(** mlnlg_compute.py:9-15 [compute_logprod_derivative] *)
Definition compute_logprod_derivative n (U dA B dB : 'M[R]_n) : R :=
  let tmp := cho_solve U B in
  let tmp2 := dA + dB - dA *m tmp in
  \tr (cho_solve U tmp2).

Section LTV.
Context {n m : nat} {U Y Tm : Type}.
(** z0, P0 and the methods a user overrides: ltv.py:40-50, 115-134, 163-182 *)
Record ltv := mkLTV {
  ltv_z0 : 'cV[R]_n; ltv_P0 : 'M[R]_n;
  get_pred_dynamics : U -> Tm -> option 'M[R]_n * option 'cV[R]_n * option 'M[R]_n;
  get_meas_dynamics : Y -> Tm -> 'cV[R]_m * option 'M[R]_(m, n) * option 'cV[R]_m * option 'M[R]_m;
  reY : 'cV[R]_m -> Y (* the measurement it returned, passed in again as a measurement *) }.
Variable L : ltv.

(** ltv.py:40-50 [__init__]: the filter it creates; f defaults to zero. *)
Definition ltv_init (A : option 'M[R]_n) (C : option 'M[R]_(m, n)) (Q : option 'M[R]_n) (Rn : option 'M[R]_m) (f : option 'cV[R]_n) (h : option 'cV[R]_m) : kf n m :=
  kf_init (mkDyn A C Q Rn (Some (match f with Some f => f | None => 0 end)) h).

(** ltv.py:52-72 [create_initial_estimate] *)
Definition create_initial_estimate (N : nat) : list row := List.repeat (ravel (ltv_z0 L) ++ ravel (ltv_P0 L))%SEQ N.

(** ltv.py:74-90 [set_states], body of the loop *)
Definition set_state1 (p : row) (z : 'cV[R]_n) (P : 'M[R]_n) : res row :=
  dor p <- set_slice p 0 n (ravel z) ; set_slice p n (n + n * n) (ravel P).
(** ltv.py:92-113 [get_states], body of the loop *)
Definition get_state1 (p : row) : res ('cV[R]_n * 'M[R]_n) :=
  dor z <- reshape n 1 (slice p 0 n) ; dor P <- reshape n n (slice p n (n + n * n)) ; Ok (z, P).
(** the two lists of the code are one list of pairs here *)
(** ltv.py:74-89 *)
Definition set_states (particles : list row) (zP : list ('cV[R]_n * 'M[R]_n)) : res (list row) := map2r (fun p s => set_state1 p s.1 s.2) particles zP.
(** ltv.py:91-113 *)
Definition get_states (particles : list row) : res (list ('cV[R]_n * 'M[R]_n)) := mapr get_state1 particles.

(** keyword arguments at ltv.py:154, 283, 377, 415 *)
Definition dyn_pred (d : option 'M[R]_n * option 'cV[R]_n * option 'M[R]_n) : dyn n m := let '(A, f, Q) := d in mkDyn A None Q None f None.
(** keyword arguments at ltv.py:203, 452, 485 *)
Definition dyn_meas (C : option 'M[R]_(m, n)) (h : option 'cV[R]_m) (Rn : option 'M[R]_m) : dyn n m := mkDyn None C None Rn None h.

(** ltv.py:136-161 [update] *)
Definition update (k : kf n m) (particles : list row) (u : U) (t : Tm) : res (kf n m * list row) :=
  dor zP <- get_states particles ;
  let k := set_dynamics k (dyn_pred (get_pred_dynamics L u t)) in
  dor zP <- mapr (fun s => predict k s.1 s.2) zP ;
  dor particles <- set_states particles zP ;
  Ok (k, particles).

(** ltv.py:184-210 [measure] *)
Definition ltv_measure (k : kf n m) (particles : list row) (y : Y) (t : Tm) : res (kf n m * list row * list R) :=
  dor zP <- get_states particles ;
  let '(y, C, h, Rn) := get_meas_dynamics L y t in
  let k := set_dynamics k (dyn_meas C h Rn) in
  dor r <- mapr (fun s => measure k y s.1 s.2) zP ;
  dor particles <- set_states particles (List.map (fun r => (r.1.2, r.2)) r) ;
  Ok (k, particles, List.map (fun r => r.1.1) r).

(** ltv.py:212-232 [logp_xnext], 234-249 [sample_process_noise] (None) *)
Definition logp_xnext (particles : list row) : list R := List.map (fun _ => 0%Re) particles.

(** [kf.smooth] with the stored matrices; [None.dot] and [+ None] raise *)
(** the call of kalman.py:208 at ltv.py:284-285 *)
Definition smooth_stored (k : kf n m) (z : 'cV[R]_n) (P : 'M[R]_n) (zn : 'cV[R]_n) (Pn : 'M[R]_n) : res ('cV[R]_n * 'M[R]_n * 'M[R]_n) :=
  match kf_A k with
  | None => Err AttributeError
  | Some A => match kf_Q k with None => Err TypeError | Some Q => smooth z P zn Pn A (kf_f k) Q end
  end.

(** ltv.py:270-291 [sample_smooth], the loop over the particles from index j on.  The dynamics are those
    for [ut[0]], [tt[0]], the state is that of particle 0, the future state that of trajectory j. *)
Definition smooth1 (k : kf n m) (zP : list ('cV[R]_n * 'M[R]_n)) (fut : option (list row)) (ut : list U) (tt : list Tm) (j : nat) : res (kf n m * row) :=
  match fut with
  | Some fut =>
      dor pn <- idx fut j ;
      dor zn <- reshape n 1 (slice pn 0 n) ;
      dor Pn <- reshape n n (slice pn n (n + n * n)) ;
      dor u <- idx ut 0 ;
      dor t <- idx tt 0 ;
      let k := set_dynamics k (dyn_pred (get_pred_dynamics L u t)) in
      dor s0 <- idx zP 0 ;
      dor s <- smooth_stored k s0.1 s0.2 zn Pn ;
      let '(zs, Ps, Ms) := s in
      Ok (k, ravel zs ++ ravel Ps ++ ravel Ms)%SEQ
  | None =>
      dor s <- idx zP j ;
      Ok (k, ravel s.1 ++ ravel s.2 ++ ravel (0 : 'M[R]_n))%SEQ
  end.
(** ltv.py:251-292 *)
Fixpoint smooth_loop (k : kf n m) (zP : list ('cV[R]_n * 'M[R]_n)) (fut : option (list row)) (ut : list U) (tt : list Tm) (js : list nat) : res (kf n m * list row) :=
  match js with
  | nil => Ok (k, nil)
  | cons j js' =>
      dor r <- smooth1 k zP fut ut tt j ;
      dor r' <- smooth_loop r.1 zP fut ut tt js' ;
      Ok (r'.1, cons r.2 r'.2)
  end.
(** ltv.py:251-292 [sample_smooth]; [fut] is [future_trajs[0].pa.part] *)
Definition sample_smooth (k : kf n m) (part : list row) (fut : option (list row)) (ut : list U) (tt : list Tm) (cur_ind : nat) : res (kf n m * list row) :=
  dor zP <- get_states part ;
  smooth_loop k zP fut ut tt (List.seq 0 (length part)).

(** ** Terms of the EM objective *)
(** ltv.py:556-560 [calc_l1] *)
Definition calc_l1 (z : 'cV[R]_n) (P : 'M[R]_n) (z0 : 'cV[R]_n) : 'M[R]_n :=
  let z0_diff := z - z0 in z0_diff *m z0_diff^T + P.
(** ltv.py:562-572 [calc_l1_grad], the gradient for one parameter *)
Definition calc_l1_grad (z : 'cV[R]_n) (z0 : 'cV[R]_n) (z0_grad : option 'cV[R]_n) : 'M[R]_n :=
  let z0_diff := z - z0 in
  match z0_grad with
  | Some g => let tmp := - g *m z0_diff^T in tmp + tmp^T
  | None => 0
  end.
(** ltv.py:574-580 [calc_l2] *)
Definition calc_l2 (zn : 'cV[R]_n) (Pn : 'M[R]_n) (z : 'cV[R]_n) (P A : 'M[R]_n) (f : 'cV[R]_n) (M : 'M[R]_n) : 'M[R]_n :=
  let predict_err := zn - f - A *m z in
  let AM := A *m M in
  predict_err *m predict_err^T + (Pn + A *m P *m A^T - AM^T - AM).
(** ltv.py:582-602 [calc_l2_grad], the gradient for one parameter *)
Definition calc_l2_grad (zn z : 'cV[R]_n) (P A : 'M[R]_n) (f : 'cV[R]_n) (M : 'M[R]_n) (A_grad : option 'M[R]_n) (f_grad : option 'cV[R]_n) : 'M[R]_n :=
  let predict_err := zn - f - A *m z in
  let g := 0 in
  let g := match f_grad with Some fg => let tmp := - fg *m predict_err^T in g + (tmp + tmp^T) | None => g end in
  match A_grad with
  | Some Ag =>
      let tmp := - Ag *m z *m predict_err^T in let g := g + (tmp + tmp^T) in
      let tmp := Ag *m P *m A^T in let g := g + (tmp + tmp^T) in
      let tmp := - Ag *m M in g + (tmp + tmp^T)
  | None => g
  end.
(** ltv.py:604-612 [calc_l3]; [None.dot] raises *)
Definition calc_l3 (k : kf n m) (y : 'cV[R]_m) (z : 'cV[R]_n) (P : 'M[R]_n) : res 'M[R]_m :=
  let meas_diff := measurement_diff y z (kf_C k) (kf_h k) in
  match kf_C k with
  | None => Err AttributeError
  | Some C => Ok (meas_diff *m meas_diff^T + C *m P *m C^T)
  end.

(** the value -0.5 * (log det S + tr (S^-1 l)), ltv.py:324-326, 388-390, 443-445 *)
Definition qterm d (S l : 'M[R]_d) : res R :=
  dor ld <- np_slogdet S ; dor tmp <- np_solve S l ; Ok (- (1 / 2) * (ld + \tr tmp))%Re.
(** the same from a Cholesky factor, ltv.py:351-355, 414-424, 479-482 *)
Definition qterm_cho d (C l : 'M[R]_d) : R := (- (1 / 2) * (cho_logdet C + \tr (cho_solve C l)))%Re.

(** ltv.py:309-327 [eval_logp_x0] *)
Definition eval_logp_x0 (particles : list row) : res (list R) :=
  dor zP <- get_states particles ;
  mapr (fun s => qterm (ltv_P0 L) (calc_l1 s.1 s.2 (ltv_z0 L))) zP.

(** the cross covariance stored behind z | P, ltv.py:386, 419 *)
Definition get_Mz1 (p : row) : res 'M[R]_n := reshape n n (drop (n + n * n) p).

(** ltv.py:360-392 [eval_logp_xnext]; a missing A or Q raises *)
Definition stored_AQ (k : kf n m) : res ('M[R]_n * 'M[R]_n) :=
  match kf_A k with None => Err AttributeError | Some A => match kf_Q k with None => Err TypeError | Some Q => Ok (A, Q) end end.
(** ltv.py:385, 427 *)
Definition l2_of (k : kf n m) (A : 'M[R]_n) (p : row) (s sn : 'cV[R]_n * 'M[R]_n) : res 'M[R]_n :=
  dor Mz <- get_Mz1 p ; Ok (calc_l2 sn.1 sn.2 s.1 s.2 A (kf_f k) Mz).
(** ltv.py:360-390 *)
Definition eval_logp_xnext (k : kf n m) (particles x_next : list row) (u : U) (t : Tm) : res (kf n m * list R) :=
  dor zP <- get_states particles ;
  dor zPn <- get_states x_next ;
  let k := set_dynamics k (dyn_pred (get_pred_dynamics L u t)) in
  dor r <- map2r (fun ps sn => dor AQ <- stored_AQ k ; dor l2 <- l2_of k AQ.1 ps.1 ps.2 sn ; qterm AQ.2 l2) (List.combine particles zP) zPn ;
  Ok (k, r).

(** ltv.py:428-447 [eval_logp_y]; a missing R raises *)
Definition eval_logp_y (k : kf n m) (particles : list row) (y : Y) (t : Tm) : res (kf n m * list R) :=
  let '(y, C, h, Rn) := get_meas_dynamics L y t in
  let k := set_dynamics k (dyn_meas C h Rn) in
  dor zP <- get_states particles ;
  dor r <- mapr (fun s => dor l3 <- calc_l3 k y s.1 s.2 ; match kf_R k with None => Err LinAlgError | Some Rn => qterm Rn l3 end) zP ;
  Ok (k, r).

(** ** Values with gradients.  The value is an array when no matrix depends on the parameters, a number
    otherwise. *)
(** ltv.py:329-434 *)
Inductive value := VArr (l : list R) | VNum (v : R).

(** accumulating one number per parameter over the particles: [grad[j] -= 0.5 * d[j]] *)
(** the accumulations at ltv.py:329-356, 392-434 *)
Definition sub_half (g d : list R) : list R := List.map (fun p => (p.1 - 1 / 2 * p.2)%Re) (List.combine g d).

(** ltv.py:329-358 [eval_logp_x0_val_grad], given the gradients of z0 and P0 for each of the [np] parameters
    (what [get_initial_grad] returns); both None: no dependence.  P0_grad None with z0_grad given raises. *)
Definition eval_logp_x0_val_grad (np : nat) (z0_grad : option (list 'cV[R]_n)) (P0_grad : option (list 'M[R]_n)) (particles : list row) : res (value * list R) :=
  match z0_grad, P0_grad with
  | None, None => dor v <- eval_logp_x0 particles ; Ok (VArr v, List.repeat 0%Re np)
  | _, _ =>
      dor zP <- get_states particles ;
      dor P0cho <- chol (ltv_P0 L) ;
      dor r <- mapr (fun s =>
        let l1 := calc_l1 s.1 s.2 (ltv_z0 L) in
        dor d <- mapr (fun j =>
          dor zg <- match z0_grad with None => Ok None | Some l => dor g <- idx l j ; Ok (Some g) end ;
          dor Pg <- match P0_grad with None => Err TypeError | Some l => idx l j end ;
          Ok (compute_logprod_derivative P0cho Pg l1 (calc_l1_grad s.1 (ltv_z0 L) zg))) (List.seq 0 np) ;
        Ok (qterm_cho P0cho l1, d)) zP ;
      Ok (VNum (List.fold_left Rplus (List.map fst r) 0%Re), List.fold_left sub_half (List.map snd r) (List.repeat 0%Re np))
  end.

(** ltv.py:394-426 [eval_logp_xnext_val_grad]; Q_grad defaults to zeros. *)
Definition oidx (T : Type) (o : option (list T)) (j : nat) : res (option T) :=
  match o with None => Ok None | Some l => dor g <- idx l j ; Ok (Some g) end.
(** ltv.py:392-434 *)
Definition eval_logp_xnext_val_grad (np : nat) (A_grad : option (list 'M[R]_n)) (f_grad : option (list 'cV[R]_n)) (Q_grad : option (list 'M[R]_n))
  (k : kf n m) (particles x_next : list row) (u : U) (t : Tm) : res (kf n m * (value * list R)) :=
  match A_grad, f_grad, Q_grad with
  | None, None, None => dor r <- eval_logp_xnext k particles x_next u t ; Ok (r.1, (VArr r.2, List.repeat 0%Re np))
  | _, _, _ =>
      dor zP <- get_states particles ;
      dor zPn <- get_states x_next ;
      let k := set_dynamics k (dyn_pred (get_pred_dynamics L u t)) in
      dor Q <- match kf_Q k with None => Err ValueError | Some Q => Ok Q end ;
      dor Qcho <- chol Q ;
      dor r <- map2r (fun ps sn =>
        dor AQ <- stored_AQ k ;
        dor l2 <- l2_of k AQ.1 ps.1 ps.2 sn ;
        dor Mz <- get_Mz1 ps.1 ;
        dor d <- mapr (fun j =>
          dor Ag <- oidx A_grad j ; dor fg <- oidx f_grad j ; dor Qg <- oidx Q_grad j ;
          Ok (compute_logprod_derivative Qcho (match Qg with Some g => g | None => 0 end) l2
                (calc_l2_grad sn.1 ps.2.1 ps.2.2 AQ.1 (kf_f k) Mz Ag fg))) (List.seq 0 np) ;
        Ok (qterm_cho Qcho l2, d)) (List.combine particles zP) zPn ;
      Ok (k, (VNum (List.fold_left Rplus (List.map fst r) 0%Re), List.fold_left sub_half (List.map snd r) (List.repeat 0%Re np)))
  end.

(** ltv.py:449-491 [eval_logp_y_val_grad]: the measurement is preprocessed before it is passed on to
    [eval_logp_y], which preprocesses it again; with any gradient given, [calc_l3_grad] is called for the first
    particle without its two required gradient arguments. *)
Definition eval_logp_y_val_grad (np : nat) (C_grad : option (list 'M[R]_(m, n))) (h_grad : option (list 'cV[R]_m)) (R_grad : option (list 'M[R]_m))
  (k : kf n m) (particles : list row) (y : Y) (t : Tm) : res (kf n m * (value * list R)) :=
  match C_grad, h_grad, R_grad with
  | None, None, None => let '(y, _, _, _) := get_meas_dynamics L y t in dor r <- eval_logp_y k particles (reY L y) t ; Ok (r.1, (VArr r.2, List.repeat 0%Re np))
  | _, _, _ =>
      let '(y, C, h, Rn) := get_meas_dynamics L y t in
      let k := set_dynamics k (dyn_meas C h Rn) in
      dor Rn <- match kf_R k with None => Err ValueError | Some Rn => Ok Rn end ;
      dor Rcho <- chol Rn ;
      dor zP <- get_states particles ;
      match zP with
      | nil => Ok (k, (VNum 0%Re, List.repeat 0%Re np))
      | cons _ _ => Err TypeError
      end
  end.
End LTV.
Arguments ltv : clear implicits.
