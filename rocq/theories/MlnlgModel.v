(** Model of pyparticleest/models/rbpf.py (Rao-Blackwellised particles) and of the filtering and smoothing part of
    pyparticleest/models/mlnlg.py (mixed linear/nonlinear Gaussian models).  A particle is a row of numbers
    xi | z | P (| Mz after smoothing).  Matrix dimensions are in the types, so a user callback that returns matrices
    of wrong shape is not expressible; arithmetic is exact.  [lxi] is at least 1 ([lx.+1] below): the number of
    nonlinear states of an MLNLG model. *)
From mathcomp Require Import all_ssreflect all_algebra.
From Coq Require Import Reals List.
From Verif Require Import Base RMat KalmanModel Storage.
Set Implicit Arguments.
Unset Strict Implicit.
Unset Printing Implicit Defensive.
Import GRing.Theory.
Local Open Scope ring_scope.

(** [for i in range(n): f(i)], collecting the results *)
(** [for i in range(N)], mlnlg.py and rbpf.py throughout *)
Definition forr (B : Type) (n : nat) (f : nat -> res B) : res (list B) := mapr f (List.seq 0 n).

(** using an attribute or a list entry that is None raises *)
(** a matrix that is None raises when used, mlnlg.py throughout *)
Definition need (T : Type) (o : option T) : res T := match o with Some v => Ok v | None => Err AttributeError end.

(** rbpf.py:98-112, 155-169, 215-231: [x is None] is replaced by N copies of the stored value; the second component
    is the [_identical] flag *)
Definition fill (T : Type) (N : nat) (x : option (list T)) (stored : option T) : list (option T) * bool :=
  match x with
  | Some l => (List.map Some l, false)
  | None => (List.repeat stored N, true)
  end.

Section RBPF.
Context {lxi lz m : nat} {U Y Tm : Type}.
(** what rbpf.py:447-469 returns for one particle *)
Definition st3 : Type := ('cV[R]_lxi * 'cV[R]_lz * 'M[R]_lz)%type.

(** rbpf.py:428-445 [set_states], one row *)
Definition set_state3 (p : row) (s : st3) : res row :=
  let '(xi, z, P) := s in
  dor p <- set_slice p 0 lxi (ravel xi) ;
  dor p <- set_slice p lxi (lxi + lz) (ravel z) ;
  set_slice p (lxi + lz) (lxi + lz + lz * lz) (ravel P).
(** rbpf.py:447-469 [get_states], one row *)
Definition get_state3 (p : row) : res st3 :=
  dor xi <- reshape lxi 1 (slice p 0 lxi) ;
  dor z <- reshape lz 1 (slice p lxi (lxi + lz)) ;
  dor P <- reshape lz lz (slice p (lxi + lz) (lxi + lz + lz * lz)) ;
  Ok (xi, z, P).
(** rbpf.py:471-488 [get_Mz], 490-504 [set_Mz], one row *)
Definition get_Mz3 (p : row) : res 'M[R]_lz := reshape lz lz (slice p (lxi + lz + lz * lz) (lxi + lz + lz * lz + lz * lz)).
(** rbpf.py:490-504 *)
Definition set_Mz3 (p : row) (Mz : 'M[R]_lz) : res row := set_slice p (lxi + lz + lz * lz) (lxi + lz + lz * lz + lz * lz) (ravel Mz).
(** all rows; the three lists of the code are one list of triples here *)
(** rbpf.py:428-445 *)
Definition set_states3 (particles : list row) (l : list st3) : res (list row) := map2r set_state3 particles l.
(** rbpf.py:447-469 *)
Definition get_states3 (particles : list row) : res (list st3) := mapr get_state3 particles.

(** rbpf.py:36-41, mlnlg.py:46-72: the stored matrices (the Kalman filter object keeps Az, fz, Qz, C, h, R), and the
    methods a user overrides; each returns a list with one matrix per particle, or None (rbpf.py:59-77, 115-133,
    173-193, mlnlg.py:211-225). *)
Record mlnlg := mkML {
  ml_kf : kf lz m;
  ml_Axi : option 'M[R]_(lxi, lz); ml_fxi : 'cV[R]_lxi; ml_Qxi : option 'M[R]_lxi; ml_Qxiz : option 'M[R]_(lxi, lz);
  ml_nonlin : list row -> U -> Tm -> option (list 'M[R]_(lxi, lz)) * option (list 'cV[R]_lxi) * option (list 'M[R]_lxi);
  ml_lin : list row -> U -> Tm -> option (list 'M[R]_lz) * option (list 'cV[R]_lz) * option (list 'M[R]_lz);
  ml_meas : list row -> Y -> Tm -> 'cV[R]_m * option (list 'M[R]_(m, lz)) * option (list 'cV[R]_m) * option (list 'M[R]_m);
  ml_cross : list row -> U -> Tm -> option (list 'M[R]_(lxi, lz)) }.
Variable L : mlnlg.

(** mlnlg.py:46-72 [__init__] (fxi defaults to zero; h and f: kalman.py) *)
Definition ml_init (Az : option 'M[R]_lz) (C : option 'M[R]_(m, lz)) (Qz : option 'M[R]_lz) (Rn : option 'M[R]_m) (fz : option 'cV[R]_lz)
  (Axi : option 'M[R]_(lxi, lz)) (Qxi : option 'M[R]_lxi) (Qxiz : option 'M[R]_(lxi, lz)) (fxi : option 'cV[R]_lxi) (h : option 'cV[R]_m)
  nonlin lin meas cross : mlnlg :=
  mkML (kf_init (mkDyn Az C Qz Rn fz h)) Axi (match fxi with Some f => f | None => 0 end) Qxi Qxiz nonlin lin meas cross.

(** rbpf.py:79-113 [get_nonlin_pred_dynamics_int] *)
Definition nonlin_int (particles : list row) (u : U) (t : Tm) :=
  let '(Axi, fxi, Qxi) := ml_nonlin L particles u t in
  let N := length particles in
  (fill N Axi (ml_Axi L), fill N fxi (Some (ml_fxi L)), fill N Qxi (ml_Qxi L)).
(** rbpf.py:135-171 [get_lin_pred_dynamics_int] *)
Definition lin_int (particles : list row) (u : U) (t : Tm) :=
  let '(Az, fz, Qz) := ml_lin L particles u t in
  let N := length particles in
  (fill N Az (kf_A (ml_kf L)), fill N fz (Some (kf_f (ml_kf L))), fill N Qz (kf_Q (ml_kf L))).
(** rbpf.py:195-232 [get_meas_dynamics_int]; [len(hz[0])] raises for an empty list *)
Definition meas_int (particles : list row) (y : Y) (t : Tm) :=
  let '(y, Cz, hz, Rz) := ml_meas L particles y t in
  let N := length particles in
  let C := match Cz, kf_C (ml_kf L), hz with
           | None, None, Some _ => (List.repeat (Some 0) N, true)
           | _, _, _ => fill N Cz (kf_C (ml_kf L))
           end in
  (y, C, fill N hz (kf_h (ml_kf L)), fill N Rz (kf_R (ml_kf L))).

(** entry [i] of a list of matrices, which must not be None *)
(** [A[i]], mlnlg.py throughout *)
Definition at_ (T : Type) (l : list (option T)) (i : nat) : res T := dor o <- idx l i ; need o.

(** mlnlg.py:111-136 [sample_process_noise]; [mvn i mean cov] is the i-th draw of numpy's multivariate_normal *)
Definition sample_process_noise (mvn : nat -> 'cV[R]_lxi -> 'M[R]_lxi -> 'cV[R]_lxi) (particles : list row) (u : U) (t : Tm) : res (list 'cV[R]_lxi) :=
  let '((Axi, _), _, (Qxi, _)) := nonlin_int particles u t in
  dor Ss <- get_states3 particles ;
  forr (length particles) (fun i =>
    dor Q <- at_ Qxi i ; dor A <- at_ Axi i ; dor s <- idx Ss i ;
    Ok (mvn i 0 (Q + A *m s.2 *m A^T))).

(** mlnlg.py:161-184 [pred_xi]: the column Axi[i] z + fxi[i] of shape (lxi, 1) is assigned to a row of shape (lxi,),
    which numpy accepts for lxi = 1 only (a one-entry array) *)
Definition pred_xi (particles : list row) (u : U) (t : Tm) : res (list 'cV[R]_lxi) :=
  let '((Axi, _), (fxi, _), _) := nonlin_int particles u t in
  dor Ss <- get_states3 particles ;
  forr (length particles) (fun i =>
    dor A <- at_ Axi i ; dor f <- at_ fxi i ; dor s <- idx Ss i ;
    if lxi == 1%nat then Ok (A *m s.1.2 + f) else Err ValueError).

(** mlnlg.py:138-159 [calc_xi_next] *)
Definition calc_xi_next (particles : list row) (noise : list 'cV[R]_lxi) (u : U) (t : Tm) : res (list 'cV[R]_lxi) :=
  dor p <- pred_xi particles u t ; map2r (fun a b => Ok (a + b)) p noise.

(** mlnlg.py:186-209 [meas_xi_next] *)
Definition meas_xi_next (particles : list row) (xi_next : list 'cV[R]_lxi) (u : U) (t : Tm) : res (list row) :=
  dor Ss <- get_states3 particles ;
  let '((Axi, _), (fxi, _), (Qxi, _)) := nonlin_int particles u t in
  dor S' <- forr (length particles) (fun i =>
    dor x <- idx xi_next i ; dor s <- idx Ss i ; dor A <- at_ Axi i ; dor f <- at_ fxi i ; dor Q <- at_ Qxi i ;
    dor r <- measure_full x s.1.2 s.2 (Some A) (Some f) Q ;
    Ok (s.1.1, r.1.2, r.2)) ;
  set_states3 particles S'.

(** mlnlg.py:227-270 [calc_cond_dynamics] for [xi_next] of shape (N, lxi, 1).  For [xi_next] of shape (N, lxi) and
    lxi > 1, [xi_next[i] - fxi[i]] is an lxi by lxi matrix, see [cond_dynamics_flat]. *)
Definition calc_cond_dynamics (particles : list row) (xi_next : list 'cV[R]_lxi) (u : U) (t : Tm)
  : res (list ('M[R]_lz * 'cV[R]_lz * 'M[R]_lz)) :=
  let '((Az, _), (fz, _), (Qz, _)) := lin_int particles u t in
  let Qxiz := match ml_cross L particles u t, ml_Qxiz L with
              | None, None => None
              | None, Some q => Some (List.repeat q (length particles))
              | Some l, _ => Some l
              end in
  forr (length particles) (fun i =>
    dor A <- at_ Az i ; dor f <- at_ fz i ; dor Q <- at_ Qz i ;
    match Qxiz with
    | None => Ok (A, f, Q)
    | Some Qxiz =>
        let '((Axi, _), (fxi, _), (Qxi, _)) := nonlin_int particles u t in
        dor c <- idx Qxiz i ; dor x <- idx xi_next i ; dor Ax <- at_ Axi i ; dor fx <- at_ fxi i ; dor Qx <- at_ Qxi i ;
        dor iQ <- np_inv Qx ;
        let tmp := c^T *m iQ in
        Ok (A - tmp *m Ax, f + tmp *m (x - fx), Q)
    end).
(** is there a correlation between the noises (mlnlg.py:251-255)? *)
Definition correlated (particles : list row) (u : U) (t : Tm) : bool :=
  match ml_cross L particles u t, ml_Qxiz L with None, None => false | _, _ => true end.

(** rbpf.py:288-309 [cond_predict].  [flat]: xi_next has shape (N, lxi) (as when called by [update] and
    [cond_predict_single_step]); with correlated noise and lxi > 1 the affine term then has the wrong shape and the
    assignment [zl[i] = ...] raises (for at least one particle). *)
Definition cond_predict (flat : bool) (particles : list row) (xi_next : list 'cV[R]_lxi) (u : U) (t : Tm) : res (list row) :=
  dor particles <- meas_xi_next particles xi_next u t ;
  dor D <- calc_cond_dynamics particles xi_next u t ;
  dor Ss <- get_states3 particles ;
  if flat && correlated particles u t && (lxi != 1%nat) && (length particles != 0%nat) then Err ValueError
  else
    dor S' <- forr (length Ss) (fun i =>
      dor s <- idx Ss i ; dor d <- idx D i ; dor x <- idx xi_next i ;
      let r := predict_full s.1.2 s.2 d.1.1 d.1.2 d.2 in
      Ok (x, r.1, r.2)) ;
    set_states3 particles S'.

(** rbpf.py:238-258 [update] *)
Definition rb_update (particles : list row) (u : U) (t : Tm) (noise : list 'cV[R]_lxi) : res (list row) :=
  dor xin <- calc_xi_next particles noise u t ;
  cond_predict true particles xin u t.

(** rbpf.py:260-286 [cond_predict_single_step]; [nexts] are the rows [future_parts[find]] *)
Definition cond_predict_single_step (part : list row) (nexts : list row) (u : U) (t : Tm) : res (list row) :=
  dor xin <- mapr (fun p => reshape lxi 1 (slice p 0 lxi)) nexts ;
  cond_predict true part xin u t.

(** mlnlg.py:295-349 [measure]: one particle.  The scalar and the general version of the update are chosen by the
    dimension of the measurement. *)
Definition rb_measure1 (y : 'cV[R]_m) (z : 'cV[R]_lz) (P : 'M[R]_lz) (C : option 'M[R]_(m, lz)) (h : option 'cV[R]_m) (Rn : 'M[R]_m)
  : res (R * 'cV[R]_lz * 'M[R]_lz) :=
  match m as k return 'cV[R]_k -> option 'M[R]_(k, lz) -> option 'cV[R]_k -> 'M[R]_k -> res (R * 'cV[R]_lz * 'M[R]_lz) with
  | 1 => fun y C h Rn => measure_full_scalar y z P C h Rn
  | _ => fun y C h Rn => measure_full y z P C h Rn
  end y C h Rn.
(** mlnlg.py:318-326: no C at all: the density of [y - h] alone, for all particles *)
Definition rb_measure_noC1 (y h : 'cV[R]_m) (Rn : 'M[R]_m) : res R :=
  match m as k return 'cV[R]_k -> 'M[R]_k -> res R with
  | 1 => fun e Rn => dor l <- lognormpdf_scalar (cons (scal11 e) nil) Rn ; idx l 0
  | _ => fun e Rn => dor Uc <- chol Rn ; dor r <- Ok (lognormpdf_cho_vec (cons e nil) Uc) ; idx r 0
  end (y - h) Rn.
(** mlnlg.py:295-349 *)
Definition rb_measure (particles : list row) (y : Y) (t : Tm) : res (list row * list R) :=
  dor Ss <- get_states3 particles ;
  let '(y, (Cz, Cz_identical), (hz, _), (Rz, Rz_identical)) := meas_int particles y t in
  if Rz_identical && Cz_identical && (match Cz with cons None _ => true | _ => false end) then
    dor lyz <- forr (length particles) (fun i =>
      dor h <- at_ hz i ; dor Rn <- at_ Rz 0 ; rb_measure_noC1 y h Rn) ;
    dor particles <- set_states3 particles Ss ;
    Ok (particles, lyz)
  else
    dor r <- forr (length Ss) (fun i =>
      dor s <- idx Ss i ; dor C <- idx Cz i ; dor h <- idx hz i ; dor Rn <- at_ Rz i ;
      dor r <- rb_measure1 y s.1.2 s.2 C h Rn ;
      Ok (r.1.1, (s.1.1, r.1.2, r.2))) ;
    dor particles <- set_states3 particles (List.map snd r) ;
    Ok (particles, List.map fst r).

(** mlnlg.py:351-411 [calc_A_f_Q]: the stacked matrices for each particle (the flags are not used by the callers
    modelled here).  When both parts are identical the first particle's matrices are used for all. *)
Definition calc_A_f_Q (particles : list row) (u : U) (t : Tm)
  : res (list ('M[R]_(lxi + lz, lz) * 'cV[R]_(lxi + lz) * 'M[R]_(lxi + lz))) :=
  let N := length particles in
  let '((Az, Az_id), (fz, fz_id), (Qz, Qz_id)) := lin_int particles u t in
  let '((Axi, Axi_id), (fxi, fxi_id), (Qxi, Qxi_id)) := nonlin_int particles u t in
  let '(Qxiz, Qxiz_id) := match ml_cross L particles u t with
              | None => (List.repeat (match ml_Qxiz L with None => 0 | Some q => q end) N, true)
              | Some l => (l, false)
              end in
  forr N (fun i =>
    let iA := if Az_id && Axi_id then 0%nat else i in
    let jf := if fxi_id && fz_id then 0%nat else i in
    let iQ := if Qxi_id && Qz_id && Qxiz_id then 0%nat else i in
    dor a1 <- at_ Axi iA ; dor a2 <- at_ Az iA ; dor f1 <- at_ fxi jf ; dor f2 <- at_ fz jf ;
    dor q1 <- at_ Qxi iQ ; dor q12 <- idx Qxiz iQ ; dor q2 <- at_ Qz iQ ;
    Ok (col_mx a1 a2, col_mx f1 f2, block_mx q1 q12 q12^T q2)).

(** [numpy.max] *)
Definition rmax (l : list R) : res R := match l with nil => Err ValueError | cons x l' => Ok (List.fold_left Rmax l' x) end.

(** mlnlg.py:413-441 [logp_xnext_max] *)
Definition logp_xnext_max (particles : list row) (u : U) (t : Tm) : res R :=
  dor Ss <- get_states3 particles ;
  dor D <- calc_A_f_Q particles u t ;
  dor pmax <- forr (length particles) (fun i =>
    dor s <- idx Ss i ; dor d <- idx D i ;
    dor Schol <- chol (d.2 + d.1.1 *m s.2 *m d.1.1^T) ;
    Ok (- (1 / 2) * (INR (lxi + lz) * l2pi + cho_logdet Schol))%Re) ;
  rmax pmax.

(** mlnlg.py:443-479 [logp_xnext]; a single next particle is repeated *)
Definition logp_xnext (particles next_part : list row) (u : U) (t : Tm) : res (list R) :=
  let N := length particles in
  let next_part := match next_part with
                   | cons p nil => if (1 < N)%nat then List.repeat p N else next_part
                   | _ => next_part end in
  dor Ss <- get_states3 particles ;
  dor D <- calc_A_f_Q particles u t ;
  forr N (fun i =>
    dor p <- idx next_part i ;
    dor x_next <- reshape (lxi + lz) 1 (slice p 0 (lxi + lz)) ;
    dor s <- idx Ss i ; dor d <- idx D i ;
    let xp := d.1.2 + d.1.1 *m s.1.2 in
    dor Schol <- chol (d.1.1 *m s.2 *m d.1.1^T + d.2) ;
    Ok (lognormpdf_cho (x_next - xp) Schol)).

(** mlnlg.py:481-528 [logp_xnext_singlestep]; [nexts] are the rows [future_parts[find]] *)
Definition logp_xnext_singlestep (part nexts : list row) (u : U) (t : Tm) : res (list R) :=
  dor Ss <- get_states3 part ;
  let '((Axi, _), (fxi, _), (Qxi, _)) := nonlin_int part u t in
  forr (length part) (fun i =>
    dor p <- idx nexts i ;
    dor x_next <- reshape lxi 1 (slice p 0 lxi) ;
    dor s <- idx Ss i ; dor A <- at_ Axi i ; dor f <- at_ fxi i ; dor Q <- at_ Qxi i ;
    let xp := f + A *m s.1.2 in
    dor Schol <- chol (Q + A *m s.2 *m A^T) ;
    Ok (lognormpdf_cho (x_next - xp) Schol)).

(** mlnlg.py:272-292 [eval_1st_stage_weights]; [t1] is [t + 1].  As [pred_xi] returns shape (N, lxi). *)
Definition eval_1st_stage_weights (particles : list row) (u : U) (y : Y) (t t1 : Tm) : res (list R) :=
  dor xin <- pred_xi particles u t ;
  dor part <- cond_predict true particles xin u t ;
  dor r <- rb_measure part y t1 ;
  Ok r.2.

(** mlnlg.py:530-589 [sample_smooth]: mean and covariance of the linear state handed to multivariate_normal, together
    with xi, for each trajectory; [nexts]: the rows [future_trajs[0].pa.part[find]] (xi | z), None at the last step.
    The result row is xi | draw. *)
Definition sample_smooth_dist (part : list row) (nexts : option (list row)) (u : U) (t : Tm) : res (list st3) :=
  match nexts with
  | None => get_states3 part
  | Some nexts =>
      dor xinl <- mapr (fun p => reshape lxi 1 (slice p 0 lxi)) nexts ;
      dor znl <- mapr (fun p => reshape lz 1 (drop lxi p)) nexts ;
      dor D <- calc_cond_dynamics part xinl u t ;
      dor part <- meas_xi_next part xinl u t ;
      dor Ss <- get_states3 part ;
      forr (length part) (fun j =>
        dor zn <- idx znl j ; dor s <- idx Ss j ; dor d <- idx D j ;
        dor r <- measure_full zn s.1.2 s.2 (Some d.1.1) (Some d.1.2) d.2 ;
        Ok (s.1.1, r.1.2, r.2))
  end.
(** mlnlg.py:530-589 *)
Definition sample_smooth (mvn : nat -> 'cV[R]_lz -> 'M[R]_lz -> 'cV[R]_lz) (part : list row) (nexts : option (list row)) (u : U) (t : Tm) : res (list row) :=
  dor Ss <- sample_smooth_dist part nexts u t ;
  forr (length part) (fun j => dor s <- idx Ss j ; Ok (ravel s.1.1 ++ ravel (mvn j s.1.2 s.2))%SEQ).

(** ** Smoothing of the linear states along a nonlinear trajectory *)
(** rbpf.py:383-426 [pre_mhips_pass]: the loop over the time steps; [xis] are the nonlinear parts of the remaining
    steps' particles after the current one, with the input, measurement and time of the current one; a measurement may
    be None.  (Simplification: st.y and st.t have one entry per step, so that st.y[-1] is the last step's.) *)
Fixpoint mhips_loop (particles : list row) (y : option Y) (t : Tm) (rest : list (U * list 'cV[R]_lxi * option Y * Tm)) : res (list (list row)) :=
  dor particles <- match y with Some y => dor r <- rb_measure particles y t ; Ok r.1 | None => Ok particles end ;
  match rest with
  | nil => Ok (cons particles nil)
  | cons (u, xin, y', t') rest' =>
      dor next <- cond_predict false particles xin u t ;
      dor r <- mhips_loop next y' t' rest' ;
      Ok (cons particles r)
  end.
(** [rb_initial] is the user's [get_rb_initial] *)
(** rbpf.py:383-426 *)
Definition pre_mhips_pass (rb_initial : list 'cV[R]_lxi -> list ('cV[R]_lz * 'M[R]_lz)) (xi0 : list 'cV[R]_lxi) (y : option Y) (t : Tm)
  (rest : list (U * list 'cV[R]_lxi * option Y * Tm)) : res (list (list row)) :=
  dor particles <- map2r (fun xi zP => Ok (ravel xi ++ ravel zP.1 ++ ravel zP.2)%SEQ) xi0 (rb_initial xi0) ;
  mhips_loop particles y t rest.

(** rbpf.py:330-381 [post_smoothing], one backward step: [fpart] the filtered particles of this step, [snext] the
    smoothed particles of the next one *)
Definition post_step (fpart snext : list row) (u : U) (t : Tm) : res (list row) :=
  dor Sn <- get_states3 snext ;
  let xin := List.map (fun s => s.1.1) Sn in
  let copied := List.map (fun p => p ++ nseq (lz * lz) 0%Re)%SEQ fpart in
  dor particles <- meas_xi_next copied xin u t ;
  dor Ss <- get_states3 particles ;
  dor D <- calc_cond_dynamics particles xin u t ;
  forr (length fpart) (fun j =>
    dor p <- idx copied j ; dor s <- idx Ss j ; dor sn <- idx Sn j ; dor d <- idx D j ;
    dor r <- smooth s.1.2 s.2 sn.1.2 sn.2 d.1.1 d.1.2 d.2 ;
    let '(zs, Ps, Ms) := r in
    dor p <- set_state3 p (s.1.1, zs, Ps) ;
    set_Mz3 p Ms).
(** the backward loop over the filtered steps, earliest first; the last step is copied with Mz = 0 *)
(** rbpf.py:354-381 *)
Fixpoint post_loop (f : list row) (rest : list (list row)) (ut : list (U * Tm)) : res (list (list row)) :=
  match rest with
  | nil => Ok (cons (List.map (fun p => p ++ nseq (lz * lz) 0%Re)%SEQ f) nil)
  | cons f' rest' =>
      match ut with
      | nil => Err IndexError
      | cons (u, t) ut' =>
          dor r <- post_loop f' rest' ut' ;
          dor snext <- idx r 0 ;
          dor s <- post_step f snext u t ;
          Ok (cons s r)
      end
  end.
(** rbpf.py:330-381 *)
Definition post_smoothing (rb_initial : list 'cV[R]_lxi -> list ('cV[R]_lz * 'M[R]_lz)) (xi0 : list 'cV[R]_lxi) (y : option Y) (t : Tm)
  (rest : list (U * list 'cV[R]_lxi * option Y * Tm)) : res (list (list row)) :=
  dor f <- pre_mhips_pass rb_initial xi0 y t rest ;
  match f with
  | nil => Err IndexError
  | cons f0 fs => post_loop f0 fs (List.combine (List.map (fun r => r.1.1.1) rest) (cons t (List.map snd rest)))
  end.
End RBPF.
Arguments mlnlg : clear implicits.
