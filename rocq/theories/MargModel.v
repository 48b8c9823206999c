(** Model of the marginalised smoother of pyparticleest/models/mlnlg.py (lines 1169-1350, class
    MixedNLGaussianMarginalized): the smoothed particle is a row xi | Omega | Lambda, where Omega and Lambda summarise
    what the future says about the linear state. *)
From mathcomp Require Import all_ssreflect all_algebra.
From Coq Require Import Reals List.
From Verif Require Import Base RMat KalmanModel Storage MlnlgModel.
Set Implicit Arguments.
Unset Strict Implicit.
Unset Printing Implicit Defensive.
Import GRing.Theory.
Local Open Scope ring_scope.

Section Marg.
Context {lxi lz m : nat} {U Y Tm : Type}.
Variable L : mlnlg lxi lz m U Y Tm.
(** mlnlg.py:1169-1172 [factor_psd]: a factor F of A, computed with a singular value decomposition (numpy's svd is not
    modelled: any function; the theorems assume F F^T = A for the positive semidefinite A) *)
Variable fac : 'M[R]_lz -> 'M[R]_lz.
(** [numpy.asarray(yt[cur_ind]).reshape((-1, 1))], or None *)
Variable colY : Y -> option 'cV[R]_m.

(** mlnlg.py:1183-1184 [logp_xnext_max] *)
Definition mg_logp_xnext_max (particles : list row) (u : U) (t : Tm) : res R := Err NotImplementedError.

(** mlnlg.py:1189-1198: the three fields of a row of [next_part] *)
Definition mg_row (xi : 'cV[R]_lxi) (Om : 'M[R]_lz) (La : 'cV[R]_lz) : row := (ravel xi ++ ravel Om ++ ravel La)%SEQ.
(** mlnlg.py:1186-1248 *)
Definition mg_fields (p : row) : res ('cV[R]_lxi * 'M[R]_lz * 'cV[R]_lz) :=
  dor xi <- reshape lxi 1 (slice p 0 lxi) ;
  dor Om <- reshape lz lz (slice p lxi (lxi + lz * lz)) ;
  dor La <- reshape lz 1 (slice p (lxi + lz * lz) (lxi + lz * lz + lz)) ;
  Ok (xi, Om, La).
(** mlnlg.py:1209-1229: one particle.  [xidiff] is a row of length lxi minus a column of lxi rows, which has the shape
    of the column only if lxi is 1; else the assignment to Lambda[j] raises.  (lxi = 0 is treated as an error, too.) *)
Definition mg_prop1_1 (next : 'cV[R]_lxi * 'M[R]_lz * 'cV[R]_lz) (Az : 'M[R]_lz) (fz : 'cV[R]_lz) (Qz : 'M[R]_lz)
  (Axi : 'M[R]_(lxi, lz)) (fxi : 'cV[R]_lxi) (Qxi : 'M[R]_lxi) : res (R * 'M[R]_lz * 'cV[R]_lz) :=
  let '(xin, OH, LH) := next in
  if lxi != 1%nat then Err ValueError else
  let F := fac Qz in
  let mm := LH - OH *m fz in
  let Mt := F^T *m OH *m F + 1%:M in
  let xidiff := xin - fxi in
  dor s1 <- np_solve Qxi xidiff ;
  let tau := scal11 (xidiff^T *m s1) in
  let tau := (tau + scal11 (fz^T *m OH *m fz))%Re in
  let tau := (tau + - 2 * scal11 (LH^T *m fz))%Re in
  let tmp := F^T *m mm in
  dor s2 <- np_solve Mt tmp ;
  let tau := (tau + scal11 (tmp^T *m s2))%Re in
  dor s3 <- np_solve Mt F^T ;
  let tmp := F *m s3 in
  dor s4 <- np_solve Qxi Axi ;
  let Omega := Az^T *m (OH - OH *m tmp *m OH) *m Az + Axi^T *m s4 in
  let Lambda := Az^T *m (1%:M - OH *m tmp) *m mm + Axi^T *m s1 in
  dor ld <- np_slogdet Mt ;
  dor ldx <- np_slogdet Qxi ;
  Ok ((- (1 / 2) * (ld + ldx + tau))%Re, Omega, Lambda).
(** mlnlg.py:1186-1231 [calc_prop1]; the reshape to (M, ...) raises if there are not M next particles *)
Definition mg_prop1 (particles next_part : list row) (u : U) (t : Tm) : res (list (R * 'M[R]_lz * 'cV[R]_lz)) :=
  if length next_part != length particles then Err ValueError else
  dor nx <- mapr mg_fields next_part ;
  let '((Az, _), (fz, _), (Qz, _)) := lin_int L particles u t in
  let '((Axi, _), (fxi, _), (Qxi, _)) := nonlin_int L particles u t in
  forr (length particles) (fun j =>
    dor n <- idx nx j ;
    dor az <- at_ Az j ; dor f <- at_ fz j ; dor q <- at_ Qz j ;
    dor ax <- at_ Axi j ; dor fx <- at_ fxi j ; dor qx <- at_ Qxi j ;
    mg_prop1_1 n az f q ax fx qx).

(** mlnlg.py:1234-1248 [calc_prop3]: one particle *)
Definition mg_prop3_1 (z : 'cV[R]_lz) (P : 'M[R]_lz) (Omega : 'M[R]_lz) (Lambda : 'cV[R]_lz) : res (R * 'M[R]_lz) :=
  let Gamma := fac P in
  let Lj := Gamma^T *m Omega *m Gamma + 1%:M in
  let tmp := Gamma^T *m (Lambda - Omega *m z) in
  dor s <- np_solve Lj tmp ;
  Ok ((scal11 (z^T *m Omega *m z) - 2 * scal11 (Lambda^T *m z) - scal11 (tmp^T *m s))%Re, Lj).
(** mlnlg.py:1250-1293 [logp_xnext_full]; [nexts] are the rows [future_trajs[0].pa.part[find]] *)
Definition mg_logp_xnext_full (part nexts : list row) (u : U) (t : Tm) : res (list R) :=
  dor p1 <- mg_prop1 part nexts u t ;
  dor Ss <- get_states3 (lxi := lxi) (lz := lz) part ;
  dor p3 <- forr (length part) (fun j => dor s <- idx Ss j ; dor p <- idx p1 j ; mg_prop3_1 s.1.2 s.2 p.1.2 p.2) ;
  forr (length part) (fun i =>
    dor p <- idx p1 i ; dor q <- idx p3 i ;
    dor ld <- np_slogdet q.2 ;
    Ok (p.1.1 - (1 / 2) * (ld + q.1))%Re).

(** mlnlg.py:1341-1348: the measurement's contribution to one row; [tmp] is only assigned if C is given *)
Definition mg_meas1 (y : option 'cV[R]_m) (C : option 'M[R]_(m, lz)) (h : option 'cV[R]_m) (Rn : option 'M[R]_m)
  (Omega : 'M[R]_lz) (Lambda : 'cV[R]_lz) : res ('M[R]_lz * 'cV[R]_lz) :=
  dor a <- match C with
           | Some C => dor Rn <- need Rn ; dor tmp <- np_solve Rn C ; Ok (Omega + C^T *m tmp, Some tmp)
           | None => Ok (Omega, None)
           end ;
  match y with
  | None => Ok (a.1, Lambda)
  | Some y =>
      dor tmp <- match a.2 with Some tmp => Ok tmp | None => Err UnboundLocalError end ;
      dor h <- match h with Some h => Ok h | None => Err TypeError end ;
      Ok (a.1, Lambda + tmp^T *m (y - h))
  end.
(** mlnlg.py:1295-1350 [sample_smooth]; [nexts] is None at the last step.  Simplification: the local variable [tmp] of an
    earlier particle is not visible in later ones (C is None for all particles or for none, unless the user's list says
    otherwise). *)
Definition mg_sample_smooth (part : list row) (nexts : option (list row)) (u : U) (y : Y) (t : Tm) : res (list row) :=
  dor p1 <- match nexts with
            | Some nexts => dor r <- mg_prop1 part nexts u t ; Ok (List.map (fun p => (p.1.2, p.2)) r)
            | None => Ok (List.repeat (0, 0) (length part))
            end ;
  let '(_, (Cz, _), (hz, _), (Rz, _)) := meas_int L part y t in
  forr (length part) (fun j =>
    dor p <- idx part j ;
    dor xi <- reshape lxi 1 (slice p 0 lxi) ;
    dor q <- idx p1 j ; dor C <- idx Cz j ; dor h <- idx hz j ; dor Rn <- idx Rz j ;
    dor r <- mg_meas1 (colY y) C h Rn q.1 q.2 ;
    Ok (mg_row xi r.1 r.2)).
End Marg.
