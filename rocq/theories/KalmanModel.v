(** Model of pyparticleest/utils/kalman.py.  Matrices carry their dimensions in their types: calls with
    mismatching dimensions (numpy raises ValueError) are not expressible.  Arithmetic is exact. *)
From mathcomp Require Import all_ssreflect all_algebra.
From Coq Require Import Reals.
From Verif Require Import Base RMat.
Set Implicit Arguments.
Unset Strict Implicit.
Unset Printing Implicit Defensive.
Import GRing.Theory.
Local Open Scope ring_scope.

(** [scipy.linalg.cho_factor(A)] with its default [lower=False]: upper triangular Cholesky factor; reads
    the upper triangle of [A] only; raises if a pivot is not positive.  (scipy leaves arbitrary numbers
    below the diagonal, which [cho_solve] and [np.diag] do not read; here they are zero.) *)
Fixpoint chol (n : nat) : 'M[R]_n -> res 'M[R]_n :=
  match n return 'M[R]_n -> res 'M[R]_n with
  | 0 => fun A => Ok A
  | n'.+1 => fun A : 'M[R]_(1 + n') =>
      let a := A ord0 ord0 in
      if Rle_dec a 0%Re then Err LinAlgError
      else let r := ursubmx A in
           match chol (drsubmx A - (/ a)%Re *: (r^T *m r)) with
           | Ok U => Ok (block_mx (sqrt a)%:M ((/ sqrt a)%Re *: r) 0 U)
           | Err e => Err e
           end
  end.

(** [scipy.linalg.cho_solve((U, False), b)]: the solution of U'U x = b. *)
Definition cho_solve m n (U : 'M[R]_m) (b : 'M[R]_(m, n)) : 'M[R]_(m, n) := invmx (U^T *m U) *m b.

(** [np.sum(np.log(np.diag(U))) * 2] *)
(** kalman.py:22, 32 *)
Definition cho_logdet n (U : 'M[R]_n) : R := ((\sum_i ln (U i i)) * 2)%Re.

(** [np.linalg.inv], [np.linalg.solve]: raise for a singular matrix. *)
(** [numpy.linalg.inv], kalman.py:215 *)
Definition np_inv n (A : 'M[R]_n) : res 'M[R]_n := if Req_EM_T (\det A) 0%Re then Err LinAlgError else Ok (invmx A).
(** [numpy.linalg.solve], kalman.py:15 *)
Definition np_solve m n (A : 'M[R]_m) (b : 'M[R]_(m, n)) : res 'M[R]_(m, n) := if Req_EM_T (\det A) 0%Re then Err LinAlgError else Ok (invmx A *m b).
(** [np.linalg.slogdet(A)[1]]; for a singular matrix numpy gives -inf. *)
Definition np_slogdet n (A : 'M[R]_n) : res R := if Req_EM_T (\det A) 0%Re then Err NotFinite else Ok (ln (Rabs (\det A))).

(** kalman.py:9 *)
Definition l2pi : R := ln (2 * PI)%Re.

(** a 1x1 array as a number *)
(** kalman.py:15, 23 *)
Definition scal11 (A : 'M[R]_1) : R := A ord0 ord0.

(** kalman.py:10-15 [lognormpdf] *)
Definition lognormpdf n (err : 'cV[R]_n) (S : 'M[R]_n) : res R :=
  dor sld <- np_slogdet S ;
  dor s <- np_solve S err ;
  Ok (- (1 / 2) * (INR n * l2pi + sld + scal11 (s^T *m err)))%Re.

(** kalman.py:17-23 [lognormpdf_cho] *)
Definition lognormpdf_cho n (err : 'cV[R]_n) (U : 'M[R]_n) : R :=
  (- (1 / 2) * (INR n * l2pi + cho_logdet U + scal11 ((cho_solve U err)^T *m err)))%Re.

(** kalman.py:25-36 [lognormpdf_cho_vec] *)
Definition lognormpdf_cho_vec n (err : list 'cV[R]_n) (U : 'M[R]_n) : list R :=
  List.map (fun e => (- (1 / 2) * (INR n * l2pi + cho_logdet U) + - (1 / 2) * scal11 ((cho_solve U e)^T *m e))%Re) err.

(** kalman.py:38-49 [lognormpdf_vec]: [Sl[i]] for the i-th error. *)
Fixpoint lognormpdf_vec n (err : list 'cV[R]_n) (Sl : list 'M[R]_n) : res (list R) :=
  match err, Sl with
  | nil, _ => Ok nil
  | cons _ _, nil => Err IndexError
  | cons e err', cons Sg Sl' =>
      dor sld <- np_slogdet Sg ;
      dor s <- np_solve Sg e ;
      dor r <- lognormpdf_vec err' Sl' ;
      Ok (cons (- (1 / 2) * (INR n * l2pi + sld + scal11 (s^T *m e)))%Re r)
  end.

(** kalman.py:51-56 [lognormpdf_scalar]; [math.log] of a number that is not positive raises. *)
Definition lognormpdf_scalar (err : list R) (S : 'M[R]_1) : res (list R) :=
  if Rle_dec (scal11 S) 0%Re then Err ValueError
  else Ok (List.map (fun e => (- (1 / 2) * (l2pi + ln (scal11 S) + (e * e) / scal11 S))%Re) err).

(** ** KalmanFilter, kalman.py:58-197 *)
Section KF.
Context {n m : nat}.

(** kalman.py:119-126 [predict_full] (and 111-117 [predict_full_inplace], whose result is the same) *)
Definition predict_full (z : 'cV[R]_n) (P : 'M[R]_n) (A : 'M[R]_n) (f : 'cV[R]_n) (Q : 'M[R]_n) : 'cV[R]_n * 'M[R]_n :=
  (f + A *m z, A *m P *m A^T + Q).

(** kalman.py:128-137 [measurement_diff] *)
Definition measurement_diff (y : 'cV[R]_m) (z : 'cV[R]_n) (C : option 'M[R]_(m, n)) (h : option 'cV[R]_m) : 'cV[R]_m :=
  let yhat := 0 in
  let yhat := match C with Some C => yhat + C *m z | None => yhat end in
  let yhat := match h with Some h => yhat + h | None => yhat end in
  y - yhat.

(** kalman.py:147-172 [measure_full]: returns the log-likelihood; [z] and [P] are overwritten, their new
    contents are the second and third component. *)
Definition measure_full (y : 'cV[R]_m) (z : 'cV[R]_n) (P : 'M[R]_n) (C : option 'M[R]_(m, n)) (h : option 'cV[R]_m) (Rn : 'M[R]_m)
  : res (R * 'cV[R]_n * 'M[R]_n) :=
  match C with
  | Some C =>
      let S := C *m P *m C^T + Rn in
      dor U <- chol S ;
      let err := y - C *m z in
      let err := match h with Some h => err - h | None => err end in
      let Sinv_err := cho_solve U err in
      let z' := z + P *m C^T *m Sinv_err in
      let P' := P - P *m C^T *m cho_solve U (C *m P) in
      Ok ((- (1 / 2) * (INR m * l2pi + cho_logdet U + scal11 (err^T *m Sinv_err)))%Re, z', P')
  | None =>
      let err := match h with Some h => y - h | None => y end in
      dor U <- chol Rn ;
      let Sinv_err := cho_solve U err in
      Ok ((- (1 / 2) * (INR m * l2pi + cho_logdet U + scal11 (err^T *m Sinv_err)))%Re, z, P)
  end.
End KF.

(** kalman.py:174-197 [measure_full_scalar].  [x / S[0,0]] with S[0,0]=0 gives inf or nan in numpy. *)
Definition measure_full_scalar n (y : 'cV[R]_1) (z : 'cV[R]_n) (P : 'M[R]_n) (C : option 'M[R]_(1, n)) (h : option 'cV[R]_1) (Rn : 'M[R]_1)
  : res (R * 'cV[R]_n * 'M[R]_n) :=
  dor r <- match C with
           | Some C =>
               let S := C *m P *m C^T + Rn in
               if Req_EM_T (scal11 S) 0%Re then Err NotFinite else
               let err := y - C *m z in
               let err := match h with Some h => err - h | None => err end in
               let z' := z + (/ scal11 S)%Re *: (P *m C^T *m err) in
               let tmp := C *m P in
               let P' := P - (/ scal11 S)%Re *: (tmp^T *m tmp) in
               Ok (S, err, z', P')
           | None => Ok (Rn, match h with Some h => y - h | None => y end, z, P)
           end ;
  let '(Sm, err, z', P') := r in
  dor l <- lognormpdf_scalar (cons (scal11 err) nil) Sm ;
  dor v <- idx l 0 ;
  Ok (v, z', P').

(** ** The filter object with its stored matrices *)
Section Obj.
Context {n m : nat}.
(** kalman.py:69-94 *)
Record kf := mkKF {
  kf_A : option 'M[R]_n; kf_C : option 'M[R]_(m, n); kf_Q : option 'M[R]_n; kf_R : option 'M[R]_m;
  kf_f : 'cV[R]_n; kf_h : option 'cV[R]_m }.

(** What one passes to [set_dynamics]. *)
(** arguments of kalman.py:82 *)
Record dyn := mkDyn {
  dy_A : option 'M[R]_n; dy_C : option 'M[R]_(m, n); dy_Q : option 'M[R]_n; dy_R : option 'M[R]_m;
  dy_f : option 'cV[R]_n; dy_h : option 'cV[R]_m }.

(** kalman.py:82-94 [set_dynamics] *)
Definition set_dynamics (k : kf) (d : dyn) : kf :=
  let k := match dy_A d with Some A => mkKF (Some A) (kf_C k) (kf_Q k) (kf_R k) (kf_f k) (kf_h k) | None => k end in
  let k := match dy_C d with Some C => mkKF (kf_A k) (Some C) (kf_Q k) (kf_R k) (kf_f k) (kf_h k) | None => k end in
  let k := match dy_Q d with Some Q => mkKF (kf_A k) (kf_C k) (Some Q) (kf_R k) (kf_f k) (kf_h k) | None => k end in
  let k := match dy_R d with Some Rn => mkKF (kf_A k) (kf_C k) (kf_Q k) (Some Rn) (kf_f k) (kf_h k) | None => k end in
  let k := match dy_f d with Some f => mkKF (kf_A k) (kf_C k) (kf_Q k) (kf_R k) f (kf_h k) | None => k end in
  match dy_h d with Some h => mkKF (kf_A k) (kf_C k) (kf_Q k) (kf_R k) (kf_f k) (Some h) | None => k end.

(** kalman.py:69-79 [__init__] *)
Definition kf_init (d : dyn) : kf := set_dynamics (mkKF None None None None 0 None) d.

(** kalman.py:96-102 [time_update]: calls [predict_full] without the required [z] and [P]. *)
Definition time_update (k : kf) : res kf := Err TypeError.

(** kalman.py:104-109 [predict]: [None.dot] raises AttributeError, [+ None] TypeError. *)
Definition predict (k : kf) (z : 'cV[R]_n) (P : 'M[R]_n) : res ('cV[R]_n * 'M[R]_n) :=
  match kf_A k with
  | None => Err AttributeError
  | Some A => match kf_Q k with
              | None => Err TypeError
              | Some Q => Ok (predict_full z P A (kf_f k) Q)
              end
  end.

(** kalman.py:139-145 [measure]; a missing R raises in [+ None] or in [cho_factor(None)]. *)
Definition measure (k : kf) (y : 'cV[R]_m) (z : 'cV[R]_n) (P : 'M[R]_n) : res (R * 'cV[R]_n * 'M[R]_n) :=
  match kf_R k with
  | None => Err (match kf_C k with Some _ => TypeError | None => ValueError end)
  | Some Rn => measure_full y z P (kf_C k) (kf_h k) Rn
  end.

(** Calls a user can make on the object, and their effect on the object. *)
(** the methods of kalman.py:82-172 *)
Inductive kop :=
| KSet (d : dyn)
| KPredict (z : 'cV[R]_n) (P : 'M[R]_n)
| KPredictFull (z : 'cV[R]_n) (P A : 'M[R]_n) (f : 'cV[R]_n) (Q : 'M[R]_n)
| KMeasure (y : 'cV[R]_m) (z : 'cV[R]_n) (P : 'M[R]_n)
| KMeasureFull (y : 'cV[R]_m) (z : 'cV[R]_n) (P : 'M[R]_n) (C : option 'M[R]_(m, n)) (h : option 'cV[R]_m) (Rn : 'M[R]_m)
| KTimeUpdate.
(** kalman.py:82-172 *)
Definition kstep (k : kf) (o : kop) : kf :=
  match o with
  | KSet d => set_dynamics k d
  | KTimeUpdate => match time_update k with Ok k' => k' | Err _ => k end
  | _ => k
  end.
(** a sequence of calls of kalman.py:82-172 *)
Definition krun (k : kf) (ops : list kop) : kf := List.fold_left kstep ops k.
End Obj.
Arguments kf : clear implicits.
Arguments dyn : clear implicits.
Arguments kop : clear implicits.

(** ** KalmanSmoother, kalman.py:200-219 [smooth] *)
Definition smooth n (z : 'cV[R]_n) (P : 'M[R]_n) (z_next : 'cV[R]_n) (P_next A : 'M[R]_n) (f : 'cV[R]_n) (Q : 'M[R]_n)
  : res ('cV[R]_n * 'M[R]_n * 'M[R]_n) :=
  let (z_np, P_np) := predict_full z P A f Q in
  dor Pinv <- np_inv P_np ;
  let J := P *m (A^T *m Pinv) in
  Ok (z + J *m (z_next - z_np), P + J *m ((P_next - P_np) *m J^T), J *m P_next).
