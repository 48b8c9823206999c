(** Specification: the multivariate normal density; and the identity behind conditioning. *)
From mathcomp Require Import all_ssreflect all_algebra.
From Coq Require Import Reals Lra.
From Verif Require Import Base RMat KalmanModel LinAlg.
Set Implicit Arguments.
Unset Strict Implicit.
Unset Printing Implicit Defensive.
Import GRing.Theory.
Local Open Scope ring_scope.

(** Density at [x] of the normal distribution with mean [mu] and (positive definite) covariance [S]. *)
Definition normal_pdf n (mu : 'cV[R]_n) (S : 'M[R]_n) (x : 'cV[R]_n) : R :=
  (exp (- (1 / 2) * quad (invmx S) (x - mu)%mx) / sqrt ((2 * PI) ^ n * \det S))%Re.

Definition normal_logpdf n (mu : 'cV[R]_n) (S : 'M[R]_n) (x : 'cV[R]_n) : R :=
  (- (1 / 2) * (INR n * ln (2 * PI) + ln (\det S) + quad (invmx S) (x - mu)%mx))%Re.

Lemma normal_pdf_log n (mu : 'cV[R]_n) (S : 'M[R]_n) x : (0 < \det S)%Re -> normal_pdf mu S x = exp (normal_logpdf mu S x).
Proof.
move=> HS; rewrite /normal_pdf /normal_logpdf. set q := quad _ _. set d := \det S in HS *. clearbody q d.
have H2 : (0 < 2 * PI)%Re by move: PI_RGT_0; lra.
have Hp : (0 < (2 * PI) ^ n)%Re by apply: pow_lt.
rewrite (_ : (- (1 / 2) * (INR n * ln (2 * PI) + ln d + q))%Re = ((- (1 / 2) * q) + - (/ 2 * (INR n * ln (2 * PI) + ln d)))%Re); last by field.
rewrite exp_plus exp_Ropp /Rdiv; congr Rmult; congr Rinv.
have Hpd : (0 < (2 * PI) ^ n * d)%Re by apply: Rmult_lt_0_compat.
rewrite -(exp_ln _ (sqrt_lt_R0 _ Hpd)). congr exp.
have E : (ln (sqrt ((2 * PI) ^ n * d)) + ln (sqrt ((2 * PI) ^ n * d)))%Re = (INR n * ln (2 * PI) + ln d)%Re.
{ rewrite -ln_mult ?sqrt_sqrt; try (exact: sqrt_lt_R0); last by lra.
  rewrite ln_mult // . congr Rplus. rewrite -Rpower_pow // ln_exp //. }
lra.
Qed.

(** Scalars as 1x1 matrices. *)
Lemma scal_tr (A : 'M[R]_1) : A^T = A.
Proof. by rewrite [A]mx11_scalar tr_scalar_mx. Qed.

(** Completing the square. *)
Section Bayes.
Variables (n m : nat) (P : 'M[R]_n) (Rn : 'M[R]_m) (C : 'M[R]_(m, n)).
Hypotheses (HP : posdef P) (HR : posdef Rn).
Let S := C *m P *m C^T + Rn.
Let K := P *m C^T *m invmx S.
Let P1 := P - P *m C^T *m (invmx S *m (C *m P)).

Lemma S_posdef : posdef S.
Proof. apply: posdef_add => //; apply: psd_cong; exact: posdef_psd. Qed.
Let uS : S \in unitmx := posdef_unit S_posdef.
Let uP : P \in unitmx := posdef_unit HP.
Let uR : Rn \in unitmx := posdef_unit HR.

Lemma CPC : C *m P *m C^T = S - Rn.
Proof. by rewrite /S addrK. Qed.

Lemma CPCr k (X : 'M[R]_(k, m)) : X *m C *m P *m C^T = X *m S - X *m Rn.
Proof. by rewrite -!(mulmxA X) CPC mulmxBr. Qed.

(** the information form of the posterior covariance *)
Lemma P1_inv_r : P1 *m (invmx P + C^T *m invmx Rn *m C) = 1%:M.
Proof.
rewrite /P1 !mulmxDr !mulmxBl !mulmxA (mulmxV uP) (mulmxK uP) CPCr (mulmxKV uS) !mulmxBl (mulmxK uR).
move: (P *m C^T *m invmx S *m C) (P *m C^T *m invmx Rn *m C) => a b.
by rewrite opprB [b + _]addrC subrK subrK.
Qed.
Lemma P1_unit : P1 \in unitmx.
Proof. by case: (mulmx1_unit P1_inv_r). Qed.
Lemma P1_inv : invmx P1 = invmx P + C^T *m invmx Rn *m C.
Proof. by rewrite -[LHS]mulmx1 -P1_inv_r mulmxA (mulVmx P1_unit) mul1mx. Qed.
Lemma P1_posdef : posdef P1.
Proof.
rewrite -[P1]invmxK; apply: posdef_inv; rewrite P1_inv addrC; apply: posdef_add; last exact: posdef_inv.
rewrite -{2}[C]trmxK; apply: psd_cong; apply: posdef_psd; exact: posdef_inv.
Qed.

Lemma P1invK : invmx P1 *m K = C^T *m invmx Rn.
Proof.
have E : P1 *m (C^T *m invmx Rn) = K.
{ by rewrite /P1 /K mulmxBl !mulmxA CPCr (mulmxKV uS) mulmxBl (mulmxK uR) opprB addrC subrK. }
by rewrite -E (mulKmx P1_unit).
Qed.

Lemma P1invKr k (X : 'M[R]_(k, n)) : X *m invmx P1 *m K = X *m C^T *m invmx Rn.
Proof. by rewrite -(mulmxA X) P1invK mulmxA. Qed.

Lemma KP1K : K^T *m invmx P1 *m K = invmx Rn - invmx S.
Proof.
have SP := proj1 HP. have SS := proj1 S_posdef.
by rewrite -mulmxA P1invK /K !trmx_mul trmxK (sym_inv SS) SP !mulmxA CPCr (mulVmx uS) mulmxBl mul1mx (mulmxK uR).
Qed.

Lemma square_complete (d : 'cV[R]_n) (e : 'cV[R]_m) :
  (quad (invmx P) d + quad (invmx Rn) (e - C *m d)%mx = quad (invmx S) e + quad (invmx P1) (d - K *m e)%mx)%Re.
Proof.
have SRi : (invmx Rn)^T = invmx Rn := sym_inv (proj1 HR).
have SP1i : (invmx P1)^T = invmx P1 := sym_inv (proj1 P1_posdef).
have M : d^T *m invmx P *m d + (e - C *m d)^T *m invmx Rn *m (e - C *m d) = e^T *m invmx S *m e + (d - K *m e)^T *m invmx P1 *m (d - K *m e).
{ rewrite !linearB /= (trmx_mul K e) (trmx_mul C d) !(mulmxBl, mulmxBr).
  have E1 : d^T *m invmx P1 *m (K *m e) = d^T *m C^T *m invmx Rn *m e by rewrite (mulmxA _ K) P1invKr.
  have E2 : e^T *m K^T *m invmx P1 *m d = e^T *m invmx Rn *m (C *m d).
  { rewrite -[LHS]scal_tr !trmx_mul !trmxK SP1i mulmxA E1 -[LHS]scal_tr !trmx_mul !trmxK SRi !mulmxA //. }
  have E3 : e^T *m K^T *m invmx P1 *m (K *m e) = e^T *m invmx Rn *m e - e^T *m invmx S *m e.
  { by rewrite -(mulmxA e^T) (mulmxA _ K) -(mulmxA e^T) KP1K mulmxBr mulmxBl. }
  have E4 : d^T *m invmx P1 *m d = d^T *m invmx P *m d + d^T *m C^T *m invmx Rn *m (C *m d).
  { by rewrite P1_inv mulmxDr mulmxDl !mulmxA. }
  rewrite E1 E2 E3 E4.
  move: (d^T *m invmx P *m d) (e^T *m invmx Rn *m e) (d^T *m C^T *m invmx Rn *m e) (e^T *m invmx Rn *m (C *m d)) (d^T *m C^T *m invmx Rn *m (C *m d)) (e^T *m invmx S *m e) => a b c f g h.
  apply/matrixP => i j; rewrite !mxE.
  move: (a i j) (b i j) (c i j) (f i j) (g i j) (h i j) => a' b' c' f' g' h'. rewrite !rE. req. ring. }
have M2 := congr1 (fun A : 'M[R]_1 => A ord0 ord0) M. cbv beta in M2. rewrite mxE [in RHS]mxE in M2. exact: M2.
Qed.

Lemma det_bayes : (\det P * \det Rn)%Re = (\det S * \det P1)%Re.
Proof.
have H1 := @det_schur_ul _ _ P (P *m C^T) (C *m P) S uP. have H2 := @det_schur_dr _ _ P (P *m C^T) (C *m P) S uS.
rewrite -(mulmxA C) (mulmxV uP) mulmx1 mulmxA {2}/S addrAC subrr add0r in H1. rewrite -mulmxA in H2.
by rewrite -!rmulE -H1 H2.
Qed.

(** N(x; z, P) N(y; Cx+h, R) = N(y; Cz+h, S) N(x; z + K(y-Cz-h), P1) *)
Lemma gauss_bayes_log (z x : 'cV[R]_n) (y h : 'cV[R]_m) :
  (normal_logpdf z P x + normal_logpdf (C *m x + h)%mx Rn y = normal_logpdf (C *m z + h)%mx S y + normal_logpdf (z + K *m (y - (C *m z + h)))%mx P1 x)%Re.
Proof.
rewrite /normal_logpdf.
have Hq := square_complete (x - z) (y - (C *m z + h)).
rewrite (_ : y - (C *m z + h) - C *m (x - z) = y - (C *m x + h)) in Hq; last first.
{ rewrite mulmxBr; mxab. }
rewrite (_ : x - z - K *m (y - (C *m z + h)) = x - (z + K *m (y - (C *m z + h)))) in Hq; last by rewrite -addrA -opprD.
have Hd : (ln (\det P) + ln (\det Rn) = ln (\det S) + ln (\det P1))%Re.
{ rewrite -!ln_mult ?det_bayes //; apply: posdef_det => //; [exact: S_posdef | exact: P1_posdef]. }
move: Hq Hd; move: (quad _ _) (quad _ _) (quad _ _) (quad _ _) (ln (\det P)) (ln (\det Rn)) (ln (\det S)) (ln (\det P1)) => a b c d e f g k Hq Hd.
lra.
Qed.
End Bayes.
