(** Specification: expectations of random vectors and matrices.  An expectation is any linear functional
    on real random variables that maps constants to themselves; every probability measure gives one (on
    the variables integrable under it), so results for all such functionals hold for all distributions. *)
From mathcomp Require Import all_ssreflect all_algebra.
From Coq Require Import Reals Lra FunctionalExtensionality.
From Verif Require Import RMat.
Set Implicit Arguments.
Unset Strict Implicit.
Unset Printing Implicit Defensive.
Import GRing.Theory.
Local Open Scope ring_scope.

Section Moments.
Variable Om : Type.
Variable E : (Om -> R) -> R.

Definition expectation : Prop :=
  (forall X Y, E (fun w => X w + Y w)%Re = (E X + E Y)%Re) /\
  (forall c X, E (fun w => c * X w)%Re = (c * E X)%Re) /\
  (forall c, E (fun _ => c) = c).

(** Expectation of a random matrix, entry by entry. *)
Definition Emx m n (M : Om -> 'M[R]_(m, n)) : 'M[R]_(m, n) := \matrix_(i, j) E (fun w => M w i j).
Definition has_mean n (X : Om -> 'cV[R]_n) (mu : 'cV[R]_n) : Prop := Emx X = mu.
(** Cross covariance of X (mean mu) and Y (mean nu). *)
Definition cross_cov m n (X : Om -> 'cV[R]_m) (mu : 'cV[R]_m) (Y : Om -> 'cV[R]_n) (nu : 'cV[R]_n) : 'M[R]_(m, n) :=
  Emx (fun w => (X w - mu) *m (Y w - nu)^T).
Definition has_cov n (X : Om -> 'cV[R]_n) (mu : 'cV[R]_n) (S : 'M[R]_n) : Prop := cross_cov X mu X mu = S.

Hypothesis HE : expectation.

Lemma E_ext X Y : (forall w, X w = Y w) -> E X = E Y.
Proof. move=> H; congr E; exact: functional_extensionality. Qed.
Lemma E_sum (I : Type) (r : seq I) (F : I -> Om -> R) : E (fun w => \sum_(k <- r) F k w) = \sum_(k <- r) E (F k).
Proof.
elim: r => [|k r IH].
- rewrite big_nil -[RHS](proj2 (proj2 HE)). by apply: E_ext => w; rewrite big_nil.
- rewrite big_cons -IH raddE -(proj1 HE). by apply: E_ext => w; rewrite big_cons.
Qed.
Lemma Emx_ext m n (M N : Om -> 'M[R]_(m, n)) : (forall w, M w = N w) -> Emx M = Emx N.
Proof. move=> H; apply/matrixP => i j; rewrite !mxE; by apply: E_ext => w; rewrite H. Qed.
Lemma Emx_add m n (M N : Om -> 'M[R]_(m, n)) : Emx (fun w => M w + N w) = Emx M + Emx N.
Proof. apply/matrixP => i j; rewrite !mxE raddE -(proj1 HE); by apply: E_ext => w; rewrite mxE. Qed.
Lemma Emx_opp m n (M : Om -> 'M[R]_(m, n)) : Emx (fun w => - M w) = - Emx M.
Proof.
apply/matrixP => i j; rewrite !mxE -mulN1r [RHS]rmulE -(proj1 (proj2 HE)). apply: E_ext => w. by rewrite mxE -[LHS]mulN1r.
Qed.
Lemma Emx_const m n (A : 'M[R]_(m, n)) : Emx (fun _ => A) = A.
Proof. apply/matrixP => i j; rewrite !mxE; exact: (proj2 (proj2 HE)). Qed.
Lemma Emx_mull m n p (A : 'M[R]_(m, n)) (M : Om -> 'M[R]_(n, p)) : Emx (fun w => A *m M w) = A *m Emx M.
Proof.
apply/matrixP => i j; rewrite !mxE. under eq_bigr do rewrite mxE.
transitivity (E (fun w => \sum_k A i k * M w k j)); first by apply: E_ext => w; rewrite mxE.
rewrite E_sum; apply: eq_bigr => k _; exact: (proj1 (proj2 HE)).
Qed.
Lemma Emx_tr m n (M : Om -> 'M[R]_(m, n)) : Emx (fun w => (M w)^T) = (Emx M)^T.
Proof. apply/matrixP => i j; rewrite !mxE; by apply: E_ext => w; rewrite mxE. Qed.
Lemma Emx_mulr m n p (M : Om -> 'M[R]_(m, n)) (B : 'M[R]_(n, p)) : Emx (fun w => M w *m B) = Emx M *m B.
Proof.
rewrite -[RHS]trmxK trmx_mul -Emx_tr -Emx_mull -Emx_tr. by apply: Emx_ext => w; rewrite trmx_mul !trmxK.
Qed.
Lemma Emx_sub m n (M N : Om -> 'M[R]_(m, n)) : Emx (fun w => M w - N w) = Emx M - Emx N.
Proof. by rewrite (Emx_add M (fun w => - N w)) Emx_opp. Qed.

Lemma cross_cov_tr m n (X : Om -> 'cV[R]_m) mu (Y : Om -> 'cV[R]_n) nu : cross_cov Y nu X mu = (cross_cov X mu Y nu)^T.
Proof. by rewrite /cross_cov -Emx_tr; apply: Emx_ext => w; rewrite trmx_mul trmxK. Qed.
Lemma has_cov_sym n (X : Om -> 'cV[R]_n) mu S : has_cov X mu S -> symmetric S.
Proof. by rewrite /has_cov /symmetric => <-; rewrite -cross_cov_tr. Qed.
End Moments.
