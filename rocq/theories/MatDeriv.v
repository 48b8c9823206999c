(** Specification and mathematics: derivatives of matrix valued functions of one real parameter. *)
From mathcomp Require Import all_ssreflect all_algebra all_fingroup.
From Coq Require Import Reals Lra FunctionalExtensionality.
From Verif Require Import RMat.
Set Implicit Arguments.
Unset Strict Implicit.
Unset Printing Implicit Defensive.
Import GRing.Theory.
Local Open Scope ring_scope.

(** [M] has derivative [dM] at [t0], entry by entry (with the derivative of the Coq library of reals). *)
Definition mx_deriv m n (M : R -> 'M[R]_(m, n)) (t0 : R) (dM : 'M[R]_(m, n)) : Prop :=
  forall i j, derivable_pt_lim (fun t => M t i j) t0 (dM i j).

Lemma dpl_ext f g t l : (forall x, f x = g x) -> derivable_pt_lim f t l -> derivable_pt_lim g t l.
Proof. by move=> E; rewrite (functional_extensionality _ _ E). Qed.
Lemma dpl_sum (I : Type) (r : seq I) (F : I -> R -> R) (dF : I -> R) t :
  (forall i, derivable_pt_lim (F i) t (dF i)) -> derivable_pt_lim (fun x => \sum_(i <- r) F i x) t (\sum_(i <- r) dF i).
Proof.
move=> H; elim: r => [|i r IH].
- rewrite big_nil; apply: (dpl_ext (f := fun _ => 0%Re)); last exact: derivable_pt_lim_const. by move=> x; rewrite big_nil.
- rewrite big_cons; apply: (dpl_ext (f := fun x => (F i x + \sum_(j <- r) F j x)%Re)); first by move=> x; rewrite big_cons.
  exact: derivable_pt_lim_plus.
Qed.
(** product rule for finite products *)
Lemma dpl_prod (I : eqType) (r : seq I) (F : I -> R -> R) (dF : I -> R) t : uniq r ->
  (forall i, derivable_pt_lim (F i) t (dF i)) ->
  derivable_pt_lim (fun x => \prod_(i <- r) F i x) t (\sum_(k <- r) \prod_(i <- r) (if i == k then dF k else F i t)).
Proof.
move=> U H; elim: r U => [|i r IH] /=.
- move=> _; rewrite big_nil; apply: (dpl_ext (f := fun _ => 1%Re)); last exact: derivable_pt_lim_const. by move=> x; rewrite big_nil.
- move=> /andP [Hi U]. rewrite big_cons. apply: (dpl_ext (f := fun x => (F i x * \prod_(j <- r) F j x)%Re)); first by move=> x; rewrite big_cons.
  rewrite [X in derivable_pt_lim _ _ X](_ : _ = (dF i * \prod_(j <- r) F j t + F i t * \sum_(k <- r) \prod_(j <- r) (if j == k then dF k else F j t))%Re).
  + apply: derivable_pt_lim_mult => //. exact: IH.
  + congr (_ + _).
    * rewrite big_cons eqxx; congr (_ * _). apply: eq_big_seq => j Hj. case: eqP => // E; by rewrite -E Hj in Hi.
    * rewrite -rmulE big_distrr /=. apply: eq_big_seq => k Hk. rewrite big_cons. case: eqP => // E; by rewrite E Hk in Hi.
Qed.

Section Calc.
Variable t0 : R.
Lemma mxd_ext m n (M N : R -> 'M[R]_(m, n)) dM : (forall t, M t = N t) -> mx_deriv M t0 dM -> mx_deriv N t0 dM.
Proof. by move=> E; rewrite (functional_extensionality _ _ E). Qed.
Lemma mxd_const m n (A : 'M[R]_(m, n)) : mx_deriv (fun _ => A) t0 0.
Proof. move=> i j; rewrite mxE; exact: derivable_pt_lim_const. Qed.
Lemma mxd_add m n (M N : R -> 'M[R]_(m, n)) dM dN : mx_deriv M t0 dM -> mx_deriv N t0 dN -> mx_deriv (fun t => M t + N t) t0 (dM + dN).
Proof.
move=> HM HN i j; rewrite mxE; apply: (dpl_ext (f := fun t => (M t i j + N t i j)%Re)); first by move=> x; rewrite mxE.
exact: derivable_pt_lim_plus.
Qed.
Lemma mxd_opp m n (M : R -> 'M[R]_(m, n)) dM : mx_deriv M t0 dM -> mx_deriv (fun t => - M t) t0 (- dM).
Proof.
move=> HM i j; rewrite mxE; apply: (dpl_ext (f := fun t => (- M t i j)%Re)); first by move=> x; rewrite mxE.
exact: derivable_pt_lim_opp.
Qed.
Lemma mxd_sub m n (M N : R -> 'M[R]_(m, n)) dM dN : mx_deriv M t0 dM -> mx_deriv N t0 dN -> mx_deriv (fun t => M t - N t) t0 (dM - dN).
Proof. move=> HM HN; apply: mxd_add => //; exact: mxd_opp. Qed.
Lemma mxd_tr m n (M : R -> 'M[R]_(m, n)) dM : mx_deriv M t0 dM -> mx_deriv (fun t => (M t)^T) t0 dM^T.
Proof. move=> HM i j; rewrite mxE; apply: (dpl_ext (f := fun t => M t j i)); [by move=> x; rewrite mxE | exact: HM]. Qed.
Lemma mxd_mul m n p (M : R -> 'M[R]_(m, n)) (N : R -> 'M[R]_(n, p)) dM dN : mx_deriv M t0 dM -> mx_deriv N t0 dN ->
  mx_deriv (fun t => M t *m N t) t0 (dM *m N t0 + M t0 *m dN).
Proof.
move=> HM HN i j. apply: (dpl_ext (f := fun t => \sum_k (M t i k * N t k j)%Re)); first by move=> x; rewrite mxE.
rewrite !mxE -big_split. apply: dpl_sum => k. exact: (derivable_pt_lim_mult (fun t => M t i k) (fun t => N t k j)).
Qed.
Lemma mxd_mull m n p (A : 'M[R]_(m, n)) (N : R -> 'M[R]_(n, p)) dN : mx_deriv N t0 dN -> mx_deriv (fun t => A *m N t) t0 (A *m dN).
Proof. by move=> H; have := mxd_mul (mxd_const A) H; rewrite mul0mx add0r. Qed.
Lemma mxd_mulr m n p (M : R -> 'M[R]_(m, n)) (B : 'M[R]_(n, p)) dM : mx_deriv M t0 dM -> mx_deriv (fun t => M t *m B) t0 (dM *m B).
Proof. by move=> H; have := mxd_mul H (mxd_const B); rewrite mulmx0 addr0. Qed.
Lemma mxd_trace n (M : R -> 'M[R]_n) dM : mx_deriv M t0 dM -> derivable_pt_lim (fun t => \tr (M t)) t0 (\tr dM).
Proof. move=> H; apply: dpl_sum => i; exact: H. Qed.
Lemma mxd_uniq m n (M : R -> 'M[R]_(m, n)) d1 d2 : mx_deriv M t0 d1 -> mx_deriv M t0 d2 -> d1 = d2.
Proof. by move=> H1 H2; apply/matrixP => i j; exact: (uniqueness_limite _ _ _ _ (H1 i j) (H2 i j)). Qed.

(** Jacobi's formula *)
Lemma mxd_det n (M : R -> 'M[R]_n) dM : mx_deriv M t0 dM -> derivable_pt_lim (fun t => \det (M t)) t0 (\tr (dM *m \adj (M t0))).
Proof.
move=> H. rewrite [X in derivable_pt_lim _ _ X](_ : _ = \sum_(s : 'S_n) ((-1) ^+ s * \sum_k \prod_i (if i == k then dM k (s k) else M t0 i (s i)))%mx).
- rewrite /determinant. apply: dpl_sum => s.
  apply: (derivable_pt_lim_scal (fun t => \prod_i M t i (s i)) ((-1) ^+ s)%mx).
  have := @dpl_prod _ (index_enum (ordinal_finType n)) (fun i t => M t i (s i)) (fun i => dM i (s i)) t0 (index_enum_uniq _). by apply=> i; exact: H.
- transitivity (\sum_k \det (\matrix_(i, j) (if i == k then dM k j else M t0 i j))).
  + rewrite /mxtrace. apply: eq_bigr => k _. rewrite mxE (expand_det_row _ k). apply: eq_bigr => j _. rewrite !mxE eqxx. congr (_ * _).
    rewrite /cofactor. congr (_ * _). congr determinant. apply/matrixP => a b. rewrite !mxE. by rewrite eq_sym (negbTE (neq_lift _ _)).
  + rewrite /determinant exchange_big /=. apply: eq_bigr => s _. rewrite big_distrr /=. apply: eq_bigr => k _. congr (_ * _).
    apply: eq_bigr => i _. rewrite mxE. by case: eqP => [->|].
Qed.

Lemma mxd_cofactor n (M : R -> 'M[R]_n) dM i j : mx_deriv M t0 dM -> exists d, derivable_pt_lim (fun t => cofactor (M t) i j) t0 d.
Proof.
move=> H. have H' : mx_deriv (fun t => row' i (col' j (M t))) t0 (row' i (col' j dM)).
{ move=> a b. rewrite !mxE. apply: (dpl_ext (f := fun t => M t (lift i a) (lift j b))); [by move=> x; rewrite !mxE|exact: H]. }
eexists. exact: (derivable_pt_lim_scal (fun t => \det (row' i (col' j (M t)))) ((-1) ^+ (i + j))%mx _ _ (mxd_det H')).
Qed.

Lemma invmxE n (A : 'M[R]_n) : A \in unitmx -> invmx A = (/ \det A)%Re *: \adj A.
Proof. by rewrite /invmx => ->. Qed.

(** the inverse is differentiable, with the well known derivative *)
Lemma mxd_inv n (M : R -> 'M[R]_n) dM : (forall t, M t \in unitmx) -> mx_deriv M t0 dM ->
  mx_deriv (fun t => invmx (M t)) t0 (- (invmx (M t0) *m dM *m invmx (M t0))).
Proof.
move=> U H.
have [dN HN] : exists dN, mx_deriv (fun t => invmx (M t)) t0 dN.
{ have HE : forall i j, exists d, derivable_pt_lim (fun t => invmx (M t) i j) t0 d.
  { move=> i j. case: (mxd_cofactor j i H) => d Hd.
    have D0 : \det (M t0) <> 0%Re by move: (U t0); rewrite unitmxE unitfE => /eqP.
    exists ((d * \det (M t0) - \tr (dM *m \adj (M t0))%mx * cofactor (M t0) j i) / Rsqr (\det (M t0)))%Re.
    apply: (dpl_ext (f := fun t => (cofactor (M t) j i / \det (M t))%Re)).
    - move=> t. rewrite (invmxE (U t)) !mxE rmulE Rmult_comm //.
    - exact: (derivable_pt_lim_div (fun t => cofactor (M t) j i) (fun t => \det (M t)) _ _ _ Hd (mxd_det H) D0). }
  have [F HF] : exists F : 'I_n * 'I_n -> R, forall p, derivable_pt_lim (fun t => invmx (M t) p.1 p.2) t0 (F p).
  { exists (fun p => proj1_sig (ClassicalEpsilon.constructive_indefinite_description _ (HE p.1 p.2))) => p. exact: proj2_sig (ClassicalEpsilon.constructive_indefinite_description _ _). }
  exists (\matrix_(i, j) F (i, j)) => i j. rewrite mxE. exact: (HF (i, j)). }
have E : dM *m invmx (M t0) + M t0 *m dN = 0.
{ apply: (mxd_uniq (M := fun _ => 1%:M)); last exact: mxd_const. apply: (mxd_ext _ (mxd_mul H HN)) => t. exact: mulmxV. }
suff -> : - (invmx (M t0) *m dM *m invmx (M t0)) = dN by [].
have : invmx (M t0) *m (dM *m invmx (M t0) + M t0 *m dN) = 0 by rewrite E mulmx0.
rewrite mulmxDr !mulmxA (mulVmx (U t0)) mul1mx => /eqP. by rewrite addr_eq0 => /eqP ->; rewrite opprK.
Qed.

Lemma mxd_lndet n (M : R -> 'M[R]_n) dM : (forall t, (0 < \det (M t))%Re) -> mx_deriv M t0 dM ->
  derivable_pt_lim (fun t => ln (\det (M t))) t0 (\tr (invmx (M t0) *m dM)).
Proof.
move=> P H. have U : M t0 \in unitmx by rewrite unitmxE unitfE; apply/eqP => E; move: (P t0); rewrite E => /Rlt_irrefl.
rewrite [X in derivable_pt_lim _ _ X](_ : _ = (/ \det (M t0) * \tr (dM *m \adj (M t0))%mx)%Re).
- exact: (derivable_pt_lim_comp (fun t => \det (M t)) ln _ _ _ (mxd_det H) (derivable_pt_lim_ln _ (P t0))).
- by rewrite (invmxE U) -scalemxAl mxtraceZ mxtrace_mulC.
Qed.

(** derivative of log det A + tr (A^-1 B) *)
Lemma mxd_logprod n (A B : R -> 'M[R]_n) dA dB : (forall t, (0 < \det (A t))%Re) -> mx_deriv A t0 dA -> mx_deriv B t0 dB ->
  derivable_pt_lim (fun t => (ln (\det (A t)) + \tr (invmx (A t) *m B t)%mx)%Re) t0
    (\tr (invmx (A t0) *m (dA + dB - dA *m (invmx (A t0) *m B t0)))).
Proof.
move=> P HA HB. have U : forall t, A t \in unitmx by move=> t; rewrite unitmxE unitfE; apply/eqP => E; move: (P t); rewrite E => /Rlt_irrefl.
rewrite [X in derivable_pt_lim _ _ X](_ : _ = (\tr (invmx (A t0) *m dA)%mx + \tr ((- (invmx (A t0) *m dA *m invmx (A t0))) *m B t0 + invmx (A t0) *m dB)%mx)%Re).
- apply: derivable_pt_lim_plus; first exact: mxd_lndet. apply: mxd_trace. apply: mxd_mul => //. exact: mxd_inv.
- rewrite -raddE -mxtraceD. congr mxtrace. rewrite !(mulmxDr, mulNmx, mulmxN) !mulmxA. mxab.
Qed.
End Calc.
