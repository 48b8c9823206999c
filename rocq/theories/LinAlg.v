(** Facts about Cholesky factors, determinants and Schur complements. *)
From mathcomp Require Import all_ssreflect all_algebra.
From Coq Require Import Reals Lra.
From Verif Require Import Base RMat KalmanModel.
Set Implicit Arguments.
Unset Strict Implicit.
Unset Printing Implicit Defensive.
Import GRing.Theory.
Local Open Scope ring_scope.

Lemma block_eq m1 m2 n1 n2 (A A' : 'M[R]_(m1, n1)) (B B' : 'M[R]_(m1, n2)) (C C' : 'M[R]_(m2, n1)) (D D' : 'M[R]_(m2, n2)) :
  A = A' -> B = B' -> C = C' -> D = D' -> block_mx A B C D = block_mx A' B' C' D'.
Proof. by move=> -> -> -> ->. Qed.

Lemma block_sym n (A : 'M[R]_(1 + n)) : symmetric A ->
  A = block_mx (A ord0 ord0)%:M (ursubmx A) (ursubmx A)^T (drsubmx A).
Proof.
move=> SA; rewrite -{1}[A]submxK; congr block_mx.
- by rewrite [LHS]mx11_scalar !mxE; congr (A _ _)%:M; apply/val_inj.
- by rewrite trmx_ursub SA.
Qed.

Lemma chol_gram n (A U : 'M[R]_n) : symmetric A -> chol A = Ok U -> U^T *m U = A.
Proof.
elim: n A U => [|n IH] A U SA; first by move=> _; apply/matrixP => [[]].
rewrite /=; set a := A ord0 ord0; case: Rle_dec => // Ha; set r := @ursubmx _ 1 n 1 n A.
case E: (chol _) => [U'|] // [<-].
have {}SA : symmetric (A : 'M_(1 + n)) by [].
have Sd : symmetric (@drsubmx _ 1 n 1 n A) by rewrite /symmetric trmx_drsub SA.
have SS : symmetric (@drsubmx _ 1 n 1 n A - (/ a)%Re *: (r^T *m r)).
{ by rewrite /symmetric linearB /= linearZ /= trmx_mul trmxK Sd. }
have {IH}HU := IH _ _ SS E.
have Ha' : (0 < a)%Re by lra.
have Hs : (sqrt a * sqrt a)%Re = a by apply: sqrt_sqrt; lra.
have Hs0 : sqrt a <> 0%Re by move: (sqrt_lt_R0 _ Ha'); lra.
rewrite (@tr_block_mx _ 1 n 1 n) (@mulmx_block _ 1 n 1 n 1 n).
rewrite [RHS](block_sym SA) -/a -/r. rewrite !tr_scalar_mx !trmx0 !mul0mx !mulmx0 !addr0 HU.
apply: (@block_eq 1 n 1 n).
- by rewrite -scalar_mxM; congr _%:M.
- rewrite mul_scalar_mx scalerA rE Rinv_r // -[X in X *: _]/(1 : R) scale1r //.
- rewrite linearZ /= mul_mx_scalar scalerA rE Rinv_r // -[X in X *: _]/(1 : R) scale1r //.
- rewrite !linearZ /= -scalemxAl scalerA rE -Rinv_mult Hs addrC.
  by rewrite scalerN subrK.
Qed.

(** Upper triangular with positive diagonal. *)
Definition uptri n (U : 'M[R]_n) : Prop := (forall i j : 'I_n, (j < i)%nat -> U i j = 0) /\ forall i, (0 < U i i)%Re.

Lemma chol_uptri n (A U : 'M[R]_n) : chol A = Ok U -> uptri U.
Proof.
elim: n A U => [|n IH] A U; first by move=> _; split; [move=> [] | move=> []].
rewrite /=; set a := A ord0 ord0; case: Rle_dec => // Ha; set r := @ursubmx _ 1 n 1 n A.
case E: (chol _) => [U'|] // [<-]. have {IH}[T1 T2] := IH _ _ E.
have Ha' : (0 < sqrt a)%Re by apply: sqrt_lt_R0; lra.
split.
- move=> i j; rewrite !mxE; case: (@splitP 1 n i) => i' Hi; rewrite mxE; case: (@splitP 1 n j) => j' Hj; rewrite ?mxE Hi Hj.
  + by rewrite !ord1.
  + by rewrite ord1 /= ltnNge.
  + by [].
  + rewrite ltn_add2l; exact: T1.
- move=> i; rewrite !mxE; case: (@splitP 1 n i) => i' Hi; rewrite mxE; case: (@splitP 1 n i) => j' Hj; rewrite ?mxE.
  + by rewrite !ord1 eqxx mulr1n.
  + by move: Hi; rewrite Hj ord1.
  + by move: Hi; rewrite Hj ord1.
  + have -> : i' = j'. { apply/val_inj/eqP; by rewrite -(eqn_add2l 1) -Hi -Hj. }
    exact: T2.
Qed.

Lemma block_00 n (A : 'M[R]_1) (B : 'M[R]_(1, n)) (C : 'M[R]_(n, 1)) (D : 'M[R]_n) (i : 'I_(1 + n)) : nat_of_ord i = 0%nat ->
  block_mx A B C D i i = A ord0 ord0.
Proof. move=> Hi. have -> : i = @lshift 1 n ord0 by apply/val_inj. by rewrite block_mxEul. Qed.
Lemma block_SS n (A : 'M[R]_1) (B : 'M[R]_(1, n)) (C : 'M[R]_(n, 1)) (D : 'M[R]_n) (i : 'I_(1 + n)) (j : 'I_n) : nat_of_ord i = j.+1 ->
  block_mx A B C D i i = D j j.
Proof. move=> Hi. have -> : i = @rshift 1 n j by apply/val_inj. by rewrite block_mxEdr. Qed.

Lemma chol_logdet_U n (A U : 'M[R]_n) : chol A = Ok U -> (0 < \det U)%Re /\ ln (\det U) = \sum_i ln (U i i).
Proof.
elim: n A U => [|n IH] A U; first by move=> _; rewrite det_mx00 big_ord0 ln_1; split => //; exact: Rlt_0_1.
rewrite /=; set a := A ord0 ord0; case: Rle_dec => // Ha; set r := @ursubmx _ 1 n 1 n A.
case E: (chol _) => [U'|] // [<-]. have {IH}[T1 T2] := IH _ _ E.
have Ha' : (0 < sqrt a)%Re by apply: sqrt_lt_R0; lra.
rewrite (@det_ublock _ 1 n) det_scalar expr1 rE. split; first exact: Rmult_lt_0_compat.
rewrite ln_mult // T2 big_ord_recl; congr Rplus.
- by rewrite block_00 // mxE eqxx mulr1n.
- by apply: eq_bigr => i _; rewrite (@block_SS _ _ _ _ _ _ i).
Qed.

Lemma chol_unit n (A U : 'M[R]_n) : chol A = Ok U -> U \in unitmx.
Proof. move=> H; rewrite unitmxE unitfE; apply/eqP => E; move: (chol_logdet_U H) => [H2 _]; rewrite E in H2; exact: (Rlt_irrefl _ H2). Qed.

Lemma chol_det n (A U : 'M[R]_n) : symmetric A -> chol A = Ok U -> (0 < \det A)%Re /\ cho_logdet U = ln (\det A).
Proof.
move=> SA H; have [D1 D2] := chol_logdet_U H; rewrite -(chol_gram SA H) det_mulmx det_tr rE.
split; first exact: Rmult_lt_0_compat. rewrite /cho_logdet ln_mult // -D2 Rmult_comm; exact: double.
Qed.

Lemma chol_posdef n (A U : 'M[R]_n) : symmetric A -> chol A = Ok U -> posdef A.
Proof.
move=> SA H; split => // x Hx. have HU := chol_unit H.
have -> : quad A x = quad 1%:M (U *m x) by rewrite -(chol_gram SA H) /quad trmx_mul mulmx1 !mulmxA.
case: (posdef1 n) => _; apply; apply: contraNneq Hx => E. by rewrite -[x]mul1mx -(mulVmx HU) -mulmxA E mulmx0.
Qed.

Lemma chol_total n (A : 'M[R]_n) : posdef A -> exists U, chol A = Ok U.
Proof.
elim: n A => [|n IH] A [SA PA]; first by exists A.
rewrite /=; set a := A ord0 ord0; set r := @ursubmx _ 1 n 1 n A.
have {}SA : symmetric (A : 'M_(1 + n)) by [].
have HB := block_sym SA. rewrite -/a -/r in HB.
have Ha : (0 < a)%Re.
{ have H1 : (col_mx 1%:M 0 : 'cV[R]_(1 + n)) != 0.
  { apply/eqP => /matrixP /(_ (lshift n ord0) ord0). by rewrite col_mxEu !mxE /= => /eqP; rewrite oner_eq0. }
  move: (PA _ H1); rewrite /quad [in X in X -> _]HB (@tr_col_mx _ 1 n) (@mul_row_block _ 1 1 n 1 n) (@mul_row_col _ 1 1 n) trmx0 !mul0mx mulmx0 !addr0 trmx1 mulmx1 mul1mx mxE eqxx mulr1n //. }
case: Rle_dec => Ha2; first by lra.
have Sd : symmetric (@drsubmx _ 1 n 1 n A) by rewrite /symmetric trmx_drsub SA.
case: (IH (@drsubmx _ 1 n 1 n A - (/ a)%Re *: (r^T *m r))).
{ split; first by rewrite /symmetric linearB /= linearZ /= trmx_mul trmxK Sd.
  move=> x Hx. set c := - ((/ a)%Re *: (r *m x)).
  have Hne : (col_mx c x : 'cV[R]_(1 + n)) != 0.
  { apply: contraNneq Hx => E. move/(congr1 (@dsubmx _ 1 n 1)): E; by rewrite col_mxKd linear0 => ->. }
  move: (PA _ Hne). suff -> : quad (A : 'M_(1 + n)) (col_mx c x) = quad (drsubmx (A : 'M_(1 + n)) - (/ a)%Re *: (r^T *m r)) x by [].
  rewrite [in LHS]HB /quad (@tr_col_mx _ 1 n) (@mul_row_block _ 1 1 n 1 n) (@mul_row_col _ 1 1 n).
  have E1 : c^T *m a%:M + x^T *m r^T = 0.
  { have Ha0 : a <> 0%Re by lra.
    rewrite /c linearN /= linearZ /= mul_mx_scalar scalerN scalerA rE (Rinv_r _ Ha0) trmx_mul.
    by rewrite -[X in X *: _]/(1 : R) scale1r addNr. }
  rewrite E1 mul0mx add0r mulmxBr mulmxBl mulmxDl addrC /c linearN /= linearZ /= trmx_mul !mulNmx.
  by rewrite -!scalemxAl -!scalemxAr -!scalemxAl !mulmxA. }
move=> U ->. by eexists.
Qed.

Lemma posdef_det n (A : 'M[R]_n) : posdef A -> (0 < \det A)%Re.
Proof. move=> HA; case: (chol_total HA) => U HU; case: HA => SA _; exact: (proj1 (chol_det SA HU)). Qed.

Lemma cho_solveE m n (A U : 'M[R]_m) (b : 'M[R]_(m, n)) : symmetric A -> chol A = Ok U -> cho_solve U b = invmx A *m b.
Proof. by move=> SA H; rewrite /cho_solve (chol_gram SA H). Qed.

(** Determinant of a block matrix by either Schur complement. *)
Lemma det_schur_ul m n (A : 'M[R]_m) (B : 'M[R]_(m, n)) (C : 'M[R]_(n, m)) (D : 'M[R]_n) : A \in unitmx ->
  \det (block_mx A B C D) = \det A * \det (D - C *m invmx A *m B).
Proof.
move=> HA. have -> : block_mx A B C D = block_mx 1%:M 0 (C *m invmx A) 1%:M *m block_mx A B 0 (D - C *m invmx A *m B).
{ rewrite mulmx_block !mul1mx !mul0mx ?mulmx0 !addr0. rewrite -(mulmxA C) (mulVmx HA) mulmx1. congr block_mx. by rewrite addrC subrK. }
by rewrite det_mulmx det_lblock det_ublock !det1 !mul1r.
Qed.
Lemma det_schur_dr m n (A : 'M[R]_m) (B : 'M[R]_(m, n)) (C : 'M[R]_(n, m)) (D : 'M[R]_n) : D \in unitmx ->
  \det (block_mx A B C D) = \det D * \det (A - B *m invmx D *m C).
Proof.
move=> HD. have -> : block_mx A B C D = block_mx (A - B *m invmx D *m C) (B *m invmx D) 0 1%:M *m block_mx 1%:M 0 C D.
{ rewrite mulmx_block !mul0mx !mulmx0 !mulmx1 ?mul1mx !add0r. rewrite subrK -(mulmxA B) (mulVmx HD) mulmx1 //. }
by rewrite det_mulmx det_lblock det_ublock !det1 !mul1r mulr1 mulrC.
Qed.
