(** Real matrices: the Coq real numbers as a mathcomp field, so that mathcomp's matrices,
    determinants and inverses can be used.  This is mathematics only, no code of /repo is modelled here. *)
From mathcomp Require Import all_ssreflect all_algebra.
From Coq Require Import Reals Lra ClassicalEpsilon.
Set Implicit Arguments.
Unset Strict Implicit.
Unset Printing Implicit Defensive.
Import GRing.Theory.

Section RInst.
Local Open Scope R_scope.
Definition eqr (r1 r2 : R) : bool := if Req_EM_T r1 r2 then true else false.
Lemma eqrP : Equality.axiom eqr.
Proof. by move=> r1 r2; rewrite /eqr; case: Req_EM_T => /= H; constructor. Qed.
Definition R_eqMixin := EqMixin eqrP.
Canonical R_eqType := Eval hnf in EqType R R_eqMixin.

Lemma R_choice_ex (P : pred R) (H : exists x, P x) : { x | P x }.
Proof. by apply: constructive_indefinite_description. Qed.
Definition R_find (P : pred R) (n : nat) : option R :=
  match excluded_middle_informative (exists x, P x) with
  | left H => Some (sval (R_choice_ex H))
  | right _ => None
  end.
Lemma R_choiceMixin : choiceMixin R.
Proof.
apply: (@Choice.Mixin _ R_find).
- move=> P n x; rewrite /R_find; case: excluded_middle_informative => // H [<-]; exact: (svalP (R_choice_ex H)).
- move=> P [x Px]; exists 0%nat; rewrite /R_find; case: excluded_middle_informative => //; by case; exists x.
- move=> P Q H n. have E : P = Q by apply: FunctionalExtensionality.functional_extensionality => x; exact: H.
  by rewrite E.
Qed.
Canonical R_choiceType := Eval hnf in ChoiceType R R_choiceMixin.

Fact RplusA : associative Rplus. Proof. by move=> *; rewrite Rplus_assoc. Qed.
Definition R_zmodMixin := ZmodMixin RplusA Rplus_comm Rplus_0_l Rplus_opp_l.
Canonical R_zmodType := Eval hnf in ZmodType R R_zmodMixin.
Fact RmultA : associative Rmult. Proof. by move=> *; rewrite Rmult_assoc. Qed.
Fact R1_neq_0 : (1 : R_zmodType) != (0 : R_zmodType). Proof. by apply/eqP/R1_neq_R0. Qed.
Definition R_ringMixin := RingMixin RmultA Rmult_1_l Rmult_1_r Rmult_plus_distr_r Rmult_plus_distr_l R1_neq_0.
Canonical R_ringType := Eval hnf in RingType R R_ringMixin.
Canonical R_comRingType := Eval hnf in ComRingType R Rmult_comm.

Fact Rmulvx : GRing.Field.axiom (R := R_ringType) Rinv.
Proof. by move=> x /eqP Hx; exact: Rinv_l. Qed.
Definition R_unitMixin := FieldUnitMixin Rmulvx Rinv_0.
Canonical R_unitRingType := Eval hnf in UnitRingType R R_unitMixin.
Canonical R_comUnitRingType := Eval hnf in [comUnitRingType of R].
Definition R_fieldMixin := @FieldMixin R_comUnitRingType Rinv Rmulvx Rinv_0.
Definition R_idomainMixin := FieldIdomainMixin R_fieldMixin.
Canonical R_idomainType := Eval hnf in IdomainType R R_idomainMixin.
Canonical R_fieldType := Eval hnf in FieldType R R_fieldMixin.
End RInst.


(** Coq's notations for real numbers keep a delimiter of their own. *)
Delimit Scope R_scope with Re.
Delimit Scope ring_scope with mx.

(** Translation between the two vocabularies. *)
Lemma raddE (x y : R) : GRing.add x y = Rplus x y. Proof. by []. Qed.
Lemma roppE (x : R) : GRing.opp x = Ropp x. Proof. by []. Qed.
Lemma rmulE (x y : R) : GRing.mul x y = Rmult x y. Proof. by []. Qed.
Lemma r0E : (GRing.zero R_zmodType) = 0%Re. Proof. by []. Qed.
Lemma r1E : (GRing.one R_ringType) = 1%Re. Proof. by []. Qed.
Lemma rinvE (x : R) : GRing.inv x = Rinv x. Proof. by []. Qed.
Lemma rscaleE (x y : R) : GRing.scale (x : R) (y : R^o) = Rmult x y. Proof. by []. Qed.
Definition rE := (raddE, roppE, rmulE, r0E, r1E, rinvE).
(** [lra] after normalising the type of equations. *)
Ltac req := repeat match goal with
  | H : @eq ?T ?a ?b |- _ => lazymatch T with R => fail | _ => change (@eq R a b) in H end
  | |- @eq ?T ?a ?b => lazymatch T with R => fail | _ => change (@eq R a b) end
  end.
Ltac rlra := req; rewrite ?rE in |- *; lra.

Local Open Scope ring_scope.

(** ** Quadratic forms, symmetric, positive definite and semidefinite matrices *)
Definition quad n (A : 'M[R]_n) (x : 'cV[R]_n) : R := (x^T *m A *m x) ord0 ord0.
Definition symmetric n (A : 'M[R]_n) : Prop := A^T = A.
Definition posdef n (A : 'M[R]_n) : Prop := symmetric A /\ forall x, x != 0 -> (0 < quad A x)%Re.
Definition psd n (A : 'M[R]_n) : Prop := symmetric A /\ forall x, (0 <= quad A x)%Re.

Lemma mx11 (A : 'M[R]_1) : A = (A ord0 ord0)%:M.
Proof. exact: mx11_scalar. Qed.

Lemma quadD n (A B : 'M[R]_n) x : quad (A + B) x = (quad A x + quad B x)%Re.
Proof. by rewrite /quad mulmxDr mulmxDl mxE. Qed.
Lemma quadN n (A : 'M[R]_n) x : quad (- A) x = (- quad A x)%Re.
Proof. by rewrite /quad mulmxN mulNmx mxE. Qed.
Lemma quadZ n k (A : 'M[R]_n) x : quad (k *: A) x = (k * quad A x)%Re.
Proof. by rewrite /quad -scalemxAr -scalemxAl mxE. Qed.
Lemma quad_cong m n (B : 'M[R]_(m, n)) (A : 'M[R]_n) x : quad (B *m A *m B^T) x = quad A (B^T *m x).
Proof. by rewrite /quad trmx_mul trmxK !mulmxA. Qed.
Lemma quad0 n (A : 'M[R]_n) : quad A 0 = 0%Re.
Proof. by rewrite /quad mulmx0 mxE. Qed.
Lemma quad_1 n (x : 'cV[R]_n) : quad 1%:M x = (\sum_i (x i ord0 * x i ord0))%R.
Proof. by rewrite /quad mulmx1 mxE; apply: eq_bigr => i _; rewrite mxE. Qed.

Lemma sum_ge0 (I : finType) (F : I -> R) : (forall i, (0 <= F i)%Re) -> (0 <= \sum_i F i)%Re.
Proof.
move=> H; apply: (big_ind (fun x : R => (0 <= x)%Re)) => //; first exact: Rle_refl.
by move=> x y Hx Hy; rewrite rE; lra.
Qed.
Lemma nonneg_add0 (a b : R) : (0 <= a)%Re -> (0 <= b)%Re -> (a + b)%Re = 0%Re -> a = 0%Re.
Proof. move=> *; lra. Qed.
Lemma sum_eq0 (I : finType) (F : I -> R) : (forall i, (0 <= F i)%Re) -> \sum_i F i = 0%Re -> forall i, F i = 0%Re.
Proof.
move=> H Hs i; move: Hs; rewrite (bigD1 i) //= rE => Hs.
have H2 : (0 <= \sum_(j | j != i) F j)%Re.
{ apply: (big_ind (fun x : R => (0 <= x)%Re)) => //; first exact: Rle_refl. by move=> x y Hx Hy; rewrite rE; lra. }
exact: (@nonneg_add0 _ _ (H i) H2 Hs).
Qed.
Lemma quad_1_ge0 n (x : 'cV[R]_n) : (0 <= quad 1%:M x)%Re.
Proof. rewrite quad_1; apply: sum_ge0 => i; exact: Rle_0_sqr. Qed.
Lemma quad_1_eq0 n (x : 'cV[R]_n) : quad 1%:M x = 0%Re -> x = 0.
Proof.
rewrite quad_1 => H; apply/matrixP => i j; rewrite ord1 mxE.
have Hi : (x i ord0 * x i ord0)%Re = 0%Re.
{ apply: (sum_eq0 (F := fun i => (x i ord0 * x i ord0)%Re)) => // k; exact: Rle_0_sqr. }
exact: Rsqr_0_uniq.
Qed.

Lemma posdef_psd n (A : 'M[R]_n) : posdef A -> psd A.
Proof.
move=> [HS HP]; split => // x; case: (x =P 0) => [-> | /eqP Hx]; first by rewrite quad0; exact: Rle_refl.
exact/Rlt_le/HP.
Qed.
Lemma psd0 n : psd (0 : 'M[R]_n).
Proof. split; first by rewrite /symmetric trmx0. by move=> x; rewrite /quad mulmx0 mul0mx mxE; exact: Rle_refl. Qed.
Lemma sym_add n (A B : 'M[R]_n) : symmetric A -> symmetric B -> symmetric (A + B).
Proof. by rewrite /symmetric => HA HB; rewrite linearD /= HA HB. Qed.
Lemma sym_opp n (A : 'M[R]_n) : symmetric A -> symmetric (- A).
Proof. by rewrite /symmetric => HA; rewrite linearN /= HA. Qed.
Lemma sym_cong m n (B : 'M[R]_(m, n)) (A : 'M[R]_n) : symmetric A -> symmetric (B *m A *m B^T).
Proof. by rewrite /symmetric => HA; rewrite !trmx_mul trmxK HA mulmxA. Qed.
Lemma sym_inv n (A : 'M[R]_n) : symmetric A -> symmetric (invmx A).
Proof. by rewrite /symmetric => HA; rewrite trmx_inv HA. Qed.
Lemma psd_add n (A B : 'M[R]_n) : psd A -> psd B -> psd (A + B).
Proof. move=> [SA PA] [SB PB]; split; first exact: sym_add. move=> x; rewrite quadD; move: (PA x) (PB x); lra. Qed.
Lemma posdef_add n (A B : 'M[R]_n) : psd A -> posdef B -> posdef (A + B).
Proof. move=> [SA PA] [SB PB]; split; first exact: sym_add. move=> x Hx; rewrite quadD; move: (PA x) (PB x Hx); lra. Qed.
Lemma psd_cong m n (B : 'M[R]_(m, n)) (A : 'M[R]_n) : psd A -> psd (B *m A *m B^T).
Proof. move=> [SA PA]; split; first exact: sym_cong. by move=> x; rewrite quad_cong. Qed.
Lemma posdef1 n : posdef (1%:M : 'M[R]_n).
Proof.
split; first by rewrite /symmetric trmx1. move=> x /eqP Hx.
case: (Rle_lt_or_eq_dec _ _ (quad_1_ge0 x)) => // H; case: Hx; exact: quad_1_eq0.
Qed.

Lemma posdef_unit n (A : 'M[R]_n) : posdef A -> A \in unitmx.
Proof.
move=> [SA PA]; rewrite unitmxE unitfE; apply/negP => /det0P [v Hv HvA].
have H : (0 < quad A v^T)%Re. { apply: PA. apply: contraNneq Hv => H. by rewrite -[v]trmxK H trmx0. }
move: H; rewrite /quad trmxK HvA mul0mx mxE => H; exact: (Rlt_irrefl _ H).
Qed.

Lemma posdef_inv n (A : 'M[R]_n) : posdef A -> posdef (invmx A).
Proof.
move=> HA; have HU := posdef_unit HA; case: HA => SA PA; split; first exact: sym_inv.
move=> x Hx. have E : quad (invmx A) x = quad A (invmx A *m x).
{ by rewrite /quad trmx_mul (sym_inv SA) -!mulmxA (mulmxA A) (mulmxV HU) mul1mx. }
rewrite E; apply: PA; apply: contraNneq Hx => H. by rewrite -[x]mul1mx -(mulmxV HU) -mulmxA H mulmx0.
Qed.

(** Decides identities between sums of matrices, products being treated as opaque. *)
Ltac mxnorm :=
  repeat match goal with |- context [@trmx ?T ?m ?n ?A] => lazymatch T with R => fail | _ => change (@trmx T m n A) with (@trmx R m n A) end end;
  repeat match goal with |- context [@mulmx ?T ?m ?n ?p ?A ?B] => lazymatch T with R_ringType => fail | _ => change (@mulmx T m n p A B) with (@mulmx R_ringType m n p A B) end end.
Ltac mxab := mxnorm;
  repeat match goal with |- context [@mulmx ?Rg ?m ?n ?p ?A ?B] => generalize (@mulmx Rg m n p A B); intro end;
  apply/matrixP; let i := fresh "i" in let j := fresh "j" in intros i j; rewrite ?mxE;
  repeat match goal with |- context [@fun_of_matrix ?Rg ?m ?n ?A i j] => lazymatch Rg with R => fail | _ => change (@fun_of_matrix Rg m n A i j) with (@fun_of_matrix R m n A i j) end end;
  repeat match goal with |- context [@fun_of_matrix ?Rg ?m ?n ?A i j] => generalize (@fun_of_matrix Rg m n A i j); intro end;
  rewrite ?rE; req; ring.
Lemma trD m n (A B : 'M[R]_(m, n)) : (A + B)^T = A^T + B^T. Proof. by apply/matrixP => i j; rewrite !mxE. Qed.
Lemma trB m n (A B : 'M[R]_(m, n)) : (A - B)^T = A^T - B^T. Proof. by apply/matrixP => i j; rewrite !mxE. Qed.
Lemma trN m n (A : 'M[R]_(m, n)) : (- A)^T = - A^T. Proof. by apply/matrixP => i j; rewrite !mxE. Qed.
Lemma trZ m n a (A : 'M[R]_(m, n)) : (a *: A)^T = a *: A^T. Proof. by apply/matrixP => i j; rewrite !mxE. Qed.
