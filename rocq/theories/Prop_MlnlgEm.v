(** Properties of the EM terms of mixed linear/nonlinear Gaussian models: C72 (the values are expected log densities),
    C73 (the gradients are derivatives of the values; where they are not). *)
From mathcomp Require Import all_ssreflect all_algebra.
From Coq Require Import Reals Lra List Lia.
From Verif Require Import Base RMat KalmanModel LinAlg Gauss Moments Storage MatDeriv LtvModel MlnlgModel MlnlgProofs MlnlgEmModel Prop_Kalman Prop_Ltv Prop_Mlnlg Prop_Rbps.
Set Implicit Arguments.
Unset Strict Implicit.
Unset Printing Implicit Defensive.
Import GRing.Theory.
Local Open Scope ring_scope.

(** sum of f 0, ..., f (N-1) *)
Definition total (N : nat) (f : nat -> R) : R := List.fold_right Rplus 0%Re (tab N f).
(** row of a smoothed particle: xi | z | P | cov(z, z') | rest *)
Definition srow lxi lz (xi : 'cV[R]_lxi) (z : 'cV[R]_lz) (P M : 'M[R]_lz) (rest : row) : row := rbrow xi z P (ravel M ++ rest)%SEQ.

Lemma rsum_tab N f : rsum (tab N f) = total N f.
Proof. rewrite /rsum fold_left_plus /total. ring. Qed.

Lemma num_c (a b k c : R) : (- (1 / 2) * (a + b) = - (1 / 2) * (k * c + a + b) + k / 2 * c)%Re. Proof. by field. Qed.

(** ** C72: values *)
Section L2.
Variables (lxi lz : nat).
Lemma block_J (B : 'M[R]_lz) : col_mx (0 : 'M[R]_(lxi, lz)) 1%:M *m B *m (col_mx (0 : 'M[R]_(lxi, lz)) 1%:M)^T = block_mx 0 0 0 B.
Proof. by rewrite tr_col_mx trmx0 trmx1 mul_col_mx mul0mx mul1mx mul_col_row !mulmx0 !mulmx1 ?mul0mx. Qed.
Lemma row_J k (B : 'M[R]_(k, lz)) : B *m (col_mx (0 : 'M[R]_(lxi, lz)) 1%:M)^T = row_mx 0 B.
Proof. by rewrite tr_col_mx trmx0 trmx1 mul_mx_row mulmx0 mulmx1. Qed.
Lemma J_col (b : 'cV[R]_lz) : col_mx (0 : 'M[R]_(lxi, lz)) 1%:M *m b = col_mx 0 b.
Proof. by rewrite mul_col_mx mul0mx mul1mx. Qed.

Lemma ml_l2_moment Om (E : (Om -> R) -> R) (x x' : Om -> 'cV[R]_lz) (xin : 'cV[R]_lxi) z P zn Pn (A : 'M[R]_(lxi + lz, lz)) f M : expectation E ->
  has_mean E x z -> has_cov E x z P -> has_mean E x' zn -> has_cov E x' zn Pn -> cross_cov E x z x' zn = M ->
  Emx E (fun w => (col_mx xin (x' w) - (A *m x w + f)) *m (col_mx xin (x' w) - (A *m x w + f))^T) = ml_l2 (xin, zn, Pn) z P M A f.
Proof.
move=> HE Hx HP Hx' HPn HM. rewrite /ml_l2 /compute_l2 /= /pred_err.
set perr := col_mx xin zn - f - A *m z. set J := col_mx (0 : 'M[R]_(lxi, lz)) 1%:M.
pose a w := J *m (x' w - zn) - A *m (x w - z).
have Ha : Emx E a = 0 by rewrite (Emx_sub HE) !(Emx_mull HE) (E_centred HE Hx) (E_centred HE Hx') !mulmx0 subr0.
transitivity (Emx E (fun w => (a w + perr) *m (a w + perr)^T)).
{ apply: Emx_ext => w. have -> : col_mx xin (x' w) - (A *m x w + f) = a w + perr; last by [].
  rewrite /a /perr (mulmxBr A) J_col. have -> : col_mx xin (x' w) = col_mx xin zn + col_mx 0 (x' w - zn) by rewrite add_col_mx addr0 (addrC zn) subrK. mxab. }
rewrite (E_second _ HE Ha).
transitivity (perr *m perr^T + Emx E (fun w => J *m ((x' w - zn) *m (x' w - zn)^T) *m J^T + A *m ((x w - z) *m (x w - z)^T) *m A^T
   - (A *m ((x w - z) *m (x' w - zn)^T) *m J^T)^T - (A *m ((x w - z) *m (x' w - zn)^T)) *m J^T)).
{ congr (_ + _). apply: Emx_ext => w. rewrite /a. move: (x' w - zn) (x w - z) => b c. rewrite trB !trmx_mul !trmxK mulmxBl !mulmxBr !mulmxA. mxab. }
rewrite !(Emx_sub HE) !(Emx_add HE) Emx_tr !(Emx_mulr HE) !(Emx_mull HE).
have E1 : Emx E (fun w => (x w - z) *m (x' w - zn)^T) = M by exact: HM.
have E2 : Emx E (fun w => (x w - z) *m (x w - z)^T) = P by exact: HP.
have E3 : Emx E (fun w => (x' w - zn) *m (x' w - zn)^T) = Pn by exact: HPn.
rewrite E1 E2 E3 /J block_J row_J tr_row_mx trmx0 trN.
have -> : row_mx 0 (- (A *m M)) = - row_mx (0 : 'M[R]_(lxi + lz, lxi)) (A *m M) by rewrite opp_row_mx oppr0.
have -> : col_mx 0 (- (A *m M)^T) = - col_mx (0 : 'M[R]_(lxi, lxi + lz)) (A *m M)^T by rewrite opp_col_mx oppr0.
move: (perr *m perr^T) (block_mx _ _ _ Pn) (A *m P *m A^T) (col_mx _ _) (row_mx _ _) => e1 e2 e3 e4 e5. mxab.
Qed.
Lemma ml_l3_moment Om (E : (Om -> R) -> R) m (x : Om -> 'cV[R]_lz) z P (C : 'M[R]_(m, lz)) h y : expectation E -> has_mean E x z -> has_cov E x z P ->
  Emx E (fun w => (y - (C *m x w + orzero h)) *m (y - (C *m x w + orzero h))^T) = ml_l3 y z P C h.
Proof.
move=> HE Hx HP. rewrite /ml_l3.
have -> : measurement_diff y z (Some C) h = y - C *m z - orzero h.
{ rewrite /measurement_diff. case: h => [h|] /=; rewrite add0r ?subr0 //. mxab. }
pose a w := - (C *m (x w - z)).
have Ha : Emx E a = 0 by rewrite (Emx_opp HE) (Emx_mull HE) (E_centred HE Hx) mulmx0 oppr0.
transitivity (Emx E (fun w => (a w + (y - C *m z - orzero h)) *m (a w + (y - C *m z - orzero h))^T)).
{ apply: Emx_ext => w. have -> : y - (C *m x w + orzero h) = a w + (y - C *m z - orzero h); last by []. rewrite /a mulmxBr. mxab. }
rewrite (E_second _ HE Ha). congr (_ + _).
transitivity (Emx E (fun w => C *m ((x w - z) *m (x w - z)^T) *m C^T)).
{ apply: Emx_ext => w. rewrite /a. move: (x w - z) => c. rewrite trN mulNmx mulmxN opprK trmx_mul !mulmxA //. }
by rewrite (Emx_mulr HE) (Emx_mull HE); congr (_ *m _ *m _).
Qed.
End L2.

Section Step.
Context {lxi lz m : nat} {U Y Tm : Type}.
Notation model := (mlnlg lxi lz m U Y Tm).
Variables (N : nat) (u : U) (t : Tm).
Variables (xi : nat -> 'cV[R]_lxi) (z : nat -> 'cV[R]_lz) (P M : nat -> 'M[R]_lz) (rest : nat -> row).
Variables (xin : nat -> 'cV[R]_lxi) (zn : nat -> 'cV[R]_lz) (Pn : nat -> 'M[R]_lz) (restn : nat -> row).
Let ps := tab N (fun i => srow (xi i) (z i) (P i) (M i) (rest i)).
Let pn := tab N (fun i => rbrow (xin i) (zn i) (Pn i) (restn i)).
Lemma Q_ident_same (L : model) (Axi : nat -> 'M[R]_(lxi, lz)) (fxi : nat -> 'cV[R]_lxi) (Qxi : nat -> 'M[R]_lxi) (Az : nat -> 'M[R]_lz) (fz : nat -> 'cV[R]_lz) (Qz : nat -> 'M[R]_lz) (Qc : nat -> 'M[R]_(lxi, lz)) :
  (forall i, (i < N)%coq_nat -> dynamics_at L ps u t i (Axi i) (fxi i) (Qxi i) (Az i) (fz i) (Qz i) (Qc i)) ->
  Q_identical L ps u t -> forall i, (i < N)%coq_nat -> noise_cov (Qxi 0%nat) (Qc 0%nat) (Qz 0%nat) = noise_cov (Qxi i) (Qc i) (Qz i).
Proof.
move=> HD HQ i Hi. have H0 : (0 < N)%coq_nat by lia. move: (HD _ Hi) (HD _ H0) HQ. rewrite /dynamics_at /Q_identical /lin_int /nonlin_int.
case: (ml_nonlin L ps u t) => [[oa og] oq]. case: (ml_lin L ps u t) => [[oa' og'] oq'] [_ [_ [H1 [_ [_ [H2 H3]]]]]] [_ [_ [G1 [_ [_ [G2 G3]]]]]].
case: oq H1 G1 => [?|] H1 G1; case: oq' H2 G2 => [?|] H2 G2; move: H3 G3; case: (ml_cross L ps u t) => [?|] H3 G3 //= _; rewrite /= in H1 G1 H2 G2. rewrite H1 in G1. rewrite H2 in G2. case: G1 => <-. case: G2 => <-. case: (ml_Qxiz L) H3 G3 => [c|].
- by move=> -> [->].
- by move=> -> ->.
Qed.
Lemma all_l2_ok (A : nat -> 'M[R]_(lxi + lz, lz)) (f : nat -> 'cV[R]_(lxi + lz)) (Q : nat -> 'M[R]_(lxi + lz)) :
  all_l2 ps pn (tab N (fun i => (A i, f i, Q i))) = Ok (tab N (fun i => ml_l2 (xin i, zn i, Pn i) (z i) (P i) (M i) (A i) (f i))).
Proof.
rewrite /all_l2 get_states_tab [rbind (Ok _) _]/= (mapr_tab (h := M)) => [|i _]; last exact: get_Mz_rbrow.
rewrite get_states_tab [rbind (Ok _) _]/= tab_length. apply: forr_ok => i Hi. by rewrite !idx_tab.
Qed.
End Step.

(** C72, transition term: for particles xi | z | P | M and next particles xi' | z' | P', the returned number is the sum over
    the particles of the expectation of log N((xi', z'); f(xi) + A(xi) z, Q(xi)) plus the constant (lxi + lz)/2 log(2 pi) for
    each, for every joint distribution of z and z' with the means, covariances and cross covariance the particles store. *)
Theorem C72_xnext_value : forall lxi lz m U Y Tm (L : mlnlg lxi lz m U Y Tm) N u t (xi : nat -> 'cV[R]_lxi) (z : nat -> 'cV[R]_lz) (P M : nat -> 'M[R]_lz) (rest : nat -> row)
  (xin : nat -> 'cV[R]_lxi) (zn : nat -> 'cV[R]_lz) (Pn : nat -> 'M[R]_lz) (restn : nat -> row)
  (Axi : nat -> 'M[R]_(lxi, lz)) (fxi : nat -> 'cV[R]_lxi) (Qxi : nat -> 'M[R]_lxi) (Az : nat -> 'M[R]_lz) (fz : nat -> 'cV[R]_lz) (Qz : nat -> 'M[R]_lz) (Qc : nat -> 'M[R]_(lxi, lz)),
  let ps := tab N (fun i => srow (xi i) (z i) (P i) (M i) (rest i)) in
  let pn := tab N (fun i => rbrow (xin i) (zn i) (Pn i) (restn i)) in
  (0 < N)%coq_nat ->
  (forall i, (i < N)%coq_nat -> dynamics_at L ps u t i (Axi i) (fxi i) (Qxi i) (Az i) (fz i) (Qz i) (Qc i) /\ posdef (noise_cov (Qxi i) (Qc i) (Qz i))) ->
  exists v, em_logp_xnext L ps pn u t = Ok (total N v) /\
    forall i, (i < N)%coq_nat -> forall Om (E : (Om -> R) -> R) (x x' : Om -> 'cV[R]_lz), expectation E ->
      has_mean E x (z i) -> has_cov E x (z i) (P i) -> has_mean E x' (zn i) -> has_cov E x' (zn i) (Pn i) -> cross_cov E x (z i) x' (zn i) = M i ->
      v i = (E (fun w => normal_logpdf (joint_mean (Axi i) (fxi i) (Az i) (fz i) (x w)) (noise_cov (Qxi i) (Qc i) (Qz i)) (col_mx (xin i) (x' w)))
             + INR (lxi + lz) / 2 * ln (2 * PI))%Re.
Proof.
move=> lxi lz m U Y Tm L N u t xi z P M rest xin zn Pn restn Axi fxi Qxi Az fz Qz Qc ps pn HN H.
have HD i Hi := proj1 (H i Hi). have HQ i Hi := proj2 (H i Hi).
pose A i := col_mx (Axi i) (Az i). pose f i := col_mx (fxi i) (fz i). pose Q i := noise_cov (Qxi i) (Qc i) (Qz i).
pose l2 i := ml_l2 (xin i, zn i, Pn i) (z i) (P i) (M i) (A i) (f i).
pose v i := (- (1 / 2) * (ln (\det (Q i)) + \tr (invmx (Q i) *m l2 i)%mx))%Re.
exists v. split.
- rewrite /em_logp_xnext (calc_AfQ_ok HD) [rbind (Ok _) _]/= all_l2_ok [rbind (Ok _) _]/= tab_length.
  have HI := Q_ident_same HD. case: ifP => HId.
  + rewrite idx_tab // [rbind (Ok _) _]/=. case: (chol_total (HQ _ HN)) => V HV. rewrite HV [rbind (Ok _) _]/=.
    rewrite (forr_ok (g := v)); first by rewrite /= rsum_tab.
    move=> i Hi. rewrite idx_tab //=. congr Ok. rewrite (HI HId _ Hi) in HV. exact: (qterm_cho_ok _ (HQ _ Hi) HV).
  + rewrite (forr_ok (g := v)); first by rewrite /= rsum_tab.
    move=> i Hi. rewrite !idx_tab // [rbind (Ok _) _]/=. case: (chol_total (HQ _ Hi)) => V HV. rewrite HV /=. congr Ok. exact: (qterm_cho_ok _ (HQ _ Hi) HV).
- move=> i Hi Om E x x' HE H1 H2 H3 H4 H5. rewrite (E_logpdf _ _ _ HE) /v /l2 -(ml_l2_moment (xin i) (A i) (f i) HE H1 H2 H3 H4 H5).
  have -> : Emx E (fun w => (col_mx (xin i) (x' w) - joint_mean (Axi i) (fxi i) (Az i) (fz i) (x w)) *m (col_mx (xin i) (x' w) - joint_mean (Axi i) (fxi i) (Az i) (fz i) (x w))^T) =
    Emx E (fun w => (col_mx (xin i) (x' w) - (A i *m x w + f i)) *m (col_mx (xin i) (x' w) - (A i *m x w + f i))^T).
  { apply: Emx_ext => w. have -> // : joint_mean (Axi i) (fxi i) (Az i) (fz i) (x w) = A i *m x w + f i. by rewrite /joint_mean /A /f mul_col_mx add_col_mx. }
  exact: num_c.
Qed.

(** the callback gives a C or an h, or a C is stored: otherwise a call raises *)
Definition has_meas lxi lz m U Y Tm (L : mlnlg lxi lz m U Y Tm) (ps : list row) (y : Y) (t : Tm) : Prop :=
  let '(_, oC, oh, _) := ml_meas L ps y t in ~ (oC = None /\ kf_C (ml_kf L) = None /\ oh = None).

Section Meas.
Context {lxi lz m : nat} {U Y Tm : Type}.
Notation model := (mlnlg lxi lz m U Y Tm).
Variables (N : nat) (y : Y) (t : Tm).
Variables (xi : nat -> 'cV[R]_lxi) (z : nat -> 'cV[R]_lz) (P : nat -> 'M[R]_lz) (rest : nat -> row).
Let ps := tab N (fun i => rbrow (xi i) (z i) (P i) (rest i)).
Variable L : model.
Variables (y' : 'cV[R]_m) (C : nat -> 'M[R]_(m, lz)) (h : nat -> 'cV[R]_m) (Rn : nat -> 'M[R]_m).
Hypothesis HM : forall i, (i < N)%coq_nat -> measurement_at L ps y t i y' (C i) (h i) (Rn i).
Hypothesis HC : has_meas L ps y t.
Hypothesis HN : (0 < N)%coq_nat.
(** the lists the code works with *)
Lemma meas_int_ok : exists Cz iC hz ih Rz iR, meas_int L ps y t = (y', (Cz, iC), (hz, ih), (Rz, iR)) /\
  (forall i, (i < N)%coq_nat -> at_ Cz i = Ok (C i)) /\
  (forall i, (i < N)%coq_nat -> exists o, idx hz i = Ok o /\ orzero o = h i) /\
  (forall i, (i < N)%coq_nat -> at_ Rz i = Ok (Rn i)) /\
  (iR -> forall i, (i < N)%coq_nat -> Rn 0%nat = Rn i) /\
  (iR = match ml_meas L ps y t with (_, _, _, None) => true | _ => false end).
Proof.
move: HM HC. rewrite /measurement_at /has_meas /meas_int. case: (ml_meas L ps y t) => [[[y1 oC] oh] oR] H Hc.
have Ey : y1 = y' by case: (H _ HN).
case EC : (match oC, kf_C (ml_kf L), oh with None, None, Some _ => _ | _, _, _ => _ end) => [Cz iC].
case Eh : (fill (length ps) oh (kf_h (ml_kf L))) => [hz ih]. case ER : (fill (length ps) oR (kf_R (ml_kf L))) => [Rz iR].
exists Cz, iC, hz, ih, Rz, iR. rewrite Ey. split; first by [].
have Lp : length ps = N by rewrite /ps tab_length. rewrite Lp in EC Eh ER. split; [|split; [|split; [|split]]].
- move=> i Hi. case: (H i Hi) => _ [H1 _]. have E1 : (Cz, iC).1 = Cz by []. rewrite -{}E1 -{}EC. move: H1 Hc.
  case: oC {H} => [l|]; [|case: (kf_C (ml_kf L)) => [c|]]; [| |case: oh {Eh} => [g|]] => H1 Hc.
  + by rewrite (at_fill (v := C i)) //; case: (kf_C (ml_kf L)).
  + by rewrite (at_fill (v := C i)).
  + by rewrite /at_ /= repeat_tab idx_tab //= H1.
  + by case: Hc.
- move=> i Hi. case: (H i Hi) => _ [_ [H1 _]]. have E1 : (hz, ih).1 = hz by []. rewrite -{}E1 -{}Eh. move: H1. rewrite /fill.
  case: oh {H EC Hc} => [l|]; [|case: (kf_h (ml_kf L)) => [c|]] => /= H1.
  + exists (Some (h i)). split => //. rewrite /idx List.nth_error_map. by case: (kf_h (ml_kf L)) H1 => [?|] /= ->.
  + exists (Some c). rewrite repeat_tab idx_tab //. split => //. by case: H1.
  + exists None. rewrite repeat_tab idx_tab //.
- move=> i Hi. case: (H i Hi) => _ [_ [_ [H1 _]]]. have E1 : (Rz, iR).1 = Rz by []. rewrite -{}E1 -{}ER. exact: at_fill.
- move=> HI i Hi. case: (H i Hi) => _ [_ [_ [H1 _]]]. case: (H _ HN) => _ [_ [_ [H2 _]]]. move: H1 H2 ER HI. rewrite /fill. case: oR {H} => [l|] /=; first by move=> _ _ [_ <-].
  by move=> -> [->].
- move: ER. rewrite /fill. by case: oR {H} => [?|] [_ <-].
Qed.
Lemma meas_diff_orz (y0 : 'cV[R]_m) (z0 : 'cV[R]_lz) C0 o : measurement_diff y0 z0 C0 o = measurement_diff y0 z0 C0 (Some (orzero o)).
Proof. rewrite /measurement_diff. case: o => [b|] //=. by rewrite addr0. Qed.
Lemma ml_l3_orz (y0 : 'cV[R]_m) (z0 : 'cV[R]_lz) P0 C0 o : ml_l3 y0 z0 P0 C0 o = ml_l3 y0 z0 P0 C0 (Some (orzero o)).
Proof. by rewrite /ml_l3 meas_diff_orz. Qed.
End Meas.

(** C72, measurement term: likewise the sum over the particles of the expectation of log N(y; C(xi) z + h(xi), R(xi)). *)
Theorem C72_y_value : forall lxi lz m U Y Tm (L : mlnlg lxi lz m U Y Tm) N y t (xi : nat -> 'cV[R]_lxi) (z : nat -> 'cV[R]_lz) (P : nat -> 'M[R]_lz) (rest : nat -> row)
  (y' : 'cV[R]_m) (C : nat -> 'M[R]_(m, lz)) (h : nat -> 'cV[R]_m) (Rn : nat -> 'M[R]_m),
  let ps := tab N (fun i => rbrow (xi i) (z i) (P i) (rest i)) in
  (0 < N)%coq_nat -> has_meas L ps y t ->
  (forall i, (i < N)%coq_nat -> measurement_at L ps y t i y' (C i) (h i) (Rn i) /\ posdef (Rn i)) ->
  exists v, em_logp_y L ps y t = Ok (total N v) /\
    forall i, (i < N)%coq_nat -> forall Om (E : (Om -> R) -> R) (x : Om -> 'cV[R]_lz), expectation E ->
      has_mean E x (z i) -> has_cov E x (z i) (P i) ->
      v i = (E (fun w => normal_logpdf (C i *m x w + h i)%mx (Rn i) y') + INR m / 2 * ln (2 * PI))%Re.
Proof.
move=> lxi lz m U Y Tm L N y t xi z P rest y' C h Rn ps HN HC H.
have HM i Hi := proj1 (H i Hi). have HR i Hi := proj2 (H i Hi).
pose l3 i := ml_l3 y' (z i) (P i) (C i) (Some (h i)).
pose v i := (- (1 / 2) * (ln (\det (Rn i)) + \tr (invmx (Rn i) *m l3 i)%mx))%Re.
exists v. split.
- case: (meas_int_ok HM HC HN) => Cz [iC [hz [ih [Rz [iR [E [E1 [E2 [E3 [E4 _]]]]]]]]]].
  rewrite /em_logp_y E get_states_tab [rbind (Ok _) _]/= !tab_length (forr_ok (g := l3)); last first.
  { move=> i Hi. rewrite idx_tab // [rbind (Ok _) _]/=. case: (E2 _ Hi) => o [-> Ho]. by rewrite /= E1 //= ml_l3_orz Ho. }
  rewrite [rbind (Ok _) _]/=. case: iR E4 {E} => E4.
  + rewrite E3 // [rbind (Ok _) _]/=. case: (chol_total (HR _ HN)) => V HV. rewrite HV [rbind (Ok _) _]/=.
    rewrite (forr_ok (g := v)); first by rewrite /= rsum_tab.
    move=> i Hi. rewrite idx_tab //=. congr Ok. rewrite (E4 erefl _ Hi) in HV. exact: (qterm_cho_ok _ (HR _ Hi) HV).
  + rewrite (forr_ok (g := v)); first by rewrite /= rsum_tab.
    move=> i Hi. rewrite E3 // [rbind (Ok _) _]/=. case: (chol_total (HR _ Hi)) => V HV. rewrite HV [rbind (Ok _) _]/= idx_tab //=. congr Ok. exact: (qterm_cho_ok _ (HR _ Hi) HV).
- move=> i Hi Om E x HE H1 H2. rewrite (E_logpdf _ _ (fun _ => _) HE) /v /l3 -(ml_l3_moment (C i) (Some (h i)) y' HE H1 H2) /=. exact: num_c.
Qed.

(** C72, initial term: entry i of the returned array is the log density eval_logp_xi0 gives for particle i plus the
    expectation of log N(z; z0, P0), for the initial mean and covariance of z that get_rb_initial gives for particle i. *)
Theorem C72_x0_value : forall lxi lz N (xi : nat -> 'cV[R]_lxi) (z : nat -> 'cV[R]_lz) (P : nat -> 'M[R]_lz) (rest : nat -> row) rb_initial logp_xi0 (z0 : nat -> 'cV[R]_lz) P0 lpxi,
  let ps := tab N (fun i => rbrow (xi i) (z i) (P i) (rest i)) in
  rb_initial (tab N xi) = tab N (fun i => (z0 i, P0 i)) -> logp_xi0 (tab N xi) = Ok (tab N lpxi) ->
  (forall i, (i < N)%coq_nat -> posdef (P0 i)) ->
  exists v, em_logp_x0 rb_initial logp_xi0 ps = Ok (tab N v) /\
    forall i, (i < N)%coq_nat -> forall Om (E : (Om -> R) -> R) (x : Om -> 'cV[R]_lz), expectation E -> has_mean E x (z i) -> has_cov E x (z i) (P i) ->
      v i = (lpxi i + E (fun w => normal_logpdf (z0 i) (P0 i) (x w)) + INR lz / 2 * ln (2 * PI))%Re.
Proof.
move=> lxi lz N xi z P rest rb lxi0 z0 P0 lpxi ps Hrb Hl HP.
pose q i := (- (1 / 2) * (ln (\det (P0 i)) + \tr (invmx (P0 i) *m calc_l1 (z i) (P i) (z0 i))%mx))%Re.
exists (fun i => (lpxi i + q i)%Re). split.
- rewrite /em_logp_x0 get_states_tab [rbind (Ok _) _]/= map_tab /= Hrb Hl [rbind (Ok _) _]/= tab_length (forr_ok (g := q)); first exact: map2r_tab.
  move=> i Hi. rewrite !idx_tab // [rbind (Ok _) _]/=. case: (chol_total (HP _ Hi)) => V HV. rewrite HV /=. congr Ok. exact: (qterm_cho_ok _ (HP _ Hi) HV).
- move=> i Hi Om E x HE H1 H2. rewrite (E_logpdf _ (fun _ => _) _ HE) (calc_l1_moment _ HE H1 H2) /q Rplus_assoc. congr (_ + _)%Re. exact: num_c.
Qed.

(** C72, models with a Gaussian initial distribution: new particles store z0 and P0 next to the drawn xi; particles
    conditioned on a given xi do, too; and eval_logp_xi0 is the log density of the distribution the xi are drawn from. *)
Theorem C72_initial_gaussian : forall lxi lz (G : ml_init_gauss (lxi := lxi) (lz := lz)) (mvn : nat -> 'cV[R]_lxi -> 'M[R]_lxi -> 'cV[R]_lxi) N,
  get_states3 (ig_create G mvn N) = Ok (tab N (fun i => (mvn i (ig_xi0 G) (ig_Pxi0 G), ig_z0 G, ig_Pz0 G))) /\
  (forall (xi : nat -> 'cV[R]_lxi) (rest : nat -> row), (forall i, (lz + lz * lz <= size (rest i))%nat) ->
     exists ps, ig_cond_sampled_initial G (tab N (fun i => ravel (xi i) ++ rest i)%SEQ) = Ok ps /\ get_states3 ps = Ok (tab N (fun i => (xi i, ig_z0 G, ig_Pz0 G)))) /\
  (posdef (ig_Pxi0 G) -> forall xi, ig_logp_xi0 G (tab N xi) = Ok (tab N (fun i => normal_logpdf (ig_xi0 G) (ig_Pxi0 G) (xi i)))) /\
  forall xi, ig_rb_initial G (tab N xi) = tab N (fun _ => (ig_z0 G, ig_Pz0 G)).
Proof.
move=> lxi lz G mvn N. split; [|split; [|split]].
- rewrite -(get_states_tab N (fun i => mvn i (ig_xi0 G) (ig_Pxi0 G)) (fun _ => ig_z0 G) (fun _ => ig_Pz0 G) (fun _ => nil)).
  congr get_states3. rewrite /ig_create /tab. apply: List.map_ext => i. by rewrite /rbrow cats0.
- move=> xi rest Hr. pose ps := tab N (fun i => rbrow (xi i) (ig_z0 G) (ig_Pz0 G) (nseq (size (rest i) - (lz + lz * lz)) 0%Re)).
  exists ps. split; last by rewrite get_states_tab.
  rewrite /ig_cond_sampled_initial (mapr_tab (h := xi)); last by move=> i _; rewrite /slice drop0 subn0 take_size_cat ?sz_cv // reshape_ravel.
  rewrite [rbind (Ok _) _]/= /ig_rb_initial tab_length repeat_tab map_tab.
  have -> : List.combine (tab N xi) (tab N (fun _ => (ig_z0 G, ig_Pz0 G))) = tab N (fun i => (xi i, (ig_z0 G, ig_Pz0 G))) by rewrite /tab combine_map.
  rewrite map_tab. have -> : tab N (fun i => nseq (size (ravel (xi i) ++ rest i)) 0%Re) = tab N (fun i => rbrow (0 : 'cV[R]_lxi) (0 : 'cV[R]_lz) (0 : 'M[R]_lz) (nseq (size (rest i) - (lz + lz * lz)) 0%Re)).
  { apply: tab_ext => i _. rewrite /rbrow. have Hz a b : ravel (0 : 'M[R]_(a, b)) = nseq (a * b) 0%Re.
    { apply: (@eq_from_nth _ 0%Re); first by rewrite size_ravel size_nseq. move=> k Hk. rewrite nth_nseq. rewrite size_ravel in Hk. rewrite Hk /ravel nth_mkseq // /mget. by case: insub => [?|] //; case: insub => [?|] //; rewrite mxE. }
    rewrite !Hz -!nseqD !muln1 size_cat sz_cv. congr nseq. by rewrite (addnA lz) subnKC. }
  exact: set_states_tab.
- move=> HP xi. rewrite /ig_logp_xi0. case: (chol_total HP) => V HV. rewrite HV /= map_tab. congr Ok. apply: tab_ext => i _. exact: (lognormpdf_cho_ok HP HV).
- move=> xi. by rewrite /ig_rb_initial tab_length repeat_tab.
Qed.

(** ** C73: gradients *)
(** gradient of particle i for parameter j; None stands for no dependence *)
Definition grad2 a b (o : option (list (list 'M[R]_(a, b)))) (i j : nat) : 'M[R]_(a, b) :=
  match o with None => 0 | Some l => List.nth j (List.nth i l nil) 0 end.
(** one entry for each of the N particles, with one matrix for each of the np parameters *)
Definition shaped T (l : list (list T)) (N np : nat) : Prop := List.length l = N /\ List.Forall (fun r => List.length r = np) l.
Definition oshaped T (o : option (list (list T))) (N np : nat) : Prop := match o with None => True | Some l => shaped l N np end.
Lemma idx2_ok a b (l : list (list 'M[R]_(a, b))) N np i j : shaped l N np -> (i < N)%coq_nat -> (j < np)%coq_nat -> idx2 l i j = Ok (grad2 (Some l) i j).
Proof.
move=> [H1 H2] Hi Hj. rewrite /idx2 /grad2. rewrite -H1 in Hi. case: (@idx_lt _ l i Hi) => r Hr. rewrite Hr /=. move/idx_ok: (Hr) => Hr'.
rewrite (List.nth_error_nth l i nil Hr'). have Hlen : List.length r = np by move/List.Forall_forall: H2 => H2; apply: H2; exact: List.nth_error_In Hr'.
rewrite -Hlen in Hj. case: (@idx_lt _ r j Hj) => g Hg. rewrite Hg. move/idx_ok: Hg => Hg. by rewrite (List.nth_error_nth r j 0 Hg).
Qed.

Lemma loop_deriv_tab np N d (S : nat -> R -> 'M[R]_d) (Uc : nat -> 'M[R]_d) (lm : nat -> R -> 'M[R]_d) s0 (dS dl : nat -> 'M[R]_d) (ds : nat -> list R) j :
  (forall i, (i < N)%coq_nat -> forall s, posdef (S i s)) -> (forall i, (i < N)%coq_nat -> chol (S i s0) = Ok (Uc i)) ->
  (forall i, (i < N)%coq_nat -> mx_deriv (S i) s0 (dS i)) -> (forall i, (i < N)%coq_nat -> mx_deriv (lm i) s0 (dl i)) ->
  (j < np)%coq_nat -> (forall i, (i < N)%coq_nat -> List.length (ds i) = np) ->
  (forall i, (i < N)%coq_nat -> List.nth j (ds i) 0%Re = compute_logprod_derivative (Uc i) (dS i) (lm i s0) (dl i)) ->
  derivable_pt_lim (fun s => total N (fun i => (- (1 / 2) * (ln (\det (S i s)) + \tr (invmx (S i s) *m lm i s)%mx))%Re)) s0
    (List.nth j (List.fold_left sub_half (tab N ds) (List.repeat 0%Re np)) 0%Re).
Proof.
move=> HS HU HdS Hl Hj Hlen Hds. have IN i : List.In i (List.seq 0 N) -> (i < N)%coq_nat by move/List.in_seq; lia.
rewrite (fold_sub_half (np := np)) ?List.repeat_length //; last first.
{ apply/List.Forall_forall => x /List.in_map_iff [y [<- Hy]]. apply: Hlen. exact: IN. }
rewrite [List.nth j (List.repeat _ _) _](_ : _ = 0%Re); last by rewrite List.nth_repeat.
rewrite map_tab /total /tab.
rewrite [X in derivable_pt_lim _ _ X](_ : _ = List.fold_right Rplus 0%Re (List.map (fun i => (- (1 / 2) * List.nth j (ds i) 0)%Re) (List.seq 0 N))); last first.
{ elim: (List.seq 0 N) => [|x l' IH] /=; first by ring. rewrite -IH. ring. }
apply: dpl_lsum => i Hi. have {}Hi := IN _ Hi. rewrite (Hds _ Hi).
apply: (derivable_pt_lim_scal (fun s => (ln (\det (S i s)) + \tr (invmx (S i s) *m lm i s)%mx)%Re)). exact: C47_logprod (HS _ Hi) (HdS _ Hi) (Hl _ Hi) (HU _ Hi).
Qed.
Lemma cho_solve0 a b (Uc : 'M[R]_a) : cho_solve Uc (0 : 'M[R]_(a, b)) = 0.
Proof. by rewrite /cho_solve !mulmx0. Qed.
Lemma logprod0 d (Uc B : 'M[R]_d) : compute_logprod_derivative Uc 0 B 0 = 0%Re.
Proof. rewrite /compute_logprod_derivative mul0mx addr0 subr0 cho_solve0 mxtrace0 //. Qed.
Lemma mxd_row0 a b c (B : R -> 'M[R]_(a, c)) s0 dB : mx_deriv B s0 dB -> mx_deriv (fun s => row_mx (0 : 'M[R]_(a, b)) (B s)) s0 (row_mx 0 dB).
Proof.
move=> H. have := mxd_mulr (row_mx (0 : 'M[R]_(c, b)) 1%:M) H. rewrite mul_mx_row mulmx0 mulmx1. apply: mxd_ext => s. by rewrite mul_mx_row mulmx0 mulmx1.
Qed.
Lemma mxd_col0 a b c (B : R -> 'M[R]_(c, a)) s0 dB : mx_deriv B s0 dB -> mx_deriv (fun s => col_mx (0 : 'M[R]_(b, a)) (B s)) s0 (col_mx 0 dB).
Proof.
move=> H. have := mxd_mull (col_mx (0 : 'M[R]_(b, c)) 1%:M) H. rewrite mul_col_mx mul0mx mul1mx. apply: mxd_ext => s. by rewrite mul_col_mx mul0mx mul1mx.
Qed.
Definition odef a b (o : option 'M[R]_(a, b)) : 'M[R]_(a, b) := match o with Some g => g | None => 0 end.
Lemma ml_l2_deriv lxi lz (sn : st3 (lxi := lxi) (lz := lz)) z (P M : 'M[R]_lz) (A : R -> 'M[R]_(lxi + lz, lz)) (f : R -> 'cV[R]_(lxi + lz)) s0 fg Ag : symmetric P ->
  mx_deriv A s0 (odef Ag) -> mx_deriv f s0 (odef fg) ->
  mx_deriv (fun s => ml_l2 sn z P M (A s) (f s)) s0 (ml_l2_grad sn z P M (A s0) (f s0) fg Ag).
Proof.
move=> SP HA Hf. set xn := col_mx sn.1.1 sn.1.2.
have He := mxd_sub (mxd_sub (mxd_const s0 xn) Hf) (mxd_mulr z HA).
have HAM := mxd_opp (mxd_mulr M HA).
have H := mxd_add (mxd_add (mxd_add (mxd_add (mxd_outer He) (mxd_mul (mxd_mulr P HA) (mxd_tr HA))) (mxd_row0 (b := lxi) HAM)) (mxd_col0 (b := lxi) (mxd_tr HAM))) (mxd_const s0 (block_mx (0 : 'M[R]_lxi) 0 0 sn.2)).
apply: (eq_ind _ (mx_deriv (fun s => ml_l2 sn z P M (A s) (f s)) s0) H).
rewrite /ml_l2_grad -/xn /l2_grad_f /l2_grad_A /pred_err. set e := xn - f s0 - A s0 *m z.
have -> : A s0 *m P *m (odef Ag)^T = (odef Ag *m P *m (A s0)^T)^T by rewrite !trmx_mul trmxK SP mulmxA.
rewrite [(0 - odef fg - odef Ag *m z) *m e^T](_ : _ = (- odef fg *m e^T) + (- odef Ag *m z *m e^T)); last by rewrite sub0r mulmxBl !mulNmx.
rewrite (trD (- odef fg *m e^T)). clear.
case: Ag => [Ag|]; case: fg => [fg|]; rewrite /odef ?(oppr0, mul0mx, mulmx0, trmx0, row_mx0, col_mx0, addr0, add0r, subr0, sub0r) ?mulNmx ?trN //.
- move: (row_mx _ _) (col_mx _ _) (Ag *m P *m (A s0)^T) (fg *m e^T) (Ag *m z *m e^T) => a1 a2 a3 a4 a5. mxab.
- move: (row_mx _ _) (col_mx _ _) (Ag *m P *m (A s0)^T) (Ag *m z *m e^T) => a1 a2 a3 a5. mxab.
Qed.

(** C73, transition term: let a parameter s vary, the stacked A, f and Q of each particle being differentiable in it with the
    derivatives the user supplies for parameter j.  Then the number eval_logp_xnext returns is differentiable in s,
    eval_logp_xnext_val_grad returns that number at s0, and entry j of its gradient is the derivative. *)
Theorem C73_xnext_grad : forall lxi lz m U Y Tm (Lc : R -> mlnlg lxi lz m U Y Tm) N u t (xi : nat -> 'cV[R]_lxi) (z : nat -> 'cV[R]_lz) (P M : nat -> 'M[R]_lz) (rest : nat -> row)
  (xin : nat -> 'cV[R]_lxi) (zn : nat -> 'cV[R]_lz) (Pn : nat -> 'M[R]_lz) (restn : nat -> row)
  (Axi : nat -> R -> 'M[R]_(lxi, lz)) (fxi : nat -> R -> 'cV[R]_lxi) (Qxi : nat -> R -> 'M[R]_lxi) (Az : nat -> R -> 'M[R]_lz) (fz : nat -> R -> 'cV[R]_lz) (Qz : nat -> R -> 'M[R]_lz) (Qc : nat -> R -> 'M[R]_(lxi, lz))
  np A_grad f_grad Q_grad s0 j,
  let ps := tab N (fun i => srow (xi i) (z i) (P i) (M i) (rest i)) in
  let pn := tab N (fun i => rbrow (xin i) (zn i) (Pn i) (restn i)) in
  (0 < N)%coq_nat -> (j < np)%coq_nat -> oshaped A_grad N np -> oshaped f_grad N np -> oshaped Q_grad N np ->
  (forall i, (i < N)%coq_nat -> symmetric (P i) /\ (forall s, dynamics_at (Lc s) ps u t i (Axi i s) (fxi i s) (Qxi i s) (Az i s) (fz i s) (Qz i s) (Qc i s) /\ posdef (noise_cov (Qxi i s) (Qc i s) (Qz i s))) /\
     mx_deriv (fun s => col_mx (Axi i s) (Az i s)) s0 (grad2 A_grad i j) /\ mx_deriv (fun s => col_mx (fxi i s) (fz i s)) s0 (grad2 f_grad i j) /\
     mx_deriv (fun s => noise_cov (Qxi i s) (Qc i s) (Qz i s)) s0 (grad2 Q_grad i j)) ->
  exists v g, (forall s, em_logp_xnext (Lc s) ps pn u t = Ok (v s)) /\
    em_logp_xnext_val_grad (Lc s0) np A_grad f_grad Q_grad ps pn u t = Ok (v s0, g) /\
    derivable_pt_lim v s0 (List.nth j g 0%Re).
Proof.
move=> lxi lz m U Y Tm Lc N u t xi z P M rest xin zn Pn restn Axi fxi Qxi Az fz Qz Qc np Ag fg Qg s0 j ps pn HN Hj SA Sf SQ H.
pose A i s := col_mx (Axi i s) (Az i s). pose f i s := col_mx (fxi i s) (fz i s). pose Q i s := noise_cov (Qxi i s) (Qc i s) (Qz i s).
have HD s i (Hi : (i < N)%coq_nat) : dynamics_at (Lc s) ps u t i (Axi i s) (fxi i s) (Qxi i s) (Az i s) (fz i s) (Qz i s) (Qc i s) by case: (H i Hi) => _ [/(_ s) []].
have HQ i (Hi : (i < N)%coq_nat) s : posdef (Q i s) by case: (H i Hi) => _ [/(_ s) []].
pose l2 i s := ml_l2 (xin i, zn i, Pn i) (z i) (P i) (M i) (A i s) (f i s).
pose Uc i := match chol (Q i s0) with Ok V => V | Err _ => 0 end.
have HU i (Hi : (i < N)%coq_nat) : chol (Q i s0) = Ok (Uc i) by rewrite /Uc; case: (chol_total (HQ i Hi s0)) => V ->.
pose vi i s := (- (1 / 2) * (ln (\det (Q i s)) + \tr (invmx (Q i s) *m l2 i s)%mx))%Re.
have HV s : em_logp_xnext (Lc s) ps pn u t = Ok (total N (fun i => vi i s)).
{ rewrite /em_logp_xnext (calc_AfQ_ok (HD s)) [rbind (Ok _) _]/= all_l2_ok [rbind (Ok _) _]/= tab_length.
  have HI := Q_ident_same (HD s). case: ifP => HId.
  + rewrite idx_tab // [rbind (Ok _) _]/=. case: (chol_total (HQ _ HN s)) => V HV. rewrite HV [rbind (Ok _) _]/=.
    rewrite (forr_ok (g := fun i => vi i s)); first by rewrite /= rsum_tab.
    move=> i Hi. rewrite idx_tab //=. congr Ok. rewrite /Q (HI HId _ Hi) in HV. exact: (qterm_cho_ok _ (HQ _ Hi s) HV).
  + rewrite (forr_ok (g := fun i => vi i s)); first by rewrite /= rsum_tab.
    move=> i Hi. rewrite !idx_tab // [rbind (Ok _) _]/=. case: (chol_total (HQ _ Hi s)) => V HV. rewrite HV /=. congr Ok. exact: (qterm_cho_ok _ (HQ _ Hi s) HV). }
pose og a b (o : option (list (list 'M[R]_(a, b)))) i k := match o with None => None | Some _ => Some (grad2 o i k) end.
have Hod a b (o : option (list (list 'M[R]_(a, b)))) i k : odef (og _ _ o i k) = grad2 o i k by case: o.
pose d i k := compute_logprod_derivative (Uc i) (grad2 Qg i k) (l2 i s0) (ml_l2_grad (xin i, zn i, Pn i) (z i) (P i) (M i) (A i s0) (f i s0) (og _ _ fg i k) (og _ _ Ag i k)).
pose ds i := tab np (d i).
pose g := List.fold_left sub_half (tab N ds) (List.repeat 0%Re np).
have Hnd i k : (k < np)%coq_nat -> List.nth k (ds i) 0%Re = d i k by move=> Hk; rewrite /ds (List.nth_error_nth _ _ _ (tab_nth _ Hk)).
have DV : derivable_pt_lim (fun s => total N (fun i => vi i s)) s0 (List.nth j g 0%Re).
{ apply: (@loop_deriv_tab np N _ Q Uc l2 s0 (fun i => grad2 Qg i j) (fun i => ml_l2_grad (xin i, zn i, Pn i) (z i) (P i) (M i) (A i s0) (f i s0) (og _ _ fg i j) (og _ _ Ag i j)) ds j) => //.
  - by move=> i Hi; case: (H i Hi) => _ [_ [_ []]].
  - move=> i Hi. case: (H i Hi) => HS [_ [H1 [H2 _]]]. by apply: ml_l2_deriv => //; rewrite Hod.
  - by move=> i Hi; rewrite /ds tab_length.
  - by move=> i Hi; rewrite Hnd. }
exists (fun s => total N (fun i => vi i s)).
case Enone : (match Ag, fg, Qg with None, None, None => true | _, _, _ => false end).
- exists (List.repeat 0%Re np). split; first by []. split; first by move: Enone; rewrite /em_logp_xnext_val_grad; case: (Ag) => [?|] //; case: (fg) => [?|] //; case: (Qg) => [?|] // _; rewrite HV.
  rewrite List.nth_repeat. have <- // : List.nth j g 0%Re = 0%Re.
  rewrite /g (fold_sub_half (np := np)) ?List.repeat_length //; last by apply/List.Forall_forall => x /List.in_map_iff [i [<- _]]; rewrite /ds tab_length.
  rewrite List.nth_repeat map_tab. have -> : tab N (fun i => List.nth j (ds i) 0%Re) = tab N (fun _ => 0%Re).
  { apply: tab_ext => i Hi. rewrite Hnd // /d. move: Enone. case: (Ag) => [?|] //; case: (fg) => [?|] //; case: (Qg) => [?|] // _. exact: logprod0. }
  rewrite /tab. elim: (List.seq 0 N) => [|x l IH] /=; first by lra. lra.
- exists g. split; first by []. split; last by [].
  have -> : em_logp_xnext_val_grad (Lc s0) np Ag fg Qg ps pn u t =
     (dor Ss <- get_states3 (lxi := lxi) (lz := lz) ps ;
      dor Ms <- mapr (get_Mz3 (lxi := lxi) (lz := lz)) ps ;
      dor Sn <- get_states3 (lxi := lxi) (lz := lz) pn ;
      dor D <- calc_A_f_Q (Lc s0) ps u t ;
      dor Qcho0 <- (if Q_identical (Lc s0) ps u t then dor d0 <- idx D 0 ; dor C <- chol d0.2 ; Ok (Some C) else Ok None) ;
      dor r <- forr (length ps) (fun i =>
        dor s <- idx Ss i ; dor M <- idx Ms i ; dor sn <- idx Sn i ; dor d <- idx D i ;
        dor Qcho <- (match Qcho0 with Some C => Ok C | None => chol d.2 end) ;
        let l2 := ml_l2 sn s.1.2 s.2 M d.1.1 d.1.2 in
        dor g <- forr np (fun j =>
          dor fg <- (match fg with None => Ok None | Some g => dor x <- idx2 g i j ; Ok (Some x) end) ;
          dor Ag <- (match Ag with None => Ok None | Some g => dor x <- idx2 g i j ; Ok (Some x) end) ;
          dor Qg <- (match Qg with None => Ok 0 | Some g => idx2 g i j end) ;
          Ok (compute_logprod_derivative Qcho Qg l2 (ml_l2_grad sn s.1.2 s.2 M d.1.1 d.1.2 fg Ag))) ;
        Ok (qterm_cho Qcho l2, g)) ;
      Ok (rsum (List.map fst r), List.fold_left sub_half (List.map snd r) (List.repeat 0%Re np))).
  { by move: Enone; rewrite /em_logp_xnext_val_grad; case: (Ag) => [?|] //; case: (fg) => [?|] //; case: (Qg) => [?|]. }
  rewrite get_states_tab [rbind (Ok _) _]/= (mapr_tab (h := M)) => [|i _]; last exact: get_Mz_rbrow.
  rewrite get_states_tab (calc_AfQ_ok (HD s0)) [rbind (Ok _) _]/=.
  have [o [-> Ho]] : exists o, (if Q_identical (Lc s0) ps u t then dor d0 <- idx (tab N (fun i => (A i s0, f i s0, Q i s0))) 0 ; dor C <- chol d0.2 ; Ok (Some C) else Ok None) = Ok o /\
      forall i, (i < N)%coq_nat -> match o with Some C => Ok C | None => chol (Q i s0) end = Ok (Uc i).
  { have HI := Q_ident_same (HD s0). case: ifP => HId; last by exists None.
    rewrite idx_tab // [rbind (Ok _) _]/= HU //=. exists (Some (Uc 0%nat)). split => // i Hi. have := HU _ HN. rewrite /Q (HI HId _ Hi) => E. by have := HU _ Hi; rewrite /Q E. }
  rewrite [rbind (Ok _) _]/= tab_length (forr_ok (g := fun i => (vi i s0, ds i))).
  + by rewrite [rbind (Ok _) _]/= !map_tab rsum_tab.
  + move=> i Hi. rewrite !idx_tab // [rbind (Ok _) _]/=. rewrite (Ho _ Hi) [rbind (Ok _) _]/= (forr_ok (g := d i)).
    * rewrite /=. congr (Ok (_, _)). exact: (qterm_cho_ok _ (HQ _ Hi s0) (HU _ Hi)).
    * move=> k Hk. have I a b (o' : option (list (list 'M[R]_(a, b)))) : oshaped o' N np -> match o' with None => Ok None | Some g => dor x <- idx2 g i k ; Ok (Some x) end = Ok (og _ _ o' i k).
      { case: o' => [l|] // Hl. by rewrite (idx2_ok Hl Hi Hk). }
      rewrite !I // [rbind (Ok _) _]/=. have -> : match Qg with None => Ok 0 | Some g => idx2 g i k end = Ok (grad2 Qg i k) by case: (Qg) SQ => [l|] // Hl; rewrite (idx2_ok Hl Hi Hk).
      by [].
Qed.

Lemma ml_l3_deriv lz m (y : 'cV[R]_m) (z : 'cV[R]_lz) (P : 'M[R]_lz) (C : R -> 'M[R]_(m, lz)) (h : R -> 'cV[R]_m) s0 hg :
  mx_deriv C s0 0 -> mx_deriv h s0 (odef hg) ->
  mx_deriv (fun s => ml_l3 y z P (C s) (Some (h s))) s0 (ml_l3_grad y z P (C s0) (Some (h s0)) None hg).
Proof.
move=> HC Hh.
have He := mxd_sub (mxd_const s0 y) (mxd_add (mxd_add (mxd_const s0 0) (mxd_mulr z HC)) Hh).
have H := mxd_add (mxd_outer He) (mxd_mul (mxd_mulr P HC) (mxd_tr HC)).
apply: (eq_ind _ (mx_deriv (fun s => ml_l3 y z P (C s) (Some (h s))) s0) H).
rewrite !(trmx0, mul0mx, mulmx0, addr0, add0r, sub0r) /ml_l3_grad /=. set e := measurement_diff y z _ _.
have -> : y - (C s0 *m z + h s0) = e by rewrite /e /measurement_diff add0r.
case: hg {H He Hh} => [g|] /=; last by rewrite oppr0 mul0mx trmx0 addr0. by rewrite mulNmx trN add0r.
Qed.

(** C73, measurement term, for models that give no gradient of C (whose C does not depend on the parameter, to first order) and
    whose R is the stored one. *)
Theorem C73_y_grad : forall lxi lz m U Y Tm (Lc : R -> mlnlg lxi lz m U Y Tm) (reY : 'cV[R]_m -> Y) N y t (xi : nat -> 'cV[R]_lxi) (z : nat -> 'cV[R]_lz) (P : nat -> 'M[R]_lz) (rest : nat -> row)
  (y' : 'cV[R]_m) (C : nat -> R -> 'M[R]_(m, lz)) (h : nat -> R -> 'cV[R]_m) (Rn : nat -> R -> 'M[R]_m) np h_grad R_grad s0 j,
  let ps := tab N (fun i => rbrow (xi i) (z i) (P i) (rest i)) in
  (0 < N)%coq_nat -> (j < np)%coq_nat -> oshaped h_grad N np -> oshaped R_grad N np -> ~ (h_grad = None /\ R_grad = None) ->
  (forall s, has_meas (Lc s) ps y t /\ snd (ml_meas (Lc s) ps y t) = None) ->
  (forall i, (i < N)%coq_nat -> (forall s, measurement_at (Lc s) ps y t i y' (C i s) (h i s) (Rn i s) /\ posdef (Rn i s)) /\
     mx_deriv (C i) s0 0 /\ mx_deriv (h i) s0 (grad2 h_grad i j) /\ mx_deriv (Rn i) s0 (grad2 R_grad i j)) ->
  exists v g, (forall s, em_logp_y (Lc s) ps y t = Ok (v s)) /\
    em_logp_y_val_grad (Lc s0) reY np None h_grad R_grad ps y t = Ok (v s0, g) /\
    derivable_pt_lim v s0 (List.nth j g 0%Re).
Proof.
move=> lxi lz m U Y Tm Lc reY N y t xi z P rest y' C h Rn np hg Rg s0 j ps HN Hj Sh SR Hnn HC H.
have HM s i (Hi : (i < N)%coq_nat) : measurement_at (Lc s) ps y t i y' (C i s) (h i s) (Rn i s) by case: (H i Hi) => /(_ s) [].
have HR i (Hi : (i < N)%coq_nat) s : posdef (Rn i s) by case: (H i Hi) => /(_ s) [].
pose l3 i s := ml_l3 y' (z i) (P i) (C i s) (Some (h i s)).
pose Uc i := match chol (Rn i s0) with Ok V => V | Err _ => 0 end.
have HU i (Hi : (i < N)%coq_nat) : chol (Rn i s0) = Ok (Uc i) by rewrite /Uc; case: (chol_total (HR i Hi s0)) => V ->.
pose vi i s := (- (1 / 2) * (ln (\det (Rn i s)) + \tr (invmx (Rn i s) *m l3 i s)%mx))%Re.
pose og a b (o : option (list (list 'M[R]_(a, b)))) i k := match o with None => None | Some _ => Some (grad2 o i k) end.
have Hod a b (o : option (list (list 'M[R]_(a, b)))) i k : odef (og _ _ o i k) = grad2 o i k by case: o.
pose dl i k := ml_l3_grad y' (z i) (P i) (C i s0) (Some (h i s0)) None (og _ _ hg i k).
pose d i k := compute_logprod_derivative (Uc i) (grad2 Rg i k) (l3 i s0) (dl i k).
pose ds i := tab np (d i).
exists (fun s => total N (fun i => vi i s)), (List.fold_left sub_half (tab N ds) (List.repeat 0%Re np)).
have MI s := meas_int_ok (HM s) (proj1 (HC s)) HN.
split; [|split].
- move=> s. case: (MI s) => Cz [iC [hz [ih [Rz [iR [E [E1 [E2 [E3 [E4 _]]]]]]]]]].
  rewrite /em_logp_y E get_states_tab [rbind (Ok _) _]/= !tab_length (forr_ok (g := fun i => l3 i s)); last first.
  { move=> i Hi. rewrite idx_tab // [rbind (Ok _) _]/=. case: (E2 _ Hi) => o [-> Ho]. by rewrite /= E1 //= ml_l3_orz Ho. }
  rewrite [rbind (Ok _) _]/=. case: iR E4 {E} => E4.
  + rewrite E3 // [rbind (Ok _) _]/=. case: (chol_total (HR _ HN s)) => V HV. rewrite HV [rbind (Ok _) _]/=.
    rewrite (forr_ok (g := fun i => vi i s)); first by rewrite /= rsum_tab.
    move=> i Hi. rewrite idx_tab //=. congr Ok. rewrite (E4 erefl _ Hi) in HV. exact: (qterm_cho_ok _ (HR _ Hi s) HV).
  + rewrite (forr_ok (g := fun i => vi i s)); first by rewrite /= rsum_tab.
    move=> i Hi. rewrite E3 // [rbind (Ok _) _]/=. case: (chol_total (HR _ Hi s)) => V HV. rewrite HV [rbind (Ok _) _]/= idx_tab //=. congr Ok. exact: (qterm_cho_ok _ (HR _ Hi s) HV).
- case: (MI s0) => Cz [iC [hz [ih [Rz [iR [E [E1 [E2 [E3 [E4 E5]]]]]]]]]].
  have {}E5 : iR = true by rewrite E5; move: (proj2 (HC s0)); case: (ml_meas (Lc s0) ps y t) => [[[? ?] ?] ?] /= ->.
  have -> : em_logp_y_val_grad (Lc s0) reY np None hg Rg ps y t =
     (dor Ss <- get_states3 (lxi := lxi) (lz := lz) ps ;
      dor l3 <- forr (length Ss) (fun i =>
        dor s <- idx Ss i ; dor h <- idx hz i ; dor C <- at_ Cz i ;
        dor g <- forr np (fun j =>
          dor hg <- (match hg with None => Ok None | Some g => dor x <- idx2 g i j ; Ok (Some x) end) ;
          Ok (ml_l3_grad y' s.1.2 s.2 C h None hg)) ;
        Ok (ml_l3 y' s.1.2 s.2 C h, g)) ;
      dor R0 <- at_ Rz 0 ; dor Rcho <- chol R0 ;
      dor r <- forr (length ps) (fun i =>
          dor l <- idx l3 i ;
          dor g <- forr np (fun j =>
            dor Rg <- (match Rg with None => Ok 0 | Some g => idx2 g i j end) ;
            dor dl <- idx l.2 j ;
            Ok (compute_logprod_derivative Rcho Rg l.1 dl)) ;
          Ok (qterm_cho Rcho l.1, g)) ;
      Ok (rsum (List.map fst r), List.fold_left sub_half (List.map snd r) (List.repeat 0%Re np))).
  { by move: Hnn; rewrite /em_logp_y_val_grad E E5; case: (hg) => [?|] //; case: (Rg) => [?|] // []. }
  rewrite get_states_tab [rbind (Ok _) _]/= !tab_length (forr_ok (g := fun i => (l3 i s0, tab np (dl i)))); last first.
  { move=> i Hi. rewrite idx_tab // [rbind (Ok _) _]/=. case: (E2 _ Hi) => o [-> Ho]. rewrite [rbind (Ok _) _]/= E1 // [rbind (Ok _) _]/= (forr_ok (g := dl i)).
    - by rewrite /= ml_l3_orz Ho.
    - move=> k Hk. have -> : match hg with None => Ok None | Some g => dor x <- idx2 g i k ; Ok (Some x) end = Ok (og _ _ hg i k) by case: (hg) Sh => [l|] // Hl; rewrite (idx2_ok Hl Hi Hk).
      by rewrite /= /ml_l3_grad meas_diff_orz Ho. }
  rewrite [rbind (Ok _) _]/= E3 // [rbind (Ok _) _]/= HU // [rbind (Ok _) _]/= (forr_ok (g := fun i => (vi i s0, ds i))).
  + by rewrite [rbind (Ok _) _]/= !map_tab rsum_tab.
  + move=> i Hi. have EU : Uc 0%nat = Uc i by have := HU _ HN; rewrite (E4 E5 _ Hi) HU // => -[].
    rewrite idx_tab // EU [rbind (Ok _) _]/= (forr_ok (g := d i)).
    * rewrite /=. congr (Ok (_, _)). exact: (qterm_cho_ok _ (HR _ Hi s0) (HU _ Hi)).
    * move=> k Hk. have -> : match Rg with None => Ok 0 | Some g => idx2 g i k end = Ok (grad2 Rg i k) by case: (Rg) SR => [l|] // Hl; rewrite (idx2_ok Hl Hi Hk).
      by rewrite [rbind (Ok _) _]/= idx_tab.
- apply: (@loop_deriv_tab np N _ Rn Uc l3 s0 (fun i => grad2 Rg i j) (fun i => dl i j) ds j) => //.
  + by move=> i Hi; case: (H i Hi) => _ [_ []].
  + move=> i Hi. case: (H i Hi) => _ [H1 [H2 _]]. by apply: ml_l3_deriv => //; rewrite Hod.
  + by move=> i Hi; rewrite /ds tab_length.
  + by move=> i Hi; rewrite /ds (List.nth_error_nth _ _ _ (tab_nth _ Hj)).
Qed.

(** C73, finding: the gradient of C the user supplies is not used. *)
Theorem C73_y_grad_C_ignored : forall lxi lz m U Y Tm (L : mlnlg lxi lz m U Y Tm) reY np C_grad C_grad' h_grad R_grad ps y t,
  em_logp_y_val_grad L reY np (Some C_grad) h_grad R_grad ps y t = em_logp_y_val_grad L reY np (Some C_grad') h_grad R_grad ps y t.
Proof. by []. Qed.
(** a scalar model with C = s, h = 0 and R = 1; one particle with z = 0 and variance 1, measurement 0 *)
Definition exC (s : R) : mlnlg 1 1 1 unit unit unit :=
  ml_init (Some 0) (Some (s%:M)) (Some (1%:M)) (Some (1%:M)) None (Some 0) (Some (1%:M)) None None None
    (fun _ _ _ => (None, None, None)) (fun _ _ _ => (None, None, None)) (fun _ _ _ => (0, None, None, None)) (fun _ _ _ => None).
Definition exC_ps : list row := tab 1 (fun _ => rbrow (0 : 'cV[R]_1) (0 : 'cV[R]_1) (1%:M : 'M[R]_1) nil).
Theorem C73_y_grad_C_refuted : exists (v : R -> R) (dv : R), (forall s, em_logp_y (exC s) exC_ps tt tt = Ok (v s)) /\
  derivable_pt_lim v 1 dv /\ dv <> 0%Re /\
  mx_deriv (fun s : R => s%:M : 'M[R]_1) 1 1%:M /\
  em_logp_y_val_grad (exC 1) (fun _ => tt) 1 (Some (cons (cons (1%:M : 'M[R]_1) nil) nil)) None None exC_ps tt tt = Ok (v 1, cons 0 nil)%Re.
Proof.
have P1 : posdef (1%:M : 'M[R]_1) by exact: posdef1.
have L3 (s : R) : ml_l3 (0 : 'cV[R]_1) (0 : 'cV[R]_1) (1%:M : 'M[R]_1) (s%:M) None = (s * s)%Re%:M.
{ rewrite /ml_l3 /measurement_diff mulmx0 addr0 subr0 mul0mx add0r mulmx1 tr_scalar_mx -scalar_mxM //. }
case: (chol_total P1) => V HV.
have QT (s : R) : qterm_cho V ((s * s)%Re%:M) = (- (1 / 2) * (s * s))%Re.
{ rewrite (qterm_cho_ok _ P1 HV) det1 invmx1 mul1mx ln_1 Rplus_0_l. congr (_ * _)%Re. by rewrite mxtrace_scalar. }
have EV (s : R) : em_logp_y (exC s) exC_ps tt tt = Ok (- (1 / 2) * (s * s))%Re.
{ rewrite /em_logp_y. change (meas_int (exC s) exC_ps tt tt) with ((0 : 'cV[R]_1), (cons (Some (s%:M : 'M[R]_1)) nil, true), (cons (None : option 'cV[R]_1) nil, true), (cons (Some (1%:M : 'M[R]_1)) nil, true)).
  rewrite /exC_ps get_states_tab [rbind (Ok _) _]/= /forr /= L3 HV /= QT /rsum /=. congr Ok. lra. }
exists (fun s => (- (1 / 2) * (s * s))%Re), (- (1))%Re. split; first exact: EV. split; [|split; [lra|split]].
- have := derivable_pt_lim_scal (fun x => (x * x)%Re) (- (1 / 2)) 1 (1 * 1 + 1 * 1)%Re (derivable_pt_lim_mult id id 1 1 1 (derivable_pt_lim_id 1) (derivable_pt_lim_id 1)).
  by rewrite (_ : (- (1 / 2) * (1 * 1 + 1 * 1) = - (1))%Re); last field.
- move=> a b. rewrite !mxE !ord1 eqxx /=. apply: (dpl_ext (f := id)); last exact: derivable_pt_lim_id. by move=> x; rewrite mxE eqxx.
- rewrite /em_logp_y_val_grad. change (meas_int (exC 1) exC_ps tt tt) with ((0 : 'cV[R]_1), (cons (Some (1%Re%:M : 'M[R]_1)) nil, true), (cons (None : option 'cV[R]_1) nil, true), (cons (Some (1%:M : 'M[R]_1)) nil, true)).
  rewrite /exC_ps get_states_tab [rbind (Ok _) _]/= /forr /= L3 HV /= QT /rsum /=. congr (Ok (_, _)); first by lra.
  rewrite /ml_l3_grad !(mul0mx, trmx0, oppr0, addr0, subr0) logprod0 /sub_half /=. congr cons. lra.
Qed.

(** C73, finding: if the model gives an R for each particle and a gradient is asked for, the call raises UnboundLocalError. *)
Theorem C73_y_grad_R_refuted : forall lxi lz m U Y Tm (L : mlnlg lxi lz m U Y Tm) (reY : 'cV[R]_m -> Y) N y t (xi : nat -> 'cV[R]_lxi) (z : nat -> 'cV[R]_lz) (P : nat -> 'M[R]_lz) (rest : nat -> row)
  (y' : 'cV[R]_m) (C : nat -> 'M[R]_(m, lz)) (h : nat -> 'cV[R]_m) (Rn : nat -> 'M[R]_m) np C_grad h_grad R_grad,
  let ps := tab N (fun i => rbrow (xi i) (z i) (P i) (rest i)) in
  (0 < N)%coq_nat -> oshaped h_grad N np -> ~ (C_grad = None /\ h_grad = None /\ R_grad = None) ->
  has_meas L ps y t -> snd (ml_meas L ps y t) <> None -> (forall i, (i < N)%coq_nat -> measurement_at L ps y t i y' (C i) (h i) (Rn i)) ->
  em_logp_y_val_grad L reY np C_grad h_grad R_grad ps y t = Err UnboundLocalError.
Proof.
move=> lxi lz m U Y Tm L reY N y t xi z P rest y' C h Rn np Cg hg Rg ps HN Sh Hnn HC HS HM.
case: (meas_int_ok HM HC HN) => Cz [iC [hz [ih [Rz [iR [E [E1 [E2 [E3 [E4 E5]]]]]]]]]].
have {}E5 : iR = false by rewrite E5; move: HS; case: (ml_meas L ps y t) => [[[? ?] ?] [?|]].
have -> : em_logp_y_val_grad L reY np Cg hg Rg ps y t =
     (dor Ss <- get_states3 (lxi := lxi) (lz := lz) ps ;
      dor l3 <- forr (length Ss) (fun i =>
        dor s <- idx Ss i ; dor h <- idx hz i ; dor C <- at_ Cz i ;
        dor g <- forr np (fun j =>
          dor Cg <- (match Cg with None => Ok None | Some _ => Ok (Some 0) end) ;
          dor hg <- (match hg with None => Ok None | Some g => dor x <- idx2 g i j ; Ok (Some x) end) ;
          Ok (ml_l3_grad y' s.1.2 s.2 C h Cg hg)) ;
        Ok (ml_l3 y' s.1.2 s.2 C h, g)) ;
      match length ps with 0 => Ok (0%Re, List.repeat 0%Re np) | _ => Err UnboundLocalError end).
{ by move: Hnn; rewrite /em_logp_y_val_grad E E5; case: (Cg) => [?|] //; case: (hg) => [?|] //; case: (Rg) => [?|] // []. }
pose cg := match Cg with None => None | Some _ => Some (0 : 'M[R]_(m, lz)) end.
pose og i k := match hg with None => None | Some _ => Some (grad2 hg i k) end.
rewrite get_states_tab [rbind (Ok _) _]/= !tab_length (forr_ok (g := fun i => (ml_l3 y' (z i) (P i) (C i) (Some (h i)), tab np (fun k => ml_l3_grad y' (z i) (P i) (C i) (Some (h i)) cg (og i k))))).
- rewrite /=. by case: (N) HN => [|?] //; lia.
- move=> i Hi. rewrite idx_tab // [rbind (Ok _) _]/=. case: (E2 _ Hi) => o [-> Ho]. rewrite [rbind (Ok _) _]/= E1 // [rbind (Ok _) _]/= (forr_ok (g := fun k => ml_l3_grad y' (z i) (P i) (C i) (Some (h i)) cg (og i k))).
  + by rewrite /= ml_l3_orz Ho.
  + move=> k Hk. have -> : match Cg with None => Ok None | Some _ => Ok (Some (0 : 'M[R]_(m, lz))) end = Ok cg by rewrite /cg; case: (Cg).
    have -> : match hg with None => Ok None | Some g => dor x <- idx2 g i k ; Ok (Some x) end = Ok (og i k) by rewrite /og; case: (hg) Sh => [l|] // Hl; rewrite (idx2_ok Hl Hi Hk).
    by rewrite /= /ml_l3_grad meas_diff_orz Ho.
Qed.

Lemma l1_deriv lz (z : 'cV[R]_lz) (P : 'M[R]_lz) (z0 : R -> 'cV[R]_lz) s0 dz : mx_deriv z0 s0 dz ->
  mx_deriv (fun s => calc_l1 z P (z0 s)) s0 (- ((z - z0 s0) *m dz^T) - ((z - z0 s0) *m dz^T)^T).
Proof.
move=> H. have H1 := mxd_sub (mxd_const s0 z) H. have H2 := mxd_add (mxd_outer H1) (mxd_const s0 P).
apply: (eq_ind _ (mx_deriv (fun s => calc_l1 z P (z0 s)) s0) H2). rewrite addr0 sub0r mulNmx trN !trmx_mul !trmxK. move: (dz *m _) ((z - z0 s0) *m _) => a b. mxab.
Qed.
Lemma total_add N f g : total N (fun i => f i + g i)%Re = (total N f + total N g)%Re.
Proof. rewrite /total /tab. elim: (List.seq 0 N) => [|x l IH] /=; first by lra. rewrite IH; lra. Qed.
Lemma total_scal N k f : total N (fun i => k * f i)%Re = (k * total N f)%Re.
Proof. rewrite /total /tab. elim: (List.seq 0 N) => [|x l IH] /=; first by lra. rewrite IH; lra. Qed.
Lemma total_const N c : total N (fun _ => c) = (INR N * c)%Re.
Proof.
rewrite /total /tab. have -> : INR N = INR (List.length (List.seq 0 N)) by rewrite List.seq_length.
elim: (List.seq 0 N) => [|x l IH]; first by rewrite /=; lra. rewrite [List.length _]/= S_INR /= IH. lra.
Qed.
Lemma fold_sub_half_length np (ds : list (list R)) g : List.length g = np -> List.Forall (fun d => List.length d = np) ds -> List.length (List.fold_left sub_half ds g) = np.
Proof.
elim: ds g => [|d ds IH] g Hg HF //=. inversion_clear HF as [|? ? Hd HF']. apply: IH => //. by rewrite /sub_half List.map_length List.combine_length Hg Hd PeanoNat.Nat.min_id.
Qed.

(** C73, initial term: let the initial mean and covariance of z and the log densities of the xi depend on a parameter s, with the
    supplied gradients for parameter j (for the xi: the derivative of the sum over the particles).  Then entry j of the
    returned gradient is the derivative of the average over the particles of what eval_logp_x0 returns. *)
Theorem C73_x0_grad : forall lxi lz N (xi : nat -> 'cV[R]_lxi) (z : nat -> 'cV[R]_lz) (P : nat -> 'M[R]_lz) (rest : nat -> row)
  rb_initial logp_xi0 logp_xi0_grad (z0 : nat -> R -> 'cV[R]_lz) P0 lpxi gxi np z0_grad P0_grad s0 j,
  let ps := tab N (fun i => rbrow (xi i) (z i) (P i) (rest i)) in
  (0 < N)%coq_nat -> (j < np)%coq_nat -> shaped z0_grad N np -> shaped P0_grad N np ->
  (forall s, rb_initial s (tab N xi) = tab N (fun i => (z0 i s, P0 i s)) /\ logp_xi0 s (tab N xi) = Ok (tab N (fun i => lpxi i s))) ->
  logp_xi0_grad (tab N xi) = Ok gxi -> List.length gxi = np -> derivable_pt_lim (fun s => total N (fun i => lpxi i s)) s0 (List.nth j gxi 0%Re) ->
  (forall i, (i < N)%coq_nat -> (forall s, posdef (P0 i s)) /\ mx_deriv (z0 i) s0 (grad2 (Some z0_grad) i j) /\ mx_deriv (P0 i) s0 (grad2 (Some P0_grad) i j)) ->
  exists v vals g, (forall s, em_logp_x0 (rb_initial s) (logp_xi0 s) ps = Ok (tab N (fun i => v i s))) /\
    em_logp_x0_val_grad (rb_initial s0) (logp_xi0 s0) np z0_grad P0_grad logp_xi0_grad ps = Ok (vals, g) /\
    derivable_pt_lim (fun s => total N (fun i => v i s) / INR N)%Re s0 (List.nth j g 0%Re) /\
    vals = tab N (fun i => (lpxi i s0 + total N (fun k => v k s0 - lpxi k s0)) / INR N)%Re.
Proof.
move=> lxi lz N xi z P rest rb lp lpg z0 P0 lpxi gxi np zg Pg s0 j ps HN Hj Sz SP Hrb Hg Lg Dxi H.
pose l1 i s := calc_l1 (z i) (P i) (z0 i s).
pose Uc i := match chol (P0 i s0) with Ok V => V | Err _ => 0 end.
have HP i (Hi : (i < N)%coq_nat) s : posdef (P0 i s) by case: (H i Hi) => /(_ s).
have HU i (Hi : (i < N)%coq_nat) : chol (P0 i s0) = Ok (Uc i) by rewrite /Uc; case: (chol_total (HP i Hi s0)) => V ->.
pose q i s := (- (1 / 2) * (ln (\det (P0 i s)) + \tr (invmx (P0 i s) *m l1 i s)%mx))%Re.
pose dl i k := - ((z i - z0 i s0) *m (grad2 (Some zg) i k)^T) - ((z i - z0 i s0) *m (grad2 (Some zg) i k)^T)^T.
pose d i k := compute_logprod_derivative (Uc i) (grad2 (Some Pg) i k) (l1 i s0) (dl i k).
pose ds i := tab np (d i). pose gz := List.fold_left sub_half (tab N ds) (List.repeat 0%Re np).
pose g := List.map (fun ab => (ab.1 + ab.2) / INR N)%Re (List.combine gxi gz).
have Lz : List.length gz = np by apply: fold_sub_half_length; [exact: List.repeat_length|apply/List.Forall_forall => x /List.in_map_iff [i [<- _]]; rewrite /ds tab_length].
exists (fun i s => lpxi i s + q i s)%Re, (tab N (fun i => (lpxi i s0 + total N (fun k => (lpxi k s0 + q k s0) - lpxi k s0)) / INR N)%Re), g.
split; [|split; [|split]].
- move=> s. case: (Hrb s) => H1 H2. rewrite /em_logp_x0 get_states_tab [rbind (Ok _) _]/= map_tab /= H1 H2 [rbind (Ok _) _]/= tab_length (forr_ok (g := fun i => q i s)); first exact: map2r_tab.
  move=> i Hi. rewrite !idx_tab // [rbind (Ok _) _]/=. case: (chol_total (HP _ Hi s)) => V HV. rewrite HV /=. congr Ok. exact: (qterm_cho_ok _ (HP _ Hi s) HV).
- case: (Hrb s0) => H1 H2. rewrite /em_logp_x0_val_grad get_states_tab [rbind (Ok _) _]/= map_tab /= H1 H2 [rbind (Ok _) _]/= Hg [rbind (Ok _) _]/= tab_length (forr_ok (g := fun i => (q i s0, ds i))).
  + rewrite [rbind (Ok _) _]/= !map_tab /= rsum_tab -/gz.
    have -> : map2r (fun a b => Ok ((a + b) / INR N)%Re) gxi gz = Ok g.
    { rewrite /g. have := etrans Lg (esym Lz). clear. move: gz => gz. elim: gxi gz => [|a l IH] [|b l'] //= [Hab]. by rewrite (IH l' Hab). }
    rewrite [rbind (Ok _) _]/=. congr (Ok (_, _)). apply: tab_ext => i _. congr (_ / _)%Re. congr (_ + _)%Re. rewrite /total. congr List.fold_right. apply: tab_ext => k _. lra.
  + move=> i Hi. rewrite !idx_tab // [rbind (Ok _) _]/= HU // [rbind (Ok _) _]/= (forr_ok (g := d i)).
    * rewrite /=. congr (Ok (_, _)). exact: (qterm_cho_ok _ (HP _ Hi s0) (HU _ Hi)).
    * move=> k Hk. by rewrite (idx2_ok Sz Hi Hk) (idx2_ok SP Hi Hk).
- have D : derivable_pt_lim (fun s => total N (fun i => q i s)) s0 (List.nth j gz 0%Re).
  { apply: (@loop_deriv_tab np N _ P0 Uc l1 s0 (fun i => grad2 (Some Pg) i j) (fun i => dl i j) ds j) => //.
    + by move=> i Hi; case: (H i Hi) => _ [].
    + move=> i Hi. case: (H i Hi) => _ [H1 _]. exact: l1_deriv.
    + by move=> i Hi; rewrite /ds tab_length.
    + by move=> i Hi; rewrite /ds (List.nth_error_nth _ _ _ (tab_nth _ Hj)). }
  have -> : List.nth j g 0%Re = (/ INR N * (List.nth j gxi 0 + List.nth j gz 0))%Re.
  { rewrite /g (List.nth_indep _ 0%Re ((fun ab => (ab.1 + ab.2) / INR N)%Re (0%Re, 0%Re))); last by rewrite List.map_length List.combine_length Lg Lz PeanoNat.Nat.min_id.
    rewrite List.map_nth List.combine_nth /=; last by rewrite Lg Lz. by rewrite /Rdiv Rmult_comm. }
  apply: (dpl_ext (f := fun s => (/ INR N * (total N (fun i => lpxi i s) + total N (fun i => q i s)))%Re)); first by move=> s; rewrite total_add /Rdiv Rmult_comm.
  apply: (derivable_pt_lim_scal (fun s => total N (fun i => lpxi i s) + total N (fun i => q i s))%Re).
  exact: (derivable_pt_lim_plus (fun s => total N (fun i => lpxi i s))).
- by [].
Qed.

(** C73, finding: the value eval_logp_x0_val_grad returns is not the function its gradient belongs to: it is an array, and even
    its mean differs from the average of eval_logp_x0 (the log densities of the xi are divided by N twice).  Two particles
    here, each with log density 1 of xi. *)
Theorem C73_x0_value_refuted : exists rb_initial logp_xi0 logp_xi0_grad (ps : list row) (v vals g : list R) z0_grad P0_grad,
  em_logp_x0 (lxi := 1) (lz := 1) rb_initial logp_xi0 ps = Ok v /\
  em_logp_x0_val_grad rb_initial logp_xi0 1 z0_grad P0_grad logp_xi0_grad ps = Ok (vals, g) /\ List.length ps = 2%nat /\ List.length vals = 2%nat /\
  (List.fold_right Rplus 0 vals / 2 <> List.fold_right Rplus 0 v / 2)%Re.
Proof.
pose rb (l : list 'cV[R]_1) := List.map (fun _ => (0 : 'cV[R]_1, 1%:M : 'M[R]_1)) l.
pose lp (l : list 'cV[R]_1) := Ok (List.map (fun _ => 1%Re) l).
pose zg := cons (cons (0 : 'cV[R]_1) nil) (cons (cons 0 nil) nil). pose Pg := cons (cons (0 : 'M[R]_1) nil) (cons (cons 0 nil) nil).
case: (@C73_x0_grad 1 1 2 (fun _ => 0) (fun _ => 0) (fun _ => 1%:M) (fun _ => nil) (fun _ => rb) (fun _ => lp) (fun _ => Ok (cons 0%Re nil)) (fun _ _ => 0) (fun _ _ => 1%:M) (fun _ _ => 1%Re) (cons 0%Re nil) 1 zg Pg 0 0) => //; try lia; try by split => //; repeat constructor.
- rewrite /=. exact: derivable_pt_lim_const.
- move=> i Hi. split; first by move=> _; exact: posdef1. have E a b : grad2 (Some (cons (cons (0 : 'M[R]_(a, b)) nil) (cons (cons 0 nil) nil))) i 0 = 0 by case: i Hi => [|[|i]] //=; lia.
  by rewrite /zg /Pg !E; split; exact: mxd_const.
- move=> v [vals [g [H1 [H2 [_ H3]]]]]. exists rb, lp, (fun _ => Ok (cons 0%Re nil)), (tab 2 (fun _ => rbrow (0 : 'cV[R]_1) (0 : 'cV[R]_1) (1%:M : 'M[R]_1) nil)), (tab 2 (fun i => v i 0%Re)), vals, g, zg, Pg.
  split; first exact: (H1 0%Re). split; first exact: H2. split; first by rewrite tab_length. rewrite H3 tab_length. split => //.
  rewrite -!/(total 2 _). change (INR 2) with (1 + 1)%Re. rewrite /total /tab /=. lra.
Qed.

(** C73, models with a Gaussian initial distribution of xi whose mean and covariance depend on a parameter: eval_logp_xi0_grad is
    the derivative of the sum over the particles of eval_logp_xi0. *)
Theorem C73_xi0_grad : forall lxi lz N (xi : nat -> 'cV[R]_lxi) (Gc : R -> ml_init_gauss (lxi := lxi) (lz := lz)) np xi0_grad Pxi0_grad s0 j,
  (j < np)%coq_nat -> shaped xi0_grad N np -> shaped Pxi0_grad N np -> (forall s, posdef (ig_Pxi0 (Gc s))) ->
  (forall i, (i < N)%coq_nat -> mx_deriv (fun s => ig_xi0 (Gc s)) s0 (grad2 (Some xi0_grad) i j) /\ mx_deriv (fun s => ig_Pxi0 (Gc s)) s0 (grad2 (Some Pxi0_grad) i j)) ->
  exists v g, (forall s, ig_logp_xi0 (Gc s) (tab N xi) = Ok (tab N (fun i => v i s))) /\
    ig_logp_xi0_grad (Gc s0) np xi0_grad Pxi0_grad (tab N xi) = Ok g /\ List.length g = np /\
    derivable_pt_lim (fun s => total N (fun i => v i s)) s0 (List.nth j g 0%Re).
Proof.
move=> lxi lz N xi Gc np xg Pg s0 j Hj Sx SP HP H.
pose S s := ig_Pxi0 (Gc s). case: (chol_total (HP s0)) => V HV.
pose l0 i s := calc_l1 (xi i) 0 (ig_xi0 (Gc s)).
pose dl i k := - ((xi i - ig_xi0 (Gc s0)) *m (grad2 (Some xg) i k)^T) - ((xi i - ig_xi0 (Gc s0)) *m (grad2 (Some xg) i k)^T)^T.
pose d i k := compute_logprod_derivative V (grad2 (Some Pg) i k) (l0 i s0) (dl i k).
pose ds i := tab np (d i). pose g := List.fold_left sub_half (tab N ds) (List.repeat 0%Re np).
pose q i s := (- (1 / 2) * (ln (\det (S s)) + \tr (invmx (S s) *m l0 i s)%mx))%Re.
exists (fun i s => normal_logpdf (ig_xi0 (Gc s)) (S s) (xi i)), g. split; [|split; [|split]].
- move=> s. by case: (C72_initial_gaussian (Gc s) (fun _ _ _ => 0) N) => _ [_ [/(_ (HP s) xi) -> _]].
- rewrite /ig_logp_xi0_grad HV [rbind (Ok _) _]/= tab_length (forr_ok (g := ds)) //. move=> i Hi. rewrite idx_tab // [rbind (Ok _) _]/=. apply: forr_ok => k Hk.
  rewrite (idx2_ok Sx Hi Hk) (idx2_ok SP Hi Hk) /= /d /l0 /calc_l1 addr0 //.
- apply: fold_sub_half_length; [exact: List.repeat_length|apply/List.Forall_forall => x /List.in_map_iff [i [<- _]]; rewrite /ds tab_length //].
- have D : derivable_pt_lim (fun s => total N (fun i => q i s)) s0 (List.nth j g 0%Re).
  { apply: (@loop_deriv_tab np N _ (fun _ => S) (fun _ => V) l0 s0 (fun i => grad2 (Some Pg) i j) (fun i => dl i j) ds j) => //.
    + by move=> i Hi; case: (H i Hi).
    + move=> i Hi. case: (H i Hi) => H1 _. exact: l1_deriv.
    + by move=> i Hi; rewrite /ds tab_length.
    + by move=> i Hi; rewrite /ds (List.nth_error_nth _ _ _ (tab_nth _ Hj)). }
  apply: (dpl_ext (f := fun s => (total N (fun i => q i s) + (- (INR N * (INR lxi / 2 * ln (2 * PI)))))%Re)); last first.
  { rewrite -[X in derivable_pt_lim _ _ X]Rplus_0_r. apply: (derivable_pt_lim_plus (fun s => total N (fun i => q i s))) => //. exact: derivable_pt_lim_const. }
  move=> s. rewrite -total_const -(Rplus_0_r (total N (fun i => normal_logpdf _ _ _))). 
  have -> : total N (fun i => q i s) = total N (fun i => normal_logpdf (ig_xi0 (Gc s)) (S s) (xi i) + INR lxi / 2 * ln (2 * PI))%Re.
  { rewrite /total. congr List.fold_right. apply: tab_ext => i _. rewrite /normal_logpdf /q (num_c _ _ (INR lxi) (ln (2 * PI))). congr (- (1 / 2) * (_ + _) + _)%Re.
    rewrite /quad /l0 /calc_l1 addr0. rewrite (mulmxA (invmx (S s))) mxtrace_mulC mulmxA. by rewrite /mxtrace big_ord1. }
  rewrite total_add. lra.
Qed.

(** ** Examples *)
(** the three-state example model: one nonlinear state (driven by the first of two linear ones); three smoothed particles *)
Definition ex_ps : list row := tab 3 (fun i => srow (const_mx (INR i) : 'cV[R]_1) ex_u ex_P (0 : 'M[R]_2) nil).
Definition ex_pn : list row := tab 3 (fun i => rbrow (const_mx 1%Re : 'cV[R]_1) ex_u ex_P nil).
Example C72_case : exists v w, em_logp_xnext (exL None) ex_ps ex_pn tt tt = Ok v /\ em_logp_y (exL None) ex_ps tt tt = Ok w.
Proof.
case: (@C72_xnext_value _ _ _ _ _ _ (exL None) 3 tt tt (fun i => const_mx (INR i)) (fun _ => ex_u) (fun _ => ex_P) (fun _ => 0) (fun _ => nil) (fun _ => const_mx 1%Re) (fun _ => ex_u) (fun _ => ex_P) (fun _ => nil)
  (fun _ => ex_C) (fun _ => 0) (fun _ => ex_R) (fun _ => ex_P) (fun _ => ex_u) (fun _ => ex_P) (fun _ => 0)) => [|i Hi|v [Hv _]]; first by lia.
{ split; [exact: exL_dyn|exact: diag_posdef ex_R_posdef ex_P_posdef]. }
case: (@C72_y_value _ _ _ _ _ _ (exL None) 3 tt tt (fun i => const_mx (INR i)) (fun _ => ex_u) (fun _ => ex_P) (fun _ => (ravel (0 : 'M[R]_2) ++ nil)%SEQ) (const_mx 5%Re) (fun _ => ex_C) (fun _ => 0) (fun _ => ex_R)) => [||i Hi|w [Hw _]].
- lia. - by move=> [_ []].
- split; last exact: ex_R_posdef. rewrite /measurement_at /=. by repeat split => //; move=> [_ []].
- by exists (total 3 v), (total 3 w).
Qed.
(** A of the scalar model exA is s: its gradient is the supplied one *)
Definition exA (s : R) : mlnlg 1 1 1 unit unit unit :=
  ml_init (Some (s%:M)) (Some (1%:M)) (Some (1%:M)) (Some (1%:M)) None (Some (1%:M)) (Some (1%:M)) None None None
    (fun _ _ _ => (None, None, None)) (fun _ _ _ => (None, None, None)) (fun _ _ _ => (0, None, None, None)) (fun _ _ _ => None).
Definition exA_grad : list (list 'M[R]_(1 + 1, 1)) := cons (cons (col_mx 0 1%:M) nil) nil.
Example C73_case : exists v g, (forall s, em_logp_xnext (exA s) (tab 1 (fun _ => srow (0 : 'cV[R]_1) (1%:M : 'cV[R]_1) (1%:M : 'M[R]_1) 0 nil)) (tab 1 (fun _ => rbrow (0 : 'cV[R]_1) (1%:M : 'cV[R]_1) (1%:M : 'M[R]_1) nil)) tt tt = Ok (v s)) /\
  em_logp_xnext_val_grad (exA 2) 1 (Some exA_grad) None None (tab 1 (fun _ => srow (0 : 'cV[R]_1) (1%:M : 'cV[R]_1) (1%:M : 'M[R]_1) 0 nil)) (tab 1 (fun _ => rbrow (0 : 'cV[R]_1) (1%:M : 'cV[R]_1) (1%:M : 'M[R]_1) nil)) tt tt = Ok (v 2%Re, g) /\
  derivable_pt_lim v 2 (List.nth 0 g 0%Re).
Proof.
apply: (@C73_xnext_grad _ _ _ _ _ _ exA 1 tt tt (fun _ => 0) (fun _ => 1%:M) (fun _ => 1%:M) (fun _ => 0) (fun _ => nil) (fun _ => 0) (fun _ => 1%:M) (fun _ => 1%:M) (fun _ => nil)
  (fun _ _ => 1%:M) (fun _ _ => 0) (fun _ _ => 1%:M) (fun _ s => s%:M) (fun _ _ => 0) (fun _ _ => 1%:M) (fun _ _ => 0) 1 (Some exA_grad) None None 2%Re 0) => //; try lia.
{ by split => //; repeat constructor. }
move=> i Hi. have -> : i = 0%nat by lia. split; first exact: (proj1 (posdef1 1)). split; [|split; [|split]].
- move=> s. split; first by []. apply: diag_posdef; exact: posdef1.
- apply: (mxd_ext (M := fun s : R => col_mx (1%:M : 'M[R]_1) 0 + col_mx (0 : 'M[R]_1) (s%:M))); first by move=> s; rewrite add_col_mx addr0 add0r.
  rewrite -[grad2 _ _ _]add0r. apply: mxd_add; first exact: mxd_const. apply: mxd_col0. move=> a b. rewrite !ord1. apply: (dpl_ext (f := id)); first by move=> x; rewrite mxE eqxx.
  rewrite mxE eqxx /=. exact: derivable_pt_lim_id.
- exact: mxd_const. - exact: mxd_const.
Qed.
(** a call without P0 for the linear states fails in the constructor *)
Example C72_no_Pz0 : forall (x : 'cV[R]_1) (z : 'cV[R]_2) P, ig_new x z P None = Err AttributeError. Proof. by []. Qed.

Print Assumptions C72_xnext_value.
Print Assumptions C73_xnext_grad.
