(** Properties of the Kalman filter and smoother: C33-C39. *)
From mathcomp Require Import all_ssreflect all_algebra.
From Coq Require Import Reals Lra List.
From Verif Require Import Base RMat KalmanModel LinAlg Gauss Moments.
Set Implicit Arguments.
Unset Strict Implicit.
Unset Printing Implicit Defensive.
Import GRing.Theory.
Local Open Scope ring_scope.

(** an absent additive term counts as zero *)
Definition orzero m (h : option 'cV[R]_m) : 'cV[R]_m := match h with Some h => h | None => 0 end.

Lemma sub_orzero m (a : 'cV[R]_m) (h : option 'cV[R]_m) : match h with Some h => a - h | None => a end = a - orzero h.
Proof. by case: h => //=; rewrite subr0. Qed.

Lemma quad_solve n (A U : 'M[R]_n) (e : 'cV[R]_n) : symmetric A -> chol A = Ok U -> scal11 (e^T *m cho_solve U e) = quad (invmx A) e.
Proof. by move=> SA H; rewrite (cho_solveE _ SA H) /scal11 /quad mulmxA. Qed.

Lemma measure_ok n m (y : 'cV[R]_m) (z : 'cV[R]_n) (P : 'M[R]_n) (C : 'M[R]_(m, n)) (h : option 'cV[R]_m) (Rn : 'M[R]_m) :
  psd P -> posdef Rn ->
  measure_full y z P (Some C) h Rn =
  Ok (normal_logpdf (C *m z + orzero h) (C *m P *m C^T + Rn) y,
      z + P *m C^T *m invmx (C *m P *m C^T + Rn) *m (y - (C *m z + orzero h)),
      P - P *m C^T *m (invmx (C *m P *m C^T + Rn) *m (C *m P))).
Proof.
move=> HP HR. have HS : posdef (C *m P *m C^T + Rn) by apply: posdef_add => //; exact: psd_cong.
case: (chol_total HS) => U HU. rewrite /measure_full HU /=. rewrite sub_orzero -addrA -opprD.
rewrite (quad_solve _ (proj1 HS) HU) (proj2 (chol_det (proj1 HS) HU)) !(cho_solveE _ (proj1 HS) HU) mulmxA //.
Qed.

(** C33: for invertible covariances a measurement update is exact Bayes: the call succeeds, the returned
    value is the log of the marginal density of y, and prior times likelihood is marginal times the normal
    density with the new mean and covariance, at every state x. *)
Theorem C33_measure_bayes : forall n m (y : 'cV[R]_m) (z : 'cV[R]_n) (P : 'M[R]_n) (C : 'M[R]_(m, n)) (h : option 'cV[R]_m) (Rn : 'M[R]_m),
  posdef P -> posdef Rn ->
  exists lp z1 P1, measure_full y z P (Some C) h Rn = Ok (lp, z1, P1) /\ posdef P1 /\
    exp lp = normal_pdf (C *m z + orzero h) (C *m P *m C^T + Rn) y /\
    forall x, (normal_pdf z P x * normal_pdf (C *m x + orzero h)%mx Rn y = exp lp * normal_pdf z1 P1 x)%Re.
Proof.
move=> n m y z P C h Rn HP HR. have HS : posdef (C *m P *m C^T + Rn) by apply: S_posdef.
have H1 := P1_posdef C HP HR.
rewrite (measure_ok _ _ _ _ (posdef_psd HP) HR). do 3 eexists; split; first by reflexivity. split => //. split.
- by rewrite normal_pdf_log //; exact: posdef_det.
- move=> x. rewrite !normal_pdf_log; try (exact: posdef_det). by rewrite -!exp_plus (gauss_bayes_log C HP HR z x y (orzero h)).
Qed.

(** C33: also for a singular prior covariance the call succeeds and returns the log marginal density. *)
Theorem C33_measure_likelihood : forall n m (y : 'cV[R]_m) (z : 'cV[R]_n) (P : 'M[R]_n) (C : 'M[R]_(m, n)) (h : option 'cV[R]_m) (Rn : 'M[R]_m),
  psd P -> posdef Rn ->
  exists lp z1 P1, measure_full y z P (Some C) h Rn = Ok (lp, z1, P1) /\ exp lp = normal_pdf (C *m z + orzero h) (C *m P *m C^T + Rn) y.
Proof.
move=> n m y z P C h Rn HP HR. have HS : posdef (C *m P *m C^T + Rn) by apply: posdef_add => //; exact: psd_cong.
rewrite (measure_ok _ _ _ _ HP HR). do 3 eexists; split; first by reflexivity. by rewrite normal_pdf_log //; exact: posdef_det.
Qed.

(** C33: without C the measurement carries no information on the state: nothing changes, the value is
    the log density of y around h. *)
Theorem C33_measure_no_C : forall n m (y : 'cV[R]_m) (z : 'cV[R]_n) (P : 'M[R]_n) (h : option 'cV[R]_m) (Rn : 'M[R]_m),
  posdef Rn -> exists lp, measure_full y z P None h Rn = Ok (lp, z, P) /\ exp lp = normal_pdf (orzero h) Rn y.
Proof.
move=> n m y z P h Rn HR. case: (chol_total HR) => U HU. rewrite /measure_full HU /= sub_orzero.
rewrite (quad_solve _ (proj1 HR) HU) (proj2 (chol_det (proj1 HR) HU)). eexists; split; first by reflexivity.
by rewrite normal_pdf_log //; exact: posdef_det.
Qed.

(** C33: noise covariances that are not positive definite are rejected when C is absent. *)
Theorem C33_rejects : forall n m (y : 'cV[R]_m) (z : 'cV[R]_n) (P : 'M[R]_n) (h : option 'cV[R]_m) (Rn : 'M[R]_m),
  symmetric Rn -> ~ posdef Rn -> exists e, measure_full y z P None h Rn = Err e.
Proof.
move=> n m y z P h Rn SR HR. rewrite /measure_full. case E : (chol Rn) => [U|e]; last by exists e.
case: HR; exact: (chol_posdef SR E).
Qed.

(** C34: whatever the distribution of the state and the noise, if the state has mean z and covariance P
    and the noise is zero mean with covariance Q and uncorrelated with the state, prediction returns mean
    and covariance of A x + f + v. *)
Theorem C34_predict_moments : forall Om (E : (Om -> R) -> R) n (x v : Om -> 'cV[R]_n) z P A f Q z1 P1,
  expectation E -> has_mean E x z -> has_cov E x z P -> has_mean E v 0 -> has_cov E v 0 Q -> cross_cov E x z v 0 = 0 ->
  predict_full z P A f Q = (z1, P1) ->
  has_mean E (fun w => A *m x w + f + v w) z1 /\ has_cov E (fun w => A *m x w + f + v w) z1 P1.
Proof.
move=> Om E n x v z P A f Q z1 P1 HE Hx HP Hv HQ Hxv [<- <-]. split.
- rewrite /has_mean (Emx_add HE) (Emx_add HE (fun w => A *m x w)) (Emx_const HE) (Emx_mull HE) Hx Hv. by rewrite addr0 addrC.
- rewrite /has_cov /cross_cov.
  transitivity (Emx E (fun w => A *m ((x w - z) *m (x w - z)^T) *m A^T + A *m ((x w - z) *m (v w - 0)^T) + (v w - 0) *m (x w - z)^T *m A^T + (v w - 0) *m (v w - 0)^T)).
  + apply: Emx_ext => w. rewrite (_ : A *m x w + f + v w - (f + A *m z) = A *m (x w - z) + v w); last by rewrite mulmxBr; mxab.
    rewrite subr0. move: (x w - z) (v w) => a b. rewrite trD trmx_mul mulmxDl !mulmxDr !mulmxA. 
by rewrite !addrA.
  + have E1 : Emx E (fun w => (x w - z) *m (v w - 0)^T) = 0 by exact: Hxv.
    have E2 : Emx E (fun w => (v w - 0) *m (x w - z)^T) = 0 by rewrite -/(cross_cov E v 0 x z) cross_cov_tr Hxv trmx0.
    have E3 : Emx E (fun w => (x w - z) *m (x w - z)^T) = P by exact: HP.
    have E4 : Emx E (fun w => (v w - 0) *m (v w - 0)^T) = Q by exact: HQ.
    by rewrite !(Emx_add HE) !(Emx_mulr HE) !(Emx_mull HE) E1 E2 E3 E4 mulmx0 mul0mx !addr0.
Qed.

(** ** C35 *)
(** One filtering step with its own matrices. *)
Inductive kcmd (n : nat) : Type :=
| Cpredict (A : 'M[R]_n) (f : 'cV[R]_n) (Q : 'M[R]_n)
| Cmeasure m (y : 'cV[R]_m) (C : option 'M[R]_(m, n)) (h : option 'cV[R]_m) (Rn : 'M[R]_m).
Fixpoint filter_run n (l : list (kcmd n)) (z : 'cV[R]_n) (P : 'M[R]_n) : res ('cV[R]_n * 'M[R]_n) :=
  match l with
  | nil => Ok (z, P)
  | cons (Cpredict A f Q) l' => let (z', P') := predict_full z P A f Q in filter_run l' z' P'
  | cons (Cmeasure m y C h Rn) l' => rbind (measure_full y z P C h Rn) (fun r => let '(_, z', P') := r in filter_run l' z' P')
  end.
Definition valid_cmd n (c : kcmd n) : Prop :=
  match c with Cpredict A f Q => psd Q | Cmeasure m y C h Rn => posdef Rn end.

(** Joseph form *)
Lemma joseph n m (P : 'M[R]_n) (C : 'M[R]_(m, n)) (Rn : 'M[R]_m) : psd P -> posdef Rn ->
  let K := P *m C^T *m invmx (C *m P *m C^T + Rn) in
  P - P *m C^T *m (invmx (C *m P *m C^T + Rn) *m (C *m P)) = (1%:M - K *m C) *m P *m (1%:M - K *m C)^T + K *m Rn *m K^T.
Proof.
move=> HP HR K. have HS : posdef (C *m P *m C^T + Rn) by apply: posdef_add => //; exact: psd_cong.
set S := C *m P *m C^T + Rn in HS K *.
have uS := posdef_unit HS. have SP := proj1 HP.
have KS : K *m S = P *m C^T by rewrite /K (mulmxKV uS).
have E0 : K *m Rn = P *m C^T - K *m C *m P *m C^T by rewrite -KS /S mulmxDr !mulmxA addrAC subrr add0r.
rewrite E0 trB trmx1 trmx_mul !(mulmxBl, mulmxBr) !(mul1mx, mulmx1) !mulmxA -/K.
mxab.
Qed.

Lemma measure_psd n m (P : 'M[R]_n) (C : 'M[R]_(m, n)) (Rn : 'M[R]_m) : psd P -> posdef Rn ->
  psd (P - P *m C^T *m (invmx (C *m P *m C^T + Rn) *m (C *m P))).
Proof. move=> HP HR; rewrite (joseph C HP HR) /=; apply: psd_add; apply: psd_cong => //; exact: posdef_psd. Qed.

(** C35: after any sequence of predictions and measurements, with arbitrary dynamics, positive semidefinite
    process noise and positive definite measurement noise, from a positive semidefinite covariance, no call
    has failed and the covariance is symmetric positive semidefinite. *)
Theorem C35_psd_invariant : forall n (l : list (kcmd n)) z P, psd P -> Forall (@valid_cmd n) l ->
  exists z' P', filter_run l z P = Ok (z', P') /\ psd P'.
Proof.
move=> n; elim=> [|c l IH] z P HP HF; first by exists z, P.
case: (Forall_cons_iff (@valid_cmd n) c l) => H _. case: (H HF) => Hc HF' {H HF}.
case: c Hc => [A f Q|m y C h Rn] /= Hc.
- apply: IH => //. apply: psd_add => //; exact: psd_cong.
- case: C => [C|].
  + rewrite (measure_ok _ _ _ _ HP Hc) /=. apply: IH => //. exact: measure_psd.
  + case: (chol_total Hc) => U HU. rewrite /measure_full HU /=. exact: IH.
Qed.

(** C35: a measurement never increases the variance in any direction a. *)
Theorem C35_measure_shrinks : forall n m (y : 'cV[R]_m) (z : 'cV[R]_n) (P : 'M[R]_n) C h (Rn : 'M[R]_m) lp z1 P1, psd P -> posdef Rn ->
  measure_full y z P C h Rn = Ok (lp, z1, P1) -> forall a, (quad P1 a <= quad P a)%Re.
Proof.
move=> n m y z P [C|] h Rn lp z1 P1 HP HR.
- rewrite (measure_ok _ _ _ _ HP HR) => -[_ _ <-] a.
  rewrite quadD quadN. suff : (0 <= quad (P *m C^T *m (invmx (C *m P *m C^T + Rn) *m (C *m P))) a)%Re by lra.
  have HS : posdef (C *m P *m C^T + Rn) by apply: posdef_add => //; exact: psd_cong.
  have -> : P *m C^T *m (invmx (C *m P *m C^T + Rn) *m (C *m P)) = (P *m C^T) *m invmx (C *m P *m C^T + Rn) *m (P *m C^T)^T.
  { by rewrite trmx_mul trmxK (proj1 HP) !mulmxA. }
  apply: (proj2 (psd_cong _ _)). exact/posdef_psd/posdef_inv.
- rewrite /measure_full. case: (chol Rn) => //= U [_ _ <-] a. exact: Rle_refl.
Qed.

(** ** C36 *)
Lemma scal11E (A : 'M[R]_1) : A = (scal11 A)%:M.
Proof. exact: mx11_scalar. Qed.
Lemma chol1 (S : 'M[R]_1) : (0 < scal11 S)%Re -> exists U, chol S = Ok U /\ cho_logdet U = ln (scal11 S) /\ forall k (b : 'M[R]_(1, k)), cho_solve U b = (/ scal11 S)%Re *: b.
Proof.
move=> H. have HS : posdef S.
{ split; first exact: scal_tr. move=> x Hx. rewrite /quad [S]scal11E mul_mx_scalar -scalemxAl mxE rE.
  apply: Rmult_lt_0_compat => //. have := proj2 (posdef1 1) x Hx. by rewrite /quad mulmx1. }
case: (chol_total HS) => U HU. exists U; split => //. split.
- rewrite (proj2 (chol_det (proj1 HS) HU)) [in LHS](scal11E S) det_scalar expr1 //.
- move=> k b. rewrite (cho_solveE _ (proj1 HS) HU) [in LHS](scal11E S) invmx_scalar mul_scalar_mx //.
Qed.

Lemma lognormpdf_scalar_ok err (S : 'M[R]_1) : (0 < scal11 S)%Re ->
  lognormpdf_scalar err S = Ok (List.map (fun e => (- (1 / 2) * (l2pi + ln (scal11 S) + (e * e) / scal11 S))%Re) err).
Proof. move=> H; rewrite /lognormpdf_scalar; case: Rle_dec => // H1; exfalso; lra. Qed.

(** C36: for a scalar measurement and a symmetric state covariance the special path returns the same value
    and leaves the same mean and covariance as the general one, whenever the innovation variance is positive. *)
Theorem C36_scalar_agrees : forall n (y : 'cV[R]_1) (z : 'cV[R]_n) (P : 'M[R]_n) C h (Rn : 'M[R]_1), symmetric P ->
  (0 < match C with Some C => scal11 (C *m P *m C^T + Rn)%mx | None => scal11 Rn end)%Re ->
  exists r, measure_full_scalar y z P C h Rn = Ok r /\ measure_full y z P C h Rn = Ok r.
Proof.
move=> n y z P C h Rn SP. case: C => [C|] HS; case: (chol1 HS) => U [HU [Hld Hs]]; rewrite /measure_full_scalar /measure_full HU /=.
- set S := C *m P *m C^T + Rn in HS HU Hld Hs *. rewrite sub_orzero. set e := y - C *m z - orzero h.
  case: Req_EM_T => H0; first by lra. rewrite /= (lognormpdf_scalar_ok _ HS) /= /idx /=. rewrite !Hs Hld. eexists; split; first by reflexivity. congr (Ok (_, _, _)).
  + rewrite [e]scal11E -mul_scalar_mx tr_scalar_mx -!scalar_mxM. rewrite /scal11 !mxE eqxx !mulr1n !rE. move: (e ord0 ord0) => e'. move: H0; rewrite /scal11 !mxE => H0. field. exact: H0.
  + by rewrite -scalemxAr.
  + by rewrite -scalemxAr trmx_mul SP.
- rewrite sub_orzero. set e := y - orzero h. rewrite (lognormpdf_scalar_ok _ HS). have H0 : scal11 Rn <> 0%Re by lra.
  rewrite /= /idx /= Hld Hs. eexists; split; first by reflexivity. congr (Ok (_, _, _)).
  rewrite [e]scal11E -mul_scalar_mx tr_scalar_mx -!scalar_mxM. rewrite /scal11 !mxE eqxx !mulr1n !rE. move: (e ord0 ord0) => e'. move: H0; rewrite /scal11 => H0. field. exact: H0.
Qed.

(** ** C37 *)
(** C37: the smoothing step uses the exact conditional of x given x' = A x + f + v: its gain J and
    conditional covariance L satisfy N(x;z,P) N(x';Ax+f,Q) = N(x';Az+f,APA'+Q) N(x; z+J(x'-Az-f), L) for all
    x, x', and the result is the conditional averaged over x' with mean z_next and covariance P_next. *)
Theorem C37_smooth_exact : forall n (z : 'cV[R]_n) (P : 'M[R]_n) z_next P_next A f Q, posdef P -> posdef Q ->
  exists J L, posdef L /\
    (forall x x', (normal_pdf z P x * normal_pdf (A *m x + f)%mx Q x' =
                   normal_pdf (A *m z + f)%mx (A *m P *m A^T + Q)%mx x' * normal_pdf (z + J *m (x' - (A *m z + f)))%mx L x)%Re) /\
    smooth z P z_next P_next A f Q = Ok (z + J *m (z_next - (A *m z + f)), L + J *m P_next *m J^T, J *m P_next).
Proof.
move=> n z P z_next P_next A f Q HP HQ. have HS := S_posdef A HP HQ. have HL := P1_posdef A HP HQ.
set S := A *m P *m A^T + Q in HS HL *.
exists (P *m A^T *m invmx S), (P - P *m A^T *m (invmx S *m (A *m P))). split => //. split.
- move=> x x'. rewrite !normal_pdf_log; try (exact: posdef_det). by rewrite -!exp_plus (gauss_bayes_log A HP HQ z x x' f).
- rewrite /smooth /predict_full /np_inv -/S. case: Req_EM_T => [H0|_] /=; first by move: (posdef_det HS); rewrite H0 => /Rlt_irrefl.
  have SS := proj1 HS. have uS := posdef_unit HS. have SP := proj1 HP. rewrite [f + _]addrC.
  congr (Ok (_, _, _)); rewrite ?mulmxA //.
  set J := P *m A^T *m invmx S. have HJ : J^T = invmx S *m A *m P by rewrite /J !trmx_mul trmxK SP (sym_inv SS) !mulmxA.
  rewrite !(mulmxBr, mulmxBl) HJ !mulmxA. rewrite [J *m S](_ : _ = P *m A^T); last by rewrite /J (mulmxKV uS).
  rewrite -/J. mxab.
Qed.

(** C37: moments, for every distribution: with the same J and L, if x' has mean z_next and covariance
    P_next, and x is its conditional mean given x' plus an uncorrelated zero-mean error with the conditional
    covariance L, then smooth returns the mean and covariance of x and the cross covariance of x and x'. *)
Theorem C37_smooth_moments : forall n (z : 'cV[R]_n) (P : 'M[R]_n) z_next P_next A f Q, posdef P -> posdef Q ->
  exists J L zs Ps Ms,
    (forall x x', (normal_pdf z P x * normal_pdf (A *m x + f)%mx Q x' =
                   normal_pdf (A *m z + f)%mx (A *m P *m A^T + Q)%mx x' * normal_pdf (z + J *m (x' - (A *m z + f)))%mx L x)%Re) /\
    smooth z P z_next P_next A f Q = Ok (zs, Ps, Ms) /\
    forall Om (E : (Om -> R) -> R) (x' err : Om -> 'cV[R]_n), expectation E ->
      has_mean E x' z_next -> has_cov E x' z_next P_next -> has_mean E err 0 -> has_cov E err 0 L -> cross_cov E err 0 x' z_next = 0 ->
      let x := fun w => z + J *m (x' w - (A *m z + f)) + err w in
      has_mean E x zs /\ has_cov E x zs Ps /\ cross_cov E x zs x' z_next = Ms.
Proof.
move=> n z P z_next P_next A f Q HP HQ. case: (C37_smooth_exact z z_next P_next A f HP HQ) => J [L [HL [HD HS]]].
exists J, L. do 3 eexists. split; first exact: HD. split; first exact: HS.
move=> Om E x' err HE Hx HP' He HL' Hxe x.
have Ex : forall w, x w - (z + J *m (z_next - (A *m z + f))) = J *m (x' w - z_next) + err w.
{ move=> w. rewrite /x (_ : x' w - (A *m z + f) = (x' w - z_next) + (z_next - (A *m z + f))); last by mxab.
  rewrite mulmxDr. mxab. }
have Hxe' : Emx E (fun w => err w *m (x' w - z_next)^T) = 0.
{ rewrite -[RHS]Hxe; apply: Emx_ext => w; by rewrite subr0. }
split; [|split].
- rewrite /has_mean /x (Emx_add HE) (Emx_add HE (fun _ => z)) (Emx_const HE) (Emx_mull HE) (Emx_sub HE) (Emx_const HE) Hx He addr0 //.
- rewrite /has_cov /cross_cov.
  transitivity (Emx E (fun w => J *m ((x' w - z_next) *m (x' w - z_next)^T) *m J^T + J *m (err w *m (x' w - z_next)^T)^T + (err w *m (x' w - z_next)^T) *m J^T + (err w - 0) *m (err w - 0)^T)).
  + apply: Emx_ext => w. rewrite Ex subr0. move: (x' w - z_next) (err w) => a b. rewrite trD !trmx_mul !trmxK mulmxDl !mulmxDr !mulmxA. by rewrite !addrA.
  + rewrite !(Emx_add HE) !(Emx_mulr HE) !(Emx_mull HE) (Emx_tr E) Hxe' trmx0 mulmx0 mul0mx !addr0.
    rewrite [X in J *m X *m _]HP' [X in _ + X]HL' addrC //.
- rewrite /cross_cov.
  transitivity (Emx E (fun w => J *m ((x' w - z_next) *m (x' w - z_next)^T) + err w *m (x' w - z_next)^T)).
  + apply: Emx_ext => w. by rewrite Ex mulmxDl mulmxA.
  + rewrite (Emx_add HE) (Emx_mull HE) Hxe' addr0. by rewrite [X in J *m X]HP'.
Qed.

(** ** C38 *)
(** What a user reads off a history of calls: the arguments of the [set_dynamics] calls, in order, and the
    last value that was not None. *)
Definition set_args n m (ops : list (kop n m)) : list (dyn n m) := List.flat_map (fun o => match o with KSet d => cons d nil | _ => nil end) ops.
Inductive latest (T : Type) : list (option T) -> option T -> Prop :=
| latest_none : forall l, (forall o, List.In o l -> o = None) -> latest l None
| latest_some : forall l1 v l2, (forall o, List.In o l2 -> o = None) -> latest (l1 ++ cons (Some v) l2)%list (Some v).

Lemma latest_snoc T (l : list (option T)) r o : latest l r -> latest (l ++ cons o nil)%list (match o with Some v => Some v | None => r end).
Proof.
move=> H; case: o => [v|]; first by apply: latest_some => o [].
case: H => [l0 H|l1 v l2 H].
- apply: latest_none => o /List.in_app_iff [/H //|[<- //|[]]].
- rewrite -List.app_assoc /=. apply: latest_some => o /List.in_app_iff [/H //|[<- //|[]]].
Qed.

Definition or_default T (o : option T) (d : T) : T := match o with Some v => v | None => d end.

Definition oror T (o r : option T) : option T := match o with Some v => Some v | None => r end.
Lemma sd_A n m (k : kf n m) d : kf_A (set_dynamics k d) = oror (dy_A d) (kf_A k). Proof. by rewrite /set_dynamics; case: d => A C Q Rn f h /=; destruct h, f, Rn, Q, C, A. Qed.
Lemma sd_C n m (k : kf n m) d : kf_C (set_dynamics k d) = oror (dy_C d) (kf_C k). Proof. by rewrite /set_dynamics; case: d => A C Q Rn f h /=; destruct h, f, Rn, Q, C, A. Qed.
Lemma sd_Q n m (k : kf n m) d : kf_Q (set_dynamics k d) = oror (dy_Q d) (kf_Q k). Proof. by rewrite /set_dynamics; case: d => A C Q Rn f h /=; destruct h, f, Rn, Q, C, A. Qed.
Lemma sd_R n m (k : kf n m) d : kf_R (set_dynamics k d) = oror (dy_R d) (kf_R k). Proof. by rewrite /set_dynamics; case: d => A C Q Rn f h /=; destruct h, f, Rn, Q, C, A. Qed.
Lemma sd_h n m (k : kf n m) d : kf_h (set_dynamics k d) = oror (dy_h d) (kf_h k). Proof. by rewrite /set_dynamics; case: d => A C Q Rn f h /=; destruct h, f, Rn, Q, C, A. Qed.
Lemma sd_f n m (k : kf n m) d : kf_f (set_dynamics k d) = or_default (dy_f d) (kf_f k). Proof. by rewrite /set_dynamics; case: d => A C Q Rn f h /=; destruct h, f, Rn, Q, C, A. Qed.
Lemma latest_one T (o : option T) : latest (cons o nil) (oror o None).
Proof. by case: o => [v|]; [exact: (@latest_some _ nil) | apply: latest_none => x [<- //|[]]]. Qed.

(** C38: after creating a filter and any sequence of calls, each stored matrix is the last one given that
    was not None, whatever predictions and measurements happened in between. *)
Theorem C38_dynamics_remembered : forall n m (d0 : dyn n m) (ops : list (kop n m)),
  let k := krun (kf_init d0) ops in
  let given T (p : dyn n m -> option T) := List.map p (cons d0 (set_args ops)) in
  latest (given _ (@dy_A n m)) (kf_A k) /\ latest (given _ (@dy_C n m)) (kf_C k) /\ latest (given _ (@dy_Q n m)) (kf_Q k) /\
  latest (given _ (@dy_R n m)) (kf_R k) /\ latest (given _ (@dy_h n m)) (kf_h k) /\
  exists f, latest (given _ (@dy_f n m)) f /\ kf_f k = or_default f 0.
Proof.
move=> n m d0 ops k given. rewrite /k /given {k given}. elim/List.rev_ind: ops => [|o ops IH].
- rewrite /krun /= /kf_init sd_A sd_C sd_Q sd_R sd_h sd_f /=. do 5 (split; first exact: latest_one).
  eexists; split; first exact: latest_one. by case: (dy_f d0).
- rewrite /krun List.fold_left_app /= -/(krun _ _). move: IH. set k := krun _ _. move=> [HA [HC [HQ [HR [Hh [f [Hf Ef]]]]]]].
  rewrite /set_args List.flat_map_app -/(set_args ops) /=.
  have Keep : forall k', k' = k -> latest (List.map (@dy_A n m) (cons d0 (set_args ops ++ nil)%list)) (kf_A k') /\ latest (List.map (@dy_C n m) (cons d0 (set_args ops ++ nil)%list)) (kf_C k') /\
    latest (List.map (@dy_Q n m) (cons d0 (set_args ops ++ nil)%list)) (kf_Q k') /\ latest (List.map (@dy_R n m) (cons d0 (set_args ops ++ nil)%list)) (kf_R k') /\
    latest (List.map (@dy_h n m) (cons d0 (set_args ops ++ nil)%list)) (kf_h k') /\ exists f, latest (List.map (@dy_f n m) (cons d0 (set_args ops ++ nil)%list)) f /\ kf_f k' = or_default f 0.
  { move=> k' ->; rewrite List.app_nil_r. do 5 (split; first by []). by exists f. }
  case: o => [d|z P|z P A f' Q|y z P|y z P C h Rn|]; try exact: Keep. clear Keep.
  rewrite /= !List.map_app sd_A sd_C sd_Q sd_R sd_h sd_f !List.app_comm_cons.
  split; first exact: (latest_snoc _ HA). split; first exact: (latest_snoc _ HC). split; first exact: (latest_snoc _ HQ).
  split; first exact: (latest_snoc _ HR). split; first exact: (latest_snoc _ Hh).
  eexists; split; first exact: (latest_snoc _ Hf). by rewrite Ef; case: (dy_f d).
Qed.

(** C38: predictions and measurements with the stored matrices are the full calls with those matrices. *)
Theorem C38_stored_used : forall n m (k : kf n m) z P y A Q Rn, kf_A k = Some A -> kf_Q k = Some Q -> kf_R k = Some Rn ->
  predict k z P = Ok (A *m z + kf_f k, A *m P *m A^T + Q) /\ measure k y z P = measure_full y z P (kf_C k) (kf_h k) Rn.
Proof. by move=> n m k z P y A Q Rn HA HQ HR; rewrite /predict /measure HA HQ HR /predict_full addrC. Qed.

(** C38, finding: [time_update], documented as predicting one step with the stored dynamics, always raises. *)
Theorem C38_time_update_refuted : forall n m (k : kf n m), time_update k = Err TypeError.
Proof. by []. Qed.

(** ** C39 *)
Lemma np_slogdet_ok n (S : 'M[R]_n) : posdef S -> np_slogdet S = Ok (ln (\det S)).
Proof.
move=> HS; have H := posdef_det HS. rewrite /np_slogdet; case: (Req_EM_T (\det S) 0%Re) => H0 /=; first by exfalso; lra.
rewrite Rabs_right //; lra.
Qed.
Lemma np_solve_ok m n (A : 'M[R]_m) (b : 'M[R]_(m, n)) : posdef A -> np_solve A b = Ok (invmx A *m b).
Proof.
move=> HS; have H := posdef_det HS. rewrite /np_solve; case: (Req_EM_T (\det A) 0%Re) => // H0. exfalso; lra.
Qed.
Lemma solve_quad n (S : 'M[R]_n) (e : 'cV[R]_n) : symmetric S -> scal11 ((invmx S *m e)^T *m e) = quad (invmx S) e.
Proof. by move=> H; rewrite /scal11 /quad trmx_mul (sym_inv H). Qed.

(** C39: for every positive definite covariance S with Cholesky factor U, every helper returns, for each
    error, the log of the density of N(0, S) there; the scalar one for one-dimensional errors. *)
Theorem C39_same_density : forall n (S : 'M[R]_n), posdef S ->
  exists U, chol S = Ok U /\
    (forall e, exists l, lognormpdf e S = Ok l /\ exp l = normal_pdf 0 S e) /\
    (forall e, exp (lognormpdf_cho e U) = normal_pdf 0 S e) /\
    (forall es, List.map exp (lognormpdf_cho_vec es U) = List.map (normal_pdf 0 S) es).
Proof.
move=> n S HS. case: (chol_total HS) => U HU. exists U; split => //. have HD := posdef_det HS.
have HU' := proj2 (chol_det (proj1 HS) HU).
split; [|split].
- move=> e. rewrite /lognormpdf (np_slogdet_ok HS) (np_solve_ok _ HS) /=. eexists; split; first by reflexivity.
  by rewrite normal_pdf_log // (solve_quad _ (proj1 HS)) /normal_logpdf subr0.
- move=> e. by rewrite normal_pdf_log // /lognormpdf_cho HU' (cho_solveE _ (proj1 HS) HU) (solve_quad _ (proj1 HS)) /normal_logpdf subr0.
- move=> es. rewrite /lognormpdf_cho_vec List.map_map. apply List.map_ext; move=> e. rewrite normal_pdf_log //.
  rewrite HU' (cho_solveE _ (proj1 HS) HU) (solve_quad _ (proj1 HS)) /normal_logpdf subr0 -Rmult_plus_distr_l //.
Qed.

(** C39: with one covariance per error. *)
Theorem C39_vec : forall n (es : list 'cV[R]_n) (Sl : list 'M[R]_n), List.length es = List.length Sl -> List.Forall (@posdef n) Sl ->
  exists l, lognormpdf_vec es Sl = Ok l /\ List.map exp l = List.map (fun p => normal_pdf 0 (snd p) (fst p)) (List.combine es Sl).
Proof.
move=> n; elim=> [|e es IH] [|S Sl] //=; first by exists nil.
move=> [HL] HF. inversion_clear HF as [|? ? HS HF']. case: (IH _ HL HF') => l [-> El].
rewrite (np_slogdet_ok HS) (np_solve_ok _ HS) /=. eexists; split; first by reflexivity.
by rewrite /= El normal_pdf_log ?(solve_quad _ (proj1 HS)) ?/normal_logpdf ?subr0 //; exact: posdef_det.
Qed.

(** C39: scalar errors. *)
Theorem C39_scalar : forall (es : list R) (S : 'M[R]_1), (0 < scal11 S)%Re ->
  exists l, lognormpdf_scalar es S = Ok l /\ List.map exp l = List.map (fun e => normal_pdf 0 S (e%:M)) es /\
            List.map exp l = List.map (fun e => (exp (- (1 / 2) * (e * e / scal11 S)) / sqrt (2 * PI * scal11 S))%Re) es.
Proof.
move=> es S HS. rewrite (lognormpdf_scalar_ok _ HS). eexists; split; first by reflexivity.
have HD : \det S = scal11 S by rewrite [in LHS](scal11E S) det_scalar expr1.
have E : forall e, normal_pdf 0 S (e%:M) = exp (- (1 / 2) * (l2pi + ln (scal11 S) + e * e / scal11 S))%Re.
{ move=> e. rewrite normal_pdf_log ?HD // /normal_logpdf subr0 HD. congr exp. rewrite /quad [in invmx _](scal11E S) invmx_scalar tr_scalar_mx -!scalar_mxM mxE eqxx mulr1n !rE /l2pi /=.
  field. lra. }
have E2 : forall e, normal_pdf 0 S (e%:M) = (exp (- (1 / 2) * (e * e / scal11 S)) / sqrt (2 * PI * scal11 S))%Re.
{ move=> e. rewrite /normal_pdf subr0 HD. congr Rdiv; last by rewrite /= Rmult_1_r.
  congr exp. congr Rmult. rewrite /quad [in invmx _](scal11E S) invmx_scalar tr_scalar_mx -!scalar_mxM mxE eqxx mulr1n !rE. field. lra. }
split; rewrite List.map_map; apply List.map_ext; move=> e; rewrite -?E2 E //.
Qed.

(** ** Concrete cases: two correlated states, one measurement of their sum *)
Definition ex_u : 'cV[R]_2 := const_mx 1%Re.
Definition ex_P : 'M[R]_2 := ex_u *m 1%:M *m ex_u^T + 1%:M.
Definition ex_C : 'M[R]_(1, 2) := const_mx 1%Re.
Definition ex_R : 'M[R]_1 := 1%:M + 1%:M.
Lemma ex_P_posdef : posdef ex_P.
Proof. apply: posdef_add; last exact: posdef1. apply: psd_cong. exact/posdef_psd/posdef1. Qed.
Lemma ex_R_posdef : posdef ex_R.
Proof. apply: posdef_add; last exact: posdef1. exact/posdef_psd/posdef1. Qed.
(** the covariance is not diagonal *)
Example ex_P_offdiag : ex_P ord0 ord_max = 1%Re.
Proof. rewrite /ex_P /ex_u !mxE big_ord1 !mxE big_ord1 !mxE /= !rE ?mulr1n ?mulr0n ?rE.
req; ring. Qed.

Example C33_case : exists lp z1 P1, measure_full (const_mx 5%Re) 0 ex_P (Some ex_C) (Some (const_mx 1%Re)) ex_R = Ok (lp, z1, P1) /\ posdef P1.
Proof. case: (C33_measure_bayes (const_mx 5%Re) 0 ex_C (Some (const_mx 1%Re)) ex_P_posdef ex_R_posdef) => lp [z1 [P1 [H1 [H2 _]]]]. by exists lp, z1, P1. Qed.
(** a singular prior covariance *)
Example C33_case_singular : exists r, measure_full (const_mx 5%Re) 0 (ex_u *m 1%:M *m ex_u^T) (Some ex_C) None ex_R = Ok r.
Proof.
case: (C33_measure_likelihood (const_mx 5%Re) 0 ex_C None (psd_cong ex_u (posdef_psd (posdef1 1))) ex_R_posdef) => lp [z1 [P1 [H1 _]]]. by eexists; exact: H1.
Qed.
Example C33_case_rejects : exists e, measure_full (n := 2) (const_mx 5%Re) 0 0 None None (0 : 'M[R]_1) = Err e.
Proof.
apply: C33_rejects; first by rewrite /symmetric trmx0. move=> [_ H]. have := H (const_mx 1%Re). rewrite /quad mulmx0 mul0mx mxE => H'.
suff : (0 < 0)%Re by lra. apply: H'; apply/eqP => /matrixP /(_ ord0 ord0). by rewrite !mxE => /R1_neq_R0.
Qed.
(** a fair coin on {-1, 1} for the state and another one for the noise *)
Definition coin2 (X : bool * bool -> R) : R := ((X (true, true) + X (true, false) + X (false, true) + X (false, false)) / 4)%Re.
Definition sgn (b : bool) : R := if b then 1%Re else (- 1)%Re.
Lemma coin2_exp : expectation coin2.
Proof. by rewrite /expectation /coin2; split; [move=> X Y; field | split; [move=> c X; field | move=> c; field]]. Qed.
Example C34_case : let x := fun w : bool * bool => (sgn w.1)%:M : 'cV[R]_1 in let v := fun w : bool * bool => (sgn w.2)%:M : 'cV[R]_1 in
  has_mean coin2 x 0 /\ has_cov coin2 x 0 1%:M /\ has_mean coin2 v 0 /\ has_cov coin2 v 0 1%:M /\ cross_cov coin2 x 0 v 0 = 0.
Proof.
rewrite /has_mean /has_cov /cross_cov /Emx /coin2 /=; do !split; apply/matrixP => i j; rewrite !ord1 !mxE ?big_ord1 ?mxE /= ?rE; rewrite ?mulr1n; rewrite ?rE; req; rewrite /sgn /=; field.
Qed.
Example C35_case : Forall (@valid_cmd 2) (cons (Cpredict (const_mx 1%Re) 0 (0 : 'M[R]_2)) (cons (Cmeasure (const_mx 5%Re) (Some ex_C) None ex_R) nil)) /\ psd ex_P.
Proof. split; last exact: (posdef_psd ex_P_posdef). by constructor; [exact: psd0 | constructor; [exact: ex_R_posdef | constructor]]. Qed.
Example C36_case : (0 < scal11 (ex_C *m ex_P *m ex_C^T + ex_R)%mx)%Re.
Proof.
have H := proj2 (S_posdef ex_C ex_P_posdef ex_R_posdef) 1%:M. rewrite /quad trmx1 mul1mx mulmx1 in H. apply: H; apply/eqP => /matrixP /(_ ord0 ord0). by rewrite !mxE => /R1_neq_R0.
Qed.
Example C37_case : exists r, smooth 0 ex_P ex_u ex_P (const_mx 1%Re) 0 ex_P = Ok r.
Proof. case: (C37_smooth_exact 0 ex_u ex_P (const_mx 1%Re) 0 ex_P_posdef ex_P_posdef) => J [L [_ [_ H]]]. by eexists; exact: H. Qed.
(** the C given at creation survives, the A is replaced *)
Example C38_case : let k := krun (kf_init (mkDyn (Some 0) (Some ex_C) None None None None)) (cons (KPredict 0 ex_P) (cons (KSet (mkDyn (Some ex_P) None None None None None)) (cons (KMeasure 0 0 ex_P) nil))) in
  kf_A k = Some ex_P /\ kf_C k = Some ex_C /\ kf_Q k = None.
Proof. by []. Qed.
Example C39_case : exists l, lognormpdf ex_u ex_P = Ok l /\ exp l = normal_pdf 0 ex_P ex_u.
Proof. case: (C39_same_density ex_P_posdef) => U [_ [H _]]; exact: H. Qed.

Print Assumptions C33_measure_bayes.
Print Assumptions C34_predict_moments.
Print Assumptions C37_smooth_moments.
Print Assumptions C39_scalar.
