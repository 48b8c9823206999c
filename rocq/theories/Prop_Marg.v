(** The marginalised smoother of mixed linear/nonlinear Gaussian models: C74. *)
From mathcomp Require Import all_ssreflect all_algebra.
From Coq Require Import Reals Lra List Lia.
From Verif Require Import Base RMat KalmanModel LinAlg Gauss Storage MlnlgModel MlnlgProofs Prop_Kalman Prop_Mlnlg Prop_Rbps Prop_MlnlgEm MargModel.
Set Implicit Arguments.
Unset Strict Implicit.
Unset Printing Implicit Defensive.
Import GRing.Theory.
Local Open Scope ring_scope.

(** ** Specification *)
(** The function g is K times a normal density: its integral over the whole space is K. *)
Definition has_mass n (g : 'cV[R]_n -> R) (K : R) : Prop :=
  exists mu S, posdef S /\ forall w, g w = (K * normal_pdf mu S w)%Re.
(** Omega and Lambda describe the function l up to a constant factor. *)
Definition describes n (Om : 'M[R]_n) (La : 'cV[R]_n) (c : R) (l : 'cV[R]_n -> R) : Prop :=
  psd Om /\ forall z, l z = exp (c - (1 / 2) * quad Om z + scal11 (La^T *m z))%Re.

(** ** A normal density times such a function *)
Lemma square_shift n (T : 'M[R]_n) (d v : 'cV[R]_n) : T^T = T -> T \in unitmx ->
  quad (invmx T) (d - T *m v)%mx = (quad (invmx T) d - 2 * scal11 (v^T *m d) + quad T v)%Re.
Proof.
move=> ST uT. have M1 : (d - T *m v)^T *m invmx T *m (d - T *m v) = d^T *m invmx T *m d - v^T *m d - d^T *m v + v^T *m T *m v.
{ rewrite trB trmx_mul ST !(mulmxBl, mulmxBr) !mulmxA (mulmxK uT) (mulmxKV uT). mxab. }
have := congr1 scal11 M1. rewrite /scal11 !add00 !opp00 -/(quad (invmx T) d) -/(quad T v) -/(quad _ _) => ->.
have -> : d^T *m v = v^T *m d by rewrite -[LHS]scal_tr trmx_mul trmxK.
suff H : forall x y w : R, (x + - y + - y + w = x - 2 * y + w)%Re by exact: H. by move=> x y w; lra.
Qed.
Section Tilt.
Variables (n : nat) (Q O F : 'M[R]_n) (a la : 'cV[R]_n).
Hypotheses (HQ : posdef Q) (HO : psd O) (HF : F *m F^T = Q).
Let Mt := F^T *m O *m F + 1%:M.
Let T := F *m (invmx Mt *m F^T).
Let nn := la - O *m a.
Lemma Mt_posdef : posdef Mt.
Proof. apply: posdef_add; last exact: posdef1. rewrite -{2}[F]trmxK. exact: psd_cong. Qed.
Let uM : Mt \in unitmx := posdef_unit Mt_posdef.
Let uQ : Q \in unitmx := posdef_unit HQ.
Lemma F_unit : F \in unitmx.
Proof. have H : F *m (F^T *m invmx Q) = 1%:M by rewrite mulmxA HF mulmxV. by case: (mulmx1_unit H). Qed.
Let uF := F_unit.
Let uFT : F^T \in unitmx. Proof. by rewrite unitmx_tr. Qed.
Lemma T_inv_r : T *m (O + invmx Q) = 1%:M.
Proof.
have E : F^T *m (O + invmx Q) = Mt *m invmx F.
{ rewrite /Mt mulmxDl mul1mx (mulmxK uF) mulmxDr. congr (_ + _).
  by apply: (@row_full_inj _ _ _ _ F); rewrite ?row_full_unit // mulmxA HF (mulmxV uQ) (mulmxV uF). }
by rewrite /T -!mulmxA E (mulKmx uM) (mulmxV uF).
Qed.
Let uT : T \in unitmx. Proof. by case: (mulmx1_unit T_inv_r). Qed.
Lemma T_inv : invmx T = O + invmx Q.
Proof. by rewrite -[LHS]mulmx1 -T_inv_r (mulKmx uT). Qed.
Lemma T_posdef : posdef T.
Proof. rewrite -[T]invmxK. apply: posdef_inv. rewrite T_inv. apply: posdef_add => //. exact: posdef_inv. Qed.
Lemma T_det : ln (\det Q) = (ln (\det Mt) + ln (\det T))%Re.
Proof.
rewrite -ln_mult; [|exact: (posdef_det Mt_posdef)|exact: (posdef_det T_posdef)]. congr ln.
rewrite /T !det_mulmx det_inv -HF det_mulmx -!rmulE [RHS]mulrCA. congr (_ * _). rewrite mulrA mulfV ?mul1r //.
Qed.
Lemma T_quad : quad T nn = scal11 ((F^T *m nn)^T *m (invmx Mt *m (F^T *m nn))).
Proof. by rewrite /quad /scal11 /T trmx_mul trmxK !mulmxA. Qed.
Lemma tilt_square (w : 'cV[R]_n) :
  (quad (invmx Q) (w - a)%mx + quad O w - 2 * scal11 (la^T *m w) = quad (invmx T) (w - (a + T *m nn))%mx + quad O a - 2 * scal11 (la^T *m a) - quad T nn)%Re.
Proof.
have SO : O^T = O := proj1 HO. have SQ : (invmx Q)^T = invmx Q := sym_inv (proj1 HQ). have ST : T^T = T := proj1 T_posdef.
have -> : w - (a + T *m nn) = (w - a) - T *m nn by mxab.
set d := w - a. have -> : w = a + d by rewrite /d; mxab. move: d => d.
have E1 : quad (invmx T) (d - T *m nn) = (quad (invmx T) d - 2 * scal11 (nn^T *m d) + quad T nn)%Re.
{ exact (@square_shift n T d nn ST uT). }
rewrite E1 T_inv quadD.
have E2 : quad O (a + d) = (quad O a + 2 * scal11 (a^T *m O *m d) + quad O d)%Re.
{ rewrite /quad trD !mulmxDl !mulmxDr !add00 /scal11. have -> : d^T *m O *m a = a^T *m O *m d by rewrite -[LHS]scal_tr !trmx_mul trmxK SO mulmxA.
  suff H : forall x y z : R, (x + y + (y + z) = x + 2 * y + z)%Re by exact: H. by move=> x y z; lra. }
have E3 : scal11 (nn^T *m d) = (scal11 (la^T *m d) - scal11 (a^T *m O *m d))%Re.
{ by rewrite /nn trB trmx_mul SO mulmxBl /scal11 add00 opp00. }
have E4 : scal11 (la^T *m (a + d)) = (scal11 (la^T *m a) + scal11 (la^T *m d))%Re by rewrite mulmxDr /scal11 add00.
rewrite E2 E3 E4. lra.
Qed.
Lemma tilt c (w : 'cV[R]_n) : (normal_pdf a Q w * exp (c - (1 / 2) * quad O w + scal11 (la^T *m w)%mx) =
  exp (c - (1 / 2) * (ln (\det Mt) + quad O a - 2 * scal11 (la^T *m a)%mx - quad T nn)) * normal_pdf (a + T *m nn)%mx T w)%Re.
Proof.
rewrite !normal_pdf_log; [|exact: (posdef_det T_posdef)|exact: (posdef_det HQ)]. rewrite -!exp_plus /normal_logpdf. congr exp.
have := tilt_square w. have := T_det. lra.
Qed.
Lemma tilt_mass c : has_mass (fun w => normal_pdf a Q w * exp (c - (1 / 2) * quad O w + scal11 (la^T *m w)%mx))%Re
  (exp (c - (1 / 2) * (ln (\det Mt) + quad O a - 2 * scal11 (la^T *m a)%mx - quad T nn))).
Proof. exists (a + T *m nn), T. split; first exact: T_posdef. move=> w. exact: tilt. Qed.
End Tilt.

Lemma has_mass_scal n (g : 'cV[R]_n -> R) K k : has_mass g K -> has_mass (fun w => k * g w)%Re (k * K)%Re.
Proof. move=> [mu [S [HS H]]]. exists mu, S. split => // w. rewrite H. ring. Qed.
Lemma has_mass_ext n (g g' : 'cV[R]_n -> R) K : (forall w, g w = g' w) -> has_mass g K -> has_mass g' K.
Proof. move=> E [mu [S [HS H]]]. exists mu, S. split => // w. by rewrite -E. Qed.

(** The mass of a function is unique. *)
Lemma has_mass_unique n (g : 'cV[R]_n -> R) K K' : has_mass g K -> has_mass g K' -> K = K'.
Proof.
move=> [mu [S [HS H]]] [mu' [S' [HS' H']]].
have Pos m (T : 'M[R]_n) x : posdef T -> (0 < normal_pdf m T x)%Re by move=> HT; rewrite normal_pdf_log; [exact: exp_pos|exact: posdef_det].
case: (Req_EM_T K 0) => [E0|K0].
{ have := H' mu. rewrite H E0 Rmult_0_l => E. have := Pos mu' _ mu HS'. move=> P'. case: (Rmult_integral _ _ (esym E)) => //; lra. }
have R0 : (0 < K' / K)%Re.
{ have E := H mu. rewrite H' in E. have P1 := Pos mu _ mu HS. have P2 := Pos mu' _ mu HS'.
  have -> : (K' / K = normal_pdf mu S mu / normal_pdf mu' S' mu)%Re by field_simplify_eq; [move: E; rewrite Rmult_comm => ->; ring|split; lra].
  exact: Rdiv_lt_0_compat. }
have HI := posdef_inv HS. have HI' := posdef_inv HS'.
set r := ln (K' / K).
have Hl x : normal_logpdf mu S x = (r + normal_logpdf mu' S' x)%Re.
{ apply: exp_inv. rewrite exp_plus -!normal_pdf_log; [|exact: posdef_det|exact: posdef_det]. rewrite /r exp_ln //.
  have := H x. rewrite H' => E. apply: (Rmult_eq_reg_l K) => //. rewrite -E. field. exact: K0. }
rewrite /normal_logpdf in Hl. have E1 := Hl mu. have E2 := Hl mu'. rewrite subrr quad0 in E1. rewrite subrr quad0 in E2.
have P1 := proj2 (posdef_psd HI) (mu' - mu). have P2 := proj2 (posdef_psd HI') (mu - mu').
have Em : mu = mu'.
{ apply/eqP; rewrite -subr_eq0; apply/negPn/negP => Hne. have := proj2 HI' _ Hne. lra. }
rewrite Em in Hl E1 E2. rewrite subrr quad0 in E1.
have Eq : invmx S = invmx S'. { apply: quad_inj; [exact: (proj1 HI)|exact: (proj1 HI')|]. move=> x. have := Hl (x + mu'). rewrite addrK. lra. }
have ES : S = S' by rewrite -[S]invmxK Eq invmxK.
rewrite ES in E1. have Er : r = 0%Re by lra.
have : (K' / K = 1)%Re by rewrite -(exp_ln _ R0) -/r Er exp_0. move=> E. have : (K' = K' / K * K)%Re by field. rewrite E. lra.
Qed.
(** Every integral (any homogeneous functional that gives every normal density the value 1) gives it that value. *)
Lemma has_mass_integral n (I : ('cV[R]_n -> R) -> R) (g : 'cV[R]_n -> R) K :
  (forall k f f', (forall w, f w = k * f' w)%Re -> I f = (k * I f')%Re) -> (forall mu S, posdef S -> I (normal_pdf mu S) = 1%Re) ->
  has_mass g K -> I g = K.
Proof. move=> HI H1 [mu [S [HS H]]]. rewrite (HI K g (normal_pdf mu S) H) H1 //. ring. Qed.

(** ** One backward step *)
Lemma quad_plus n (A : 'M[R]_n) (x y : 'cV[R]_n) : A^T = A -> quad A (x + y) = (quad A x + 2 * scal11 (x^T *m A *m y) + quad A y)%Re.
Proof.
move=> SA. rewrite /quad trD !mulmxDl !mulmxDr !add00 /scal11.
have -> : y^T *m A *m x = x^T *m A *m y by rewrite -[LHS]scal_tr !trmx_mul trmxK SA mulmxA.
suff H : forall a b c : R, (a + b + (b + c) = a + 2 * b + c)%Re by exact: H. by move=> a b c; lra.
Qed.
Lemma quad_opp n (A : 'M[R]_n) x : quad A (- x) = quad A x.
Proof. by rewrite /quad trN !mulNmx mulmxN opprK. Qed.
Lemma quad_minus n (A : 'M[R]_n) (x y : 'cV[R]_n) : A^T = A -> quad A (x - y) = (quad A x - 2 * scal11 (x^T *m A *m y) + quad A y)%Re.
Proof. move=> SA. rewrite quad_plus // quad_opp mulmxN /scal11 opp00. lra. Qed.
Lemma quad_mul m n (B : 'M[R]_(m, n)) (A : 'M[R]_m) x : quad (B^T *m A *m B) x = quad A (B *m x).
Proof. by rewrite -{2}[B]trmxK quad_cong trmxK. Qed.
Lemma quad_mul' m n (B : 'M[R]_(m, n)) (A : 'M[R]_m) x : A^T = A -> quad A (B *m x) = quad (B^T *m A *m B) x. Proof. by rewrite quad_mul. Qed.
Lemma scalD (A B : 'M[R]_1) : scal11 (A + B) = (scal11 A + scal11 B)%Re. Proof. exact: add00. Qed.
Lemma scalN (A : 'M[R]_1) : scal11 (- A) = (- scal11 A)%Re. Proof. exact: opp00. Qed.
Lemma scalT (A : 'M[R]_1) : scal11 A^T = scal11 A. Proof. by rewrite scal_tr. Qed.

Section Step.
Variables (lxi lz : nat) (xin fxi : 'cV[R]_lxi) (OH Az Qz T : 'M[R]_lz) (ld : R) (LH fz : 'cV[R]_lz) (Axi : 'M[R]_(lxi, lz)) (Qxi : 'M[R]_lxi).
Hypotheses (HQ : posdef Qz) (HX : posdef Qxi) (HO : psd OH) (ST : T^T = T).
Hypothesis Hsq : forall a la w : 'cV[R]_lz, (quad (invmx Qz) (w - a)%mx + quad OH w - 2 * scal11 (la^T *m w) =
  quad (invmx T) (w - (a + T *m (la - OH *m a)))%mx + quad OH a - 2 * scal11 (la^T *m a) - quad T (la - OH *m a)%mx)%Re.
Hypothesis Hmass : forall a la c, has_mass (fun w => normal_pdf a Qz w * exp (c - (1 / 2) * quad OH w + scal11 (la^T *m w)%mx))%Re
  (exp (c - (1 / 2) * (ld + quad OH a - 2 * scal11 (la^T *m a)%mx - quad T (la - OH *m a)%mx))).
Let mm := LH - OH *m fz.
Let Om := Az^T *m (OH - OH *m T *m OH) *m Az + Axi^T *m (invmx Qxi *m Axi).
Let La := Az^T *m (1%:M - OH *m T) *m mm + Axi^T *m (invmx Qxi *m (xin - fxi)).
Lemma psd_shrink : psd (OH - OH *m T *m OH).
Proof.
have SO : OH^T = OH := proj1 HO.
split; first by rewrite /symmetric trB !trmx_mul SO ST mulmxA.
move=> x. have := Hsq x 0 (x + T *m (0 - OH *m x)). rewrite trmx0 !mul0mx [x + _]addrC addrK subrr quad0 sub0r.
rewrite (_ : scal11 0 = 0%Re); last by rewrite /scal11 mxE.
have P1 := proj2 (posdef_psd (posdef_inv HQ)) (T *m - (OH *m x)). have P2 := proj2 HO (T *m - (OH *m x) + x).
rewrite quad_opp => E. rewrite quadD quadN. have -> : quad (OH *m T *m OH) x = quad T (OH *m x) by rewrite -{1}SO quad_mul.
move: P1 P2 E. move: (quad (invmx Qz) _) (quad OH (_ + x)) (quad OH x) (quad T _) => p q r s. lra.
Qed.
Lemma step_describes c l : describes OH LH c l ->
  exists k, (forall z, has_mass (fun z' => normal_pdf (Axi *m z + fxi)%mx Qxi xin * normal_pdf (Az *m z + fz)%mx Qz z' * l z')%Re (k z)) /\
    describes Om La (c - (1 / 2) * (INR lxi * ln (2 * PI) + (ld + ln (\det Qxi) + (quad (invmx Qxi) (xin - fxi)%mx + quad OH fz + - 2 * scal11 (LH^T *m fz)%mx - quad T mm))))%Re k.
Proof.
move=> [_ Hl]. have SO : OH^T = OH := proj1 HO.
have SX : (invmx Qxi)^T = invmx Qxi := sym_inv (proj1 HX).
pose a z := Az *m z + fz.
exists (fun z => normal_pdf (Axi *m z + fxi)%mx Qxi xin * exp (c - (1 / 2) * (ld + quad OH (a z) - 2 * scal11 (LH^T *m a z)%mx - quad T (LH - OH *m a z)%mx)))%Re.
split.
{ move=> z. have := has_mass_scal (normal_pdf (Axi *m z + fxi)%mx Qxi xin) (Hmass (a z) LH c).
  apply: has_mass_ext => w. rewrite Hl Rmult_assoc //. }
split.
{ apply: psd_add.
  - rewrite -{2}[Az]trmxK. apply: psd_cong. exact: psd_shrink.
  - rewrite mulmxA -{2}[Axi]trmxK. apply: psd_cong. exact: posdef_psd (posdef_inv HX). }
move=> z. rewrite normal_pdf_log; last exact: posdef_det. rewrite -exp_plus. congr exp. rewrite /normal_logpdf /a.
set v := Az *m z. set v' := Axi *m z.
have E1 : quad (invmx Qxi) (xin - (v' + fxi)) = (quad (invmx Qxi) (xin - fxi)%mx - 2 * scal11 ((xin - fxi)^T *m invmx Qxi *m v') + quad (invmx Qxi) v')%Re.
{ rewrite -quad_minus //. congr (quad _ _). rewrite opprD. by rewrite [- v' + _]addrC addrA. }
have E2 : quad OH (v + fz) = (quad OH v + 2 * scal11 (v^T *m OH *m fz) + quad OH fz)%Re by exact: quad_plus.
have E3 : scal11 (LH^T *m (v + fz)) = (scal11 (LH^T *m v) + scal11 (LH^T *m fz))%Re by rewrite mulmxDr scalD.
have E4 : quad T (LH - OH *m (v + fz)) = (quad T mm - 2 * scal11 (mm^T *m T *m (OH *m v)) + quad (OH *m T *m OH) v)%Re.
{ have -> : LH - OH *m (v + fz) = mm - OH *m v by rewrite /mm mulmxDr opprD addrCA addrC. rewrite quad_minus // -{4}SO quad_mul //. }
have E5 : quad Om z = (quad OH v - quad (OH *m T *m OH) v + quad (invmx Qxi) v')%Re.
{ by rewrite /Om quadD mulmxA !quad_mul quadD quadN. }
have E6 : scal11 (La^T *m z) = (scal11 (LH^T *m v) - scal11 (v^T *m OH *m fz) - scal11 (mm^T *m T *m (OH *m v)) + scal11 ((xin - fxi)^T *m invmx Qxi *m v'))%Re.
{ have HLa : La^T = mm^T *m (1%:M - T *m OH) *m Az + (xin - fxi)^T *m invmx Qxi *m Axi.
  { rewrite /La. clearbody mm. move: (xin - fxi) => x. by rewrite trD !trmx_mul trB trmx_mul SO ST SX trmx1 !trmxK !mulmxA. }
  have Hm : mm^T *m v = LH^T *m v - (v^T *m OH *m fz)^T by rewrite /mm; clearbody v; rewrite trB mulmxBl !trmx_mul trmxK SO mulmxA.
  rewrite HLa. have -> : (mm^T *m (1%:M - T *m OH) *m Az + (xin - fxi)^T *m invmx Qxi *m Axi) *m z = (LH^T *m v - (v^T *m OH *m fz)^T) - mm^T *m T *m (OH *m v) + (xin - fxi)^T *m invmx Qxi *m v'.
  { rewrite -Hm /v /v'. clearbody mm. move: (xin - fxi) => x. by rewrite mulmxDl mulmxBr mulmx1 !mulmxBl !mulmxA. }
  clearbody v v' mm. move: (xin - fxi) => x. rewrite !scalD !scalN scalT. by []. }
rewrite E1 E2 E3 E4 E5 E6.
move: (scal11 _) (scal11 _) (scal11 _) (scal11 _) (scal11 _) (quad _ _) (quad _ _) (quad _ _) (quad _ _) (quad _ _) (quad _ _) (ld) (ln (\det Qxi)) => x1 x2 x3 x4 x5 x6 x7 x8 x9 x10 x11 x12 x13. lra.
Qed.
End Step.

(** ** The code *)
Lemma mg_row_fields lxi lz (xi : 'cV[R]_lxi) (Om : 'M[R]_lz) (La : 'cV[R]_lz) : mg_fields (mg_row xi Om La) = Ok (xi, Om, La).
Proof.
rewrite /mg_fields /mg_row /slice drop0 subn0 take_size_cat ?sz_cv // reshape_ravel /=.
rewrite drop_size_cat ?sz_cv // addKn take_size_cat ?size_ravel // reshape_ravel /=.
by rewrite addKn catA drop_size_cat ?size_cat ?sz_cv ?size_ravel // take_oversize ?sz_cv // reshape_ravel.
Qed.

(** [numpy]'s singular value decomposition gives a factor of every positive definite matrix (it does so for the
    semidefinite ones, too). *)
Definition factors n (fac : 'M[R]_n -> 'M[R]_n) : Prop := forall A, posdef A -> fac A *m (fac A)^T = A.

Section Code.
Context {lz m : nat} {U Y Tm : Type}.
Notation model := (mlnlg 1 lz m U Y Tm).
Variables (L : model) (fac : 'M[R]_lz -> 'M[R]_lz).
Hypothesis Hfac : factors fac.
Definition g_T (Qz OH : 'M[R]_lz) : 'M[R]_lz := invmx (OH + invmx Qz).
Definition g_Om (OH Az Qz : 'M[R]_lz) (Axi : 'M[R]_(1, lz)) (Qxi : 'M[R]_1) : 'M[R]_lz :=
  Az^T *m (OH - OH *m g_T Qz OH *m OH) *m Az + Axi^T *m (invmx Qxi *m Axi).
Definition g_La (xin fxi : 'cV[R]_1) (OH Az Qz : 'M[R]_lz) (LH fz : 'cV[R]_lz) (Axi : 'M[R]_(1, lz)) (Qxi : 'M[R]_1) : 'cV[R]_lz :=
  Az^T *m (1%:M - OH *m g_T Qz OH) *m (LH - OH *m fz) + Axi^T *m (invmx Qxi *m (xin - fxi)).
Definition g_ld (Qz OH : 'M[R]_lz) : R := ln (\det ((fac Qz)^T *m OH *m fac Qz + 1%:M)).
(** the code's logZ; the last sign is not the right one *)
Definition g_lZ (xin fxi : 'cV[R]_1) (OH Qz : 'M[R]_lz) (LH fz : 'cV[R]_lz) (Qxi : 'M[R]_1) : R :=
  (- (1 / 2) * (g_ld Qz OH + ln (\det Qxi) + (quad (invmx Qxi) (xin - fxi)%mx + quad OH fz + - 2 * scal11 (LH^T *m fz)%mx + quad (g_T Qz OH) (LH - OH *m fz)%mx)))%Re.
Lemma g_TE Qz OH : posdef Qz -> psd OH -> fac Qz *m (invmx ((fac Qz)^T *m OH *m fac Qz + 1%:M) *m (fac Qz)^T) = g_T Qz OH.
Proof. move=> HQ HO. by rewrite /g_T -(T_inv HQ HO (Hfac HQ)) invmxK. Qed.
Lemma g_step (xin fxi : 'cV[R]_1) (OH Az Qz : 'M[R]_lz) (LH fz : 'cV[R]_lz) (Axi : 'M[R]_(1, lz)) (Qxi : 'M[R]_1) c l :
  posdef Qz -> posdef Qxi -> describes OH LH c l ->
  exists k, (forall z, has_mass (fun z' => normal_pdf (Axi *m z + fxi)%mx Qxi xin * normal_pdf (Az *m z + fz)%mx Qz z' * l z')%Re (k z)) /\
    describes (g_Om OH Az Qz Axi Qxi) (g_La xin fxi OH Az Qz LH fz Axi Qxi)
      (c - (1 / 2) * ln (2 * PI) + g_lZ xin fxi OH Qz LH fz Qxi + quad (g_T Qz OH) (LH - OH *m fz)%mx)%Re k.
Proof.
move=> HQ HX Hd. have HO := proj1 Hd. have HF := Hfac HQ. have HT := T_posdef HQ HO HF.
have Hsq a la := tilt_square a la HQ HO HF. have Hm a la := tilt_mass a la HQ HO HF. rewrite g_TE // in HT Hsq Hm.
case: (@step_describes 1 lz xin fxi OH Az Qz (g_T Qz OH) (g_ld Qz OH) LH fz Axi Qxi HQ HX HO (proj1 HT) Hsq Hm c l Hd) => k [H1 H2].
exists k. split => //. move: H2. rewrite /g_Om /g_La. set A := (Az^T *m _ *m _ + _). set B := (Az^T *m _ *m _ + _).
move=> [HA H2]. split => // z. rewrite H2. congr exp. rewrite /g_lZ.
move: (quad A _) (scal11 _) (ln (2 * PI)) (g_ld _ _) (ln (\det _)) (quad _ _) (quad _ _) (scal11 _) (quad _ _) => x1 x2 x3 x4 x5 x6 x7 x8 x9. rewrite (_ : INR 1 = 1%Re) //. lra.
Qed.
Lemma mg_prop1_1_ok (xin fxi : 'cV[R]_1) (OH Az Qz : 'M[R]_lz) (LH fz : 'cV[R]_lz) (Axi : 'M[R]_(1, lz)) (Qxi : 'M[R]_1) :
  posdef Qz -> posdef Qxi -> psd OH ->
  mg_prop1_1 fac (xin, OH, LH) Az fz Qz Axi fxi Qxi = Ok (g_lZ xin fxi OH Qz LH fz Qxi, g_Om OH Az Qz Axi Qxi, g_La xin fxi OH Az Qz LH fz Axi Qxi).
Proof.
move=> HQ HX HO. have HM : posdef ((fac Qz)^T *m OH *m fac Qz + 1%:M) by exact: Mt_posdef.
rewrite /mg_prop1_1 eqxx !(np_solve_ok _ HX) !(np_solve_ok _ HM) (np_slogdet_ok HX) (np_slogdet_ok HM) /=.
rewrite g_TE //. congr (Ok (_, _, _)). rewrite /g_lZ /g_ld. congr (_ * (_ + _))%Re. congr (_ + _)%Re; first by rewrite mulmxA.
by rewrite -(T_quad _ _) g_TE.
Qed.

Arguments mg_prop1_1 : simpl never.
Variables (N : nat) (u : U) (t : Tm).
Variables (xi : nat -> 'cV[R]_1) (z : nat -> 'cV[R]_lz) (P : nat -> 'M[R]_lz) (rest : nat -> row).
Variables (Axi : nat -> 'M[R]_(1, lz)) (fxi : nat -> 'cV[R]_1) (Qxi : nat -> 'M[R]_1)
          (Az : nat -> 'M[R]_lz) (fz : nat -> 'cV[R]_lz) (Qz : nat -> 'M[R]_lz) (Qc : nat -> 'M[R]_(1, lz)).
Let ps := tab N (fun i => rbrow (xi i) (z i) (P i) (rest i)).
Hypothesis HD : forall i, (i < N)%coq_nat -> dynamics_at L ps u t i (Axi i) (fxi i) (Qxi i) (Az i) (fz i) (Qz i) (Qc i) /\ posdef (Qxi i) /\ posdef (Qz i).
Variables (xn : nat -> 'cV[R]_1) (OH : nat -> 'M[R]_lz) (LH : nat -> 'cV[R]_lz).
Hypothesis HO : forall i, (i < N)%coq_nat -> psd (OH i).
Lemma mg_prop1_ok : mg_prop1 L fac ps (tab N (fun i => mg_row (xn i) (OH i) (LH i))) u t =
  Ok (tab N (fun i => (g_lZ (xn i) (fxi i) (OH i) (Qz i) (LH i) (fz i) (Qxi i), g_Om (OH i) (Az i) (Qz i) (Axi i) (Qxi i),
    g_La (xn i) (fxi i) (OH i) (Az i) (Qz i) (LH i) (fz i) (Axi i) (Qxi i)))).
Proof.
have HD' i Hi := proj1 (HD Hi (i := i)). have LA := lin_at HD'. have NA := nonlin_at HD'.
rewrite /mg_prop1 !tab_length eqxx (mapr_tab (h := fun i => (xn i, OH i, LH i))); last by move=> i _; exact: mg_row_fields.
rewrite [rbind (Ok _) _]/=. move: LA NA. case: (lin_int L ps u t) => [[[a ?] [f ?]] [q ?]]. case: (nonlin_int L ps u t) => [[[a' ?] [f' ?]] [q' ?]] LA NA.
apply: forr_ok => i Hi. rewrite idx_tab // [rbind (Ok _) _]/=. case: (LA _ Hi) => -> [-> ->] /=. case: (NA _ Hi) => -> [-> ->] /=.
case: (HD Hi) => _ [H1 H2]. by rewrite mg_prop1_1_ok //; exact: HO.
Qed.
End Code.

(** ** The measurement *)
Lemma meas_describes lz m (y h : 'cV[R]_m) (C : 'M[R]_(m, lz)) (Rn : 'M[R]_m) Om La c (k : 'cV[R]_lz -> R) : posdef Rn -> describes Om La c k ->
  describes (Om + C^T *m (invmx Rn *m C)) (La + (invmx Rn *m C)^T *m (y - h)) (c + normal_logpdf h Rn y)%Re (fun z => normal_pdf (C *m z + h)%mx Rn y * k z)%Re.
Proof.
move=> HR [HO H]. have SR : (invmx Rn)^T = invmx Rn := sym_inv (proj1 HR). split.
{ apply: psd_add => //. rewrite mulmxA -{2}[C]trmxK. apply: psd_cong. exact: posdef_psd (posdef_inv HR). }
move=> z. rewrite H normal_pdf_log; last exact: posdef_det. rewrite -exp_plus. congr exp. rewrite /normal_logpdf quadD mulmxA quad_mul.
have -> : y - (C *m z + h) = (y - h) - C *m z by rewrite opprD [- _ + _]addrC addrA.
move: (y - h) => e. rewrite quad_minus // trD mulmxDl scalD !trmx_mul !trmxK !mulmxA.
move: (quad _ _) (quad _ _) (quad _ _) (scal11 _) (scal11 _) (ln (\det Rn)) (ln _) => x1 x2 x3 x4 x5 x6 x7. lra.
Qed.

(** ** Specification: what the future says about the linear state *)
Section Run.
Context {lz m : nat} {U Y Tm : Type}.
Notation model := (mlnlg 1 lz m U Y Tm).
(** A time step: for each trajectory i the filtered particle and the matrices of its model. *)
Record gstep := mkGS {
  s_xi : nat -> 'cV[R]_1; s_z : nat -> 'cV[R]_lz; s_P : nat -> 'M[R]_lz; s_rest : nat -> row;
  s_u : U; s_y : Y; s_t : Tm;
  s_Axi : nat -> 'M[R]_(1, lz); s_fxi : nat -> 'cV[R]_1; s_Qxi : nat -> 'M[R]_1;
  s_Az : nat -> 'M[R]_lz; s_fz : nat -> 'cV[R]_lz; s_Qz : nat -> 'M[R]_lz;
  s_C : nat -> 'M[R]_(m, lz); s_h : nat -> 'cV[R]_m; s_R : nat -> 'M[R]_m }.
Variables (L : model) (fac : 'M[R]_lz -> 'M[R]_lz) (colY : Y -> option 'cV[R]_m) (N : nat).
Definition s_part (s : gstep) : list row := tab N (fun i => rbrow (s_xi s i) (s_z s i) (s_P s i) (s_rest s i)).
Definition dyn_of (s : gstep) (i : nat) : Prop :=
  dynamics_at L (s_part s) (s_u s) (s_t s) i (s_Axi s i) (s_fxi s i) (s_Qxi s i) (s_Az s i) (s_fz s i) (s_Qz s i) 0 /\ posdef (s_Qxi s i) /\ posdef (s_Qz s i).
(** a model of the measurement is given (C and h by the callback or stored, or h by the callback alone) *)
Definition meas_given (s : gstep) : Prop :=
  let '(_, oC, oh, _) := ml_meas L (s_part s) (s_y s) (s_t s) in
  ~ (oC = None /\ kf_C (ml_kf L) = None /\ oh = None) /\ ~ (oh = None /\ kf_h (ml_kf L) = None).
Definition meas_at (s : gstep) (i : nat) : Prop :=
  (exists y', measurement_at L (s_part s) (s_y s) (s_t s) i y' (s_C s i) (s_h s i) (s_R s i)) /\ posdef (s_R s i).
(** ... and C is zero if there is no measurement *)
Definition meas_of (s : gstep) (i : nat) : Prop := meas_at s i /\ (colY (s_y s) = None -> s_C s i = 0).
(** the density of the step's measurement given the linear state z *)
Definition meas_lik (s : gstep) (i : nat) (z : 'cV[R]_lz) : R :=
  match colY (s_y s) with Some y => normal_pdf (s_C s i *m z + s_h s i)%mx (s_R s i) y | None => 1%Re end.
(** [transition s s' i l' k]: k z is the integral over z' of p(xi' | z) p(z' | z) l'(z') *)
Definition transition (s s' : gstep) (i : nat) (l' k : 'cV[R]_lz -> R) : Prop :=
  forall z, has_mass (fun z' => normal_pdf (s_Axi s i *m z + s_fxi s i)%mx (s_Qxi s i) (s_xi s' i) * normal_pdf (s_Az s i *m z + s_fz s i)%mx (s_Qz s i) z' * l' z')%Re (k z).
(** [future_lik steps i l]: l z is the density of the measurements from the first of these steps on and of the nonlinear
    states after it, given that the linear state is z at the first *)
Fixpoint future_lik (steps : list gstep) (i : nat) (l : 'cV[R]_lz -> R) : Prop :=
  match steps with
  | nil => False
  | cons s steps' =>
      exists k, match steps' with
                | nil => forall z, k z = 1%Re
                | cons s' _ => exists l', future_lik steps' i l' /\ transition s s' i l' k
                end /\
        forall z, l z = (meas_lik s i z * k z)%Re
  end.
(** the backward pass as the smoother makes it (C70): sample_smooth at the last step, then backwards *)
Fixpoint mg_run (steps : list gstep) : res (list (list row)) :=
  match steps with
  | nil => Ok nil
  | cons s steps' =>
      dor r <- mg_run steps' ;
      dor x <- mg_sample_smooth L fac colY (s_part s) (match r with nil => None | cons n _ => Some n end) (s_u s) (s_y s) (s_t s) ;
      Ok (cons x r)
  end.

Lemma mg_run_cons s steps' : mg_run (cons s steps') = (dor r <- mg_run steps' ;
      dor x <- mg_sample_smooth L fac colY (s_part s) (match r with nil => None | cons n _ => Some n end) (s_u s) (s_y s) (s_t s) ;
      Ok (cons x r)).
Proof. by []. Qed.
Lemma future_lik_unique steps i l l' : future_lik steps i l -> future_lik steps i l' -> forall z, l z = l' z.
Proof.
elim: steps l l' => [//|s steps IH] l l' [k [H1 H2]] [k' [H1' H2']] z. rewrite H2 H2'. congr Rmult.
case: steps IH H1 H1' => [|s' steps] IH; first by move=> -> ->.
move=> [q [Hq Ht]] [q' [Hq' Ht']]. apply: has_mass_unique (Ht z) _. apply: has_mass_ext (Ht' z) => w. by rewrite (IH _ _ Hq Hq').
Qed.

Hypothesis Hfac : factors fac.
Hypothesis HN : (0 < N)%coq_nat.
Lemma mg_measE (s : gstep) : meas_given s -> (forall i, (i < N)%coq_nat -> meas_at s i) ->
  exists y1 Cz iC hz ih Rz iR, meas_int L (s_part s) (s_y s) (s_t s) = (y1, (Cz, iC), (hz, ih), (Rz, iR)) /\
    forall i, (i < N)%coq_nat -> idx Cz i = Ok (Some (s_C s i)) /\ idx hz i = Ok (Some (s_h s i)) /\ idx Rz i = Ok (Some (s_R s i)).
Proof.
move=> HG HM. pose y' := (ml_meas L (s_part s) (s_y s) (s_t s)).1.1.1.
have HM' i (Hi : (i < N)%coq_nat) : measurement_at L (s_part s) (s_y s) (s_t s) i y' (s_C s i) (s_h s i) (s_R s i).
{ case: (HM _ Hi) => [[y1 Hy] _]. move: Hy. rewrite /measurement_at /y'. by case: (ml_meas _ _ _ _) => [[[? ?] ?] ?] /= [-> ?]. }
have HC : has_meas L (s_part s) (s_y s) (s_t s).
{ move: HG. rewrite /meas_given /has_meas. by case: (ml_meas _ _ _ _) => [[[? ?] ?] ?] []. }
case: (meas_int_ok HM' HC HN) => Cz [iC [hz [ih [Rz [iR [E [E1 [E2 [E3 _]]]]]]]]].
exists y', Cz, iC, hz, ih, Rz, iR. split => // i Hi.
have At T (l : list (option T)) v : at_ l i = Ok v -> idx l i = Ok (Some v) by rewrite /at_ /idx; case: nth_error => [[w|]|] //= [->].
split; first exact: At (E1 _ Hi). split; last exact: At (E3 _ Hi).
case: (E2 _ Hi) => o [Eo <-]. rewrite Eo. case: o Eo => [v|] Eo //. exfalso. move: HG E Eo. rewrite /meas_given /meas_int.
case: (ml_meas _ _ _ _) => [[[? oC] oh] oR] [_ Hh] [_ _ Eh _] Eo. move: Eh Eo.
rewrite /fill. case: oh Hh => [l|] Hh [<- _]; rewrite /idx.
- rewrite List.nth_error_map. by case: nth_error.
- rewrite repeat_tab. rewrite tab_nth; last by rewrite /s_part tab_length. move=> [E]. by apply: Hh.
Qed.
Lemma mg_sample_ok (s : gstep) (nexts : option (list row)) Om La : meas_given s -> (forall i, (i < N)%coq_nat -> meas_at s i) ->
  match nexts with
  | Some nx => exists lZ, mg_prop1 L fac (s_part s) nx (s_u s) (s_t s) = Ok (tab N (fun i => (lZ i, Om i, La i)))
  | None => forall i, Om i = 0 /\ La i = 0
  end ->
  mg_sample_smooth L fac colY (s_part s) nexts (s_u s) (s_y s) (s_t s) = Ok (tab N (fun i => mg_row (s_xi s i)
    (Om i + (s_C s i)^T *m (invmx (s_R s i) *m s_C s i))
    (match colY (s_y s) with Some y => La i + (invmx (s_R s i) *m s_C s i)^T *m (y - s_h s i) | None => La i end))).
Proof.
move=> HG HM Hn. case: (mg_measE HG HM) => y1 [Cz [iC [hz [ih [Rz [iR [E E1]]]]]]].
rewrite /mg_sample_smooth. set p1 := (X in rbind X _). have -> : p1 = Ok (tab N (fun i => (Om i, La i))).
{ rewrite /p1. case: nexts Hn {p1} => [nx [lZ ->]|Hn] /=; first by rewrite map_tab.
  rewrite repeat_tab /s_part tab_length. congr Ok. apply: tab_ext => i _. by case: (Hn i) => -> ->. }
rewrite [rbind (Ok _) _]/= E. rewrite /s_part tab_length. apply: forr_ok => i Hi. rewrite idx_tab // [rbind (Ok _) _]/= xi_rbrow [rbind (Ok _) _]/=.
rewrite idx_tab // [rbind (Ok _) _]/=. case: (E1 _ Hi) => -> [-> ->] /=. rewrite /mg_meas1 /= np_solve_ok /=; last by case: (HM _ Hi).
by case: (colY (s_y s)).
Qed.
Lemma meas_step (s : gstep) i Om La c k : meas_of s i -> describes Om La c k ->
  exists c' l, (forall z, l z = (meas_lik s i z * k z)%Re) /\
  describes (Om + (s_C s i)^T *m (invmx (s_R s i) *m s_C s i))
    (match colY (s_y s) with Some y => La + (invmx (s_R s i) *m s_C s i)^T *m (y - s_h s i) | None => La end) c' l.
Proof.
move=> [[_ HR] HC] Hk. rewrite /meas_lik. case: (colY (s_y s)) HC => [y|] HC.
- eexists; eexists. split; last exact: (meas_describes y (s_h s i) (s_C s i) HR Hk). by [].
- exists c, k. split; first by move=> z; rewrite Rmult_1_l. by rewrite HC // mulmx0 mulmx0 addr0.
Qed.
Lemma mg_run_main steps : (forall s, List.In s steps -> meas_given s /\ forall i, (i < N)%coq_nat -> meas_of s i) ->
  (forall s, List.In s (List.removelast steps) -> forall i, (i < N)%coq_nat -> dyn_of s i) -> steps <> nil ->
  exists Om La rows, mg_run steps = Ok (cons (tab N (fun i => mg_row (match steps with cons s _ => s_xi s i | nil => 0 end) (Om i) (La i))) rows) /\
    length rows = (length steps - 1)%coq_nat /\
    (forall i, (i < N)%coq_nat -> exists c l, future_lik steps i l /\ describes (Om i) (La i) c l) /\
    forall k, (0 < k)%coq_nat -> (k < length steps)%coq_nat -> exists s, nth_error steps k = Some s /\ forall i, (i < N)%coq_nat -> exists r Omk Lak c l,
      nth_error rows (k - 1)%coq_nat = Some r /\ nth_error r i = Some (mg_row (s_xi s i) Omk Lak) /\ future_lik (List.skipn k steps) i l /\ describes Omk Lak c l.
Proof.
elim: steps => [//|s steps IH] HM HDy _. case: steps IH HM HDy => [|s' steps] IH HM HDy.
- case: (HM s) => [|HG HMs]; first by left.
  pose Om i := 0 + (s_C s i)^T *m (invmx (s_R s i) *m s_C s i). pose La i := match colY (s_y s) with Some y => 0 + (invmx (s_R s i) *m s_C s i)^T *m (y - s_h s i) | None => 0 end.
  exists Om, La, nil. rewrite /= (@mg_sample_ok s None (fun _ => 0) (fun _ => 0)) //; last by move=> i Hi; case: (HMs i Hi). split; first by []. split; first by [].
  split; last by move=> k H1 H2; exfalso; lia.
  move=> i Hi. have H0 : describes (0 : 'M[R]_lz) (0 : 'cV[R]_lz) 0%Re (fun _ => 1%Re).
  { split; first exact: psd0. move=> z. rewrite /quad mulmx0 mul0mx trmx0 mul0mx /scal11 !mxE Rmult_0_r Rminus_0_r Rplus_0_r exp_0 //. }
  case: (meas_step (HMs _ Hi) H0) => c [l [Hl Hd]]. exists c, l. split; last exact: Hd. by exists (fun _ => 1%Re).
- case: (HM s) => [|HG HMs]; first by left.
  have [||| Om' [La' [rows [E [El [Hf Hk]]]]]] := IH _ _ _.
  { by move=> x Hx; apply: HM; right. }
  { by move=> x Hx; apply: HDy; right. }
  { by []. }
  have HDs i (Hi : (i < N)%coq_nat) : dyn_of s i by apply: HDy => //; left.
  have HO i (Hi : (i < N)%coq_nat) : psd (Om' i) by case: (Hf _ Hi) => c [l [_ [? _]]].
  pose Om1 i := g_Om (Om' i) (s_Az s i) (s_Qz s i) (s_Axi s i) (s_Qxi s i).
  pose La1 i := g_La (s_xi s' i) (s_fxi s i) (Om' i) (s_Az s i) (s_Qz s i) (La' i) (s_fz s i) (s_Axi s i) (s_Qxi s i).
  pose Om i := Om1 i + (s_C s i)^T *m (invmx (s_R s i) *m s_C s i). pose La i := match colY (s_y s) with Some y => La1 i + (invmx (s_R s i) *m s_C s i)^T *m (y - s_h s i) | None => La1 i end.
  exists Om, La, (cons (tab N (fun i => mg_row (s_xi s' i) (Om' i) (La' i))) rows).
  have Ep := mg_prop1_ok (Qc := fun _ => 0) Hfac HDs (s_xi s') La' HO.
  split.
  { rewrite mg_run_cons E [rbind (Ok _) _]/=.
    rewrite (@mg_sample_ok s (Some (tab N (fun i => mg_row (s_xi s' i) (Om' i) (La' i)))) Om1 La1) //; first by move=> i Hi; case: (HMs i Hi).
    eexists. exact: Ep. }
  split; first by rewrite /= El /= ?subn1; lia.
  have Hf0 i (Hi : (i < N)%coq_nat) : exists c l, future_lik (s :: s' :: steps) i l /\ describes (Om i) (La i) c l.
  { case: (Hf _ Hi) => c' [l' [Hl' Hd']]. case: (HDs _ Hi) => _ [HX HQ].
    case: (@g_step _ _ Hfac (s_xi s' i) (s_fxi s i) _ (s_Az s i) _ _ (s_fz s i) (s_Axi s i) _ _ _ HQ HX Hd') => k [Hm Hd].
    case: (meas_step (HMs _ Hi) Hd) => c [l [Hl Hd2]]. exists c, l. split; last exact: Hd2.
    exists k. split; last exact: Hl. exists l'. split; [exact: Hl'|exact: Hm]. }
  split; first exact: Hf0.
  move=> [|[|k]] H1 H2; first by exfalso; lia.
  + exists s'. split => // i Hi. case: (Hf _ Hi) => c [l [Hl Hd]]. eexists; exists (Om' i), (La' i), c, l. split; first by [].
    by rewrite tab_nth.
  + case: (Hk k.+1) => [||x [Ex Hx]]; [lia|by move: H2 => /=; lia|]. exists x. split => // i Hi.
    case: (Hx _ Hi) => r [Omk [Lak [c [l [Er H]]]]]. exists r, Omk, Lak, c, l. split => //. by move: Er; rewrite /= ?subn1 ?subn0 ?Nat.sub_0_r.
Qed.
End Run.

(** ** C74 *)
(** C74 (statistics): for one nonlinear state, uncorrelated noises and positive definite covariances, the backward pass
    gives for every step and trajectory a row xi | Omega | Lambda that describes, up to a constant factor, the density of
    the step's and all later measurements and of all later nonlinear states as a function of the linear state: of the
    measurements and states that the trajectory consists of, for trajectories of every length. *)
Theorem C74_statistics : forall lz m U Y Tm (L : mlnlg 1 lz m U Y Tm) (fac : 'M[R]_lz -> 'M[R]_lz) (colY : Y -> option 'cV[R]_m) (N : nat) (steps : list gstep),
  factors fac -> (0 < N)%coq_nat -> steps <> nil ->
  (forall s, List.In s steps -> meas_given L N s /\ forall i, (i < N)%coq_nat -> meas_of L colY N s i) ->
  (forall s, List.In s (List.removelast steps) -> forall i, (i < N)%coq_nat -> dyn_of L N s i) ->
  exists rows, mg_run L fac colY N steps = Ok rows /\ length rows = length steps /\
    forall k s i, nth_error steps k = Some s -> (i < N)%coq_nat -> exists r Om La c l,
      nth_error rows k = Some r /\ nth_error r i = Some (mg_row (s_xi s i) Om La) /\
      future_lik colY (List.skipn k steps) i l /\ describes Om La c l.
Proof.
move=> lz m U Y Tm L fac colY N steps Hfac HN Hne HM HDy. case: (mg_run_main Hfac HN HM HDy Hne) => Om [La [rows [E [El [H0 Hk]]]]].
eexists; split; first exact: E. split. { rewrite /= El. case: steps Hne {HM HDy E El H0 Hk} => [//|s l] _ /=. lia. }
move=> [|k] s i Es Hi.
- case: (H0 _ Hi) => c [l [Hl Hd]]. eexists; exists (Om i), (La i), c, l. split; first by []. split; last by [].
  rewrite tab_nth //. case: steps Es {Hne HM HDy E El H0 Hk Hl} => [//|s' l'] /= [->] //.
- have Hlt : (k.+1 < length steps)%coq_nat by apply/List.nth_error_Some; rewrite Es.
  case: (Hk k.+1) => [||s' [Es' H]]; [lia|exact: Hlt|]. rewrite Es in Es'. case: Es' => Ess. subst s'.
  case: (H _ Hi) => r [Omk [Lak [c [l [Er H']]]]]. exists r, Omk, Lak, c, l. split; last exact: H'. by move: Er; rewrite /= ?subn1 ?subn0 ?Nat.sub_0_r.
Qed.

Arguments mg_prop3_1 : simpl never.
Arguments np_slogdet : simpl never.
Lemma mg_prop3_ok lz (fac : 'M[R]_lz -> 'M[R]_lz) (z La : 'cV[R]_lz) (P Om : 'M[R]_lz) : factors fac -> posdef P -> psd Om ->
  let Mt := (fac P)^T *m Om *m fac P + 1%:M in
  posdef Mt /\ mg_prop3_1 fac z P Om La = Ok ((quad Om z - 2 * scal11 (La^T *m z)%mx - quad (fac P *m (invmx Mt *m (fac P)^T)) (La - Om *m z)%mx)%Re, Mt).
Proof.
move=> Hfac HP HO Mt. have HM : posdef Mt by exact: Mt_posdef. split => //.
rewrite /mg_prop3_1 (np_solve_ok _ HM) /=. by rewrite -(T_quad _ _).
Qed.

(** C74 (weights): [logp_xnext_full] compares the particles with one future trajectory, summarised by the row
    xn | OH | LH.  The true weight W of particle i is the integral over its linear state z of N(z; z_i, P_i) times the
    density of the future given z.  The number the code computes misses a term, which depends on the particle through
    fz and Qz only. *)
Theorem C74_weight : forall lz m U Y Tm (L : mlnlg 1 lz m U Y Tm) (fac : 'M[R]_lz -> 'M[R]_lz) (N : nat) (s : gstep (m := m))
  (xn : 'cV[R]_1) (OH : 'M[R]_lz) (LH : 'cV[R]_lz) c l,
  factors fac -> describes OH LH c l -> (forall i, (i < N)%coq_nat -> dyn_of L N s i /\ posdef (s_P s i)) ->
  exists (lpx : nat -> R) kappa, mg_logp_xnext_full L fac (s_part N s) (List.repeat (mg_row xn OH LH) N) (s_u s) (s_t s) = Ok (tab N lpx) /\ (0 < kappa)%Re /\
    forall i, (i < N)%coq_nat -> exists k W,
      (forall z, has_mass (fun z' => normal_pdf (s_Axi s i *m z + s_fxi s i)%mx (s_Qxi s i) xn * normal_pdf (s_Az s i *m z + s_fz s i)%mx (s_Qz s i) z' * l z')%Re (k z)) /\
      has_mass (fun z => normal_pdf (s_z s i) (s_P s i) z * k z)%Re W /\
      W = (kappa * exp (lpx i + quad (invmx (OH + invmx (s_Qz s i))) (LH - OH *m s_fz s i)%mx))%Re.
Proof.
move=> lz m U Y Tm L fac N s xn OH LH c l Hfac Hd H. have HO := proj1 Hd.
have HDs i (Hi : (i < N)%coq_nat) := proj1 (H i Hi).
pose Om i := g_Om OH (s_Az s i) (s_Qz s i) (s_Axi s i) (s_Qxi s i).
pose La i := g_La xn (s_fxi s i) OH (s_Az s i) (s_Qz s i) LH (s_fz s i) (s_Axi s i) (s_Qxi s i).
pose lZ i := g_lZ fac xn (s_fxi s i) OH (s_Qz s i) LH (s_fz s i) (s_Qxi s i).
pose Mt i := (fac (s_P s i))^T *m Om i *m fac (s_P s i) + 1%:M.
pose eta i := (quad (Om i) (s_z s i) - 2 * scal11 ((La i)^T *m s_z s i)%mx - quad (fac (s_P s i) *m (invmx (Mt i) *m (fac (s_P s i))^T)) (La i - Om i *m s_z s i)%mx)%Re.
have Hst i (Hi : (i < N)%coq_nat) := @g_step _ _ Hfac xn (s_fxi s i) _ (s_Az s i) _ _ (s_fz s i) (s_Axi s i) _ _ _ (proj2 (proj2 (HDs _ Hi))) (proj1 (proj2 (HDs _ Hi))) Hd.
have HOm i (Hi : (i < N)%coq_nat) : psd (Om i) by case: (Hst _ Hi) => k [_ [? _]].
exists (fun i => lZ i - (1 / 2) * (ln (\det (Mt i)) + eta i))%Re, (exp (c - (1 / 2) * ln (2 * PI))). split; [|split; first exact: exp_pos].
{ have Ep := mg_prop1_ok (Qc := fun _ => 0) Hfac HDs (fun _ => xn) (OH := fun _ => OH) (fun _ => LH) (fun _ _ => HO).
  rewrite /mg_logp_xnext_full repeat_tab. rewrite /s_part in Ep *. rewrite Ep [rbind (Ok _) _]/= get_states_tab [rbind (Ok _) _]/= tab_length.
  rewrite (forr_ok (g := fun i => (eta i, Mt i))); last first.
  { move=> i Hi. rewrite !idx_tab // [LHS]/=. by case: (mg_prop3_ok (s_z s i) (La i) Hfac (proj2 (H i Hi)) (HOm _ Hi)) => _ ->. }
  rewrite [rbind (Ok _) _]/=. apply: forr_ok => i Hi. rewrite !idx_tab // [LHS]/=.
  case: (mg_prop3_ok (s_z s i) (La i) Hfac (proj2 (H i Hi)) (HOm _ Hi)) => HMt _. by rewrite (np_slogdet_ok HMt). }
move=> i Hi. case: (Hst _ Hi) => k [Hk [_ Hkd]]. eexists k; eexists. split; first exact: Hk. split.
{ apply: has_mass_ext (tilt_mass (s_z s i) (La i) (proj2 (H i Hi)) (HOm _ Hi) (Hfac _ (proj2 (H i Hi))) _) => z. by rewrite Hkd. }
rewrite -exp_plus. congr exp. rewrite -/(Mt i) /eta /g_T.
suff HH : forall x1 x2 x3 x4 x5 x6 x7 x8 : R, (x1 - 1 / 2 * x2 + x3 + x4 - 1 / 2 * (x5 + x6 - 2 * x7 - x8) = x1 - 1 / 2 * x2 + (x3 - 1 / 2 * (x5 + (x6 - 2 * x7 - x8)) + x4))%Re by exact: HH.
by move=> x1 x2 x3 x4 x5 x6 x7 x8; lra.
Qed.
(** C74: in particular the weights are right, up to a factor common to all particles, when fz and Qz are the same for
    all of them. *)
Theorem C74_weight_common : forall lz m U Y Tm (L : mlnlg 1 lz m U Y Tm) (fac : 'M[R]_lz -> 'M[R]_lz) (N : nat) (s : gstep (m := m))
  (xn : 'cV[R]_1) (OH : 'M[R]_lz) (LH : 'cV[R]_lz) c l f Q,
  factors fac -> describes OH LH c l -> (forall i, (i < N)%coq_nat -> dyn_of L N s i /\ posdef (s_P s i)) ->
  (forall i, (i < N)%coq_nat -> s_fz s i = f /\ s_Qz s i = Q) ->
  exists (lpx : nat -> R) kappa, mg_logp_xnext_full L fac (s_part N s) (List.repeat (mg_row xn OH LH) N) (s_u s) (s_t s) = Ok (tab N lpx) /\ (0 < kappa)%Re /\
    forall i, (i < N)%coq_nat -> exists k W,
      (forall z, has_mass (fun z' => normal_pdf (s_Axi s i *m z + s_fxi s i)%mx (s_Qxi s i) xn * normal_pdf (s_Az s i *m z + s_fz s i)%mx (s_Qz s i) z' * l z')%Re (k z)) /\
      has_mass (fun z => normal_pdf (s_z s i) (s_P s i) z * k z)%Re W /\ W = (kappa * exp (lpx i))%Re.
Proof.
move=> lz m U Y Tm L fac N s xn OH LH c l f Q Hfac Hd H Hc.
case: (C74_weight xn Hfac Hd H) => lpx [kappa [E [Hk HW]]].
exists lpx, (kappa * exp (quad (invmx (OH + invmx Q)) (LH - OH *m f)%mx))%Re. split => //. split; first by apply: Rmult_lt_0_compat => //; exact: exp_pos.
move=> i Hi. case: (HW _ Hi) => k [W [H1 [H2 H3]]]. exists k, W. do 2 split => //. rewrite H3. case: (Hc _ Hi) => -> ->. rewrite exp_plus. ring.
Qed.

(** a function that does what is asked of [factor_psd]: the Cholesky factor *)
Definition chol_fac n (A : 'M[R]_n) : 'M[R]_n := match chol A with Ok V => V^T | Err _ => 0 end.
Lemma chol_factors n : factors (@chol_fac n).
Proof. move=> A HA. rewrite /chol_fac. case: (chol_total HA) => V HV. rewrite HV trmxK. exact: chol_gram (proj1 HA) HV. Qed.

(** C74 (wrong weights): in general the code's weights are not proportional to the true ones: a model with one linear
    state whose fz depends on the particle, with two particles. *)
Definition wrL : mlnlg 1 1 1 unit unit unit :=
  ml_init (Some 0) None (Some 1%:M) (Some 1%:M) None (Some 0) (Some 1%:M) None None None
    (fun _ _ _ => (None, None, None)) (fun _ _ _ => (None, Some (cons 0 (cons 1%:M nil)), None)) (fun _ _ _ => (0, None, None, None)) (fun _ _ _ => None).
Definition wrS : gstep (lz := 1) (m := 1) (U := unit) (Y := unit) (Tm := unit) :=
  mkGS (fun _ => 0) (fun _ => 0) (fun _ => 1%:M) (fun _ => nil) tt tt tt (fun _ => 0) (fun _ => 0) (fun _ => 1%:M) (fun _ => 0)
    (fun i => match i with O => 0 | _ => 1%:M end) (fun _ => 1%:M) (fun _ => 0) (fun _ => 0) (fun _ => 1%:M).
Lemma wr_dyn i : (i < 2)%coq_nat -> dyn_of wrL 2 wrS i /\ posdef (s_P wrS i).
Proof.
move=> Hi. have P1 := posdef1 1. split; last exact: P1. split; last by split; exact: P1.
case: i Hi => [|[|i]] Hi; [| |by exfalso; lia]; by [].
Qed.
Lemma wr_describes : describes (1%:M : 'M[R]_1) (0 : 'cV[R]_1) 0%Re (fun z => exp (0 - (1 / 2) * quad 1%:M z + scal11 (0^T *m z))%Re).
Proof. split; [exact: posdef_psd (posdef1 1)|by []]. Qed.
Theorem C74_weight_refuted : exists lz m (U Y Tm : Type) (L : mlnlg 1 lz m U Y Tm) (fac : 'M[R]_lz -> 'M[R]_lz) (N : nat) (s : gstep (m := m))
  (xn : 'cV[R]_1) (OH : 'M[R]_lz) (LH : 'cV[R]_lz) c l,
  factors fac /\ describes OH LH c l /\ (forall i, (i < N)%coq_nat -> dyn_of L N s i /\ posdef (s_P s i)) /\
  ~ exists (lpx : nat -> R) kappa, mg_logp_xnext_full L fac (s_part N s) (List.repeat (mg_row xn OH LH) N) (s_u s) (s_t s) = Ok (tab N lpx) /\ (0 < kappa)%Re /\
    forall i, (i < N)%coq_nat -> exists k W,
      (forall z, has_mass (fun z' => normal_pdf (s_Axi s i *m z + s_fxi s i)%mx (s_Qxi s i) xn * normal_pdf (s_Az s i *m z + s_fz s i)%mx (s_Qz s i) z' * l z')%Re (k z)) /\
      has_mass (fun z => normal_pdf (s_z s i) (s_P s i) z * k z)%Re W /\ W = (kappa * exp (lpx i))%Re.
Proof.
exists 1%nat, 1%nat, unit, unit, unit, wrL, (@chol_fac 1), 2%nat, wrS, 0, 1%:M, 0, 0%Re. eexists. split; first exact: chol_factors. split; first exact: wr_describes. split; first exact: wr_dyn.
case: (C74_weight 0 (@chol_factors 1) wr_describes wr_dyn) => lpx [kap [E [Hk HW]]]. rewrite E. move=> [lpx' [kap' [E' [Hk' HW']]]].
have El i (Hi : (i < 2)%coq_nat) : lpx' i = lpx i by have := congr1 (fun r => match r with Ok l => nth_error l i | Err _ => None end) E'; rewrite !tab_nth // => [[]].
have Key i (Hi : (i < 2)%coq_nat) : (quad (invmx (1%:M + invmx 1%:M)) (0 - 1%:M *m s_fz wrS i)%mx = ln kap' - ln kap)%Re.
{ case: (HW _ Hi) => k [W [H1 [H2 H3]]]. case: (HW' _ Hi) => k' [W' [H1' [H2' H3']]].
  have Ekk z : k z = k' z by apply: has_mass_unique (H1 z) (H1' z).
  have EW : W = W' by apply: has_mass_unique H2 _; apply: has_mass_ext H2' => z; rewrite Ekk.
  rewrite El // in H3'. rewrite H3 H3' in EW. have := congr1 ln EW.
  rewrite !ln_mult ?ln_exp; try exact: exp_pos; try by []. rewrite /=. move: (quad _ _) (ln kap) (ln kap') (lpx i) => q a b x. lra. }
have K0 := Key 0%nat (Nat.lt_0_succ 1). have K1 := Key 1%nat (Nat.lt_succ_diag_r 1).
have H1 : posdef (1%:M + invmx 1%:M : 'M[R]_1) by apply: posdef_add; [exact: posdef_psd (posdef1 1)|apply: posdef_inv; exact: posdef1].
have := proj2 (posdef_inv H1) (0 - 1%:M *m s_fz wrS 1%nat). rewrite K1 -K0 /= mulmx0 subr0 quad0 => H0.
suff : (0 < 0)%Re by lra. apply: H0. rewrite sub0r oppr_eq0 mul1mx. exact: matrix_nonzero1.
Qed.

(** C74: with more than one nonlinear state (or none) the backward pass raises as soon as there is a next step. *)
Theorem C74_two_states_refuted : forall lxi lz m U Y Tm (L : mlnlg lxi lz m U Y Tm) fac colY N u y t (xi : nat -> 'cV[R]_lxi) (z : nat -> 'cV[R]_lz) (P : nat -> 'M[R]_lz) (rest : nat -> row)
  (Axi : nat -> 'M[R]_(lxi, lz)) (fxi : nat -> 'cV[R]_lxi) (Qxi : nat -> 'M[R]_lxi) (Az : nat -> 'M[R]_lz) (fz : nat -> 'cV[R]_lz) (Qz : nat -> 'M[R]_lz) (Qc : nat -> 'M[R]_(lxi, lz))
  (xn : nat -> 'cV[R]_lxi) (OH : nat -> 'M[R]_lz) (LH : nat -> 'cV[R]_lz),
  let ps := tab N (fun i => rbrow (xi i) (z i) (P i) (rest i)) in
  let nexts := tab N (fun i => mg_row (xn i) (OH i) (LH i)) in
  (forall i, (i < N)%coq_nat -> dynamics_at L ps u t i (Axi i) (fxi i) (Qxi i) (Az i) (fz i) (Qz i) (Qc i)) ->
  lxi <> 1%nat -> (0 < N)%coq_nat ->
  mg_logp_xnext_full L fac ps nexts u t = Err ValueError /\ mg_sample_smooth L fac colY ps (Some nexts) u y t = Err ValueError.
Proof.
move=> lxi lz m U Y Tm L fac colY N u y t xi z P rest Axi fxi Qxi Az fz Qz Qc xn OH LH ps nexts HD Hl HN. have NA := nonlin_at HD. have LA := lin_at HD.
suff E : mg_prop1 L fac ps nexts u t = Err ValueError by rewrite /mg_logp_xnext_full /mg_sample_smooth E.
rewrite /mg_prop1 !tab_length eqxx (mapr_tab (h := fun i => (xn i, OH i, LH i))); last by move=> i _; exact: mg_row_fields.
rewrite [rbind (Ok _) _]/=. move: LA NA. case: (lin_int L _ u t) => [[[a ?] [f ?]] [q ?]]. case: (nonlin_int L _ u t) => [[[a' ?] [f' ?]] [q' ?]] LA NA.
case: N HN @ps @nexts HD LA NA => [|N] HN ps nexts HD LA NA; first lia.
rewrite /forr [List.seq 0 _]/=. rewrite mapr_cons. rewrite idx_tab // [rbind (Ok _) (fun n => _)]/=. case: (LA 0%nat HN) => [-> [-> ->]]. case: (NA 0%nat HN) => [-> [-> ->]] /=.
rewrite /mg_prop1_1. by move/eqP/negbTE: Hl => ->.
Qed.

Lemma mg_row_inj lxi lz (xi xi' : 'cV[R]_lxi) (Om Om' : 'M[R]_lz) (La La' : 'cV[R]_lz) : mg_row xi Om La = mg_row xi' Om' La' -> xi = xi' /\ Om = Om' /\ La = La'.
Proof. move=> E. have := mg_row_fields xi Om La. rewrite E mg_row_fields. by move=> [-> -> ->]. Qed.
(** C74: a step without measurement.  The information matrix of the measurement that was not made is added all the same
    unless C is zero, so that the row does not describe the future. *)
Definition noL : mlnlg 1 1 1 unit (option 'cV[R]_1) unit :=
  ml_init (Some 1%:M) (Some 1%:M) (Some 1%:M) (Some 1%:M) None (Some 1%:M) (Some 1%:M) None None (Some 0)
    (fun _ _ _ => (None, None, None)) (fun _ _ _ => (None, None, None)) (fun _ y _ => ((match y with Some y => y | None => 0 end) + 1%:M, None, None, None)) (fun _ _ _ => None).
Definition noS (y : option 'cV[R]_1) : gstep (lz := 1) (m := 1) (U := unit) (Y := option 'cV[R]_1) (Tm := unit) :=
  mkGS (fun _ => 0) (fun _ => 0) (fun _ => 1%:M) (fun _ => nil) tt y tt (fun _ => 1%:M) (fun _ => 0) (fun _ => 1%:M) (fun _ => 1%:M)
    (fun _ => 0) (fun _ => 1%:M) (fun _ => 1%:M) (fun _ => 0) (fun _ => 1%:M).
Lemma no_meas y i : meas_given noL 3 (noS y) /\ (exists y', measurement_at noL (s_part 3 (noS y)) (s_y (noS y)) (s_t (noS y)) i y' (s_C (noS y) i) (s_h (noS y) i) (s_R (noS y) i)) /\ posdef (s_R (noS y) i).
Proof.
split; first by split; case=> ? // [].
split; last exact: posdef1. eexists. split; first by []. split; first by []. split; first by []. split; first by []. by case=> ? [].
Qed.
Lemma no_dyn y i : dyn_of noL 3 (noS y) i. Proof. by split; last by split; exact: posdef1. Qed.
Lemma quad11 (a : R) (M : 'M[R]_1) : quad M a%:M = (a * M ord0 ord0 * a)%Re.
Proof. by rewrite /quad tr_scalar_mx mul_scalar_mx mul_mx_scalar !mxE !rE Rmult_comm. Qed.
Theorem C74_no_measurement_refuted : exists lz m (U Y Tm : Type) (L : mlnlg 1 lz m U Y Tm) (fac : 'M[R]_lz -> 'M[R]_lz) (colY : Y -> option 'cV[R]_m) (s : gstep) (r : row),
  factors fac /\ meas_given L 1 s /\ colY (s_y s) = None /\
  (exists y', measurement_at L (s_part 1 s) (s_y s) (s_t s) 0 y' (s_C s 0%nat) (s_h s 0%nat) (s_R s 0%nat)) /\ posdef (s_R s 0%nat) /\
  mg_run L fac colY 1 (cons s nil) = Ok (cons (cons r nil) nil) /\
  ~ exists Om La c l, r = mg_row (s_xi s 0%nat) Om La /\ future_lik colY (cons s nil) 0 l /\ describes Om La c l.
Proof.
exists 1%nat, 1%nat, unit, (option 'cV[R]_1), unit, noL, (@chol_fac 1), (fun y => y), (noS None), (@mg_row 1 1 0 (0 + (1%:M)^T *m (invmx 1%:M *m 1%:M)) 0).
split; first exact: chol_factors. split; first by split; case=> ? // [].
split; first by []. case: (@no_meas None 0%nat) => _ [_ HR]. split; first by eexists; do 4 (split; first by []); case=> ? []. split; first exact: HR. split.
{ have H1 : (0 < 1)%coq_nat by lia.
  rewrite mg_run_cons /= (@mg_sample_ok _ _ _ _ _ noL (@chol_fac 1) (fun y => y) 1 H1 (noS None) None (fun _ => 0) (fun _ => 0)) //.
  - by split; case=> ? // [].
  - move=> i _. split; last exact: posdef1. eexists. do 4 (split; first by []). by case=> ? []. }
move=> [Om [La [c [l [Er [[k [Hk Hl]] [_ Hd]]]]]]]. case: (mg_row_inj Er) => _ [EO EL]. subst Om La.
have H z : l z = exp 0 by rewrite Hl Hk exp_0 /meas_lik /= Rmult_1_l.
have H' z := exp_inv _ _ (eq_trans (esym (H z)) (Hd z)). have H0 := H' 0. have H1 := H' 1%:M. move: H0 H1. rewrite !trmx0 !mul0mx (_ : scal11 0 = 0%Re); last by rewrite /scal11 mxE.
rewrite quad0 quad11 add0r trmx1 mul1mx mulmx1 invmx1 mxE eqxx /= (_ : (1%:R : R) = 1%Re) //.
move=> H0 H1. have E0 : (0 = c - 1 / 2 * 0 + 0)%Re by exact: H0. have E1 : (0 = c - 1 / 2 * (1 * 1 * 1) + 0)%Re by exact: H1. lra.
Qed.
(** C74: the measurement used is the one in the list of measurements, not the preprocessed one that
    [get_meas_dynamics] returns. *)
Theorem C74_preprocessed_refuted : exists lz m (U Y Tm : Type) (L : mlnlg 1 lz m U Y Tm) (fac : 'M[R]_lz -> 'M[R]_lz) (colY : Y -> option 'cV[R]_m) (s : gstep) y' (r : row),
  factors fac /\ meas_given L 1 s /\ colY (s_y s) <> None /\
  measurement_at L (s_part 1 s) (s_y s) (s_t s) 0 y' (s_C s 0%nat) (s_h s 0%nat) (s_R s 0%nat) /\ posdef (s_R s 0%nat) /\
  mg_run L fac colY 1 (cons s nil) = Ok (cons (cons r nil) nil) /\
  ~ exists Om La c, r = mg_row (s_xi s 0%nat) Om La /\ describes Om La c (fun z => normal_pdf (s_C s 0%nat *m z + s_h s 0%nat)%mx (s_R s 0%nat) y').
Proof.
exists 1%nat, 1%nat, unit, (option 'cV[R]_1), unit, noL, (@chol_fac 1), (fun y => y), (noS (Some 0)), (0 + 1%:M), (@mg_row 1 1 0 (0 + (1%:M)^T *m (invmx 1%:M *m 1%:M)) (0 + (invmx 1%:M *m 1%:M)^T *m (0 - 0))).
split; first exact: chol_factors. split; first by split; case=> ? // [].
split; first by []. case: (@no_meas (Some 0) 0%nat) => _ [_ HR]. split; first by do 4 (split; first by []); case=> ? []. split; first exact: HR. split.
{ have H1 : (0 < 1)%coq_nat by lia.
  rewrite mg_run_cons /= (@mg_sample_ok _ _ _ _ _ noL (@chol_fac 1) (fun y => y) 1 H1 (noS (Some 0)) None (fun _ => 0) (fun _ => 0)) //.
  - by split; case=> ? // [].
  - move=> i _. split; last exact: posdef1. eexists. do 4 (split; first by []). by case=> ? []. }
move=> [Om [La [c [Er [_ Hd]]]]]. case: (mg_row_inj Er) => _ [EO EL]. subst Om La.
have H z := eq_trans (esym (normal_pdf_log (1%:M *m z + 0) (0 + 1%:M) (posdef_det (posdef1 1)))) (Hd z).
have H0 := exp_inv _ _ (H 0). have H1 := exp_inv _ _ (H 1%:M). move: H0 H1. rewrite /normal_logpdf !mul1mx !addr0 !add0r !subrr ?mulmx0 ?subr0 ?mulmx0 ?addr0 ?trmx0 ?mul0mx ?subr0 (_ : scal11 0 = 0%Re); last by rewrite /scal11 mxE.
rewrite oppr0 mulmx0 trmx0 mul0mx (_ : scal11 0 = 0%Re); last by rewrite /scal11 mxE.
rewrite !quad0 trmx1 mul1mx mulmx1 !invmx1 !quad11 !mxE eqxx /= (_ : (1%:R : R) = 1%Re) //. move: (ln _) (ln _) => q p H0 H1.
have E0 : (- (1 / 2) * (1 * p + q + 1 * 1 * 1) = c - 1 / 2 * 0 + 0)%Re by exact: H0. have E1 : (- (1 / 2) * (1 * p + q + 0) = c - 1 / 2 * (1 * 1 * 1) + 0)%Re by exact: H1. lra.
Qed.

(** ** Examples *)
(** three trajectories, three steps, two linear states, the middle step without measurement (and C = 0 there) *)
Definition exG : mlnlg 1 2 1 unit (option 'cV[R]_1) unit :=
  ml_init (Some ex_P) None (Some ex_P) (Some ex_R) (Some ex_u) (Some ex_C) (Some ex_R) None None (Some 1%:M)
    (fun _ _ _ => (None, None, None)) (fun _ _ _ => (None, None, None))
    (fun ps y _ => (0, Some (List.repeat (match y with Some _ => ex_C | None => 0 end) (length ps)), None, None)) (fun _ _ _ => None).
Definition exS (y : option 'cV[R]_1) (x : R) : gstep (lz := 2) (m := 1) (U := unit) (Y := option 'cV[R]_1) (Tm := unit) :=
  mkGS (fun i => const_mx (x + INR i)%Re) (fun _ => ex_u) (fun _ => ex_P) (fun _ => nil) tt y tt (fun _ => ex_C) (fun _ => 0) (fun _ => ex_R) (fun _ => ex_P)
    (fun _ => ex_u) (fun _ => ex_P) (fun _ => match y with Some _ => ex_C | None => 0 end) (fun _ => 1%:M) (fun _ => ex_R).
Lemma exS_meas y x i : (i < 3)%coq_nat -> meas_of exG (fun y => y) 3 (exS y x) i.
Proof.
move=> Hi. split; last by rewrite /=; case: y. split; last exact: ex_R_posdef. exists 0. split; first by []. split.
{ rewrite /= . case: i Hi => [|[|[|i]]] Hi; [| | |by exfalso; lia]; by []. }
split; first by []. split; first by []. by case=> ? [].
Qed.
Lemma exS_given y x : meas_given exG 3 (exS y x). Proof. by split; case=> ? // []. Qed.
Lemma exS_dyn y x i : dyn_of exG 3 (exS y x) i. Proof. by split; last by split; [exact: ex_R_posdef|exact: ex_P_posdef]. Qed.
Example C74_case : let steps := cons (exS (Some 0) 1%Re) (cons (exS None 4%Re) (cons (exS (Some (const_mx 3%Re)) 2%Re) nil)) in
  exists rows r Om La c l, mg_run exG (@chol_fac 2) (fun y => y) 3 steps = Ok rows /\ nth_error rows 0 = Some r /\ nth_error r 2 = Some (mg_row (const_mx (1 + INR 2)%Re : 'cV[R]_1) Om La) /\
    future_lik (fun y => y) steps 2 l /\ describes Om La c l.
Proof.
move=> steps. case: (@C74_statistics 2 1 unit (option 'cV[R]_1) unit exG (@chol_fac 2) (fun y => y) 3 steps).
- exact: chol_factors.
- lia.
- by [].
- by move=> s [<-|[<-|[<-|[]]]]; split; try exact: exS_given; move=> i Hi; exact: exS_meas.
- by move=> s [<-|[<-|[]]] i _; exact: exS_dyn.
- move=> rows [E [_ H]]. case: (H 0%nat (exS (Some 0) 1%Re) 2%nat) => [//||r [Om [La [c [l [H1 [H2 [H3 H4]]]]]]]]; first lia.
  by exists rows, r, Om, La, c, l.
Qed.
Example C74_weight_case : exists lpx kappa, mg_logp_xnext_full exG (@chol_fac 2) (s_part 3 (exS (Some 0) 1%Re)) (List.repeat (mg_row (0 : 'cV[R]_1) ex_P ex_u) 3) tt tt = Ok (tab 3 lpx) /\ (0 < kappa)%Re.
Proof.
have Hd : describes ex_P ex_u 0%Re (fun z => exp (0 - (1 / 2) * quad ex_P z + scal11 (ex_u^T *m z))%Re) by split; [exact: posdef_psd ex_P_posdef|].
case: (@C74_weight_common 2 1 unit (option 'cV[R]_1) unit exG (@chol_fac 2) 3 (exS (Some 0) 1%Re) 0 _ _ _ _ ex_u ex_P (@chol_factors 2) Hd) => [||lpx [kappa [E [Hk _]]]].
- by move=> i _; split; [exact: exS_dyn|exact: ex_P_posdef].
- by [].
- by exists lpx, kappa.
Qed.
Example C74_two_states_case : exists (L : mlnlg 2 1 1 unit unit unit), mg_logp_xnext_full L (@chol_fac 1) (tab 2 (fun i => rbrow (const_mx (INR i) : 'cV[R]_2) (0 : 'cV[R]_1) 1%:M nil))
  (tab 2 (fun i => mg_row (0 : 'cV[R]_2) (1%:M : 'M[R]_1) 0)) tt tt = Err ValueError.
Proof.
exists (ml_init (lxi := 2) (lz := 1) (m := 1) (U := unit) (Y := unit) (Tm := unit) (Some 1%:M) None (Some 1%:M) None None (Some 0) (Some 1%:M) None None None
  (fun _ _ _ => (None, None, None)) (fun _ _ _ => (None, None, None)) (fun _ _ _ => (0, None, None, None)) (fun _ _ _ => None)).
apply: (proj1 (@C74_two_states_refuted 2 1 1 unit unit unit _ _ (fun _ => None) 2 tt tt tt (fun i => const_mx (INR i)) (fun _ => 0) (fun _ => 1%:M) (fun _ => nil)
  (fun _ => 0) (fun _ => 0) (fun _ => 1%:M) (fun _ => 1%:M) (fun _ => 0) (fun _ => 1%:M) (fun _ => 0) (fun _ => 0) (fun _ => 1%:M) (fun _ => 0) _ _ _)) => //. lia.
Qed.
Print Assumptions C74_statistics.
Print Assumptions C74_weight.
