(** Properties of nonlinear Gaussian models: C40, C41, C48, C67. *)
From mathcomp Require Import all_ssreflect all_algebra.
From Coq Require Import Reals Lra List Lia.
From Verif Require Import Base RMat KalmanModel LinAlg Gauss Moments Storage MlnlgModel MlnlgProofs Prop_Kalman Prop_Mlnlg Prop_Rbps NlgModel.
Set Implicit Arguments.
Unset Strict Implicit.
Unset Printing Implicit Defensive.
Import GRing.Theory.
Local Open Scope ring_scope.

Arguments chol : simpl never.
Arguments logpdf_stored : simpl never.
(** ** Specification *)
(** [made L f g Q R]: L was created with the constants f and g; Q and R are the last constants given for the covariances, at
    creation or by set_Q and set_R. *)
Inductive made n m U Tm : nlg n m U Tm -> option 'cV[R]_n -> option 'cV[R]_m -> option 'M[R]_n -> option 'M[R]_m -> Prop :=
| made_init : forall f g Q Rn cf cQ cg cR L, nlg_init f g Q Rn cf cQ cg cR = Ok L -> made L f g Q Rn
| made_Q : forall L L' f g Q Q' Rn, made L f g Q Rn -> set_Q L Q' = Ok L' -> made L' f g (Some Q') Rn
| made_R : forall L L' f g Q Rn R', made L f g Q Rn -> set_R L R' = Ok L' -> made L' f g Q (Some R').
(** A user's contract: a callback that returns something returns one entry per particle. *)
Definition per_particle T (o : option (list T)) (N : nat) : Prop := forall l, o = Some l -> List.length l = N.

(** ** Lemmas *)
Lemma made_stored n m U Tm (L : nlg n m U Tm) f g Q Rn : made L f g Q Rn ->
  ng_f L = f /\ ng_g L = g /\
  match Q with Some Q => exists Uc, chol Q = Ok Uc /\ ng_Q L = Some (Uc, (- (1 / 2) * (INR n * l2pi + cho_logdet Uc))%Re) | None => ng_Q L = None end /\
  match Rn with Some Rn => exists Uc, chol Rn = Ok Uc /\ ng_R L = Some Uc | None => ng_R L = None end.
Proof.
elim=> {L f g Q Rn} [f g Q Rn cf cQ cg cR L|L L' f g Q Q' Rn _ [IH1 [IH2 [IH3 IH4]]]|L L' f g Q Rn R' _ [IH1 [IH2 [IH3 IH4]]]].
- rewrite /nlg_init /factor_Q. case: Q => [Q|]; case: Rn => [Rn|] /=.
  + case EQ : (chol Q) => [UQ|//] /=. case ER : (chol Rn) => [UR|//] /= [<-] /=. do 2 split => //. split; [by exists UQ|by exists UR].
  + case EQ : (chol Q) => [UQ|//] /= [<-] /=. do 2 split => //. split => //. by exists UQ.
  + case ER : (chol Rn) => [UR|//] /= [<-] /=. do 3 split => //. by exists UR.
  + by move=> [<-].
- rewrite /set_Q /factor_Q. case EQ : (chol Q') => [UQ|//] /= [<-] /=. do 2 split => //. split => //. by exists UQ.
- rewrite /set_R. case ER : (chol R') => [UR|//] /= [<-] /=. do 3 split => //. by exists UR.
Qed.
Lemma combine_tab A B N (a : nat -> A) (b : nat -> B) : List.combine (tab N a) (tab N b) = tab N (fun i => (a i, b i)).
Proof. rewrite /tab. elim: (List.seq 0 N) => [//|x l IH] /=. by rewrite IH. Qed.
Lemma bcast_tab A B C (op : A -> B -> C) N a b : bcast op (tab N a) (tab N b) = Ok (tab N (fun i => op (a i) (b i))).
Proof. by rewrite /bcast !tab_length eqxx combine_tab map_tab. Qed.
Lemma bcast_r A B C (op : A -> B -> C) N a b : bcast op (tab N a) (cons b nil) = Ok (tab N (fun i => op (a i) b)).
Proof.
rewrite /bcast tab_length. case: eqP => [E|H]; first by rewrite /= in E; subst N.
rewrite -(map_tab N a (fun x => op x b)). by case: (tab N a) => [//|x [|y l]].
Qed.
Lemma bcast_l A B C (op : A -> B -> C) N a b : bcast op (cons a nil) (tab N b) = Ok (tab N (fun i => op a (b i))).
Proof.
rewrite /bcast tab_length. case: eqP => [E|H]; first by rewrite /= in E; subst N.
by rewrite map_tab.
Qed.
Lemma assign_tab A N (a : nat -> A) : assign_all N (tab N a) = Ok (tab N a).
Proof. by rewrite /assign_all tab_length eqxx. Qed.
Lemma list_tab T (l : list T) N v : List.length l = N -> (forall i, (i < N)%coq_nat -> nth_error l i = Some (v i)) -> l = tab N v.
Proof.
move=> HL H. apply: nth_error_ext => i. case: (lt_dec i N) => Hi; first by rewrite H // tab_nth.
rewrite !(proj2 (nth_error_None _ _)) ?tab_length //; lia.
Qed.
Lemma given_list T (o : option (list T)) st N v : (0 < N)%coq_nat -> per_particle o N -> (forall i, (i < N)%coq_nat -> given o st i (v i)) ->
  o = Some (tab N v) \/ (o = None /\ st = Some (v 0%nat) /\ forall i, (i < N)%coq_nat -> v i = v 0%nat).
Proof.
move=> HN Hc Hg. case: o Hc Hg => [l|] Hc Hg; [left; congr Some; apply: list_tab => //; exact: Hc|right].
split => //. have E0 : st = Some (v 0%nat) by exact: (Hg _ HN). split => // i Hi. have : st = Some (v i) by exact: (Hg _ Hi). by rewrite E0 => [[]].
Qed.

Section Lists.
Variables (k N : nat) (S Uc : 'M[R]_k).
Hypotheses (HS : posdef S) (HU : chol S = Ok Uc).
Lemma logpdf_stored_ok (mu x : nat -> 'cV[R]_k) : k <> 1%nat -> logpdf_stored (tab N (fun i => x i - mu i)) Uc = Ok (tab N (fun i => normal_logpdf (mu i) S (x i))).
Proof.
move=> Hk. have -> : logpdf_stored (tab N (fun i => x i - mu i)) Uc = Ok (lognormpdf_cho_vec (tab N (fun i => x i - mu i)) Uc).
{ rewrite /logpdf_stored. move: Hk Uc mu x. by case: (k) => [|[|k']]. }
congr Ok. rewrite /lognormpdf_cho_vec map_tab. apply: tab_ext => i _. rewrite -(lognormpdf_cho_ok (mu := mu i) (x := x i) HS HU (erefl _)) /lognormpdf_cho -Rmult_plus_distr_l //.
Qed.
End Lists.
Lemma posdef_scal (r : R) : (0 < r)%Re -> posdef (r%:M : 'M[R]_1).
Proof.
move=> Hr. split; first by rewrite /symmetric tr_scalar_mx. move=> x Hx. rewrite [x]scal11E /quad tr_scalar_mx -!scalar_mxM mxE eqxx mulr1n !rE.
have Hx0 : scal11 x <> 0%Re by move=> E; move: Hx; rewrite [x]scal11E E -r0E raddf0 eqxx.
have := Rsqr_pos_lt _ Hx0. rewrite /Rsqr => H. nra.
Qed.
Lemma normal_logpdf1 (mu x : 'cV[R]_1) (v : R) : (0 < v)%Re ->
  normal_logpdf mu v%:M x = (- (1 / 2) * (l2pi + ln v + (scal11 (x - mu)%mx * scal11 (x - mu)%mx) / v))%Re.
Proof.
move=> Hv. rewrite /normal_logpdf det_scalar expr1 /l2pi. move: (x - mu)%mx => e. rewrite /quad invmx_scalar (scal11E e) tr_scalar_mx -!scalar_mxM.
move: (scal11 e) => a. rewrite /scal11 !mxE eqxx !mulr1n !rE /=. have E : ((v : R)^-1)%R = (/ v)%Re by []. rewrite ?E. field. lra.
Qed.
Lemma chol1 (S : 'M[R]_1) : (0 < scal11 S)%Re -> chol S = Ok (sqrt (scal11 S))%:M.
Proof.
move=> H. have -> : chol S = (if Rle_dec (S ord0 ord0) 0%Re then Err LinAlgError else
  Ok (block_mx (sqrt (S ord0 ord0))%:M ((/ sqrt (S ord0 ord0))%Re *: ursubmx (S : 'M[R]_(1 + 0))) 0 (drsubmx (S : 'M[R]_(1 + 0)) - (/ (S ord0 ord0))%Re *: ((ursubmx (S : 'M[R]_(1 + 0)))^T *m ursubmx (S : 'M[R]_(1 + 0)))))) by [].
case: (Rle_dec (S ord0 ord0) 0) => [H'|Hn]; first by exfalso; move: H H'; rewrite /scal11; lra.
congr Ok. apply/matrixP => i j. have Hi (k : 'I_1) : k = lshift 0 (ord0 : 'I_1) by apply: val_inj; rewrite ord1. rewrite (Hi i) (Hi j).
etransitivity; first exact: block_mxEul. by rewrite !mxE eqxx.
Qed.
Lemma scalar_stored (N : nat) (S : 'M[R]_1) (mu x : nat -> 'cV[R]_1) : (0 < scal11 S)%Re ->
  logpdf_stored (tab N (fun i => x i - mu i)) (sqrt (scal11 S))%:M = Ok (tab N (fun i => normal_logpdf (mu i) (sqrt (scal11 S))%:M (x i))).
Proof.
move=> H. have Hs := sqrt_lt_R0 _ H. rewrite /logpdf_stored lognormpdf_scalar_ok; last by rewrite /scal11 mxE eqxx mulr1n.
congr Ok. rewrite !map_tab. apply: tab_ext => i _. rewrite (normal_logpdf1 (mu i) (x i) Hs). by have -> : scal11 (sqrt (scal11 S))%:M = sqrt (scal11 S) by rewrite {1}/scal11 mxE eqxx mulr1n.
Qed.

(** ** C40 *)
Section C40.
Context {n m : nat} {U Tm : Type}.
Variables (L : nlg n m U Tm) (f : option 'cV[R]_n) (g : option 'cV[R]_m) (Q : option 'M[R]_n) (Rn : option 'M[R]_m) (N : nat) (x : nat -> 'cV[R]_n).
Hypothesis HM : made L f g Q Rn.
Let ps := tab N x.
Hypothesis HN : (0 < N)%coq_nat.
Lemma lps : List.length ps = N. Proof. exact: tab_length. Qed.

Lemma g_ok (t : Tm) gv : per_particle (calc_g L ps t) N -> (forall i, (i < N)%coq_nat -> given (calc_g L ps t) g i (gv i)) ->
  match calc_g L ps t with
  | None => dor g <- attr (ng_g L) ; Ok (List.repeat g N)
  | Some g => if length g == N then Ok g else Err ValueError
  end = Ok (tab N gv).
Proof.
move=> Hc Hg. case: (given_list HN Hc Hg) => [->|[-> [E0 E]]]; first by rewrite tab_length eqxx.
case: (made_stored HM) => _ [-> _]. rewrite E0 /= repeat_tab. congr Ok. apply: tab_ext => i Hi. by rewrite E.
Qed.
Lemma f_ok (u : U) (t : Tm) fv : per_particle (calc_f L ps u t) N -> (forall i, (i < N)%coq_nat -> given (calc_f L ps u t) f i (fv i)) ->
  exists fl, f_val L ps u t = Ok fl /\ (forall C (op : 'cV[R]_n -> 'cV[R]_n -> C) a, bcast op (tab N a) fl = Ok (tab N (fun i => op (a i) (fv i)))) /\
    (forall C (op : 'cV[R]_n -> 'cV[R]_n -> C) a, bcast op fl (tab N a) = Ok (tab N (fun i => op (fv i) (a i)))).
Proof.
move=> Hc Hg. rewrite /f_val. case: (given_list HN Hc Hg) => [->|[-> [E0 E]]].
- exists (tab N fv). split => //. split => C op a; exact: bcast_tab.
- case: (made_stored HM) => -> _. rewrite E0. exists (cons (fv 0%nat) nil). split => //. split=> C op a.
  + rewrite bcast_r. congr Ok. apply: tab_ext => i Hi. by rewrite E.
  + rewrite bcast_l. congr Ok. apply: tab_ext => i Hi. by rewrite E.
Qed.
End C40.

(** C40: the log-likelihood of a measurement is the log of N(y; g(x), R) for each particle, whether g and R are constants or
    computed for each particle, if the measurement has more than one dimension or R is computed for each particle. *)
Theorem C40_measure_exact : forall n m U Tm (L : nlg n m U Tm) f g Q Rn N (x : nat -> 'cV[R]_n) y t (gv : nat -> 'cV[R]_m) (Rv : nat -> 'M[R]_m),
  made L f g Q Rn -> (0 < N)%coq_nat -> let ps := tab N x in
  per_particle (calc_g L ps t) N -> per_particle (calc_R L ps t) N ->
  (forall i, (i < N)%coq_nat -> given (calc_g L ps t) g i (gv i) /\ given (calc_R L ps t) Rn i (Rv i) /\ posdef (Rv i)) ->
  m <> 1%nat \/ calc_R L ps t <> None ->
  exists lp, nl_measure L ps y t = Ok (tab N lp) /\ forall i, (i < N)%coq_nat -> exp (lp i) = normal_pdf (gv i) (Rv i) y.
Proof.
move=> n m U Tm L f g Q Rn N x y t gv Rv HM HN ps Hcg Hcr H Hm.
exists (fun i => normal_logpdf (gv i) (Rv i) y). split; last by move=> i Hi; rewrite normal_pdf_log //; apply: posdef_det; case: (H i Hi) => _ [].
rewrite /nl_measure lps (g_ok HM HN Hcg (fun i Hi => proj1 (H i Hi))) [rbind _ _]/= map_tab.
have Hg i (Hi : (i < N)%coq_nat) := proj1 (proj2 (H i Hi)). have HR i (Hi : (i < N)%coq_nat) := proj2 (proj2 (H i Hi)).
case: (given_list HN Hcr Hg) => [->|[E1 [E0 E]]].
- apply: forr_ok => i Hi. rewrite !idx_tab //=. case: (chol_total (HR i Hi)) => Uc HU. rewrite HU /=. congr Ok. exact: (lognormpdf_cho_ok (HR i Hi) HU (erefl _)).
- rewrite E1. case: Hm => [Hm|]; last by rewrite E1. case: (made_stored HM) => _ [_ [_]]. rewrite E0 => [[Uc [HU ->]]] /=.
  rewrite (logpdf_stored_ok N (HR _ HN) HU gv (fun _ => y) Hm). congr Ok. apply: tab_ext => i Hi. by rewrite E.
Qed.
(** C40: for a one-dimensional measurement with constant R the result is the density for variance sqrt(R) instead: it is right
    for R = 1, and for any other R it is wrong, for every particle, at the measurement the particle predicts. *)
Theorem C40_measure_scalar : forall n U Tm (L : nlg n 1 U Tm) f g Q Rn N (x : nat -> 'cV[R]_n) y t (gv : nat -> 'cV[R]_1),
  made L f g Q (Some Rn) -> (0 < N)%coq_nat -> let ps := tab N x in
  per_particle (calc_g L ps t) N -> (forall i, (i < N)%coq_nat -> given (calc_g L ps t) g i (gv i)) -> calc_R L ps t = None -> posdef Rn ->
  exists lp, nl_measure L ps y t = Ok (tab N lp) /\ forall i, (i < N)%coq_nat -> exp (lp i) = normal_pdf (gv i) (sqrt (scal11 Rn))%:M y.
Proof.
move=> n U Tm L f g Q Rn N x y t gv HM HN ps Hcg Hg Er HR. have Hp := pos11 HR. have Hs := sqrt_lt_R0 _ Hp.
exists (fun i => normal_logpdf (gv i) (sqrt (scal11 Rn))%:M y). split; last by move=> i Hi; rewrite normal_pdf_log //; apply: posdef_det; exact: posdef_scal.
rewrite /nl_measure lps (g_ok HM HN Hcg Hg) [rbind _ _]/= map_tab Er. case: (made_stored HM) => _ [_ [_]] /= [Uc [HU ->]] /=.
move: HU. rewrite (chol1 Hp) => [[<-]]. exact: (scalar_stored N gv (fun _ => y) Hp).
Qed.

Lemma sqrt_ne1 (r : R) : (0 < r)%Re -> r <> 1%Re -> sqrt r <> r.
Proof. move=> H H1 E. have := sqrt_sqrt r. rewrite E => H2. have {}H2 := H2 (Rlt_le _ _ H). have : (r * (r - 1) = 0)%Re by lra. move/Rmult_integral; lra. Qed.
Lemma peak1 (v : R) (mu : 'cV[R]_1) : (0 < v)%Re -> normal_pdf mu v%:M mu = exp (- (1 / 2) * (l2pi + ln v)).
Proof. move=> Hv. rewrite normal_pdf_log ?normal_logpdf1 //; last by apply: posdef_det; exact: posdef_scal. congr exp. rewrite subrr (_ : scal11 0 = 0%Re); last by rewrite /scal11 mxE r0E. field. lra. Qed.
Lemma peak_ne (r : R) (mu : 'cV[R]_1) : (0 < r)%Re -> r <> 1%Re -> normal_pdf mu (sqrt r)%:M mu <> normal_pdf mu r%:M mu.
Proof.
move=> Hr H1. have Hs := sqrt_lt_R0 _ Hr. rewrite !peak1 // => /exp_inv E. apply: (sqrt_ne1 Hr H1). apply: ln_inv => //. lra.
Qed.
Theorem C40_measure_scalar_refuted : forall n U Tm (L : nlg n 1 U Tm) f g Q Rn N (x : nat -> 'cV[R]_n) t (gv : nat -> 'cV[R]_1),
  made L f g Q (Some Rn) -> (0 < N)%coq_nat -> let ps := tab N x in
  per_particle (calc_g L ps t) N -> (forall i, (i < N)%coq_nat -> given (calc_g L ps t) g i (gv i)) -> calc_R L ps t = None -> posdef Rn ->
  Rn <> 1%:M -> forall i, (i < N)%coq_nat -> exists y lps lp, nl_measure L ps y t = Ok lps /\ nth_error lps i = Some lp /\ exp lp <> normal_pdf (gv i) Rn y.
Proof.
move=> n U Tm L f g Q Rn N x t gv HM HN ps Hcg Hg Er HR H1 i Hi. have Hp := pos11 HR.
case: (C40_measure_scalar (gv i) HM HN Hcg Hg Er HR) => lp [E H]. exists (gv i). do 2 eexists. split; first exact: E. split; first exact: tab_nth.
rewrite H //. have -> : normal_pdf (gv i) Rn (gv i) = normal_pdf (gv i) (scal11 Rn)%:M (gv i) by rewrite -scal11E.
apply: peak_ne => // E1. by apply: H1; rewrite [Rn]scal11E E1.
Qed.

(** C40: the transition density, likewise: the log of N(x'; f(x), Q) for each particle and its next state, *)
Theorem C40_xnext_exact : forall n m U Tm (L : nlg n m U Tm) f g Q Rn N (x xn : nat -> 'cV[R]_n) u t (fv : nat -> 'cV[R]_n) (Qv : nat -> 'M[R]_n),
  made L f g Q Rn -> (0 < N)%coq_nat -> let ps := tab N x in
  per_particle (calc_f L ps u t) N -> per_particle (calc_Q L ps u t) N ->
  (forall i, (i < N)%coq_nat -> given (calc_f L ps u t) f i (fv i) /\ given (calc_Q L ps u t) Q i (Qv i) /\ posdef (Qv i)) ->
  n <> 1%nat \/ calc_Q L ps u t <> None ->
  exists lp, nl_xnext L ps (tab N xn) u t = Ok (tab N lp) /\ forall i, (i < N)%coq_nat -> exp (lp i) = normal_pdf (fv i) (Qv i) (xn i).
Proof.
move=> n m U Tm L f g Q Rn N x xn u t fv Qv HM HN ps Hcf Hcq H Hn.
exists (fun i => normal_logpdf (fv i) (Qv i) (xn i)). split; last by move=> i Hi; rewrite normal_pdf_log //; apply: posdef_det; case: (H i Hi) => _ [].
have Hg i (Hi : (i < N)%coq_nat) := proj1 (proj2 (H i Hi)). have HQ i (Hi : (i < N)%coq_nat) := proj2 (proj2 (H i Hi)).
case: (f_ok HM HN Hcf (fun i Hi => proj1 (H i Hi))) => fl [Ef [Eb _]]. rewrite /nl_xnext Ef [rbind _ _]/= Eb [rbind _ _]/= lps.
case: (given_list HN Hcq Hg) => [->|[E1 [E0 E]]].
- apply: forr_ok => i Hi. rewrite !idx_tab //=. case: (chol_total (HQ i Hi)) => Uc HU. rewrite HU /=. congr Ok. exact: (lognormpdf_cho_ok (HQ i Hi) HU (erefl _)).
- rewrite E1. case: Hn => [Hn|]; last by rewrite E1. case: (made_stored HM) => _ [_ [HQ' _]]. rewrite E0 in HQ'. case: HQ' => [Uc [HU ->]] /=.
  rewrite (logpdf_stored_ok N (HQ _ HN) HU fv xn Hn). congr Ok. apply: tab_ext => i Hi. by rewrite E.
Qed.
(** and for one-dimensional states with constant Q the density for variance sqrt(Q) instead. *)
Theorem C40_xnext_scalar : forall m U Tm (L : nlg 1 m U Tm) f g Q Rn N (x xn : nat -> 'cV[R]_1) u t (fv : nat -> 'cV[R]_1),
  made L f g (Some Q) Rn -> (0 < N)%coq_nat -> let ps := tab N x in
  per_particle (calc_f L ps u t) N -> (forall i, (i < N)%coq_nat -> given (calc_f L ps u t) f i (fv i)) -> calc_Q L ps u t = None -> posdef Q ->
  exists lp, nl_xnext L ps (tab N xn) u t = Ok (tab N lp) /\ forall i, (i < N)%coq_nat -> exp (lp i) = normal_pdf (fv i) (sqrt (scal11 Q))%:M (xn i).
Proof.
move=> m U Tm L f g Q Rn N x xn u t fv HM HN ps Hcf Hf Eq HQ. have Hp := pos11 HQ. have Hs := sqrt_lt_R0 _ Hp.
exists (fun i => normal_logpdf (fv i) (sqrt (scal11 Q))%:M (xn i)). split; last by move=> i Hi; rewrite normal_pdf_log //; apply: posdef_det; exact: posdef_scal.
case: (f_ok HM HN Hcf Hf) => fl [Ef [Eb _]]. rewrite /nl_xnext Ef [rbind _ _]/= Eb [rbind _ _]/= Eq.
case: (made_stored HM) => _ [_ [HQ' _]]. case: HQ' => [Uc [HU ->]] /=. move: HU. rewrite (chol1 Hp) => [[<-]]. exact: (scalar_stored N fv xn Hp).
Qed.
Theorem C40_xnext_scalar_refuted : forall m U Tm (L : nlg 1 m U Tm) f g Q Rn N (x : nat -> 'cV[R]_1) u t (fv : nat -> 'cV[R]_1),
  made L f g (Some Q) Rn -> (0 < N)%coq_nat -> let ps := tab N x in
  per_particle (calc_f L ps u t) N -> (forall i, (i < N)%coq_nat -> given (calc_f L ps u t) f i (fv i)) -> calc_Q L ps u t = None -> posdef Q ->
  Q <> 1%:M -> exists xn lp, nl_xnext L ps (tab N xn) u t = Ok (tab N lp) /\ forall i, (i < N)%coq_nat -> exp (lp i) <> normal_pdf (fv i) Q (xn i).
Proof.
move=> m U Tm L f g Q Rn N x u t fv HM HN ps Hcf Hf Eq HQ H1. have Hp := pos11 HQ.
case: (C40_xnext_scalar fv HM HN Hcf Hf Eq HQ) => lp [E H]. exists fv, lp. split => // i Hi. rewrite H //. have -> : normal_pdf (fv i) Q (fv i) = normal_pdf (fv i) (scal11 Q)%:M (fv i) by rewrite -scal11E.
apply: peak_ne => // E1. by apply: H1; rewrite [Q]scal11E E1.
Qed.

(** ** C41 *)
(** C41 for nonlinear Gaussian models: the bound is at least every value of the transition log density, if the state has more than
    one dimension, if Q is computed for each particle, or if the constant scalar Q is at most one. *)
Theorem C41_nlg_bound : forall n m U Tm (L : nlg n m U Tm) f g Q Rn N (x : nat -> 'cV[R]_n) u t (Qv : nat -> 'M[R]_n),
  made L f g Q Rn -> (0 < N)%coq_nat -> let ps := tab N x in
  per_particle (calc_Q L ps u t) N -> (forall i, (i < N)%coq_nat -> given (calc_Q L ps u t) Q i (Qv i) /\ posdef (Qv i)) ->
  n <> 1%nat \/ calc_Q L ps u t <> None ->
  exists bound, nl_xnext_max L ps u t = Ok bound /\
    forall xn fv, per_particle (calc_f L ps u t) N -> (forall i, (i < N)%coq_nat -> given (calc_f L ps u t) f i (fv i)) ->
    exists lp, nl_xnext L ps (tab N xn) u t = Ok (tab N lp) /\ forall i, (i < N)%coq_nat -> (lp i <= bound)%Re.
Proof.
move=> n m U Tm L f g Q Rn N x u t Qv HM HN ps Hcq H Hn.
have HQg i (Hi : (i < N)%coq_nat) := proj1 (H i Hi). have HQ i (Hi : (i < N)%coq_nat) := proj2 (H i Hi).
have [bound [Eb Hb]] : exists bound, nl_xnext_max L ps u t = Ok bound /\ forall i, (i < N)%coq_nat -> (- (1 / 2) * (INR n * ln (2 * PI) + ln (\det (Qv i))) <= bound)%Re.
{ rewrite /nl_xnext_max lps. case: (given_list HN Hcq HQg) => [->|[-> [E0 E]]].
  - set b := fun i => (- (1 / 2) * (INR n * ln (2 * PI) + ln (\det (Qv i))))%Re.
    rewrite (@forr_ok _ N _ b) /=; last by move=> i Hi; rewrite idx_tab //=; case: (chol_total (HQ i Hi)) => Uc HU; rewrite HU /= (proj2 (chol_det (proj1 (HQ i Hi)) HU)).
    have [v Ev] : exists v, rmax (tab N b) = Ok v by case: (N) HN => [|N'] HN'; [lia|eexists; reflexivity].
    exists v. split => // i Hi. apply: (rmax_ge Ev). apply: (List.nth_error_In _ i). exact: (tab_nth b Hi).
  - case: (made_stored HM) => _ [_ [HQ' _]]. rewrite E0 in HQ'. case: HQ' => [Uc [HU ->]] /=. eexists. split; first by []. move=> i Hi. rewrite E // (proj2 (chol_det (proj1 (HQ _ HN)) HU)) /l2pi. lra. }
exists bound. split => // xn fv Hcf Hf.
case: (@C40_xnext_exact _ _ _ _ L f g Q Rn N x xn u t fv Qv HM HN Hcf Hcq _ Hn) => [i Hi|lp [E HE]]; first by split; [exact: Hf|exact: H].
exists lp. split => // i Hi. apply: Rle_trans (Hb i Hi). have -> : lp i = normal_logpdf (fv i) (Qv i) (xn i).
{ apply: exp_inv. rewrite HE // normal_pdf_log //. exact: posdef_det (HQ i Hi). }
exact: normal_logpdf_le (HQ i Hi).
Qed.
(** C41: with a constant scalar Q the bound holds exactly if Q is at most one. *)
Theorem C41_nlg_scalar : forall m U Tm (L : nlg 1 m U Tm) f g Q Rn N (x : nat -> 'cV[R]_1) u t (fv : nat -> 'cV[R]_1),
  made L f g (Some Q) Rn -> (0 < N)%coq_nat -> let ps := tab N x in
  per_particle (calc_f L ps u t) N -> (forall i, (i < N)%coq_nat -> given (calc_f L ps u t) f i (fv i)) -> calc_Q L ps u t = None -> posdef Q ->
  exists bound, nl_xnext_max L ps u t = Ok bound /\
    ((scal11 Q <= 1)%Re <-> (forall xn, exists lp, nl_xnext L ps (tab N xn) u t = Ok (tab N lp) /\ forall i, (i < N)%coq_nat -> (lp i <= bound)%Re)).
Proof.
move=> m U Tm L f g Q Rn N x u t fv HM HN ps Hcf Hf Eq HQ. have Hp := pos11 HQ. have Hs := sqrt_lt_R0 _ Hp.
have Elp lp i xn : exp (lp i) = normal_pdf (fv i) (sqrt (scal11 Q))%:M xn -> lp i = normal_logpdf (fv i) (sqrt (scal11 Q))%:M xn.
{ move=> H. apply: exp_inv. rewrite H normal_pdf_log //. apply: posdef_det. exact: posdef_scal. }
have Hl : (ln (sqrt (scal11 Q)) + ln (sqrt (scal11 Q)) = ln (scal11 Q))%Re by rewrite -ln_mult // sqrt_sqrt //; lra.
case: (made_stored HM) => _ [_ [HQ' _]]. case: HQ' => [Uc [HU EQ]].
exists (- (1 / 2) * (l2pi + ln (scal11 Q)))%Re. split.
{ rewrite /nl_xnext_max Eq EQ /= (proj2 (chol_det (proj1 HQ) HU)) det_mx11. congr Ok. rewrite /scal11. have -> : (Q 0 0 : R) = Q ord0 ord0 by []. lra. }
split.
- move=> H1 xn. case: (C40_xnext_scalar xn HM HN Hcf Hf Eq HQ) => lp [E H]. exists lp. split => // i Hi. rewrite (Elp _ _ _ (H i Hi)) normal_logpdf1 //.
  have : (0 <= scal11 (xn i - fv i)%mx * scal11 (xn i - fv i)%mx / sqrt (scal11 Q))%Re.
  { apply: Rmult_le_pos; first exact: Rle_0_sqr. left. exact: Rinv_0_lt_compat. }
  have : (ln (scal11 Q) <= 0)%Re by rewrite -ln_1; case: H1 => [H1|->]; [left; exact: ln_increasing|right].
  move: Hl. lra.
- move=> H. apply: Rnot_lt_le => H1. case: (H fv) => lp [E Hb]. case: (C40_xnext_scalar fv HM HN Hcf Hf Eq HQ) => lp' [E' H'].
  have El : lp' 0%nat = lp 0%nat.
  { move: E'. rewrite -/ps E => [[E']]. have := congr1 (fun l => nth_error l 0%nat) E'. rewrite !tab_nth // => [[->]] //. }
  have := Hb 0%nat HN. rewrite -El (Elp _ _ _ (H' _ HN)) normal_logpdf1 // subrr (_ : scal11 0 = 0%Re); last by rewrite /scal11 mxE r0E.
  have : (0 < ln (scal11 Q))%Re by rewrite -ln_1; apply: ln_increasing => //; lra.
  have -> : (0 * 0 / sqrt (scal11 Q) = 0)%Re by field; lra. move: Hl. lra.
Qed.

(** ** C48, C67: sampling *)
(** [x] is distributed as N(mu, S) when the unit noise [w] it is computed from is a standard normal vector: it is an affine
    invertible function of w, the density of N(mu, S) at x is the density of w divided by the volume change, and for every
    distribution of w with mean 0 and covariance 1 it has mean mu and covariance S. *)
Definition samples n (x : 'cV[R]_n -> 'cV[R]_n) (mu : 'cV[R]_n) (S : 'M[R]_n) : Prop :=
  exists F : 'M[R]_n, F \in unitmx /\ (forall w, x w = mu + F *m w) /\
    (forall w, (normal_pdf mu S (x w) * Rabs (\det F) = normal_pdf 0 1%:M w)%Re) /\
    forall Om (E : (Om -> R) -> R) (w : Om -> 'cV[R]_n), expectation E -> has_mean E w 0 -> has_cov E w 0 1%:M ->
      has_mean E (fun o => x (w o)) mu /\ has_cov E (fun o => x (w o)) mu S.
Lemma affine_moments n (F : 'M[R]_n) (mu : 'cV[R]_n) Om (E : (Om -> R) -> R) (w : Om -> 'cV[R]_n) : expectation E -> has_mean E w 0 -> has_cov E w 0 1%:M ->
  has_mean E (fun o => mu + F *m w o) mu /\ has_cov E (fun o => mu + F *m w o) mu (F *m F^T).
Proof.
move=> HE Hm Hc. split.
- by rewrite /has_mean (Emx_add HE) (Emx_const HE) (Emx_mull HE) Hm mulmx0 addr0.
- rewrite /has_cov /cross_cov. transitivity (Emx E (fun o => F *m ((w o - 0) *m (w o - 0)^T) *m F^T)).
  + apply: Emx_ext => o. by rewrite subr0 addrAC subrr add0r trmx_mul !mulmxA.
  + by rewrite (Emx_mulr HE) (Emx_mull HE) [X in F *m X *m _]Hc mulmx1.
Qed.
Lemma affine_samples n (F : 'M[R]_n) (mu : 'cV[R]_n) : F \in unitmx -> samples (fun w => mu + F *m w) mu (F *m F^T).
Proof.
move=> HF. exists F. split => //. split => //. split; last by move=> Om E w HE Hm Hc; exact: affine_moments.
move=> w. have Hd : (\det F != 0)%R by rewrite -unitfE -unitmxE. have Hd' : \det F <> 0%Re by apply/eqP.
rewrite /normal_pdf addrAC subrr add0r subr0 det_mulmx det_tr det1 rmulE.
have -> : quad (invmx (F *m F^T)) (F *m w) = quad (invmx 1%:M) w.
{ rewrite /quad invmx1 mulmx1 trmx_mul -!mulmxA. congr ((_ : 'M[R]_1) ord0 ord0). congr mulmx.
  rewrite mulmxA (_ : F^T *m invmx (F *m F^T) = invmx F) ?mulKmx //.
  have HT : F^T \in unitmx by rewrite unitmx_tr. have HFF : F *m F^T \in unitmx by rewrite unitmx_mul HF HT.
  apply: (can_inj (mulKmx HF)). rewrite mulmxA mulmxV // mulmxV //. }
have Hp : (0 < (2 * PI) ^ n)%Re by apply: pow_lt; move: PI_RGT_0; lra.
rewrite Rmult_1_r sqrt_mult; [|lra|exact: Rle_0_sqr]. have -> : (\det F * \det F = Rsqr (\det F))%Re by []. rewrite sqrt_Rsqr_abs.
have Ha : (0 < Rabs (\det F))%Re by exact: Rabs_pos_lt. have Hs := sqrt_lt_R0 _ Hp. move: (exp _) (sqrt _) (Rabs _) Ha Hs => a b c Ha Hs. field. split; lra.
Qed.
Lemma chol_samples n (S Uc : 'M[R]_n) mu : symmetric S -> chol S = Ok Uc -> samples (fun w => mu + Uc^T *m w) mu S.
Proof. move=> HS HU. have := affine_samples mu (_ : Uc^T \in unitmx). rewrite trmxK (chol_gram HS HU) unitmx_tr. apply. exact: chol_unit HU. Qed.

(** C48: the sampled process noise of each particle is N(0, Q) noise, for constant Q and for Q computed for each particle. *)
Theorem C48_process_noise : forall n m U Tm (L : nlg n m U Tm) f g Q Rn N (x : nat -> 'cV[R]_n) u t (Qv : nat -> 'M[R]_n),
  made L f g Q Rn -> (0 < N)%coq_nat -> let ps := tab N x in
  per_particle (calc_Q L ps u t) N -> (forall i, (i < N)%coq_nat -> given (calc_Q L ps u t) Q i (Qv i) /\ posdef (Qv i)) ->
  exists v : nat -> 'cV[R]_n -> 'cV[R]_n, (forall w, nl_noise L w ps u t = Ok (tab N (fun i => v i (w i)))) /\
    forall i, (i < N)%coq_nat -> samples (v i) 0 (Qv i).
Proof.
move=> n m U Tm L f g Q Rn N x u t Qv HM HN ps Hcq H.
have HQg i (Hi : (i < N)%coq_nat) := proj1 (H i Hi). have HQ i (Hi : (i < N)%coq_nat) := proj2 (H i Hi).
exists (fun i w => (0 + (res_or 0 (chol (Qv i)))^T *m w)). split.
- move=> w. rewrite /nl_noise lps. case: (given_list HN Hcq HQg) => [->|[-> [E0 E]]].
  + apply: forr_ok => i Hi. rewrite idx_tab //=. case: (chol_total (HQ i Hi)) => Uc HU. by rewrite HU /= add0r.
  + case: (made_stored HM) => _ [_ [HQ' _]]. rewrite E0 in HQ'. case: HQ' => [Uc [HU ->]] /=. apply: forr_ok => i Hi. by rewrite E // HU /= add0r.
- move=> i Hi. case: (chol_total (HQ i Hi)) => Uc HU. rewrite HU /=. exact: chol_samples (proj1 (HQ i Hi)) HU.
Qed.

(** the junk below the diagonal does not matter for one-dimensional states *)
Theorem C48_initial_scalar : forall (x0 : 'cV[R]_1) (Px0 junk : 'M[R]_1) N, posdef Px0 ->
  exists v : 'cV[R]_1 -> 'cV[R]_1, (forall w, create_initial_estimate x0 Px0 junk w N = Ok (tab N (fun i => v (w i)))) /\ samples v x0 Px0.
Proof.
move=> x0 Px0 junk N HP. case: (chol_total HP) => Uc HU. exists (fun w => x0 + Uc^T *m w). split; last exact: chol_samples (proj1 HP) HU.
move=> w. rewrite /create_initial_estimate /cho_factor_raw HU.
have -> : (Px0 == 0) = false by apply/eqP => E; have := posdef_det HP; rewrite E det_mx11 mxE r0E => /Rlt_irrefl.
rewrite [rbind (rbind _ _) _]/=. apply: forr_ok => i Hi. congr (Ok (_ + _ *m _)). apply/matrixP => a b. by rewrite !mxE !ord1.
Qed.
(** With a zero covariance every particle is the initial state. *)
Theorem C48_initial_zero : forall n (x0 : 'cV[R]_n) junk w N, create_initial_estimate x0 0 junk w N = Ok (List.repeat x0 N).
Proof. by move=> n x0 junk w N; rewrite /create_initial_estimate eqxx. Qed.
Lemma row0_gram n (Uc junk P : 'M[R]_(n.+1)) j : chol P = Ok Uc -> symmetric P -> (j != ord0) -> P ord0 j <> 0%Re ->
  let F := \matrix_(a, b) (if (a <= b)%nat then Uc a b else junk a b) : 'M[R]_(n.+1) in (P ord0 ord0 < (F *m F^T) ord0 ord0)%Re.
Proof.
move=> HU HS Hj HP F. have UT := chol_uptri HU. have UU := chol_gram HS HU.
have Hz (k : 'I_n.+1) : k != ord0 -> Uc k ord0 = 0%Re.
{ move=> Hk. apply: (proj1 UT) => /=. by rewrite lt0n. }
have P0 (k : 'I_n.+1) : P ord0 k = (Uc ord0 ord0 * Uc ord0 k)%Re.
{ rewrite -{1}UU mxE (bigD1 ord0) //= big1 ?addr0; first by rewrite mxE. by move=> a Ha; rewrite mxE Hz // -r0E mul0r. }
rewrite P0 mxE (bigD1 ord0) //= (bigD1 j) //= !mxE /= !rE. set rest := \big[_/_]_(_ | _) _.
have Hr : (0 <= rest)%Re.
{ rewrite /rest. apply: (big_ind (fun v => (0 <= v)%Re)); [exact: Rle_refl|by move=> a b Ha Hb; exact: Rplus_le_le_0_compat|]. move=> a _. rewrite !mxE. exact: Rle_0_sqr. }
have Huj : Uc ord0 j <> 0%Re by move=> E; apply: HP; rewrite P0 E Rmult_0_r.
have := Rsqr_pos_lt _ Huj. rewrite /Rsqr. lra.
Qed.

(** a distribution with mean 0 and covariance 1: plus or minus sqrt(n) in one coordinate *)
Section UnitNoise.
Variable n : nat.
Let c := INR n.+1.
Definition unit_E (X : 'I_n.+1 * bool -> R) : R := (/ (2 * c) * \sum_k (X (k, true) + X (k, false))%Re)%Re.
Definition unit_w (p : 'I_n.+1 * bool) : 'cV[R]_n.+1 := \col_i (if i == p.1 then (if p.2 then sqrt c else - sqrt c) else 0)%Re.
Lemma c_pos : (0 < c)%Re. Proof. rewrite /c. apply: lt_0_INR. lia. Qed.
Lemma unit_expectation : expectation unit_E.
Proof.
have Hc := c_pos. rewrite /unit_E. split; [|split].
- move=> X Y. rewrite -Rmult_plus_distr_l. congr (_ * _)%Re. rewrite -raddE -big_split /=. apply: eq_bigr => k _. rewrite !rE. ring.
- move=> a X. rewrite -Rmult_assoc (Rmult_comm a) Rmult_assoc. congr (_ * _)%Re. rewrite -rmulE big_distrr /=. apply: eq_bigr => k _. rewrite !rE. ring.
- move=> a. rewrite big_const cardT size_enum_ord. have -> : forall m, ssrnat.iter m (+%R (a + a)%Re) 0%Re = (INR m * (a + a))%Re.
  { elim=> [|k IH]; first by rewrite /= Rmult_0_l. rewrite iterS IH S_INR. transitivity ((a + a) + INR k * (a + a))%Re => //; lra. }
  rewrite -/c.
  field. lra.
Qed.
Lemma unit_mean : has_mean unit_E unit_w 0.
Proof.
apply/matrixP => i j. rewrite !mxE /unit_E big1 ?rE ?Rmult_0_r // => k _. rewrite !mxE /=. case: (i == k); rewrite ?rE; lra.
Qed.
Lemma unit_cov : has_cov unit_E unit_w 0 1%:M.
Proof.
have Hc := c_pos. apply/matrixP => i j. rewrite !mxE /unit_E.
have -> : \sum_k (((unit_w (k, true) - 0) *m (unit_w (k, true) - 0)^T) i j + ((unit_w (k, false) - 0) *m (unit_w (k, false) - 0)^T) i j)%Re
  = \sum_k (if i == k then (if j == k then (2 * c)%Re else 0) else 0).
{ apply: eq_bigr => k _. rewrite !subr0 !mxE !big_ord1 !mxE /=. have Hs : (sqrt c * sqrt c = c)%Re by apply: sqrt_sqrt; lra.
  move: (sqrt c) Hs => s Hs. case: (i == k); case: (j == k); rewrite ?rE; lra. }
rewrite -big_mkcond (big_pred1 i); last by move=> k; rewrite eq_sym. rewrite (eq_sym j). case: (i == j) => /=; last by rewrite Rmult_0_r.
rewrite mulr1n r1E. field. lra.
Qed.
End UnitNoise.

(** C48: if the first state is correlated with any other state the initial particles do not have covariance Px0, whatever cho_factor
    leaves below the diagonal. *)
Theorem C48_initial_refuted : forall n (x0 : 'cV[R]_n.+1) (Px0 junk : 'M[R]_n.+1) N j, posdef Px0 -> j != ord0 -> Px0 ord0 j <> 0%Re ->
  exists v : 'cV[R]_n.+1 -> 'cV[R]_n.+1, (forall w, create_initial_estimate x0 Px0 junk w N = Ok (tab N (fun i => v (w i)))) /\ ~ samples v x0 Px0 /\
    forall Om (E : (Om -> R) -> R) w, expectation E -> has_mean E w 0 -> has_cov E w 0 1%:M -> ~ has_cov E (fun o => v (w o)) x0 Px0.
Proof.
move=> n x0 Px0 junk N j HP Hj H0. case: (chol_total HP) => Uc HU.
set F := \matrix_(a, b) (if (a <= b)%nat then Uc a b else junk a b) : 'M[R]_(n.+1).
have HF : (Px0 ord0 ord0 < (F *m F^T) ord0 ord0)%Re := row0_gram junk HU (proj1 HP) Hj H0.
have Hcov Om (E : (Om -> R) -> R) w : expectation E -> has_mean E w 0 -> has_cov E w 0 1%:M -> ~ has_cov E (fun o => x0 + F *m w o) x0 Px0.
{ move=> HE Hm Hc HC. have := proj2 (affine_moments F x0 HE Hm Hc). rewrite /has_cov HC => E1. move: HF. rewrite -E1. exact: Rlt_irrefl. }
exists (fun w => x0 + F *m w). split; [|split => //].
- move=> w. rewrite /create_initial_estimate /cho_factor_raw HU.
  have -> : (Px0 == 0) = false by apply/eqP => E; apply: H0; rewrite E mxE.
  rewrite [rbind (rbind _ _) _]/=. exact: forr_ok.
- case=> [F' [_ [_ [_ H]]]]. have [_] := H _ _ _ (unit_expectation n) (unit_mean n) (unit_cov n). exact: Hcov (unit_expectation n) (unit_mean n) (unit_cov n).
Qed.

(** C48: the density evaluated for an initial state is that of N(x0, Px0) for positive definite Px0, and for a zero covariance the
    log density is 0 at x0 and -inf elsewhere. *)
Theorem C48_initial_density : forall n (x0 : 'cV[R]_n) (Px0 : 'M[R]_n) N (x : nat -> 'cV[R]_n), posdef Px0 -> (0 < n)%nat ->
  exists lp, eval_logp_x0 x0 Px0 (tab N x) = Ok (tab N (fun i => Some (lp i))) /\ forall i, exp (lp i) = normal_pdf x0 Px0 (x i).
Proof.
move=> n x0 Px0 N x HP Hn. case: (chol_total HP) => Uc HU. exists (fun i => normal_logpdf x0 Px0 (x i)). split; last by move=> i; rewrite normal_pdf_log //; exact: posdef_det.
rewrite /eval_logp_x0 (_ : (Px0 == 0) = false) ?HU /=.
- congr Ok. rewrite map_tab. apply: tab_ext => i _. by rewrite (lognormpdf_cho_ok (mu := x0) (x := x i) HP HU (erefl _)).
- apply/eqP => E. have := posdef_det HP. rewrite E {E}. have -> : \det (0 : 'M[R]_n) = 0%Re by case: (n) Hn => [//|k] _; rewrite det0. exact: Rlt_irrefl.
Qed.
Theorem C48_initial_density_zero : forall n (x0 : 'cV[R]_n) N (x : nat -> 'cV[R]_n),
  exists lp, eval_logp_x0 x0 0 (tab N x) = Ok (tab N lp) /\ forall i, (x i = x0 -> lp i = Some 0%Re) /\ (x i <> x0 -> lp i = None).
Proof.
move=> n x0 N x. exists (fun i => if x i == x0 then Some 0%Re else None). split; first by rewrite /eval_logp_x0 eqxx map_tab.
move=> i. by split; case: eqP.
Qed.

(** Updating particle i with noise v_i gives f(x_i) + v_i, *)
Theorem C67_update : forall n m U Tm (L : nlg n m U Tm) f g Q Rn N (x v : nat -> 'cV[R]_n) u t (fv : nat -> 'cV[R]_n),
  made L f g Q Rn -> (0 < N)%coq_nat -> let ps := tab N x in
  per_particle (calc_f L ps u t) N -> (forall i, (i < N)%coq_nat -> given (calc_f L ps u t) f i (fv i)) ->
  nl_update L ps u t (tab N v) = Ok (tab N (fun i => fv i + v i)).
Proof.
move=> n m U Tm L f g Q Rn N x v u t fv HM HN ps Hcf Hf. case: (f_ok HM HN Hcf Hf) => fl [Ef [_ Eb]].
by rewrite /nl_update Ef [rbind _ _]/= Eb [rbind _ _]/= lps assign_tab.
Qed.
(** and the first stage weights of the auxiliary filter are the log-likelihoods of the next measurement at the states f(x_i). *)
Theorem C67_first_stage : forall n m U Tm (L : nlg n m U Tm) f g Q Rn N (x : nat -> 'cV[R]_n) u y t t1 (fv : nat -> 'cV[R]_n),
  made L f g Q Rn -> (0 < N)%coq_nat -> let ps := tab N x in
  per_particle (calc_f L ps u t) N -> (forall i, (i < N)%coq_nat -> given (calc_f L ps u t) f i (fv i)) ->
  nl_1st_stage L ps u y t t1 = nl_measure L (tab N fv) y t1.
Proof.
move=> n m U Tm L f g Q Rn N x u y t t1 fv HM HN ps Hcf Hf. rewrite /nl_1st_stage map_tab (C67_update (fun _ => 0) HM HN Hcf Hf) [rbind _ _]/=.
congr nl_measure. apply: tab_ext => i _. by rewrite addr0.
Qed.
(** C67: the proposals for a trajectory with parents are samples of N(f(x), Q) for the parent's x, and the density evaluated for any
    proposal is that of the same distribution (unless the state is one-dimensional with constant Q, see C40); *)
Theorem C67_proposal : forall n m U Tm (L : nlg n m U Tm) f g Q Rn x0 Px0 junk part anc N (x : nat -> 'cV[R]_n) u t (fv : nat -> 'cV[R]_n) (Qv : nat -> 'M[R]_n),
  made L f g Q Rn -> (0 < N)%coq_nat -> let ps := tab N x in
  List.length anc = N -> (forall i, (i < N)%coq_nat -> exists a, nth_error anc i = Some a /\ nth_error part a = Some (x i)) ->
  per_particle (calc_f L ps u t) N -> per_particle (calc_Q L ps u t) N ->
  (forall i, (i < N)%coq_nat -> given (calc_f L ps u t) f i (fv i) /\ given (calc_Q L ps u t) Q i (Qv i) /\ posdef (Qv i)) ->
  exists v : nat -> 'cV[R]_n -> 'cV[R]_n,
    (forall w, propose_smooth L x0 Px0 junk w (Some (part, anc)) N u t = Ok (tab N (fun i => v i (w i)))) /\
    (forall i, (i < N)%coq_nat -> samples (v i) (fv i) (Qv i)) /\
    (n <> 1%nat \/ calc_Q L ps u t <> None -> forall xs, exists lp, logp_proposal L x0 Px0 (tab N xs) (Some (part, anc)) u t = Ok (tab N (fun i => Some (lp i))) /\
      forall i, (i < N)%coq_nat -> exp (lp i) = normal_pdf (fv i) (Qv i) (xs i)).
Proof.
move=> n m U Tm L f g Q Rn x0 Px0 junk part anc N x u t fv Qv HM HN ps HL Ha Hcf Hcq H.
have Et : Base.take part anc = Ok ps.
{ have Hall : Forall (fun i => (i < List.length part)%coq_nat) anc.
  { apply/List.Forall_forall => a Hin. case: (In_nth_error _ _ Hin) => i Ei. have Hi : (i < N)%coq_nat by rewrite -HL; apply/nth_error_Some; rewrite Ei.
    case: (Ha i Hi) => a' [Ea' Ep]. move: Ei. rewrite Ea' => [[<-]]. by apply/nth_error_Some; rewrite Ep. }
  case: (Base.take_ok _ _ Hall) => r Er. rewrite Er. congr Ok. apply: list_tab; first by rewrite (Base.take_length _ _ _ Er).
  move=> i Hi. case: (Ha i Hi) => a [Ea Ep]. by rewrite (Base.take_nth _ _ _ Er _ _ Ea). }
have HQ i (Hi : (i < N)%coq_nat) := proj2 (H i Hi). have Hf i (Hi : (i < N)%coq_nat) := proj1 (H i Hi).
case: (C48_process_noise HM HN Hcq HQ) => v [Ev Hv].
exists (fun i w => fv i + v i w). split; [|split].
- move=> w. rewrite /propose_smooth Et [rbind (Ok ps) _]/= Ev [rbind _ _]/=. exact: C67_update HM HN Hcf Hf.
- move=> i Hi. case: (Hv i Hi) => F [HF [Ew [Hd Hm]]]. exists F. split => //. split; first by move=> w; rewrite Ew add0r. split.
  + move=> w. rewrite -(Hd w). congr (_ * _)%Re. by rewrite /normal_pdf addrAC subrr add0r subr0.
  + move=> Om E w HE H0 H1. case: (Hm _ E w HE H0 H1) => M1 M2. split.
    * by rewrite /has_mean (Emx_add HE) (Emx_const HE) [X in _ + X]M1 addr0.
    * rewrite /has_cov -[RHS]M2 /cross_cov. apply: Emx_ext => o. by rewrite addrAC subrr add0r subr0.
- move=> Hn xs. case: (C40_xnext_exact xs HM HN Hcf Hcq H Hn) => lp [E HE]. exists lp. split => //.
  by rewrite /logp_proposal Et [rbind (Ok ps) _]/= E [rbind _ _]/= map_tab.
Qed.
(** without parents the proposals are initial states and their density is that of the initial state. *)
Theorem C67_proposal_initial : forall n m U Tm (L : nlg n m U Tm) (x0 : 'cV[R]_n) Px0 junk w N u t xs,
  propose_smooth L x0 Px0 junk w None N u t = create_initial_estimate x0 Px0 junk w N /\
  logp_proposal L x0 Px0 xs None u t = eval_logp_x0 x0 Px0 xs.
Proof. by []. Qed.

(** ** Examples *)
(** a model with two states that doubles the state, and one with a scalar state and scalar measurement of variance 4 *)
Lemma ex_nlg n m (Q : 'M[R]_n) (Rn : 'M[R]_m) : posdef Q -> posdef Rn ->
  exists L : nlg n m unit unit, made L None (Some 0) (Some Q) (Some Rn) /\ calc_f L = (fun ps _ _ => Some (List.map (fun x => x + x) ps)) /\
    calc_Q L = (fun _ _ _ => None) /\ calc_g L = (fun _ _ => None) /\ calc_R L = (fun _ _ => None).
Proof.
move=> HQ HR. case: (chol_total HQ) => UQ EQ. case: (chol_total HR) => UR ER.
pose L := res_or (mkNlg None None None None (fun _ _ _ => None) (fun _ _ _ => None) (fun _ _ => None) (fun _ _ => None))
  (nlg_init None (Some (0 : 'cV[R]_m)) (Some Q) (Some Rn) (fun ps (_ _ : unit) => Some (List.map (fun x => x + x) ps)) (fun _ _ _ => None) (fun _ _ => None) (fun _ _ => None)).
have E : nlg_init None (Some (0 : 'cV[R]_m)) (Some Q) (Some Rn) (fun ps (_ _ : unit) => Some (List.map (fun x => x + x) ps)) (fun _ _ _ => None) (fun _ _ => None) (fun _ _ => None) = Ok L.
{ by rewrite /L /nlg_init /factor_Q EQ ER. }
exists L. split; first exact: made_init E. by rewrite /L /nlg_init /factor_Q EQ ER.
Qed.
Definition ex_x (i : nat) : 'cV[R]_2 := const_mx (INR i).
Example C40_case : exists (L : nlg 2 2 unit unit) lp lp', made L None (Some 0) (Some ex_P) (Some ex_P) /\
  nl_measure L (tab 3 ex_x) ex_u tt = Ok (tab 3 lp) /\ exp (lp 1%nat) = normal_pdf 0 ex_P ex_u /\
  nl_xnext L (tab 3 ex_x) (tab 3 (fun _ => ex_u)) tt tt = Ok (tab 3 lp') /\ exp (lp' 1%nat) = normal_pdf (const_mx 2%Re) ex_P ex_u.
Proof.
case: (ex_nlg ex_P_posdef ex_P_posdef) => L [HM [Ef [EQ [Eg ER]]]].
case: (@C40_measure_exact _ _ _ _ L None (Some 0) (Some ex_P) (Some ex_P) 3 ex_x ex_u tt (fun _ => 0) (fun _ => ex_P)) => //.
- lia.
- by rewrite Eg.
- by rewrite ER.
- move=> i Hi. rewrite Eg ER. do 2 split => //. exact: ex_P_posdef.
- by left.
- move=> lp [E H]. case: (@C40_xnext_exact _ _ _ _ L None (Some 0) (Some ex_P) (Some ex_P) 3 ex_x (fun _ => ex_u) tt tt (fun i => ex_x i + ex_x i) (fun _ => ex_P)) => //.
  + lia.
  + by rewrite Ef => l [<-].
  + by rewrite EQ.
  + move=> i Hi. rewrite Ef EQ. split; [|split => //; exact: ex_P_posdef]. rewrite /given map_tab. exact: (tab_nth (fun i => ex_x i + ex_x i) Hi).
  + by left.
  + move=> lp' [E' H']. exists L, lp, lp'. do 2 split => //. split; first by rewrite H //; lia. split => //. rewrite H'; last by lia.
    congr normal_pdf. apply/matrixP => i j. rewrite !mxE /= raddE. lra.
Qed.
Example C40_case_wrong : exists (L : nlg 1 1 unit unit) y lp, made L None (Some 0) (Some 1%:M) (Some (4%Re)%:M) /\ nl_measure L (tab 3 (fun i => const_mx (INR i))) y tt = Ok lp /\
  exists v, nth_error lp 1 = Some v /\ exp v <> normal_pdf 0 (4%Re)%:M y.
Proof.
have H1 : posdef (1%:M : 'M[R]_1) by apply: posdef_scal; rewrite r1E; lra. have H4 : posdef ((4%Re)%:M : 'M[R]_1) by apply: posdef_scal; lra.
case: (ex_nlg H1 H4) => L [HM [Ef [EQ [Eg ER]]]].
case: (@C40_measure_scalar_refuted _ _ _ L None (Some 0) (Some 1%:M) (4%Re)%:M 3 (fun i => const_mx (INR i)) tt (fun _ => 0) HM _ _ _ _ H4 _ 1%nat); try lia.
- by rewrite Eg.
- by move=> i Hi; rewrite Eg.
- by rewrite ER.
- move/matrixP/(_ ord0 ord0). rewrite !mxE eqxx !mulr1n r1E. lra.
- move=> y [lps [lp [E [E1 H]]]]. exists L, y, lps. do 2 split => //. by exists lp.
Qed.
Example C41_case_wrong : exists (L : nlg 1 1 unit unit) bound xn lp, nl_xnext_max L (tab 3 (fun i => const_mx (INR i))) tt tt = Ok bound /\
  nl_xnext L (tab 3 (fun i => const_mx (INR i))) (tab 3 xn) tt tt = Ok (tab 3 lp) /\ exists i, (i < 3)%coq_nat /\ (bound < lp i)%Re.
Proof.
have H1 : posdef (1%:M : 'M[R]_1) by apply: posdef_scal; rewrite r1E; lra. have H4 : posdef ((4%Re)%:M : 'M[R]_1) by apply: posdef_scal; lra.
case: (ex_nlg H4 H1) => L [HM [Ef [EQ [Eg ER]]]]. pose x i : 'cV[R]_1 := const_mx (INR i).
have H3 : (0 < 3)%coq_nat by lia. have Hcf : per_particle (calc_f L (tab 3 x) tt tt) 3 by rewrite Ef => l [<-].
have Hf i (Hi : (i < 3)%coq_nat) : given (calc_f L (tab 3 x) tt tt) None i (x i + x i) by rewrite Ef /given map_tab; exact: (tab_nth (fun i => x i + x i) Hi).
have Eq : calc_Q L (tab 3 x) tt tt = None by rewrite EQ.
case: (@C41_nlg_scalar _ _ _ L None (Some 0) (4%Re)%:M (Some 1%:M) 3 x tt tt (fun i => x i + x i) HM H3 Hcf Hf Eq H4) => bound [Eb Hb].
have [xn [lp [E Hlp]]] : exists xn lp, nl_xnext L (tab 3 x) (tab 3 xn) tt tt = Ok (tab 3 lp) /\ ~ (forall i, (i < 3)%coq_nat -> (lp i <= bound)%Re).
{ have Hn : ~ (scal11 ((4%Re)%:M : 'M[R]_1) <= 1)%Re by rewrite /scal11 mxE eqxx mulr1n; lra.
  case: (Classical_Prop.classic (exists xn lp, nl_xnext L (tab 3 x) (tab 3 xn) tt tt = Ok (tab 3 lp) /\ ~ (forall i, (i < 3)%coq_nat -> (lp i <= bound)%Re))) => // Hno.
  exfalso. apply: Hn. apply/Hb => xn. case: (C40_xnext_scalar xn HM H3 Hcf Hf Eq H4) => lp [E _]. exists lp. split => //.
  case: (Classical_Prop.classic (forall i, (i < 3)%coq_nat -> (lp i <= bound)%Re)) => // Hx. exfalso. apply: Hno. by exists xn, lp. }
exists L, bound, xn, lp. do 2 split => //.
case: (Classical_Prop.classic (exists i, (i < 3)%coq_nat /\ (bound < lp i)%Re)) => // Hno. exfalso. apply: Hlp => i Hi. apply: Rnot_lt_le => Hx. apply: Hno. by exists i.
Qed.
Example C48_case : exists v : 'cV[R]_2 -> 'cV[R]_2, (forall w, create_initial_estimate 0 ex_P 0 w 3 = Ok (tab 3 (fun i => v (w i)))) /\ ~ samples v 0 ex_P.
Proof.
case: (@C48_initial_refuted _ (0 : 'cV[R]_2) ex_P 0 3 ord_max ex_P_posdef) => //; first by rewrite ex_P_offdiag; lra.
move=> v [H1 [H2 _]]. by exists v.
Qed.
Example C67_case : exists (L : nlg 2 2 unit unit) v, (forall w, propose_smooth L 0 1%:M 0 w (Some (tab 3 ex_x, cons 2%nat (cons 0%nat (cons 2%nat nil)))) 3 tt tt = Ok (tab 3 (fun i => v i (w i)))) /\
  samples (v 0%nat) (ex_x 4) ex_P.
Proof.
case: (ex_nlg ex_P_posdef ex_P_posdef) => L [HM [Ef [EQ [Eg ER]]]]. exists L.
pose x i := ex_x (nth i (cons 2%nat (cons 0%nat (cons 2%nat nil))) 0%nat).
case: (@C67_proposal _ _ _ _ L None (Some 0) (Some ex_P) (Some ex_P) 0 1%:M 0 (tab 3 ex_x) (cons 2%nat (cons 0%nat (cons 2%nat nil))) 3 x tt tt (fun i => x i + x i) (fun _ => ex_P) HM) => //.
- lia.
- move=> [|[|[|i]]] Hi; last (by lia); by eexists.
- by rewrite Ef => l [<-].
- by rewrite EQ.
- move=> i Hi. rewrite Ef EQ. split; [|split => //; exact: ex_P_posdef]. rewrite /given map_tab. exact: (tab_nth (fun i => x i + x i) Hi).
- move=> v [H1 [H2 _]]. exists v. split => //. have {}H2 := H2 0%nat (ltac:(lia)). suff <- : x 0%nat + x 0%nat = ex_x 4 by [].
  apply/matrixP => i j. rewrite !mxE raddE /=. lra.
Qed.
Print Assumptions C40_measure_exact.
Print Assumptions C40_measure_scalar_refuted.
Print Assumptions C40_xnext_exact.
Print Assumptions C40_xnext_scalar_refuted.
Print Assumptions C41_nlg_bound.
Print Assumptions C41_nlg_scalar.
Print Assumptions C48_process_noise.
Print Assumptions C48_initial_refuted.
Print Assumptions C48_initial_density.
Print Assumptions C67_proposal.
