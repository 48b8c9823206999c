(** Properties of hierarchical models: C41, C44, C68. *)
From mathcomp Require Import all_ssreflect all_algebra.
From Coq Require Import Reals Lra List Lia.
From Verif Require Import Base RMat KalmanModel LinAlg Gauss Moments Storage MlnlgModel MlnlgProofs Prop_Kalman Prop_Mlnlg Prop_Rbps HierModel.
Set Implicit Arguments.
Unset Strict Implicit.
Unset Printing Implicit Defensive.
Import GRing.Theory.
Local Open Scope ring_scope.

Arguments measure_full : simpl never.
Arguments predict_full : simpl never.
Arguments lognormpdf : simpl never.
(** ** Specification *)
(** The dynamics z' = A z + f + v, cov(v) = Q, of particle i, and the measurement y' = C z + h + e, cov(e) = Rn: what the model's
    callbacks give for it, or else what is stored in the model. *)
Definition hr_dynamics_at lxi lz m U Y Tm V (L : hier lxi lz m U Y Tm V) (ps : list row) (u : U) (t : Tm) (i : nat)
  (A : 'M[R]_lz) (f : 'cV[R]_lz) (Q : 'M[R]_lz) : Prop :=
  let '(oA, of_, oQ) := hr_lin L ps u t in
  given oA (kf_A (hr_kf L)) i A /\ given of_ (Some (kf_f (hr_kf L))) i f /\ given oQ (kf_Q (hr_kf L)) i Q.
Definition hr_measurement_at lxi lz m U Y Tm V (L : hier lxi lz m U Y Tm V) (ps : list row) (y : Y) (t : Tm) (i : nat)
  (y' : 'cV[R]_m) (C : 'M[R]_(m, lz)) (h : 'cV[R]_m) (Rn : 'M[R]_m) : Prop :=
  let '(y1, oC, oh, oR) := hr_meas L ps y t in
  y1 = y' /\ given oC (kf_C (hr_kf L)) i C /\ given oh (kf_h (hr_kf L)) i h /\ given oR (kf_R (hr_kf L)) i Rn.
(** (z1, P1) is the distribution of A x + f + v for x in N(z, P) and v in N(0, Q): the joint density of x and the next state x' is the
    density N(x'; z1, P1) times a Gaussian density in x *)
Definition predict_step lz (A : 'M[R]_lz) (f : 'cV[R]_lz) (Q : 'M[R]_lz) (z : 'cV[R]_lz) (P : 'M[R]_lz) (z1 : 'cV[R]_lz) (P1 : 'M[R]_lz) : Prop :=
  posdef P1 /\ forall x', exists zc Pc, posdef Pc /\ forall x, (normal_pdf z P x * normal_pdf (A *m x + f)%mx Q x' = normal_pdf z1 P1 x' * normal_pdf zc Pc x)%Re.

Lemma predict_step_ok lz (A : 'M[R]_lz) f Q z P : posdef P -> posdef Q -> predict_step A f Q z P (predict_full z P A f Q).1 (predict_full z P A f Q).2.
Proof.
move=> HP HQ. split; first by apply: posdef_add => //; exact: psd_cong (posdef_psd HP).
move=> x'. case: (m_bayes x' z A f HP HQ) => H1 [H2 H3]. do 2 eexists. split; first exact: H1. move=> x. rewrite H3 H2. have -> : (predict_full z P A f Q).1 = A *m z + f by rewrite /predict_full addrC. by [].
Qed.
Section Lin.
Context {lxi lz m : nat} {U Y Tm V : Type}.
Variables (L : hier lxi lz m U Y Tm V) (N : nat) (ps : list row) (u : U) (t : Tm) (A : nat -> 'M[R]_lz) (f : nat -> 'cV[R]_lz) (Q : nat -> 'M[R]_lz).
Hypotheses (HL : List.length ps = N) (H : forall i, (i < N)%coq_nat -> hr_dynamics_at L ps u t i (A i) (f i) (Q i)).
Lemma hr_lin_at i : (i < N)%coq_nat -> let '(a, f', q) := hr_lin_int L ps u t in at_ a i = Ok (A i) /\ at_ f' i = Ok (f i) /\ at_ q i = Ok (Q i).
Proof.
move=> Hi. have := H Hi. rewrite /hr_dynamics_at /hr_lin_int HL. case: (hr_lin L ps u t) => [[oA of_] oQ] [H1 [H2 H3]].
split; [exact: at_fill|split; exact: at_fill].
Qed.
End Lin.

(** C68: measuring gives each particle the posterior of its linear state, and the log likelihood of the nonlinear part plus the log
    marginal density of the linear part; *)
Theorem C68_measure_exact : forall lxi lz m U Y Tm V (L : hier lxi lz m U Y Tm V) N y t (xi : nat -> 'cV[R]_lxi) (z : nat -> 'cV[R]_lz) (P : nat -> 'M[R]_lz) (rest : nat -> row)
  (y' : 'cV[R]_m) (C : nat -> 'M[R]_(m, lz)) (h : nat -> 'cV[R]_m) (Rn : nat -> 'M[R]_m) (lyxi : nat -> R),
  let ps := tab N (fun i => rbrow (xi i) (z i) (P i) (rest i)) in
  hr_measure_nonlin L ps y t = tab N lyxi ->
  (forall i, (i < N)%coq_nat -> hr_measurement_at L ps y t i y' (C i) (h i) (Rn i) /\ posdef (P i) /\ posdef (Rn i)) ->
  exists (z1 : nat -> 'cV[R]_lz) (P1 : nat -> 'M[R]_lz) (lp : nat -> R),
    hr_measure L ps y t = Ok (tab N (fun i => rbrow (xi i) (z1 i) (P1 i) (rest i)), tab N (fun i => lyxi i + lp i)%Re) /\
    forall i, (i < N)%coq_nat -> bayes_step y' (C i) (h i) (Rn i) (z i) (P i) (z1 i) (P1 i) (lp i).
Proof.
move=> lxi lz m U Y Tm V L N y t xi z P rest y' C h Rn lyxi ps Hly H.
exists (fun i => mz y' (z i) (P i) (C i) (h i) (Rn i)), (fun i => mP (P i) (C i) (Rn i)), (fun i => mlp y' (z i) (P i) (C i) (h i) (Rn i)).
split; last by move=> i Hi; case: (H i Hi) => _ [HP HR]; exact: m_bayes.
rewrite /hr_measure Hly get_states_tab [rbind _ _]/=. have Lp : length ps = N by exact: tab_length. rewrite Lp tab_length.
rewrite /hr_measurement_at in H. case: (hr_meas L ps y t) H => [[[y1 oC] oh] oR] H.
rewrite (@forr_ok _ N _ (fun i => (mlp y' (z i) (P i) (C i) (h i) (Rn i), (xi i, mz y' (z i) (P i) (C i) (h i) (Rn i), mP (P i) (C i) (Rn i))))); last first.
{ move=> i Hi. case: (H i Hi) => [[Ey [HC [Hh HR']]] [HP HR]]. subst y1. rewrite idx_tab // [rbind _ _]/= (at_fill Hi HC) [rbind _ _]/= (at_fill Hi Hh) [rbind _ _]/= (at_fill Hi HR') [rbind _ _]/=.
  rewrite (@measure_full_oc _ _ y' (z i) (P i) (C i) (h i) (Rn i) (Some (C i)) (Some (h i)) (posdef_psd HP) HR) //. by left. }
rewrite [rbind _ _]/= !map_tab set_states_tab [rbind _ _]/=. by rewrite (@map2r_tab _ _ _ N _ _ _ (fun i => (lyxi i + mlp y' (z i) (P i) (C i) (h i) (Rn i))%Re)).
Qed.
(** updating replaces the nonlinear states by the model's next ones and predicts the distribution of the linear states; *)
Theorem C68_update_exact : forall lxi lz m U Y Tm V (L : hier lxi lz m U Y Tm V) N u t noise (xi : nat -> 'cV[R]_lxi) (z : nat -> 'cV[R]_lz) (P : nat -> 'M[R]_lz) (rest : nat -> row)
  (A : nat -> 'M[R]_lz) (f : nat -> 'cV[R]_lz) (Q : nat -> 'M[R]_lz) (xn : nat -> 'cV[R]_lxi),
  let ps := tab N (fun i => rbrow (xi i) (z i) (P i) (rest i)) in
  hr_calc_xi_next L ps u t noise = tab N xn ->
  (forall i, (i < N)%coq_nat -> hr_dynamics_at L ps u t i (A i) (f i) (Q i) /\ posdef (P i) /\ posdef (Q i)) ->
  exists (z1 : nat -> 'cV[R]_lz) (P1 : nat -> 'M[R]_lz),
    hr_update L ps u t noise = Ok (tab N (fun i => rbrow (xn i) (z1 i) (P1 i) (rest i))) /\
    forall i, (i < N)%coq_nat -> predict_step (A i) (f i) (Q i) (z i) (P i) (z1 i) (P1 i).
Proof.
move=> lxi lz m U Y Tm V L N u t noise xi z P rest A f Q xn ps Hx H.
exists (fun i => (predict_full (z i) (P i) (A i) (f i) (Q i)).1), (fun i => (predict_full (z i) (P i) (A i) (f i) (Q i)).2).
split; last by move=> i Hi; case: (H i Hi) => _ [HP HQ]; exact: predict_step_ok.
rewrite /hr_update /hr_cond_predict Hx get_states_tab. have Lp : List.length ps = N by exact: tab_length.
have := @hr_lin_at _ _ _ _ _ _ _ L N ps u t A f Q Lp (fun i Hi => proj1 (H i Hi)). case: (hr_lin_int L ps u t) => [[a f'] q] Ha.
rewrite [rbind (Ok _) _]/= tab_length.
rewrite (@forr_ok _ N _ (fun i => (xn i, (predict_full (z i) (P i) (A i) (f i) (Q i)).1, (predict_full (z i) (P i) (A i) (f i) (Q i)).2))).
- rewrite [rbind _ _]/=. exact: set_states_tab.
- move=> i Hi. case: (Ha i Hi) => E1 [E2 E3]. by rewrite idx_tab // [rbind _ _]/= E1 [rbind _ _]/= E2 [rbind _ _]/= E3 [rbind _ _]/= idx_tab.
Qed.
(** and the transition density evaluated is that of the nonlinear part plus the log density of the next linear state given the
    particle; a single next state is compared with every particle. *)
Theorem C68_logp_xnext_exact : forall lxi lz m U Y Tm V (L : hier lxi lz m U Y Tm V) N u t (xi : nat -> 'cV[R]_lxi) (z : nat -> 'cV[R]_lz) (P : nat -> 'M[R]_lz) (rest : nat -> row)
  (A : nat -> 'M[R]_lz) (f : nat -> 'cV[R]_lz) (Q : nat -> 'M[R]_lz) (xn : nat -> 'cV[R]_lxi) (zn : nat -> 'cV[R]_lz) (Pn : nat -> 'M[R]_lz) restn (lpxi : nat -> R) next,
  let ps := tab N (fun i => rbrow (xi i) (z i) (P i) (rest i)) in
  next = tab N (fun i => rbrow (xn i) (zn i) (Pn i) (restn i)) \/ (next = cons (rbrow (xn 0%nat) (zn 0%nat) (Pn 0%nat) (restn 0%nat)) nil /\ forall i, xn i = xn 0%nat /\ zn i = zn 0%nat) ->
  hr_logp_xi L ps (tab N xn) u t = tab N lpxi -> (0 < N)%coq_nat ->
  (forall i, (i < N)%coq_nat -> hr_dynamics_at L ps u t i (A i) (f i) (Q i) /\ posdef (P i) /\ posdef (Q i)) ->
  exists lp, hr_logp_xnext L ps next u t = Ok (tab N (fun i => lpxi i + lp i)%Re) /\
    forall i, (i < N)%coq_nat -> exp (lp i) = normal_pdf (A i *m z i + f i) (A i *m P i *m (A i)^T + Q i) (zn i).
Proof.
move=> lxi lz m U Y Tm V L N u t xi z P rest A f Q xn zn Pn restn lpxi next ps Hnext Hx HN H.
have HP i (Hi : (i < N)%coq_nat) : posdef (A i *m P i *m (A i)^T + Q i).
{ case: (H i Hi) => _ [HPi HQi]. apply: posdef_add => //. exact: psd_cong (posdef_psd HPi). }
exists (fun i => normal_logpdf (A i *m z i + f i) (A i *m P i *m (A i)^T + Q i) (zn i)). split; last by move=> i Hi; rewrite normal_pdf_log //; apply: posdef_det; exact: HP.
rewrite /hr_logp_xnext get_states_tab. have Lp : List.length ps = N by exact: tab_length.
have := @hr_lin_at _ _ _ _ _ _ _ L N ps u t A f Q Lp (fun i Hi => proj1 (H i Hi)). case: (hr_lin_int L ps u t) => [[a f'] q] Ha.
rewrite Lp.
have [Pn' [restn' En]] : exists Pn' restn', match next with cons p nil => if (1 < N)%nat then List.repeat p N else next | _ => next end = tab N (fun i => rbrow (xn i) (zn i) (Pn' i) (restn' i)).
{ case: Hnext => [->|[-> He]].
  - exists Pn, restn. case: (N) => [|[|k]] //.
  - exists (fun _ => Pn 0%nat), (fun _ => restn 0%nat). have E1 : tab N (fun i => rbrow (xn i) (zn i) (Pn 0%nat) (restn 0%nat)) = List.repeat (rbrow (xn 0%nat) (zn 0%nat) (Pn 0%nat) (restn 0%nat)) N.
    { rewrite repeat_tab. apply: tab_ext => i Hi. by case: (He i) => -> ->. }
    rewrite E1. case: ifP => // Hk. have -> : N = 1%nat by move/ltP: Hk; lia. by []. }
rewrite En [rbind (Ok _) _]/=. rewrite (@mapr_tab _ _ N _ _ xn); last by move=> i Hi; exact: xi_rbrow.
rewrite [rbind (Ok _) _]/= Hx.
rewrite (@forr_ok _ N _ (fun i => normal_logpdf (A i *m z i + f i) (A i *m P i *m (A i)^T + Q i) (zn i))) ?[rbind (Ok _) _]/=.
- exact: (@map2r_tab _ _ _ N _ _ _ (fun i => (lpxi i + normal_logpdf (A i *m z i + f i) (A i *m P i *m (A i)^T + Q i) (zn i))%Re)).
- move=> i Hi. case: (Ha i Hi) => E1 [E2 E3]. rewrite idx_tab // [rbind _ _]/= E1 [rbind _ _]/= E2 [rbind _ _]/= E3 [rbind _ _]/= idx_tab // [rbind _ _]/=.
  have -> : slice (rbrow (xn i) (zn i) (Pn' i) (restn' i)) lxi (lxi + lz) = ravel (zn i) by rewrite /rbrow; apply: slice_mid; rewrite ?sz_cv.
  rewrite reshape_ravel [rbind _ _]/=. case: (C39_same_density (HP i Hi)) => Uc [_ [Hl _]]. case: (Hl (zn i - (f i + A i *m z i))) => l [El Hexp].
  rewrite /predict_full /= El. congr Ok. apply: exp_inv. rewrite Hexp -normal_pdf_log; last exact: posdef_det (HP i Hi). by rewrite /normal_pdf subr0 [f i + _]addrC.
Qed.

(** ** C41 *)
Lemma normal_logpdf_peak n (mu : 'cV[R]_n) (S : 'M[R]_n) : normal_logpdf mu S mu = (- (1 / 2) * (INR n * ln (2 * PI) + ln (\det S)))%Re.
Proof. rewrite /normal_logpdf subrr /quad mulmx0 mxE. congr (_ * _)%Re. exact: Rplus_0_r. Qed.
Section Bound.
Context {lxi lz m : nat} {U Y Tm V : Type}.
Variables (L : hier lxi lz m U Y Tm V) (N : nat) (u : U) (t : Tm) (xi : nat -> 'cV[R]_lxi) (z : nat -> 'cV[R]_lz) (P : nat -> 'M[R]_lz) (rest : nat -> row)
  (A : nat -> 'M[R]_lz) (f : nat -> 'cV[R]_lz) (Q : nat -> 'M[R]_lz) (lmax : nat -> R).
Let ps := tab N (fun i => rbrow (xi i) (z i) (P i) (rest i)).
Hypotheses (Hmax : hr_logp_xi_max L ps u t = tab N lmax) (HN : (0 < N)%coq_nat)
  (H : forall i, (i < N)%coq_nat -> hr_dynamics_at L ps u t i (A i) (f i) (Q i) /\ posdef (P i) /\ posdef (Q i)).
Definition hPn i : 'M[R]_lz := A i *m P i *m (A i)^T + Q i.
Lemma hPn_posdef i : (i < N)%coq_nat -> posdef (hPn i).
Proof. move=> Hi. case: (H Hi) => _ [HPi HQi]. apply: posdef_add => //. exact: psd_cong (posdef_psd HPi). Qed.
Definition hval i : R := (lmax i + (- (1 / 2) * INR lz * ln (2 * PI) + ln (\det (hPn i))))%Re.
Lemma fold_max_inf (l : list R) a : List.fold_left max_inf (List.map Some l) (Some a) = Some (List.fold_left Rmax l a).
Proof. elim: l a => [//|b l IH] a /=. by rewrite IH. Qed.
Lemma fold_max_in (l : list R) a : List.fold_left Rmax l a = a \/ List.In (List.fold_left Rmax l a) l.
Proof. elim: l a => [|b l IH] a /=; first by left. case: (IH (Rmax a b)) => [->|H1]; last by right; right. rewrite /Rmax. case: (Rle_dec a b) => Hab; [by right; left|by left]. Qed.
Lemma hr_max_ok : exists b, hr_logp_xnext_max L ps u t = Ok (Some b) /\ (forall i, (i < N)%coq_nat -> (hval i <= b)%Re) /\ exists i, (i < N)%coq_nat /\ b = hval i.
Proof.
have Lp : List.length ps = N by exact: tab_length. rewrite /hr_logp_xnext_max get_states_tab Hmax.
have := @hr_lin_at _ _ _ _ _ _ _ L N ps u t A f Q Lp (fun i Hi => proj1 (H Hi)). case: (hr_lin_int L ps u t) => [[a f'] q] Ha.
case: (Ha _ HN) => _ [_ Eq0]. rewrite [rbind (Ok _) _]/= Eq0 [rbind (Ok _) _]/= Lp.
rewrite (@forr_ok _ N _ (fun i => Some (- (1 / 2) * INR lz * ln (2 * PI) + ln (\det (hPn i)))%Re)); last first.
{ move=> i Hi. case: (Ha i Hi) => E1 [E2 E3]. rewrite idx_tab // [rbind _ _]/= E1 [rbind _ _]/= E3 [rbind _ _]/=. rewrite -/(hPn i).
  have Hd := posdef_det (hPn_posdef Hi). case: eqP => [E|_]; first by exfalso; rewrite E in Hd; exact: (Rlt_irrefl _ Hd). by rewrite Rabs_right; last lra. }
rewrite [rbind (Ok _) _]/= (@map2r_tab _ _ _ N _ _ _ (fun i => Some (hval i))) // [rbind (Ok _) _]/=.
have [l El] : exists l, tab N hval = cons (hval 0%nat) l by case: (N) HN => [|k] Hk; [by inversion Hk|eexists; reflexivity].
rewrite -(map_tab N hval Some) El /= fold_max_inf. exists (List.fold_left Rmax l (hval 0%nat)). split => //. split.
- move=> i Hi. have : List.In (hval i) (tab N hval) by apply: (List.nth_error_In _ i); exact: (tab_nth hval Hi).
  rewrite El => /= [[<-|Hin]]; [exact: (proj1 (fold_max_ge _ _))|exact: (proj2 (fold_max_ge _ _))].
- have : List.In (List.fold_left Rmax l (hval 0%nat)) (tab N hval) by rewrite El /=; case: (fold_max_in l (hval 0%nat)) => [->|?]; [left|right].
  rewrite /tab. move/List.in_map_iff => [i [Ei Hin]]. exists i. split => //. move/List.in_seq: Hin. lia.
Qed.
End Bound.
(** C41 for hierarchical models: given a bound for the nonlinear part, the result bounds every value of the transition density if all
    predicted covariances of the linear states have determinant at least one; *)
Theorem C41_hier_bound : forall lxi lz m U Y Tm V (L : hier lxi lz m U Y Tm V) N u t (xi : nat -> 'cV[R]_lxi) (z : nat -> 'cV[R]_lz) (P : nat -> 'M[R]_lz) (rest : nat -> row)
  (A : nat -> 'M[R]_lz) (f : nat -> 'cV[R]_lz) (Q : nat -> 'M[R]_lz) (lmax : nat -> R),
  let ps := tab N (fun i => rbrow (xi i) (z i) (P i) (rest i)) in
  hr_logp_xi_max L ps u t = tab N lmax -> (0 < N)%coq_nat ->
  (forall i, (i < N)%coq_nat -> hr_dynamics_at L ps u t i (A i) (f i) (Q i) /\ posdef (P i) /\ posdef (Q i)) ->
  (forall i, (i < N)%coq_nat -> (1 <= \det (A i *m P i *m (A i)^T + Q i)%mx)%Re) ->
  exists bound, hr_logp_xnext_max L ps u t = Ok (Some bound) /\
    forall (xn : nat -> 'cV[R]_lxi) (zn : nat -> 'cV[R]_lz) (Pn : nat -> 'M[R]_lz) restn lpxi, hr_logp_xi L ps (tab N xn) u t = tab N lpxi -> (forall i, (i < N)%coq_nat -> (lpxi i <= lmax i)%Re) ->
    exists lp, hr_logp_xnext L ps (tab N (fun i => rbrow (xn i) (zn i) (Pn i) (restn i))) u t = Ok (tab N lp) /\ forall i, (i < N)%coq_nat -> (lp i <= bound)%Re.
Proof.
move=> lxi lz m U Y Tm V L N u t xi z P rest A f Q lmax ps Hmax HN H Hdet.
case: (hr_max_ok Hmax HN H) => bound [Eb [Hb _]]. exists bound. split => // xn zn Pn restn lpxi Hx Hle.
case: (@C68_logp_xnext_exact _ _ _ _ _ _ _ L N u t xi z P rest A f Q xn zn Pn restn lpxi _ (or_introl (erefl _)) Hx HN H) => lp [E Hlp].
eexists. split; first exact: E. move=> i Hi. apply: Rle_trans (Hb i Hi). have HPn := hPn_posdef H Hi. rewrite /hval.
have -> : lp i = normal_logpdf (A i *m z i + f i) (A i *m P i *m (A i)^T + Q i) (zn i) by apply: exp_inv; rewrite Hlp // normal_pdf_log //; exact: posdef_det HPn.
have := normal_logpdf_le (A i *m z i + f i) (zn i) HPn. have := Hdet i Hi. rewrite -/(hPn P A Q i) => Hd.
have : (0 <= ln (\det (hPn P A Q i)))%Re by rewrite -ln_1; case: Hd => [Hd|<-]; [left; apply: ln_increasing; lra|right].
have := Hle i Hi. lra.
Qed.
(** but if they all have determinant less than one and the bound for the nonlinear part is attained, some value exceeds the result. *)
Theorem C41_hier_refuted : forall lxi lz m U Y Tm V (L : hier lxi lz m U Y Tm V) N u t (xi : nat -> 'cV[R]_lxi) (z : nat -> 'cV[R]_lz) (P : nat -> 'M[R]_lz) (rest : nat -> row)
  (A : nat -> 'M[R]_lz) (f : nat -> 'cV[R]_lz) (Q : nat -> 'M[R]_lz) (lmax : nat -> R) (xn : nat -> 'cV[R]_lxi),
  let ps := tab N (fun i => rbrow (xi i) (z i) (P i) (rest i)) in
  hr_logp_xi_max L ps u t = tab N lmax -> (0 < N)%coq_nat ->
  (forall i, (i < N)%coq_nat -> hr_dynamics_at L ps u t i (A i) (f i) (Q i) /\ posdef (P i) /\ posdef (Q i)) ->
  (forall i, (i < N)%coq_nat -> (\det (A i *m P i *m (A i)^T + Q i)%mx < 1)%Re) ->
  hr_logp_xi L ps (tab N xn) u t = tab N lmax ->
  exists bound lp (zn : nat -> 'cV[R]_lz), hr_logp_xnext_max L ps u t = Ok (Some bound) /\
    hr_logp_xnext L ps (tab N (fun i => rbrow (xn i) (zn i) (1%:M) nil)) u t = Ok (tab N lp) /\ exists i, (i < N)%coq_nat /\ (bound < lp i)%Re.
Proof.
move=> lxi lz m U Y Tm V L N u t xi z P rest A f Q lmax xn ps Hmax HN H Hdet Hx.
case: (hr_max_ok Hmax HN H) => bound [Eb [_ [i [Hi Ei]]]].
case: (@C68_logp_xnext_exact _ _ _ _ _ _ _ L N u t xi z P rest A f Q xn (fun i => A i *m z i + f i) (fun _ => 1%:M) (fun _ => nil) lmax _ (or_introl (erefl _)) Hx HN H) => lp [E Hlp].
exists bound, (fun i => lmax i + lp i)%Re, (fun i => A i *m z i + f i). split => //. split => //. exists i. split => //. have HPn := hPn_posdef H Hi. rewrite Ei /hval.
have -> : lp i = (- (1 / 2) * (INR lz * ln (2 * PI) + ln (\det (hPn P A Q i))))%Re.
{ apply: exp_inv. rewrite Hlp // normal_pdf_log ?normal_logpdf_peak //; exact: posdef_det HPn. }
have := Hdet i Hi. rewrite -/(hPn P A Q i) => Hd. have : (ln (\det (hPn P A Q i)) < 0)%Re by rewrite -ln_1; apply: ln_increasing => //; exact: posdef_det HPn.
lra.
Qed.

(** ** C44 *)
Section Smooth.
Context {lxi lz m : nat} {U Y Tm V : Type}.
Variables (L : hier lxi lz m U Y Tm V) (M : nat) (u : U) (t : Tm) (xi : nat -> 'cV[R]_lxi) (z : nat -> 'cV[R]_lz) (P : nat -> 'M[R]_lz) (rest : nat -> row)
  (A : nat -> 'M[R]_lz) (f : nat -> 'cV[R]_lz) (Q : nat -> 'M[R]_lz) (xn : nat -> 'cV[R]_lxi) (zn : nat -> 'cV[R]_lz) (restn : nat -> row).
Let part := tab M (fun j => rbrow (xi j) (z j) (P j) (rest j)).
Let nexts := tab M (fun j => ravel (xn j) ++ ravel (zn j) ++ restn j)%SEQ.
Hypotheses (HP : posdef (P 0%nat))
  (H : forall j, (j < M)%coq_nat -> hr_dynamics_at L (cons (rbrow (xi j) (z j) (P j) (rest j)) nil) u t 0 (A j) (f j) (Q j) /\ posdef (Q j)).
(** the first particle's state after the first k next states were measured on it *)
Fixpoint hacc (k : nat) : 'cV[R]_lz * 'M[R]_lz :=
  match k with
  | O => (z 0%nat, P 0%nat)
  | S k => (mz (zn k) (hacc k).1 (hacc k).2 (A k) (f k) (Q k), mP (hacc k).2 (A k) (Q k))
  end.
Lemma hacc_pos k : (k <= M)%coq_nat -> posdef (hacc k).2.
Proof.
elim: k => [_|k IH Hk]; first exact: HP. have Hk' : (k < M)%coq_nat by lia. have {}IH : posdef (hacc k).2 by apply: IH; lia.
by case: (m_bayes (zn k) (hacc k).1 (A k) (f k) IH (proj2 (H Hk'))).
Qed.
Lemma hr_loop_ok mvn : forall n k, (k + n = M)%coq_nat ->
  hr_smooth_loop L mvn part (Some nexts) u t (xi 0%nat, (hacc k).1, (hacc k).2) (List.seq k n) =
  Ok (List.map (fun j => ravel (xi 0%nat) ++ ravel (mvn j (hacc j.+1).1 (hacc j.+1).2) ++ nseq (2 * (lz * lz)) 0%Re)%SEQ (List.seq k n)).
Proof.
elim=> [//|n IH] k Hk. have Hk' : (k < M)%coq_nat by lia. have HPk : posdef (hacc k).2 by apply: hacc_pos; lia. case: (H Hk') => HD HQ.
have Hd i : (i < 1)%coq_nat -> hr_dynamics_at L (cons (rbrow (xi k) (z k) (P k) (rest k)) nil) u t i (A k) (f k) (Q k) by move=> Hi; have -> : i = 0%nat by lia.
have Ha := (@hr_lin_at _ _ _ _ _ _ _ L 1 (cons (rbrow (xi k) (z k) (P k) (rest k)) nil) u t (fun _ => A k) (fun _ => f k) (fun _ => Q k) (erefl _) Hd 0%nat (Nat.lt_0_succ 0)).
cbn [hr_smooth_loop List.seq]. rewrite /part idx_tab // [rbind (Ok _) _]/=.
case: (hr_lin_int L _ u t) Ha => [[a f'] q] [E1 [E2 E3]]. rewrite E1 [rbind (Ok _) _]/= E2 [rbind (Ok _) _]/= E3 [rbind (Ok _) _]/= /nexts idx_tab // [rbind (Ok _) _]/=.
have -> : slice (ravel (xn k) ++ ravel (zn k) ++ restn k)%SEQ lxi (lxi + lz) = ravel (zn k) by apply: slice_mid; rewrite ?sz_cv.
rewrite reshape_ravel [rbind (Ok _) _]/= (@measure_full_oc _ _ (zn k) (hacc k).1 (hacc k).2 (A k) (f k) (Q k) (Some (A k)) (Some (f k)) (posdef_psd HPk) HQ (or_introl (erefl _)) (erefl _)) [rbind (Ok _) _]/=.
rewrite -/part -/nexts [rbind (Ok _) _]/=.
have -> : (k.+1 + n = M)%coq_nat -> hr_smooth_loop L mvn part (Some nexts) u t (xi 0%nat, mz (zn k) (hacc k).1 (hacc k).2 (A k) (f k) (Q k), mP (hacc k).2 (A k) (Q k)) (List.seq k.+1 n) = 
 Ok (List.map (fun j => ravel (xi 0%nat) ++ ravel (mvn j (hacc j.+1).1 (hacc j.+1).2) ++ nseq (2 * (lz * lz)) 0%Re)%SEQ (List.seq k.+1 n)).
{ exact: (IH k.+1). }
- by [].
- lia.
Qed.
End Smooth.

(** What sample_smooth of a hierarchical model does for M trajectories: trajectory j gets the nonlinear state of particle 0, and a draw
    from particle 0's distribution conditioned on the next states of trajectories 0 to j, each with the dynamics of its own particle. *)
Theorem C44_sample_smooth : forall lxi lz m U Y Tm V (L : hier lxi lz m U Y Tm V) mvn M u t (xi : nat -> 'cV[R]_lxi) (z : nat -> 'cV[R]_lz) (P : nat -> 'M[R]_lz) (rest : nat -> row)
  (A : nat -> 'M[R]_lz) (f : nat -> 'cV[R]_lz) (Q : nat -> 'M[R]_lz) (xn : nat -> 'cV[R]_lxi) (zn : nat -> 'cV[R]_lz) (restn : nat -> row),
  posdef (P 0%nat) -> (forall j, (j < M)%coq_nat -> hr_dynamics_at L (cons (rbrow (xi j) (z j) (P j) (rest j)) nil) u t 0 (A j) (f j) (Q j) /\ posdef (Q j)) ->
  exists (zc : nat -> 'cV[R]_lz) (Pc : nat -> 'M[R]_lz),
    hr_sample_smooth L mvn (tab M (fun j => rbrow (xi j) (z j) (P j) (rest j))) (Some (tab M (fun j => ravel (xn j) ++ ravel (zn j) ++ restn j)%SEQ)) u t =
      Ok (tab M (fun j => ravel (xi 0%nat) ++ ravel (mvn j (zc j.+1) (Pc j.+1)) ++ nseq (2 * (lz * lz)) 0%Re)%SEQ) /\
    zc 0%nat = z 0%nat /\ Pc 0%nat = P 0%nat /\
    forall j, (j < M)%coq_nat -> exists lp, bayes_step (zn j) (A j) (f j) (Q j) (zc j) (Pc j) (zc j.+1) (Pc j.+1) lp.
Proof.
move=> lxi lz m U Y Tm V L mvn M u t xi z P rest A f Q xn zn restn HP H.
exists (fun k => (hacc z P A f Q zn k).1), (fun k => (hacc z P A f Q zn k).2). split; [|do 2 split => //].
- have Hl := @hr_loop_ok _ _ _ _ _ _ _ L M u t xi z P rest A f Q xn zn restn HP H mvn M 0 (erefl _). rewrite /hr_sample_smooth.
  have Lp : length (tab M (fun j => rbrow (xi j) (z j) (P j) (rest j))) = M by exact: tab_length.
  case E : (tab M (fun j => rbrow (xi j) (z j) (P j) (rest j))) => [|p0 ps]; first by rewrite E in Lp; rewrite -Lp.
  rewrite -E Lp. have -> : p0 = rbrow (xi 0%nat) (z 0%nat) (P 0%nat) (rest 0%nat).
  { have : nth_error (tab M (fun j => rbrow (xi j) (z j) (P j) (rest j))) 0 = Some p0 by rewrite E. have HM : (0 < M)%coq_nat by rewrite -Lp E /=; lia. by rewrite tab_nth // => [[]]. }
  rewrite get_rbrow [rbind (Ok _) _]/=. exact: Hl.
- move=> j Hj. eexists. apply: m_bayes; last exact: (proj2 (H j Hj)). apply: (hacc_pos zn HP H). lia.
Qed.
(** C44: for a single trajectory that is the particle's own state and its exact conditional distribution; at the last step, the
    particle's own distribution. *)
Theorem C44_single_exact : forall lxi lz m U Y Tm V (L : hier lxi lz m U Y Tm V) mvn u t (xi : 'cV[R]_lxi) (z : 'cV[R]_lz) (P : 'M[R]_lz) rest A f Q (xn : 'cV[R]_lxi) (zn : 'cV[R]_lz) restn,
  posdef P -> let p := rbrow xi z P rest in hr_dynamics_at L (cons p nil) u t 0 A f Q -> posdef Q ->
  exists zc Pc lp, bayes_step zn A f Q z P zc Pc lp /\
    hr_sample_smooth L mvn (cons p nil) (Some (cons (ravel xn ++ ravel zn ++ restn)%SEQ nil)) u t = Ok (cons (ravel xi ++ ravel (mvn 0%nat zc Pc) ++ nseq (2 * (lz * lz)) 0%Re)%SEQ nil).
Proof.
move=> lxi lz m U Y Tm V L mvn u t xi z P rest A f Q xn zn restn HP p HD HQ.
case: (@C44_sample_smooth _ _ _ _ _ _ _ L mvn 1 u t (fun _ => xi) (fun _ => z) (fun _ => P) (fun _ => rest) (fun _ => A) (fun _ => f) (fun _ => Q) (fun _ => xn) (fun _ => zn) (fun _ => restn)) => //.
move=> zc [Pc [E [E0 [E1 H]]]]. case: (H 0%nat (Nat.lt_0_succ 0)) => lp Hlp. rewrite E0 E1 in Hlp. exists (zc 1%nat), (Pc 1%nat), lp. by split.
Qed.
Theorem C44_last_step : forall lxi lz m U Y Tm V (L : hier lxi lz m U Y Tm V) mvn M u t (xi : nat -> 'cV[R]_lxi) (z : nat -> 'cV[R]_lz) (P : nat -> 'M[R]_lz) (rest : nat -> row),
  hr_sample_smooth L mvn (tab M (fun j => rbrow (xi j) (z j) (P j) (rest j))) None u t =
    Ok (tab M (fun j => ravel (xi 0%nat) ++ ravel (mvn j (z 0%nat) (P 0%nat)) ++ nseq (2 * (lz * lz)) 0%Re)%SEQ).
Proof.
move=> lxi lz m U Y Tm V L mvn M u t xi z P rest. rewrite /hr_sample_smooth.
have Lp : length (tab M (fun j => rbrow (xi j) (z j) (P j) (rest j))) = M by exact: tab_length.
case E : (tab M (fun j => rbrow (xi j) (z j) (P j) (rest j))) => [|p0 ps]; first by rewrite E in Lp; rewrite -Lp.
rewrite -E Lp. have -> : p0 = rbrow (xi 0%nat) (z 0%nat) (P 0%nat) (rest 0%nat).
{ have : nth_error (tab M (fun j => rbrow (xi j) (z j) (P j) (rest j))) 0 = Some p0 by rewrite E. have HM : (0 < M)%coq_nat by rewrite -Lp E /=; lia. by rewrite tab_nth // => [[]]. }
rewrite get_rbrow [rbind (Ok _) _]/=. clear. move: (tab M (fun j => rbrow (xi j) (z j) (P j) (rest j))) => part. rewrite /tab. elim: (List.seq 0 M) => [//|j l IH] /=. by rewrite IH.
Qed.
(** C44 is false for more trajectories: trajectory j never has the nonlinear state of its own particle when that differs from the
    first particle's, *)
Theorem C44_refuted : forall lxi lz m U Y Tm V (L : hier lxi lz m U Y Tm V) mvn M u t (xi : nat -> 'cV[R]_lxi) (z : nat -> 'cV[R]_lz) (P : nat -> 'M[R]_lz) (rest : nat -> row)
  (A : nat -> 'M[R]_lz) (f : nat -> 'cV[R]_lz) (Q : nat -> 'M[R]_lz) (xn : nat -> 'cV[R]_lxi) (zn : nat -> 'cV[R]_lz) (restn : nat -> row) j,
  posdef (P 0%nat) -> (forall j, (j < M)%coq_nat -> hr_dynamics_at L (cons (rbrow (xi j) (z j) (P j) (rest j)) nil) u t 0 (A j) (f j) (Q j) /\ posdef (Q j)) ->
  (j < M)%coq_nat -> xi j <> xi 0%nat ->
  exists rows r, hr_sample_smooth L mvn (tab M (fun j => rbrow (xi j) (z j) (P j) (rest j))) (Some (tab M (fun j => ravel (xn j) ++ ravel (zn j) ++ restn j)%SEQ)) u t = Ok rows /\
    nth_error rows j = Some r /\ seq.take lxi r <> ravel (xi j).
Proof.
move=> lxi lz m U Y Tm V L mvn M u t xi z P rest A f Q xn zn restn j HP H Hj Hx.
case: (C44_sample_smooth mvn xn zn restn HP H) => zc [Pc [E _]]. do 2 eexists. split; first exact: E. split; first exact: tab_nth.
rewrite take_size_cat ?sz_cv // => Er. apply: Hx. have := reshape_ravel (xi j). rewrite -Er reshape_ravel. by case.
Qed.
(** and even for identical particles with identical next states the second trajectory is drawn from another covariance than the first
    unless A = 0. *)
Theorem C44_second_refuted : forall lxi lz m U Y Tm V (L : hier lxi lz m U Y Tm V) u t (xi : 'cV[R]_lxi) (z : 'cV[R]_lz) (P : 'M[R]_lz) rest A f Q (xn : 'cV[R]_lxi) (zn : 'cV[R]_lz) restn,
  posdef P -> let p := rbrow xi z P rest in hr_dynamics_at L (cons p nil) u t 0 A f Q -> posdef Q -> A <> 0 ->
  let next := (ravel xn ++ ravel zn ++ restn)%SEQ in
  exists zc Pc zc' Pc', Pc <> Pc' /\ forall mvn, hr_sample_smooth L mvn (cons p (cons p nil)) (Some (cons next (cons next nil))) u t =
    Ok (cons (ravel xi ++ ravel (mvn 0%nat zc Pc) ++ nseq (2 * (lz * lz)) 0%Re)%SEQ (cons (ravel xi ++ ravel (mvn 1%nat zc' Pc') ++ nseq (2 * (lz * lz)) 0%Re)%SEQ nil)).
Proof.
move=> lxi lz m U Y Tm V L u t xi z P rest A f Q xn zn restn HP p HD HQ HA next.
pose c T (x : T) (k : nat) := x. have Hall j : (j < 2)%coq_nat -> hr_dynamics_at L (cons p nil) u t 0 (c _ A j) (c _ f j) (c _ Q j) /\ posdef (c _ Q j) by [].
pose a := hacc (c _ z) (c _ P) (c _ A) (c _ f) (c _ Q) (c _ zn). have HP1 : posdef (a 1%nat).2 by apply: (@hacc_pos _ _ _ _ _ _ _ L 2 u t (c _ xi) (c _ z) (c _ P) (c _ rest) _ _ _ (c _ zn) HP Hall); lia.
exists (a 1%nat).1, (a 1%nat).2, (a 2%nat).1, (a 2%nat).2. split.
- have -> : (a 2%nat).2 = mP (a 1%nat).2 A Q by []. move: (a 1%nat).2 HP1 => P1 HP1 E. apply: HA.
  have HS : posdef (A *m P1 *m A^T + Q) by apply: posdef_add => //; exact: psd_cong (posdef_psd HP1).
  have E0 : P1 *m A^T *m (invmx (A *m P1 *m A^T + Q) *m (A *m P1)) = 0 by have := congr1 (fun X => P1 - X) E; rewrite /mP subrr opprB addrCA subrr addr0 => <-.
  have E1 : A *m P1 = 0.
  { have HI := posdef_inv HS. apply/matrixP => i j. rewrite [RHS]mxE. 
    have Hq : quad (invmx (A *m P1 *m A^T + Q)) ((A *m P1) *m delta_mx j (ord0 : 'I_1)) = 0%Re.
    { rewrite /quad. move: (delta_mx j ord0) (invmx _) E0 => d I E0. have -> : (A *m P1 *m d)^T *m I *m (A *m P1 *m d) = d^T *m (P1 *m A^T *m (I *m (A *m P1))) *m d.
      { by rewrite !trmx_mul (proj1 HP1) !mulmxA. }
      by rewrite E0 mulmx0 mul0mx mxE. }
    have Hz : (A *m P1) *m delta_mx j (ord0 : 'I_1) = 0.
    { apply/eqP. apply/negP => /negP Hne. have := proj2 HI _ Hne. rewrite Hq. exact: Rlt_irrefl. }
    have := congr1 (fun v : 'cV_lz => v i ord0) Hz. rewrite -colE !mxE. by []. }
  by rewrite -[A](mulmxK (posdef_unit HP1)) E1 mul0mx.
- move=> mvn. rewrite /hr_sample_smooth /p get_rbrow [rbind (Ok _) _]/=.
  exact: (@hr_loop_ok _ _ _ _ _ _ _ L 2 u t (c _ xi) (c _ z) (c _ P) (c _ rest) (c _ A) (c _ f) (c _ Q) (c _ xn) (c _ zn) (c _ restn) HP Hall mvn 2 0 (erefl _)).
Qed.

(** ** Examples *)
(** one nonlinear state, two linear ones; the stored matrices are used; the nonlinear state is deterministic with a flat density *)
Definition exH (q : R) : hier 1 2 1 unit unit unit unit :=
  mkHier (kf_init (mkDyn (Some (q *: 1%:M)) (Some ex_C) (Some (q *: 1%:M)) (Some ex_R) None (Some (const_mx 1%Re))))
    (fun _ _ _ => (None, None, None)) (fun _ _ _ => (const_mx 5%Re, None, None, None)) (fun ps _ _ => List.map (fun _ => 0%Re) ps)
    (fun ps _ _ _ => List.map (fun _ => const_mx 1%Re) ps) (fun ps _ _ _ => List.map (fun _ => 0%Re) ps) (fun ps _ _ => List.map (fun _ => 0%Re) ps).
Definition exps : list row := tab 3 (fun i => rbrow (const_mx (INR i) : 'cV[R]_1) ex_u ex_P nil).
Lemma exH_dyn q ps i : hr_dynamics_at (exH q) ps tt tt i (q *: 1%:M) 0 (q *: 1%:M). Proof. by []. Qed.
Lemma exH_meas q ps i : hr_measurement_at (exH q) ps tt tt i (const_mx 5%Re) ex_C (const_mx 1%Re) ex_R. Proof. by []. Qed.
Lemma ex_scaled q : (0 < q)%Re -> posdef (q *: 1%:M : 'M[R]_2).
Proof.
move=> Hq. split; first by rewrite /symmetric scalemx1 tr_scalar_mx. move=> x Hx. have := proj2 (posdef1 2) x Hx. rewrite /quad -scalemxAr -scalemxAl [X in _ -> (0 < X)%Re]mxE. move: ((x^T *m 1%:M *m x) ord0 ord0) => a Ha. exact: Rmult_lt_0_compat.
Qed.
Example C68_case : exists (z1 : nat -> 'cV[R]_2) (P1 : nat -> 'M[R]_2) (lp : nat -> R),
  hr_measure (exH 1) exps tt tt = Ok (tab 3 (fun i => rbrow (const_mx (INR i) : 'cV[R]_1) (z1 i) (P1 i) nil), tab 3 (fun i => 0 + lp i)%Re) /\
  bayes_step (const_mx 5%Re) ex_C (const_mx 1%Re) ex_R ex_u ex_P (z1 2%nat) (P1 2%nat) (lp 2%nat).
Proof.
case: (@C68_measure_exact _ _ _ _ _ _ _ (exH 1) 3 tt tt (fun i => const_mx (INR i)) (fun _ => ex_u) (fun _ => ex_P) (fun _ => nil) (const_mx 5%Re) (fun _ => ex_C) (fun _ => const_mx 1%Re) (fun _ => ex_R) (fun _ => 0%Re)).
- by [].
- move=> i Hi. split; [exact: exH_meas|split; [exact: ex_P_posdef|exact: ex_R_posdef]].
- move=> z1 [P1 [lp [E H]]]. exists z1, P1, lp. split => //. apply: H. lia.
Qed.
Example C68_case_update : exists (z1 : nat -> 'cV[R]_2) (P1 : nat -> 'M[R]_2),
  hr_update (exH 2) exps tt tt tt = Ok (tab 3 (fun i => rbrow (const_mx 1%Re : 'cV[R]_1) (z1 i) (P1 i) nil)) /\
  predict_step (2%Re *: 1%:M) 0 (2%Re *: 1%:M) ex_u ex_P (z1 2%nat) (P1 2%nat).
Proof.
case: (@C68_update_exact _ _ _ _ _ _ _ (exH 2) 3 tt tt tt (fun i => const_mx (INR i)) (fun _ => ex_u) (fun _ => ex_P) (fun _ => nil) (fun _ => 2%Re *: 1%:M) (fun _ => 0) (fun _ => 2%Re *: 1%:M) (fun _ => const_mx 1%Re)).
- by [].
- move=> i Hi. split; [exact: exH_dyn|split; [exact: ex_P_posdef|apply: ex_scaled; lra]].
- move=> z1 [P1 [E H]]. exists z1, P1. split => //. apply: H. lia.
Qed.
(** a model with small noise, for which the bound used by rejection sampling is exceeded *)
Example C41_case_hier : exists bound (zn : nat -> 'cV[R]_2) lp, hr_logp_xnext_max (exH (1 / 4)) (tab 3 (fun i => rbrow (const_mx (INR i) : 'cV[R]_1) ex_u 1%:M nil)) tt tt = Ok (Some bound) /\
  hr_logp_xnext (exH (1 / 4)) (tab 3 (fun i => rbrow (const_mx (INR i) : 'cV[R]_1) ex_u 1%:M nil)) (tab 3 (fun i => rbrow (0 : 'cV[R]_1) (zn i) 1%:M nil)) tt tt = Ok (tab 3 lp) /\
  exists i, (i < 3)%coq_nat /\ (bound < lp i)%Re.
Proof.
case: (@C41_hier_refuted _ _ _ _ _ _ _ (exH (1 / 4)) 3 tt tt (fun i => const_mx (INR i)) (fun _ => ex_u) (fun _ => 1%:M) (fun _ => nil) (fun _ => (1 / 4)%Re *: 1%:M) (fun _ => 0) (fun _ => (1 / 4)%Re *: 1%:M) (fun _ => 0%Re) (fun _ => 0)) => //.
- lia.
- move=> i Hi. split; [exact: exH_dyn|split; [exact: posdef1|apply: ex_scaled; lra]].
- move=> i Hi. rewrite linearZ /= trmx1 mulmx1 -scalemxAl mul1mx scalerA -scalerDl scalemx1 det_scalar !rE /=. rewrite expr2 rmulE. lra.
- move=> bound [lp [zn [E1 [E2 E3]]]]. by exists bound, zn, lp.
Qed.
Example C44_case : exists rows r, hr_sample_smooth (exH 1) (fun _ z _ => z) exps (Some (tab 3 (fun j => ravel (const_mx 1%Re : 'cV[R]_1) ++ ravel ex_u ++ nil)%SEQ)) tt tt = Ok rows /\
  nth_error rows 2 = Some r /\ seq.take 1 r <> ravel (const_mx (INR 2) : 'cV[R]_1).
Proof.
apply: (@C44_refuted _ _ _ _ _ _ _ (exH 1) _ 3 tt tt (fun i => const_mx (INR i)) (fun _ => ex_u) (fun _ => ex_P) (fun _ => nil) (fun _ => 1%Re *: 1%:M) (fun _ => 0) (fun _ => 1%Re *: 1%:M) (fun _ => const_mx 1%Re) (fun _ => ex_u) (fun _ => nil) 2).
- exact: ex_P_posdef.
- move=> j Hj. split; [exact: exH_dyn|apply: ex_scaled; lra].
- lia.
- move/matrixP/(_ ord0 ord0). rewrite !mxE /=. lra.
Qed.
Print Assumptions C68_measure_exact.
Print Assumptions C68_update_exact.
Print Assumptions C68_logp_xnext_exact.
Print Assumptions C41_hier_bound.
Print Assumptions C41_hier_refuted.
Print Assumptions C44_sample_smooth.
Print Assumptions C44_refuted.
Print Assumptions C44_second_refuted.
