(** Properties of Rao-Blackwellised models: C66 (measurements), C65 (smoothing along the nonlinear path). *)
From mathcomp Require Import all_ssreflect all_algebra.
From Coq Require Import Reals Lra List Lia.
From Verif Require Import Base RMat KalmanModel LinAlg Gauss Moments Storage MlnlgModel MlnlgProofs Prop_Kalman Prop_Mlnlg.
Set Implicit Arguments.
Unset Strict Implicit.
Unset Printing Implicit Defensive.
Import GRing.Theory.
Local Open Scope ring_scope.
Arguments rb_measure1 : simpl never.
Arguments rb_measure_noC1 : simpl never.

(** ** Specification *)
(** The measurement y' = C z + h + e, cov(e) = Rn, of particle i: what the model's callback gives for it, or else what is
    stored in the model; an absent C or h counts as zero, but not both may be absent. *)
Definition measurement_at lxi lz m U Y Tm (L : mlnlg lxi lz m U Y Tm) (ps : list row) (y : Y) (t : Tm) (i : nat)
  (y' : 'cV[R]_m) (C : 'M[R]_(m, lz)) (h : 'cV[R]_m) (Rn : 'M[R]_m) : Prop :=
  let '(y1, oC, oh, oR) := ml_meas L ps y t in
  y1 = y' /\
  match oC, kf_C (ml_kf L) with None, None => C = 0 | o, stored => given o stored i C end /\
  match oh, kf_h (ml_kf L) with None, None => h = 0 | o, stored => given o stored i h end /\
  given oR (kf_R (ml_kf L)) i Rn /\
  ~ (oC = None /\ kf_C (ml_kf L) = None /\ oh = None /\ kf_h (ml_kf L) = None).
(** (z1, P1) is the posterior of the prior (z, P) after y = C z + h + e, and lp the log marginal density of y *)
Definition bayes_step lz m (y : 'cV[R]_m) (C : 'M[R]_(m, lz)) h (Rn : 'M[R]_m) (z : 'cV[R]_lz) (P : 'M[R]_lz) (z1 : 'cV[R]_lz) (P1 : 'M[R]_lz) (lp : R) : Prop :=
  posdef P1 /\ exp lp = normal_pdf (C *m z + h) (C *m P *m C^T + Rn) y /\
  forall x, (normal_pdf z P x * normal_pdf (C *m x + h)%mx Rn y = exp lp * normal_pdf z1 P1 x)%Re.

(** ** C66 *)
Section Meas1.
Variables (lz m : nat) (y : 'cV[R]_m) (z : 'cV[R]_lz) (P : 'M[R]_lz) (C : 'M[R]_(m, lz)) (h : 'cV[R]_m) (Rn : 'M[R]_m).
Definition mlp : R := normal_logpdf (C *m z + h) (C *m P *m C^T + Rn) y.
Definition mz : 'cV[R]_lz := z + P *m C^T *m invmx (C *m P *m C^T + Rn) *m (y - (C *m z + h)).
Definition mP : 'M[R]_lz := P - P *m C^T *m (invmx (C *m P *m C^T + Rn) *m (C *m P)).
Lemma m_bayes : posdef P -> posdef Rn -> bayes_step y C h Rn z P mz mP mlp.
Proof.
move=> HP HR. case: (C33_measure_bayes y z C (Some h) HP HR) => lp [z1 [P1 [E H]]].
move: E. rewrite (measure_ok _ _ _ _ (posdef_psd HP) HR) => [[E1 E2 E3]]. rewrite -E1 -E2 -E3 in H. case: H => H1 [H2 H3]. by split; [|split].
Qed.
Lemma pos11 (S : 'M[R]_1) : posdef S -> (0 < scal11 S)%Re.
Proof. move=> HS. have := posdef_det HS. by rewrite det_mx11. Qed.
End Meas1.
Lemma measure_full_oc lz m (y : 'cV[R]_m) (z : 'cV[R]_lz) (P : 'M[R]_lz) C h (Rn : 'M[R]_m) oc oh : psd P -> posdef Rn -> oc = Some C \/ (oc = None /\ C = 0) -> orzero oh = h ->
  measure_full y z P oc oh Rn = Ok (mlp y z P C h Rn, mz y z P C h Rn, mP P C Rn).
Proof.
move=> HP HR Hc <-. case: Hc => [->|[-> ->]]; first by rewrite measure_ok.
case: (C33_measure_no_C y z P oh HR) => lp [-> Hl]. rewrite /mlp /mz /mP !mul0mx !trmx0 !mulmx0 !mul0mx subr0 !addr0 !add0r. congr (Ok (_, _, _)).
apply: exp_inv. rewrite Hl normal_pdf_log //. exact: posdef_det.
Qed.
Lemma rb_measure1_ok lz m (y : 'cV[R]_m) (z : 'cV[R]_lz) (P : 'M[R]_lz) C h (Rn : 'M[R]_m) oc oh : psd P -> posdef Rn -> oc = Some C \/ (oc = None /\ C = 0) -> orzero oh = h ->
  rb_measure1 y z P oc oh Rn = Ok (mlp y z P C h Rn, mz y z P C h Rn, mP P C Rn).
Proof.
move=> HP HR Hc Hh. have E := measure_full_oc y z HP HR Hc Hh.
case: m y C h Rn oc oh HR Hc Hh E => [|[|m]] y C h Rn oc oh HR Hc Hh E //.
rewrite /rb_measure1. case: (@C36_scalar_agrees _ y z P oc oh Rn (proj1 HP)) => [|r [-> E2]]; last by rewrite -E E2.
case: Hc => [->|[-> _]]; apply: pos11 => //. apply: posdef_add => //. exact: psd_cong.
Qed.
Lemma lognormpdf_cho_vec1 n (e : 'cV[R]_n) U : lognormpdf_cho_vec (cons e nil) U = cons (lognormpdf_cho e U) nil.
Proof. rewrite /lognormpdf_cho_vec /= /lognormpdf_cho. congr cons. by rewrite -Rmult_plus_distr_l. Qed.
Lemma rb_noC_ok lz m (y h : 'cV[R]_m) (Rn : 'M[R]_m) (z : 'cV[R]_lz) (P : 'M[R]_lz) : posdef Rn -> rb_measure_noC1 y h Rn = Ok (mlp y z P 0 h Rn).
Proof.
move=> HR. rewrite /mlp !mul0mx !add0r.
have G : lognormpdf_cho (y - h) = lognormpdf_cho (y - h) by []. 
case: (chol_total HR) => Uc HU. have E := lognormpdf_cho_ok (mu := h) (x := y) HR HU (erefl _). rewrite -E. clear G E.
case: m y h Rn HR Uc HU => [|[|m]] y h Rn HR Uc HU; rewrite /rb_measure_noC1.
- by rewrite HU /rbind lognormpdf_cho_vec1.
- rewrite (lognormpdf_scalar_ok _ (pos11 HR)) /= /idx /=. congr Ok.
  rewrite (lognormpdf_cho_ok (mu := h) (x := y) HR HU (erefl _)) /normal_logpdf det_mx11 /l2pi. set e := y - h.
  rewrite /quad [invmx Rn](_ : _ = (/ scal11 Rn)%Re%:M); last by rewrite {1}[Rn]scal11E invmx_scalar.
  rewrite [e]scal11E tr_scalar_mx -!scalar_mxM !mxE eqxx !mulr1n !rE /scal11 /=. have := pos11 HR. rewrite /scal11 => H0.
  have -> : (Rn 0 0 : R) = Rn ord0 ord0 by []. have -> : ((e ord0 ord0)%:M : 'M[R]_1) ord0 ord0 = e ord0 ord0 by rewrite mxE eqxx mulr1n.
  move: (e ord0 ord0) (Rn ord0 ord0) H0 => a r H0. field. lra.
- by rewrite HU /rbind lognormpdf_cho_vec1.
Qed.

Lemma idx_fill T N (x : option (list T)) stored i o : (i < N)%coq_nat ->
  match x with Some l => exists v, nth_error l i = Some v /\ o = Some v | None => o = stored end -> idx (fill N x stored).1 i = Ok o.
Proof.
rewrite /fill /idx. case: x => [l|] Hi /=; first by move=> [v [H ->]]; rewrite List.nth_error_map H.
by move=> ->; rewrite repeat_tab tab_nth.
Qed.
(** C66: measuring Rao-Blackwellised particles gives each of them the posterior of its linear state and the log marginal
    density of the measurement; the nonlinear states and the rest of the rows stay. *)
Theorem C66_measure_exact : forall lxi lz m U Y Tm (L : mlnlg lxi lz m U Y Tm) N y t (xi : nat -> 'cV[R]_lxi) (z : nat -> 'cV[R]_lz) (P : nat -> 'M[R]_lz) (rest : nat -> row)
  (y' : 'cV[R]_m) (C : nat -> 'M[R]_(m, lz)) (h : nat -> 'cV[R]_m) (Rn : nat -> 'M[R]_m),
  let ps := tab N (fun i => rbrow (xi i) (z i) (P i) (rest i)) in
  (forall i, (i < N)%coq_nat -> measurement_at L ps y t i y' (C i) (h i) (Rn i) /\ posdef (P i) /\ posdef (Rn i)) ->
  exists (z1 : nat -> 'cV[R]_lz) (P1 : nat -> 'M[R]_lz) (lp : nat -> R),
    rb_measure L ps y t = Ok (tab N (fun i => rbrow (xi i) (z1 i) (P1 i) (rest i)), tab N lp) /\
    forall i, (i < N)%coq_nat -> bayes_step y' (C i) (h i) (Rn i) (z i) (P i) (z1 i) (P1 i) (lp i).
Proof.
move=> lxi lz m U Y Tm L N y t xi z P rest y' C h Rn ps H.
exists (fun i => mz y' (z i) (P i) (C i) (h i) (Rn i)), (fun i => mP (P i) (C i) (Rn i)), (fun i => mlp y' (z i) (P i) (C i) (h i) (Rn i)).
split; last by move=> i Hi; case: (H i Hi) => _ [HP HR]; exact: m_bayes.
rewrite /rb_measure get_states_tab /= /meas_int. have [E0|HN] : N = 0%nat \/ (0 < N)%coq_nat by lia.
{ subst N. by case: (ml_meas L ps y t) => [[[y1 [[|c lC]|]] [lh|]] [lR|]] //=; case: (kf_C (ml_kf L)). }
have Hrep T (x : T) : exists l, List.repeat x N = cons x l by case: (N) HN => [|k] Hk; [by inversion Hk|eexists; reflexivity].
have Lp : length ps = N by exact: tab_length.
rewrite /measurement_at in H. rewrite Lp. case: (ml_meas L ps y t) H => [[[y1 oC] oh] oR] H.
have Hy : y1 = y' by case: (H _ HN) => [[]].
rewrite Hy.
have HR i (Hi : (i < N)%coq_nat) : at_ (fill N oR (kf_R (ml_kf L))).1 i = Ok (Rn i).
{ apply: at_fill => //. by case: (H _ Hi) => [[_ [_ [_ [? _]]]] _]. }
have Hh i (Hi : (i < N)%coq_nat) : exists o, idx (fill N oh (kf_h (ml_kf L))).1 i = Ok o /\ orzero o = h i.
{ move: (H _ Hi) => [[_ [_ [Hh _]]] _]. move: Hh. clear -Hi. case: oh => [l|]; [|case: (kf_h (ml_kf L)) => [k|]].
  - move=> Hg. exists (Some (h i)). split => //. apply: idx_fill => //. by exists (h i).
  - move=> [->]. exists (Some (h i)). split => //. exact: idx_fill.
  - move=> ->. exists None. split => //. exact: idx_fill. }

have Hc i (Hi : (i < N)%coq_nat) : exists o, idx (match oC with
           | Some _ => fill N oC (kf_C (ml_kf L))
           | None => match kf_C (ml_kf L) with Some _ => fill N oC (kf_C (ml_kf L)) | None => match oh with Some _ => (List.repeat (Some 0) N, true) | None => fill N oC (kf_C (ml_kf L)) end end end).1 i = Ok o /\
           (o = Some (C i) \/ (o = None /\ C i = 0)).
{ move: (H _ Hi) => [[_ [Hg _]] _]. move: Hg. clear -Hi.
  case: oC => [l|]; [|case: (kf_C (ml_kf L)) => [k|]].
  - move=> Hg. exists (Some (C i)). split; [|by left]. apply: idx_fill => //. by exists (C i).
  - move=> [->]. exists (Some (C i)). split; [|by left]. exact: idx_fill.
  - move=> E0. case: oh => [l|]; first by exists (Some 0); rewrite E0; split; [rewrite repeat_tab idx_tab|left].
    exists None. split; [exact: idx_fill|by right]. }
have G lC (bC : bool) : (forall i, (i < N)%coq_nat -> exists o, idx lC i = Ok o /\ (o = Some (C i) \/ (o = None /\ C i = 0))) ->
  (dor r <- forr (length (tab N (fun i => (xi i, z i, P i)))) (fun i => dor s <- idx (tab N (fun i => (xi i, z i, P i))) i ; dor C <- idx lC i ; dor h <- idx (fill N oh (kf_h (ml_kf L))).1 i ;
    dor Rn <- at_ (fill N oR (kf_R (ml_kf L))).1 i ; dor r <- rb_measure1 y' s.1.2 s.2 C h Rn ; Ok (r.1.1, (s.1.1, r.1.2, r.2))) ;
    dor particles <- set_states3 ps (List.map snd r) ; Ok (particles, List.map fst r)) =
  Ok (tab N (fun i => rbrow (xi i) (mz y' (z i) (P i) (C i) (h i) (Rn i)) (mP (P i) (C i) (Rn i)) (rest i)), tab N (fun i => mlp y' (z i) (P i) (C i) (h i) (Rn i))).
{ move=> HC. rewrite tab_length (@forr_ok _ N _ (fun i => (mlp y' (z i) (P i) (C i) (h i) (Rn i), (xi i, mz y' (z i) (P i) (C i) (h i) (Rn i), mP (P i) (C i) (Rn i))))) /=.
  - by rewrite !map_tab set_states_tab.
  - move=> i Hi. case: (HC i Hi) => o [-> Ho]. case: (Hh i Hi) => o' [-> Ho']. rewrite idx_tab // HR //=. case: (H i Hi) => [_ [HPi HRi]].
    by rewrite (rb_measure1_ok _ _ (posdef_psd HPi) HRi Ho Ho'). }
have K : (oC = None /\ kf_C (ml_kf L) = None /\ oh = None /\ oR = None) \/ ~ (oC = None /\ kf_C (ml_kf L) = None /\ oh = None /\ oR = None).
{ clear. case: oC => [?|]; [by right=> [[]]|]. case: (kf_C (ml_kf L)) => [?|]; [by right=> [[_ []]]|].
  case: oh => [?|]; [by right=> [[_ [_ []]]]|]. case: oR => [?|]; [by right=> [[_ [_ [_]]]]|by left]. }
case: K => [[EC [EK [Eh ER]]]|K].
- rewrite EC EK Eh ER /fill. case: (Hrep _ (None : option 'M[R]_(m, lz))) => l0 ->; rewrite [_ && _ && _]/=.
  have Hk i (Hi : (i < N)%coq_nat) : kf_h (ml_kf L) = Some (h i) /\ C i = 0 /\ kf_R (ml_kf L) = Some (Rn i).
  { case: (H i Hi) => [[_ [HC [Hg [Hr K]]]] _]. move: HC Hg Hr K. rewrite EC EK Eh ER /given. case: (kf_h (ml_kf L)) => [k|] HC Hg Hr K; first by [].
    by case: K. }
  rewrite (@forr_ok _ N _ (fun i => mlp y' (z i) (P i) (C i) (h i) (Rn i))) /=.
  + rewrite set_states_tab. congr (Ok (_, _)). apply: tab_ext => i Hi. case: (Hk i Hi) => _ [-> _].
    by rewrite /mz /mP !mul0mx !trmx0 !mulmx0 !mul0mx addr0 subr0.
  + move=> i Hi. case: (Hk i Hi) => E1 [-> E2]. rewrite E1 E2 /at_ !repeat_tab !idx_tab //=.
    apply: rb_noC_ok. by case: (H i Hi) => _ [].
- have := G _ true Hc. rewrite /fill. move: K. clear -Hrep. case: oC => [lC|]; first by case: oh => [lh|]; case: oR => [lR|] _.
  case: (kf_C (ml_kf L)) => [k|]; first by case: (Hrep _ (Some k)) => l ->; case: oh => [lh|]; case: oR => [lR|] _.
  case: oh => [lh|]; first by case: (Hrep _ (Some (0 : 'M[R]_(m, lz)))) => l ->; case: oR => [lR|] _.
  by case: oR => [lR|] //= [].
Qed.

(** ** C65: specification *)
Section PathSpec.
Variables lxi lz m : nat.
Variables U Y Tm : Type.
(** One step of M trajectories: the nonlinear state of each of them, the measurement if there is one, with the matrices
    y = C z + h + e, cov(e) = R of each trajectory, and the dynamics from this step to the next, without
    correlation between the two noises (unused at the last step). *)
Record pstep : Type := mkP {
  p_xi : nat -> 'cV[R]_lxi; p_y : option Y; p_t : Tm;
  p_yv : 'cV[R]_m; p_C : nat -> 'M[R]_(m, lz); p_h : nat -> 'cV[R]_m; p_R : nat -> 'M[R]_m;
  p_u : U; p_Axi : nat -> 'M[R]_(lxi, lz); p_fxi : nat -> 'cV[R]_lxi; p_Qxi : nat -> 'M[R]_lxi;
  p_Az : nat -> 'M[R]_lz; p_fz : nat -> 'cV[R]_lz; p_Qz : nat -> 'M[R]_lz }.
(** the model has these matrices, whatever linear states are stored in the particles *)
Definition step_of (L : mlnlg lxi lz m U Y Tm) (N : nat) (s : pstep) : Prop :=
  forall (z : nat -> 'cV[R]_lz) (P : nat -> 'M[R]_lz) (rest : nat -> row) i, (i < N)%coq_nat ->
  let ps := tab N (fun i => rbrow (p_xi s i) (z i) (P i) (rest i)) in
  (forall y, p_y s = Some y -> measurement_at L ps y (p_t s) i (p_yv s) (p_C s i) (p_h s i) (p_R s i) /\ posdef (p_R s i)) /\
  dynamics_at L ps (p_u s) (p_t s) i (p_Axi s i) (p_fxi s i) (p_Qxi s i) (p_Az s i) (p_fz s i) (p_Qz s i) 0 /\
  posdef (p_Qxi s i) /\ posdef (p_Qz s i).
(** (z1, P1) is the filtered distribution of trajectory i at this step, from the predicted one (z, P) *)
Definition measured (s : pstep) (i : nat) (z : 'cV[R]_lz) (P : 'M[R]_lz) (z1 : 'cV[R]_lz) (P1 : 'M[R]_lz) : Prop :=
  match p_y s with
  | None => z1 = z /\ P1 = P
  | Some _ => exists lp, bayes_step (p_yv s) (p_C s i) (p_h s i) (p_R s i) z P z1 P1 lp
  end.
(** (z1, P1): the next linear state given the next nonlinear state xn *)
Definition predicted (s : pstep) (i : nat) (xn : 'cV[R]_lxi) (z : 'cV[R]_lz) (P : 'M[R]_lz) (z1 : 'cV[R]_lz) (P1 : 'M[R]_lz) : Prop :=
  posdef P1 /\ forall x',
    normal_pdf (joint_mean (p_Axi s i) (p_fxi s i) (p_Az s i) (p_fz s i) z) (joint_cov (p_Axi s i) (p_Az s i) P (p_Qxi s i) 0 (p_Qz s i)) (col_mx xn x') =
    (normal_pdf (p_Axi s i *m z + p_fxi s i)%mx (p_Axi s i *m P *m (p_Axi s i)^T + p_Qxi s i)%mx xn * normal_pdf z1 P1 x')%Re.
Fixpoint filtered (i : nat) (z : 'cV[R]_lz) (P : 'M[R]_lz) (steps : list pstep) (fs : list ('cV[R]_lz * 'M[R]_lz)) : Prop :=
  match steps, fs with
  | cons s rest, cons (z1, P1) fs' =>
      measured s i z P z1 P1 /\
      match rest with
      | nil => fs' = nil
      | cons s' _ => exists z2 P2, predicted s i (p_xi s' i) z1 P1 z2 P2 /\ filtered i z2 P2 rest fs'
      end
  | _, _ => False
  end.
(** Given the next nonlinear state xn and next linear state x', the linear state x with filtered distribution (z, P) is
    normal with mean c + J x' and covariance Lc; (zs, Ps) and Ms are its mean, its covariance and its cross covariance with x'
    when x' has mean zn and covariance Pn. *)
Definition smoothed_step (s : pstep) (i : nat) (xn : 'cV[R]_lxi) (z : 'cV[R]_lz) (P : 'M[R]_lz) (zn : 'cV[R]_lz) (Pn : 'M[R]_lz)
  (zs : 'cV[R]_lz) (Ps Ms : 'M[R]_lz) : Prop :=
  exists (c : 'cV[R]_lz) (J Lc : 'M[R]_lz), posdef Lc /\
    (forall x x', (normal_pdf z P x * normal_pdf (joint_mean (p_Axi s i) (p_fxi s i) (p_Az s i) (p_fz s i) x) (noise_cov (p_Qxi s i) 0 (p_Qz s i)) (col_mx xn x') =
      normal_pdf (joint_mean (p_Axi s i) (p_fxi s i) (p_Az s i) (p_fz s i) z) (joint_cov (p_Axi s i) (p_Az s i) P (p_Qxi s i) 0 (p_Qz s i)) (col_mx xn x') *
      normal_pdf (c + J *m x')%mx Lc x)%Re) /\
    forall Om (E : (Om -> R) -> R) (x' err : Om -> 'cV[R]_lz), expectation E ->
      has_mean E x' zn -> has_cov E x' zn Pn -> has_mean E err 0 -> has_cov E err 0 Lc -> cross_cov E err 0 x' zn = 0 ->
      let x := fun w => c + J *m x' w + err w in
      has_mean E x zs /\ has_cov E x zs Ps /\ cross_cov E x zs x' zn = Ms.
Fixpoint smoothed (i : nat) (steps : list pstep) (fs : list ('cV[R]_lz * 'M[R]_lz)) (ss : list ('cV[R]_lz * 'M[R]_lz * 'M[R]_lz)) : Prop :=
  match steps, fs, ss with
  | cons s rest, cons (z, P) fs', cons (zs, Ps, Ms) ss' =>
      match rest, ss' with
      | nil, nil => zs = z /\ Ps = P /\ Ms = 0
      | cons s' _, cons (zn, Pn, _) _ => smoothed_step s i (p_xi s' i) z P zn Pn zs Ps Ms /\ smoothed i rest fs' ss'
      | _, _ => False
      end
  | _, _, _ => False
  end.
(** what post_smoothing is given for the steps after s *)
Fixpoint rest_of (N : nat) (s : pstep) (l : list pstep) : list (U * list 'cV[R]_lxi * option Y * Tm) :=
  match l with
  | nil => nil
  | cons s' l' => cons (p_u s, tab N (p_xi s'), p_y s', p_t s') (rest_of N s' l')
  end.
Definition frows (N : nat) (steps : list pstep) (fs : list (nat -> 'cV[R]_lz * 'M[R]_lz)) : list (list row) :=
  List.map (fun p => tab N (fun i => rbrow (p_xi p.1 i) (p.2 i).1 (p.2 i).2 nil)) (List.combine steps fs).
Definition srows (N : nat) (steps : list pstep) (ss : list (nat -> 'cV[R]_lz * 'M[R]_lz * 'M[R]_lz)) : list (list row) :=
  List.map (fun p => tab N (fun i => rbrow (p_xi p.1 i) (p.2 i).1.1 (p.2 i).1.2 (ravel (p.2 i).2))) (List.combine steps ss).
End PathSpec.

(** ** C65: proofs *)
Section Path.
Context {lxi lz m : nat} {U Y Tm : Type}.
Variables (L : mlnlg lxi lz m U Y Tm) (N : nat).
Hypothesis HL : xi_only L.
Notation step := (pstep lxi lz m U Y Tm).

Lemma measured_ok (s : step) (z : nat -> 'cV[R]_lz) (P : nat -> 'M[R]_lz) : step_of L N s -> (forall i, (i < N)%coq_nat -> posdef (P i)) ->
  let ps := tab N (fun i => rbrow (p_xi s i) (z i) (P i) nil) in
  exists (z1 : nat -> 'cV[R]_lz) (P1 : nat -> 'M[R]_lz),
    match p_y s with Some y => dor r <- rb_measure L ps y (p_t s) ; Ok r.1 | None => Ok ps end = Ok (tab N (fun i => rbrow (p_xi s i) (z1 i) (P1 i) nil)) /\
    forall i, (i < N)%coq_nat -> measured s i (z i) (P i) (z1 i) (P1 i) /\ posdef (P1 i).
Proof.
move=> HS HP ps. rewrite /measured. case Ey : (p_y s) => [y|]; last first.
{ exists z, P. split => // i Hi. split; [by []|exact: HP]. }
case: (@C66_measure_exact _ _ _ _ _ _ L N y (p_t s) (p_xi s) z P (fun _ => nil) (p_yv s) (p_C s) (p_h s) (p_R s)) => [i Hi|z1 [P1 [lp [E H]]]].
{ case: (HS z P (fun _ => nil) i Hi) => Hm _. case: (Hm _ Ey) => H1 H2. split => //. split => //. exact: HP. }
exists z1, P1. rewrite E. split => // i Hi. have Hb := H i Hi. split; first by exists (lp i). by case: Hb.
Qed.
Lemma loop_ok (l : list step) : forall (s : step) (z : nat -> 'cV[R]_lz) (P : nat -> 'M[R]_lz),
  (forall s', List.In s' (cons s l) -> step_of L N s') -> (forall i, (i < N)%coq_nat -> posdef (P i)) ->
  exists fs : list (nat -> 'cV[R]_lz * 'M[R]_lz), List.length fs = List.length (cons s l) /\
    mhips_loop L (tab N (fun i => rbrow (p_xi s i) (z i) (P i) nil)) (p_y s) (p_t s) (rest_of N s l) = Ok (frows N (cons s l) fs) /\
    forall i, (i < N)%coq_nat -> filtered i (z i) (P i) (cons s l) (List.map (fun f => f i) fs) /\ forall f, List.In f fs -> posdef (f i).2.
Proof.
elim: l => [|s' l IH] s z P HS HP; case: (measured_ok z (HS s (or_introl (erefl _))) HP) => z1 [P1 [E1 H1]].
- exists (cons (fun i => (z1 i, P1 i)) nil). split => //. rewrite /= E1 /=. split => // i Hi. case: (H1 i Hi) => Hm Hp. split => // f [<-|[]]. exact: Hp.
- rewrite [mhips_loop _ _ _ _ _]/= E1 [rbind _ _]/=.
  case: (@C63_cond_predict_exact _ _ _ _ _ _ L N (p_u s) (p_t s) (p_xi s) z1 P1 (fun _ => nil) (p_Axi s) (p_fxi s) (p_Qxi s) (p_Az s) (p_fz s) (p_Qz s) HL _ (p_xi s') false (or_introl (erefl _))) => [i Hi|z2 [P2 [E2 H2]]].
  { case: (HS s (or_introl (erefl _)) z1 P1 (fun _ => nil) i Hi) => _ [HD [HQ1 HQ2]]. split => //. split => //. exact: posdef_psd (proj2 (H1 i Hi)). }
  rewrite E2 [rbind _ _]/=. case: (IH s' z2 P2 (fun s0 Hs => HS s0 (or_intror Hs)) (fun i Hi => proj1 (H2 i Hi))) => fs [Ef [E3 H3]].
  rewrite E3 [rbind _ _]/=. exists (cons (fun i => (z1 i, P1 i)) fs). split; first by rewrite /= Ef. split => // i Hi.
  case: (H3 i Hi) => F1 F2. case: (H1 i Hi) => M1 M2. split; last by move=> f [<-|Hf]; [exact: M2|exact: F2].
  split => //. exists (z2 i), (P2 i). split => //. case: (H2 i Hi) => G1 G2. by split.
Qed.

Lemma average_moments n (c : 'cV[R]_n) (J Lc : 'M[R]_n) zn Pn Om (E : (Om -> R) -> R) (x' err : Om -> 'cV[R]_n) : expectation E ->
  has_mean E x' zn -> has_cov E x' zn Pn -> has_mean E err 0 -> has_cov E err 0 Lc -> cross_cov E err 0 x' zn = 0 ->
  let x := fun w => c + J *m x' w + err w in
  has_mean E x (c + J *m zn) /\ has_cov E x (c + J *m zn) (Lc + J *m Pn *m J^T) /\ cross_cov E x (c + J *m zn) x' zn = J *m Pn.
Proof.
move=> HE Hx HP' He HL' Hxe x.
have Ex : forall w, x w - (c + J *m zn) = J *m (x' w - zn) + err w.
{ move=> w. rewrite /x mulmxBr. mxab. }
have Hxe' : Emx E (fun w => err w *m (x' w - zn)^T) = 0.
{ rewrite -[RHS]Hxe; apply: Emx_ext => w; by rewrite subr0. }
split; [|split].
- rewrite /has_mean /x (Emx_add HE) (Emx_add HE (fun _ => c)) (Emx_const HE) (Emx_mull HE) Hx He addr0 //.
- rewrite /has_cov /cross_cov.
  transitivity (Emx E (fun w => J *m ((x' w - zn) *m (x' w - zn)^T) *m J^T + J *m (err w *m (x' w - zn)^T)^T + (err w *m (x' w - zn)^T) *m J^T + (err w - 0) *m (err w - 0)^T)).
  + apply: Emx_ext => w. rewrite Ex subr0. move: (x' w - zn) (err w) => a b. rewrite trD !trmx_mul !trmxK mulmxDl !mulmxDr !mulmxA. by rewrite !addrA.
  + rewrite !(Emx_add HE) !(Emx_mulr HE) !(Emx_mull HE) (Emx_tr E) Hxe' trmx0 mulmx0 mul0mx !addr0.
    rewrite [X in J *m X *m _]HP' [X in _ + X]HL' addrC //.
- rewrite /cross_cov.
  transitivity (Emx E (fun w => J *m ((x' w - zn) *m (x' w - zn)^T) + err w *m (x' w - zn)^T)).
  + apply: Emx_ext => w. by rewrite Ex mulmxDl mulmxA.
  + rewrite (Emx_add HE) (Emx_mull HE) Hxe' addr0. by rewrite [X in J *m X]HP'.
Qed.
Lemma smooth_density (s : step) i xn (z : 'cV[R]_lz) (P : 'M[R]_lz) zn Pn : posdef P -> posdef (p_Qxi s i) -> posdef (p_Qz s i) ->
  let z1 := zc (fun _ => z) (fun _ => P) (p_Axi s) (p_fxi s) (p_Qxi s) (fun _ => xn) i in
  let P1 := Pc (fun _ => P) (p_Axi s) (p_Qxi s) i in
  exists zs Ps Ms, smooth z1 P1 zn Pn (p_Az s i) (p_fz s i) (p_Qz s i) = Ok (zs, Ps, Ms) /\ smoothed_step s i xn z P zn Pn zs Ps Ms.
Proof.
move=> HP HQ HQz z1 P1. have HP1 : posdef P1 by exact: P1_posdef (p_Axi s i) HP HQ.
case: (C37_smooth_exact z1 zn Pn (p_Az s i) (p_fz s i) HP1 HQz) => J [Lc [HLc [HD E]]].
do 3 eexists. split; first exact: E. exists (z1 - J *m (p_Az s i *m z1 + p_fz s i)), J, Lc. split => //.
have Ec x' : z1 + J *m (x' - (p_Az s i *m z1 + p_fz s i)) = z1 - J *m (p_Az s i *m z1 + p_fz s i) + J *m x'.
{ rewrite mulmxBr. mxab. }
split; last first.
{ move=> Om E0 x' err HE Hx HPn He HLe Hc. rewrite Ec. exact: average_moments. }
move=> x x'. rewrite -Ec. have HN := diag_posdef HQ HQz. have HJ := joint_posdef (p_Axi s i) (p_Az s i) (posdef_psd HP) HN.
have HD' := HD x x'. clear HD E.
have HS2 : posdef (p_Az s i *m P1 *m (p_Az s i)^T + p_Qz s i) by apply: posdef_add HQz; exact: psd_cong (posdef_psd HP1).
rewrite !normal_pdf_log in HD'; [|exact: posdef_det HLc|exact: posdef_det HS2|exact: posdef_det HQz|exact: posdef_det HP1].
rewrite -!exp_plus in HD'. move/exp_inv in HD'.
rewrite !normal_pdf_log; [|exact: posdef_det HLc|exact: posdef_det HJ|exact: posdef_det HN|exact: posdef_det HP].
rewrite -!exp_plus. congr exp.
have B1 := gauss_bayes_log (p_Axi s i) HP HQ z x xn (p_fxi s i).
have J1 := joint_logpdf HN (p_Axi s i *m x + p_fxi s i) xn (p_Az s i *m x + p_fz s i) x'.
rewrite trmx0 !mul0mx subr0 addr0 in J1.
case: (@joint_cond _ _ (fun _ => z) (fun _ => P) (p_Axi s) (p_fxi s) (p_Qxi s) (p_Az s) (p_fz s) (p_Qz s) (fun _ => 0) (fun _ => xn) i (posdef_psd HP) HN) => _ J2. move: (J2 x').
rewrite /Ac /fc trmx0 !mul0mx !subr0 addr0 (addrC (p_fz s i)) => {}J2.
rewrite /joint_mean in J2 *. rewrite J2 {1}/noise_cov trmx0 J1. rewrite -/z1 -/P1.
move: B1 HD'. rewrite -/z1 -/P1.
suff H0 : forall a b c d e f g : R, (a + b = c + d)%Re -> (d + e = f + g)%Re -> (a + (b + e) = c + f + g)%Re by exact: H0.
by move=> a b c d e f g; lra.
Qed.
Lemma ravel0 n : nseq (n * n) 0%Re = ravel (0 : 'M[R]_n).
Proof.
apply: (@eq_from_nth _ 0%Re); first by rewrite size_nseq size_ravel.
move=> k; rewrite size_nseq => Hk. rewrite nth_nseq Hk nth_mkseq // /mget. by case E1 : (@insub _ _ (ordinal_subType n) (k %/ n)%nat) => [i|] //=; case E2 : (@insub _ _ (ordinal_subType n) (k %% n)%nat) => [j|] //=; rewrite mxE.
Qed.
Lemma copied_tab (xi : nat -> 'cV[R]_lxi) (z : nat -> 'cV[R]_lz) (P : nat -> 'M[R]_lz) :
  List.map (fun p => p ++ nseq (lz * lz) 0%Re)%SEQ (tab N (fun i => rbrow (xi i) (z i) (P i) nil)) = tab N (fun i => rbrow (xi i) (z i) (P i) (ravel (0 : 'M[R]_lz))).
Proof. rewrite map_tab. apply: tab_ext => i _. by rewrite /rbrow !cats0 -!catA ravel0. Qed.
Definition res_or T (d : T) (r : res T) : T := match r with Ok v => v | Err _ => d end.
Lemma post_step_ok (s s' : step) (f : nat -> 'cV[R]_lz * 'M[R]_lz) (sn : nat -> 'cV[R]_lz * 'M[R]_lz * 'M[R]_lz) : step_of L N s -> (forall i, (i < N)%coq_nat -> posdef (f i).2) ->
  exists ss : nat -> 'cV[R]_lz * 'M[R]_lz * 'M[R]_lz,
    post_step L (tab N (fun i => rbrow (p_xi s i) (f i).1 (f i).2 nil)) (tab N (fun i => rbrow (p_xi s' i) (sn i).1.1 (sn i).1.2 (ravel (sn i).2))) (p_u s) (p_t s) =
      Ok (tab N (fun i => rbrow (p_xi s i) (ss i).1.1 (ss i).1.2 (ravel (ss i).2))) /\
    forall i, (i < N)%coq_nat -> smoothed_step s i (p_xi s' i) (f i).1 (f i).2 (sn i).1.1 (sn i).1.2 (ss i).1.1 (ss i).1.2 (ss i).2.
Proof.
move=> HS HP.
pose z i := (f i).1. pose P i := (f i).2.
have HS' i (Hi : (i < N)%coq_nat) := HS z P (fun _ => ravel (0 : 'M[R]_lz)) i Hi.
have HD i (Hi : (i < N)%coq_nat) := proj1 (proj2 (HS' i Hi)). have HQ i (Hi : (i < N)%coq_nat) := proj1 (proj2 (proj2 (HS' i Hi))). have HQz i (Hi : (i < N)%coq_nat) := proj2 (proj2 (proj2 (HS' i Hi))).
have HD0 : forall i, (i < N)%coq_nat -> dynamics_at L (tab N (fun i => rbrow (p_xi s i) (z i) (P i) (ravel (0 : 'M[R]_lz)))) (p_u s) (p_t s) i (p_Axi s i) (p_fxi s i) (p_Qxi s i) (p_Az s i) (p_fz s i) (p_Qz s i) ((fun _ => 0) i) by exact: HD.
pose z1 := zc z P (p_Axi s) (p_fxi s) (p_Qxi s) (p_xi s'). pose P1 := Pc P (p_Axi s) (p_Qxi s).
pose ss i := res_or (0, 0, 0) (smooth (z1 i) (P1 i) (sn i).1.1 (sn i).1.2 (p_Az s i) (p_fz s i) (p_Qz s i)).
have HH i (Hi : (i < N)%coq_nat) : smooth (z1 i) (P1 i) (sn i).1.1 (sn i).1.2 (p_Az s i) (p_fz s i) (p_Qz s i) = Ok (ss i) /\
    smoothed_step s i (p_xi s' i) (f i).1 (f i).2 (sn i).1.1 (sn i).1.2 (ss i).1.1 (ss i).1.2 (ss i).2.
{ case: (@smooth_density s i (p_xi s' i) (f i).1 (f i).2 (sn i).1.1 (sn i).1.2 (HP i Hi) (HQ i Hi) (HQz i Hi)) => zs [Ps [Ms [E H]]].
  rewrite /ss /z1 /P1. rewrite /zc /Pc /z /P in E *. rewrite E. by split. }
exists ss. split; last by move=> i Hi; case: (HH i Hi).
rewrite /post_step get_states_tab [rbind _ _]/= map_tab copied_tab.
rewrite (meas_xi_ok HD0 (p_xi s') (fun i Hi => posdef_psd (HP i Hi)) HQ) [rbind _ _]/= get_states_tab [rbind _ _]/=.
rewrite (cond_dyn_ok (same_dynamics_at HL HD0 _ _ _) (p_xi s') HQ) [rbind _ _]/= tab_length. apply: forr_ok => i Hi. rewrite !idx_tab //=.
rewrite /Ac /fc trmx0 !mul0mx subr0 addr0. case: (HH i Hi) => E _. rewrite -/(z1 i) -/(P1 i) E. case: (ss i) => [[zs Ps] Ms] /=.
by rewrite set_rbrow /= -[ravel 0]cats0 set_Mz_rbrow cats0.
Qed.
Fixpoint ut_of (s : step) (l : list step) : list (U * Tm) := match l with nil => nil | cons s' l' => cons (p_u s, p_t s) (ut_of s' l') end.
Lemma ut_ofE (l : list step) s : List.combine (List.map (fun r => r.1.1.1) (rest_of N s l)) (cons (p_t s) (List.map snd (rest_of N s l))) = ut_of s l.
Proof. elim: l s => [//|s' l IH] s. by rewrite /= -IH. Qed.
Lemma post_ok (l : list step) : forall (s : step) f fs, List.length fs = List.length l ->
  (forall s', List.In s' (cons s l) -> step_of L N s') -> (forall f', List.In f' (cons f fs) -> forall i, (i < N)%coq_nat -> posdef (f' i).2) ->
  exists ss, List.length ss = List.length (cons s l) /\
    post_loop L (tab N (fun i => rbrow (p_xi s i) (f i).1 (f i).2 nil)) (frows N l fs) (ut_of s l) = Ok (srows N (cons s l) ss) /\
    forall i, (i < N)%coq_nat -> smoothed i (cons s l) (List.map (fun f => f i) (cons f fs)) (List.map (fun f => f i) ss).
Proof.
elim: l => [|s' l IH] s f [|f' fs] //.
- move=> _ HS HP. exists (cons (fun i => (f i, 0)) nil). split => //. split; first by rewrite /= copied_tab.
  move=> i Hi. by rewrite /=; case: (f i).
- move=> [HL'] HS HP. case: (IH s' f' fs HL' (fun s0 H => HS s0 (or_intror H)) (fun f0 H => HP f0 (or_intror H))) => ss [EL [E1 H1]].
  case: ss EL E1 H1 => [//|sn ss] EL E1 H1.
  case: (@post_step_ok s s' f sn (HS s (or_introl (erefl _))) (HP f (or_introl (erefl _)))) => s0 [E2 H2].
  exists (cons s0 (cons sn ss)). split; first by move: EL => /= ->. split.
  + rewrite [post_loop _ _ _ _]/= -/(frows N l fs) E1 [rbind _ _]/= E2 //.
  + move=> i Hi. have := H1 i Hi. have := H2 i Hi. rewrite [smoothed _ (cons s _) _ _]/= [smoothed _ (cons s' _) _ _]/=.
    case: (f i) => [z P]. case: (s0 i) => [[zs Ps] Ms]. case: (sn i) => [[zn Pn] Mn]. move=> A B. split; [exact: A|exact: B].
Qed.
End Path.

(** C65: post smoothing along the nonlinear states of N trajectories over any number of steps, with measurements possibly
    missing: the filtered steps hold the exact filter distributions of the linear states given the nonlinear path so far, the
    smoothed steps hold the backward recursion through the exact conditional of each step given the next one, and the last
    step's smoothed distribution is the filtered one. *)
Theorem C65_post_smoothing : forall lxi lz m U Y Tm (L : mlnlg lxi lz m U Y Tm) N rb_initial (s : pstep lxi lz m U Y Tm) l
  (z0 : nat -> 'cV[R]_lz) (P0 : nat -> 'M[R]_lz),
  xi_only L -> (forall s', List.In s' (cons s l) -> step_of L N s') ->
  rb_initial (tab N (p_xi s)) = tab N (fun i => (z0 i, P0 i)) -> (forall i, (i < N)%coq_nat -> posdef (P0 i)) ->
  exists fs ss, List.length fs = List.length (cons s l) /\ List.length ss = List.length (cons s l) /\
    pre_mhips_pass L rb_initial (tab N (p_xi s)) (p_y s) (p_t s) (rest_of N s l) = Ok (frows N (cons s l) fs) /\
    post_smoothing L rb_initial (tab N (p_xi s)) (p_y s) (p_t s) (rest_of N s l) = Ok (srows N (cons s l) ss) /\
    forall i, (i < N)%coq_nat -> filtered i (z0 i) (P0 i) (cons s l) (List.map (fun f => f i) fs) /\
      smoothed i (cons s l) (List.map (fun f => f i) fs) (List.map (fun f => f i) ss).
Proof.
move=> lxi lz m U Y Tm L N rb s l z0 P0 HL HS Erb HP.
case: (loop_ok HL z0 HS HP) => fs [El [E1 H1]]. case: fs El E1 H1 => [//|f fs] El E1 H1.
case: (@post_ok _ _ _ _ _ _ L N HL l s f fs) => [|//|f' Hf i Hi|ss [El2 [E2 H2]]]; [by case: El|by apply: (proj2 (H1 i Hi))|].
have Epre : pre_mhips_pass L rb (tab N (p_xi s)) (p_y s) (p_t s) (rest_of N s l) = Ok (frows N (cons s l) (cons f fs)).
{ rewrite /pre_mhips_pass Erb (@map2r_tab _ _ _ N _ _ _ (fun i => rbrow (p_xi s i) (z0 i) (P0 i) nil)) //. by move=> i _; rewrite /rbrow cats0. }
exists (cons f fs), ss. do 2 split => //. split => //. split.
- rewrite /post_smoothing Epre [rbind _ _]/= ut_ofE. exact: E2.
- move=> i Hi. split; [exact: (proj1 (H1 i Hi))|exact: H2].
Qed.

(** C66: the first stage weights of the auxiliary filter: each particle's nonlinear state is moved to its predicted mean, its linear state
    to the distribution (z1, P1) conditional on that, and the weight is the exact log marginal density of the next measurement there.  The
    particles themselves are copied first, so they are not moved. *)
Theorem C66_first_stage : forall lz m U Y Tm (L : mlnlg 1 lz m U Y Tm) N u y t t1 (xi : nat -> 'cV[R]_1) (z : nat -> 'cV[R]_lz) (P : nat -> 'M[R]_lz) (rest : nat -> row)
  (Axi : nat -> 'M[R]_(1, lz)) (fxi : nat -> 'cV[R]_1) (Qxi : nat -> 'M[R]_1) (Az : nat -> 'M[R]_lz) (fz : nat -> 'cV[R]_lz) (Qz : nat -> 'M[R]_lz),
  let ps := tab N (fun i => rbrow (xi i) (z i) (P i) (rest i)) in
  let mean i := Axi i *m z i + fxi i in
  xi_only L ->
  (forall i, (i < N)%coq_nat -> dynamics_at L ps u t i (Axi i) (fxi i) (Qxi i) (Az i) (fz i) (Qz i) 0 /\ psd (P i) /\ posdef (Qxi i) /\ posdef (Qz i)) ->
  exists z1 P1,
    (forall i, (i < N)%coq_nat -> posdef (P1 i) /\
      forall z', normal_pdf (joint_mean (Axi i) (fxi i) (Az i) (fz i) (z i)) (joint_cov (Axi i) (Az i) (P i) (Qxi i) 0 (Qz i)) (col_mx (mean i) z') =
        (normal_pdf (mean i) (Axi i *m P i *m (Axi i)^T + Qxi i)%mx (mean i) * normal_pdf (z1 i) (P1 i) z')%Re) /\
    forall (y' : 'cV[R]_m) (C : nat -> 'M[R]_(m, lz)) (h : nat -> 'cV[R]_m) (Rn : nat -> 'M[R]_m),
      (forall i, (i < N)%coq_nat -> measurement_at L (tab N (fun i => rbrow (mean i) (z1 i) (P1 i) (rest i))) y t1 i y' (C i) (h i) (Rn i) /\ posdef (Rn i)) ->
      exists lp, eval_1st_stage_weights L ps u y t t1 = Ok (tab N lp) /\
        forall i, (i < N)%coq_nat -> exp (lp i) = normal_pdf (C i *m z1 i + h i) (C i *m P1 i *m (C i)^T + Rn i) y'.
Proof.
move=> lz m U Y Tm L N u y t t1 xi z P rest Axi fxi Qxi Az fz Qz ps mean HL H.
have HD := fun i Hi => proj1 (H i Hi). have NA := nonlin_at HD.
case: (C63_cond_predict_exact HL H mean (flat := true) (or_intror (or_introl (erefl _)))) => z1 [P1 [E HE]].
exists z1, P1. split; first exact: HE.
move=> y' C h Rn HM.
case: (@C66_measure_exact _ _ _ _ _ _ L N y t1 mean z1 P1 rest y' C h Rn) => [i Hi|z2 [P2 [lp [EM HB]]]].
{ case: (HM i Hi) => H1 H2. split => //. split => //. exact: (proj1 (HE i Hi)). }
exists lp. split; last by move=> i Hi; case: (HB i Hi) => _ [].
rewrite /eval_1st_stage_weights /pred_xi. case: (nonlin_int L _ u t) NA => [[[a ?] [f ?]] [q ?]] NA.
rewrite get_states_tab /= tab_length (@forr_ok _ N _ mean) /=; last first.
{ by move=> i Hi; case: (NA _ Hi) => [-> [-> _]] /=; rewrite idx_tab. }
by rewrite E [rbind _ _]/= EM.
Qed.

(** ** Examples *)
Lemma exL_meas ps i : measurement_at (exL None) ps tt tt i (const_mx 5%Re) ex_C 0 ex_R.
Proof. do 4 split => //. by case=> _ []. Qed.
Example C66_case : exists (z1 : nat -> 'cV[R]_2) (P1 : nat -> 'M[R]_2) (lp : nat -> R),
  rb_measure (exL None) (tab 3 (fun i => rbrow (const_mx (INR i) : 'cV[R]_1) ex_u ex_P nil)) tt tt =
  Ok (tab 3 (fun i => rbrow (const_mx (INR i) : 'cV[R]_1) (z1 i) (P1 i) nil), tab 3 lp).
Proof.
case: (@C66_measure_exact _ _ _ _ _ _ (exL None) 3 tt tt (fun i => const_mx (INR i)) (fun _ => ex_u) (fun _ => ex_P) (fun _ => nil)
  (const_mx 5%Re) (fun _ => ex_C) (fun _ => 0) (fun _ => ex_R)) => [i _|z1 [P1 [lp [E _]]]]; last by exists z1, P1, lp.
split; [exact: exL_meas|split; [exact: ex_P_posdef|exact: ex_R_posdef]].
Qed.
Example C66_first_stage_case : exists lp : nat -> R,
  eval_1st_stage_weights (exL None) (tab 3 (fun i => rbrow (const_mx (INR i) : 'cV[R]_1) ex_u ex_P nil)) tt tt tt tt = Ok (tab 3 lp).
Proof.
case: (@C66_first_stage _ _ _ _ _ (exL None) 3 tt tt tt tt (fun i => const_mx (INR i)) (fun _ => ex_u) (fun _ => ex_P) (fun _ => nil)
  (fun _ => ex_C) (fun _ => 0) (fun _ => ex_R) (fun _ => ex_P) (fun _ => ex_u) (fun _ => ex_P) (@exL_xi_only None)) => [|z1 [P1 [_ H]]].
{ by move=> i _; split; [exact: exL_dyn|split; [exact: posdef_psd ex_P_posdef|split; [exact: ex_R_posdef|exact: ex_P_posdef]]]. }
case: (H (const_mx 5%Re) (fun _ => ex_C) (fun _ => 0) (fun _ => ex_R)) => [i _|lp [E _]]; last by exists lp.
split; [exact: exL_meas|exact: ex_R_posdef].
Qed.
(** three trajectories over four steps, the second measurement missing *)
Definition exstep (k : R) (y : option unit) : pstep 1 2 1 unit unit unit :=
  mkP (fun i => const_mx (INR i + k)%Re) y tt (const_mx 5%Re) (fun _ => ex_C) (fun _ => 0) (fun _ => ex_R) tt (fun _ => ex_C) (fun _ => 0) (fun _ => ex_R)
    (fun _ => ex_P) (fun _ => ex_u) (fun _ => ex_P).
Lemma exstep_of k y : step_of (exL None) 3 (exstep k y).
Proof.
move=> z P rest i Hi. split; first by move=> [] _; split; [exact: exL_meas|exact: ex_R_posdef].
split; first exact: exL_dyn. split; [exact: ex_R_posdef|exact: ex_P_posdef].
Qed.
Example C65_case : let s := exstep 0 (Some tt) in let l := cons (exstep 1 None) (cons (exstep 2 (Some tt)) (cons (exstep 4 (Some tt)) nil)) in
  exists ss, List.length ss = 4%nat /\
    post_smoothing (exL None) (List.map (fun _ => (ex_u, ex_P))) (tab 3 (p_xi s)) (p_y s) (p_t s) (rest_of 3 s l) = Ok (srows 3 (cons s l) ss).
Proof.
move=> s l. case: (@C65_post_smoothing _ _ _ _ _ _ (exL None) 3 (List.map (fun _ => (ex_u, ex_P))) s l (fun _ => ex_u) (fun _ => ex_P) (@exL_xi_only None)) => [s'|//|_ _|].
- by move=> [<-|[<-|[<-|[<-|[]]]]]; exact: exstep_of.
- exact: ex_P_posdef.
- move=> fs [ss [_ [El [_ [E _]]]]]. by exists ss.
Qed.
Print Assumptions C65_post_smoothing.
Print Assumptions C66_measure_exact.
Print Assumptions C66_first_stage.
