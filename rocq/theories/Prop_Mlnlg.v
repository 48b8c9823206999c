(** Properties of Rao-Blackwellised mixed linear/nonlinear Gaussian models: C41, C42, C45, C63, C64. *)
From mathcomp Require Import all_ssreflect all_algebra.
From Coq Require Import Reals Lra List Lia.
From Verif Require Import Base RMat KalmanModel LinAlg Gauss Moments Storage MlnlgModel MlnlgProofs Prop_Kalman.
Set Implicit Arguments.
Unset Strict Implicit.
Unset Printing Implicit Defensive.
Import GRing.Theory.
Local Open Scope ring_scope.

Arguments measure_full : simpl never.
Arguments measure_full_scalar : simpl never.
Arguments smooth : simpl never.
Arguments chol : simpl never.
Arguments set_state3 : simpl never.
Arguments get_state3 : simpl never.
Arguments get_Mz3 : simpl never.
Arguments set_Mz3 : simpl never.
Arguments set_states3 : simpl never.
Arguments get_states3 : simpl never.
Lemma map2r_cons A B C (f : A -> B -> res C) a l b k : map2r f (cons a l) (cons b k) = (dor c <- f a b ; dor r <- map2r f l k ; Ok (cons c r)). Proof. by []. Qed.
Lemma mapr_cons A B (f : A -> res B) a l : mapr f (cons a l) = (dor c <- f a ; dor r <- mapr f l ; Ok (cons c r)). Proof. by []. Qed.
(** ** C42 *)
(** C42 for Rao-Blackwellised particles: writing states into particles that have room for them and reading them back
    gives the same nonlinear states, means and covariances, and leaves the rest of each row as it was. *)
Theorem C42_rbpf_storage : forall lxi lz (particles : list row) (l : list (st3 (lxi := lxi) (lz := lz))),
  List.length particles = List.length l -> List.Forall (fun p => (lxi + lz + lz * lz <= size p)%nat) particles ->
  exists particles', set_states3 particles l = Ok particles' /\ get_states3 particles' = Ok l /\
    List.Forall2 (fun p p' => size p' = size p /\ drop (lxi + lz + lz * lz) p' = drop (lxi + lz + lz * lz) p) particles particles'.
Proof.
move=> lxi lz; elim=> [|p ps IH] [|[[xi z] P] l] //=; first by move=> _ _; exists nil.
move=> [HL] HF. inversion_clear HF as [|? ? Hp HF']. case: (IH _ HL HF') => ps' [E1 [E2 E3]].
case: (rbrow_ex Hp) => xi0 [z0 [P0 [rest Ep]]]. subst p.
exists (cons (rbrow xi z P rest) ps'). rewrite /set_states3 map2r_cons set_rbrow -/(set_states3 ps l) E1. split => //.
rewrite /get_states3 mapr_cons get_rbrow -/(get_states3 ps') E2. split => //. constructor => //. split.
- by rewrite !size_cat !size_ravel.
- by rewrite /rbrow !catA !drop_size_cat // !size_cat !size_ravel !muln1.
Qed.
(** C42: the cross covariance field of a smoothed particle is read back as written, for every row with room for it;
    writing it leaves the states, and writing the states leaves it, unchanged. *)
Theorem C42_rbpf_Mz : forall lxi lz (p : row) (M : 'M[R]_lz), (lxi + lz + lz * lz + lz * lz <= size p)%nat ->
  exists p', set_Mz3 (lxi := lxi) p M = Ok p' /\ get_Mz3 (lxi := lxi) p' = Ok M /\ get_state3 (lxi := lxi) (lz := lz) p' = get_state3 p /\
    forall s : st3 (lxi := lxi) (lz := lz), exists p'', set_state3 p' s = Ok p'' /\ get_Mz3 (lxi := lxi) p'' = Ok M /\ get_state3 p'' = Ok s.
Proof.
move=> lxi lz p M H. have H0 : (lxi + lz + lz * lz <= size p)%nat by apply: leq_trans H; rewrite leq_addr.
case: (rbrow_ex H0) => xi [z [P [rest Ep]]]. subst p.
have Hr : (lz * lz <= size rest)%nat by move: H; rewrite /rbrow !size_cat !size_ravel !muln1 !addnA leq_add2l.
case: (@ravel_ex lz lz (seq.take (lz * lz) rest)) => [|M0 EM]; first by rewrite size_takel.
rewrite -(cat_take_drop (lz * lz) rest) EM set_Mz_rbrow. eexists; split; first by []. rewrite get_Mz_rbrow !get_rbrow. do 2 split => //.
by move=> [[xi' z'] P']; rewrite set_rbrow; eexists; split; first by []; rewrite get_Mz_rbrow get_rbrow.
Qed.

(** ** Conditioning one linear state *)
Section Cond1.
Variables (n1 n2 : nat) (P : 'M[R]_n2) (B : 'M[R]_(n1, n2)) (Q S Si : 'M[R]_n1) (A : 'M[R]_n2) (c : 'M[R]_(n1, n2)) (Ti : 'M[R]_(n2, n1)).
Hypotheses (BPB : B *m P *m B^T = S - Q) (SSi : S *m Si = 1%:M) (SiS : Si *m S = 1%:M) (TQ : Ti *m Q = c^T).
Lemma cond_mean_alg (z f : 'cV[R]_n2) (e : 'cV[R]_n1) :
  (f + Ti *m (e + B *m z)) + (A - Ti *m B) *m (z + P *m B^T *m Si *m e) = A *m z + f + (A *m P *m B^T + c^T) *m Si *m e.
Proof.
have H : Ti *m B *m P *m B^T *m Si *m e = Ti *m e - c^T *m Si *m e.
{ by rewrite -(mulmxA Ti B P) -(mulmxA Ti (B *m P)) BPB mulmxBr TQ mulmxBl -(mulmxA Ti S) SSi mulmx1 mulmxBl. }
rewrite mulmxBl !mulmxDr !mulmxDl !mulmxA H. clear. mxab.
Qed.
Lemma cond_cov_alg (SP : P^T = P) (SQ : Q^T = Q) (G : 'M[R]_(n2, n1)) (Qz : 'M[R]_n2) : G = A *m P *m B^T ->
  (A - Ti *m B) *m (P - P *m B^T *m (Si *m (B *m P))) *m (A^T - B^T *m Ti^T) + Qz - c^T *m Ti^T = A *m P *m A^T + Qz - (G + c^T) *m Si *m (G^T + c).
Proof.
move=> HG. have GT : G^T = B *m P *m A^T by rewrite HG !trmx_mul trmxK SP mulmxA.
have cT : c = Q *m Ti^T by rewrite -[c]trmxK -TQ trmx_mul SQ.
have K1 k (X : 'M[R]_(k, n1)) : X *m B *m P *m B^T = X *m S - X *m Q by rewrite -(mulmxA X B P) -(mulmxA X (B *m P)) BPB mulmxBr.
have K2 k (X : 'M[R]_(k, n1)) : X *m S *m Si = X by rewrite -mulmxA SSi mulmx1.
have K3 k (X : 'M[R]_(k, n1)) : X *m Si *m S = X by rewrite -mulmxA SiS mulmx1.
rewrite !(mulmxBl, mulmxBr, mulmxDl, mulmxDr) !mulmxA. rewrite -HG !K1.
rewrite !(mulmxBl, mulmxBr, mulmxDl, mulmxDr) ?mulmxA. rewrite !K2 ?K1 ?K3.
rewrite -TQ cT GT !mulmxA. clear. mxab.
Qed.
End Cond1.

(** ** The dynamics of a particle *)
Section Dyn.
Context {lxi lz m : nat} {U Y Tm : Type}.
Notation model := (mlnlg lxi lz m U Y Tm).
(** The matrices of particle i in xi' = Axi z + fxi + v, z' = Az z + fz + w with cov(v) = Qxi, cov(w) = Qz,
    cov(v, w) = Qc: what the model's callbacks give for it, or else what is stored in the model; no cross covariance
    if neither gives one. *)
Definition dynamics_at (L : model) (ps : list row) (u : U) (t : Tm) (i : nat)
  (Axi : 'M[R]_(lxi, lz)) (fxi : 'cV[R]_lxi) (Qxi : 'M[R]_lxi) (Az : 'M[R]_lz) (fz : 'cV[R]_lz) (Qz : 'M[R]_lz) (Qc : 'M[R]_(lxi, lz)) : Prop :=
  let '(oAxi, ofxi, oQxi) := ml_nonlin L ps u t in
  let '(oAz, ofz, oQz) := ml_lin L ps u t in
  given oAxi (ml_Axi L) i Axi /\ given ofxi (Some (ml_fxi L)) i fxi /\ given oQxi (ml_Qxi L) i Qxi /\
  given oAz (kf_A (ml_kf L)) i Az /\ given ofz (Some (kf_f (ml_kf L))) i fz /\ given oQz (kf_Q (ml_kf L)) i Qz /\
  match ml_cross L ps u t, ml_Qxiz L with
  | None, None => Qc = 0
  | o, stored => given o stored i Qc
  end.
(** A user's contract: the dynamics of the particles depend on their nonlinear states only. *)
Definition xi_only (L : model) : Prop := forall ps ps' u t, List.map (seq.take lxi) ps = List.map (seq.take lxi) ps' ->
  ml_nonlin L ps u t = ml_nonlin L ps' u t /\ ml_lin L ps u t = ml_lin L ps' u t /\ ml_cross L ps u t = ml_cross L ps' u t.

Variable L : model.
Hypothesis HL : xi_only L.
Variables (N : nat) (u : U) (t : Tm).
Variables (xi : nat -> 'cV[R]_lxi) (z : nat -> 'cV[R]_lz) (P : nat -> 'M[R]_lz) (rest : nat -> row).
Variables (Axi : nat -> 'M[R]_(lxi, lz)) (fxi : nat -> 'cV[R]_lxi) (Qxi : nat -> 'M[R]_lxi)
          (Az : nat -> 'M[R]_lz) (fz : nat -> 'cV[R]_lz) (Qz : nat -> 'M[R]_lz) (Qc : nat -> 'M[R]_(lxi, lz)).
Let ps := tab N (fun i => rbrow (xi i) (z i) (P i) (rest i)).
Hypothesis HD : forall i, (i < N)%coq_nat -> dynamics_at L ps u t i (Axi i) (fxi i) (Qxi i) (Az i) (fz i) (Qz i) (Qc i).

Lemma same_dyn (z' : nat -> 'cV[R]_lz) P' rest' : let ps' := tab N (fun i => rbrow (xi i) (z' i) (P' i) (rest' i)) in
  ml_nonlin L ps' u t = ml_nonlin L ps u t /\ ml_lin L ps' u t = ml_lin L ps u t /\ ml_cross L ps' u t = ml_cross L ps u t.
Proof. apply: HL. rewrite !map_tab. apply: tab_ext => i _. by rewrite !take_rbrow. Qed.
Lemma same_dynamics_at (z' : nat -> 'cV[R]_lz) P' rest' i : (i < N)%coq_nat ->
  dynamics_at L (tab N (fun i => rbrow (xi i) (z' i) (P' i) (rest' i))) u t i (Axi i) (fxi i) (Qxi i) (Az i) (fz i) (Qz i) (Qc i).
Proof. move=> Hi; move: (HD Hi). rewrite /dynamics_at. case: (same_dyn z' P' rest') => -> [-> ->] //. Qed.

Lemma lenps : List.length ps = N. Proof. exact: tab_length. Qed.
Lemma nonlin_at i : (i < N)%coq_nat -> let '((a, _), (f, _), (q, _)) := nonlin_int L ps u t in at_ a i = Ok (Axi i) /\ at_ f i = Ok (fxi i) /\ at_ q i = Ok (Qxi i).
Proof.
move=> Hi. move: (HD Hi). rewrite /dynamics_at /nonlin_int. case: (ml_nonlin L ps u t) => [[a f] q]. case: (ml_lin L ps u t) => [[a' f'] q'].
move=> [H1 [H2 [H3 _]]]. rewrite lenps. have := at_fill Hi H1. have := at_fill Hi H2. have := at_fill Hi H3.
by case: (fill N a _) => [a1 ?]; case: (fill N f _) => [f1 ?]; case: (fill N q _) => [q1 ?].
Qed.
Lemma lin_at i : (i < N)%coq_nat -> let '((a, _), (f, _), (q, _)) := lin_int L ps u t in at_ a i = Ok (Az i) /\ at_ f i = Ok (fz i) /\ at_ q i = Ok (Qz i).
Proof.
move=> Hi. move: (HD Hi). rewrite /dynamics_at /lin_int. case: (ml_nonlin L ps u t) => [[a f] q]. case: (ml_lin L ps u t) => [[a' f'] q'].
move=> [_ [_ [_ [H1 [H2 [H3 _]]]]]]. rewrite lenps. have := at_fill Hi H1. have := at_fill Hi H2. have := at_fill Hi H3.
by case: (fill N a' _) => [a1 ?]; case: (fill N f' _) => [f1 ?]; case: (fill N q' _) => [q1 ?].
Qed.

Variable xn : nat -> 'cV[R]_lxi.
Let S i := Axi i *m P i *m (Axi i)^T + Qxi i.
(** after conditioning on the next nonlinear state *)
Definition zc i : 'cV[R]_lz := z i + P i *m (Axi i)^T *m invmx (S i) *m (xn i - (Axi i *m z i + fxi i)).
Definition Pc i : 'M[R]_lz := P i - P i *m (Axi i)^T *m (invmx (S i) *m (Axi i *m P i)).
Hypothesis HP : forall i, (i < N)%coq_nat -> psd (P i).
Hypothesis HQ : forall i, (i < N)%coq_nat -> posdef (Qxi i).
Lemma meas_xi_ok : meas_xi_next L ps (tab N xn) u t = Ok (tab N (fun i => rbrow (xi i) (zc i) (Pc i) (rest i))).
Proof.
rewrite /meas_xi_next get_states_tab /=. have NA := nonlin_at.
case: (nonlin_int L ps u t) NA => [[[a ?] [f ?]] [q ?]] NA. rewrite lenps.
rewrite (@forr_ok _ N _ (fun i => (xi i, zc i, Pc i))) /=; last first.
{ move=> i Hi. case: (NA _ Hi) => [Ha [Hf Hq]]. rewrite !idx_tab // Ha Hf Hq /=.
  rewrite (measure_ok _ _ _ _ (HP Hi) (HQ Hi)) //. }
exact: set_states_tab.
Qed.
Definition Ac i : 'M[R]_lz := Az i - (Qc i)^T *m invmx (Qxi i) *m Axi i.
Definition fc i : 'cV[R]_lz := fz i + (Qc i)^T *m invmx (Qxi i) *m (xn i - fxi i).
Lemma cond_dyn_ok : calc_cond_dynamics L ps (tab N xn) u t = Ok (tab N (fun i => (Ac i, fc i, Qz i))).
Proof.
rewrite /calc_cond_dynamics. have LA := lin_at. have NA := nonlin_at.
case: (lin_int L ps u t) LA => [[[a ?] [f ?]] [q ?]] LA. rewrite lenps.
case: (nonlin_int L ps u t) NA => [[[a' ?] [f' ?]] [q' ?]] NA. apply: forr_ok => i Hi.
case: (LA _ Hi) => [-> [-> ->]] /=. case: (NA _ Hi) => [-> [-> ->]] /=. move: (HD Hi). rewrite /dynamics_at.
case: (ml_nonlin L ps u t) => [[? ?] ?]. case: (ml_lin L ps u t) => [[? ?] ?]. move=> [_ [_ [_ [_ [_ [_ H]]]]]].
have Hinv : np_inv (Qxi i) = Ok (invmx (Qxi i)).
{ rewrite /np_inv. case: Req_EM_T => // H0. by exfalso; move: (posdef_det (HQ Hi)); rewrite H0 => /Rlt_irrefl. }
move: H. case: (ml_cross L ps u t) => [l|]; [|case: (ml_Qxiz L) => [c|]].
- rewrite /given /idx => -> /=. rewrite tab_nth //= Hinv //=.
- rewrite /given => [[->]]. rewrite repeat_tab !idx_tab //= Hinv //=.
- by move=> H; rewrite /Ac /fc H trmx0 !mul0mx subr0 addr0.
Qed.

End Dyn.

Section Dyn2.
Context {lxi lz m : nat} {U Y Tm : Type}.
Notation model := (mlnlg lxi lz m U Y Tm).
Variable L : model.
Hypothesis HL : xi_only L.
Variables (N : nat) (u : U) (t : Tm).
Variables (xi : nat -> 'cV[R]_lxi) (z : nat -> 'cV[R]_lz) (P : nat -> 'M[R]_lz) (rest : nat -> row).
Variables (Axi : nat -> 'M[R]_(lxi, lz)) (fxi : nat -> 'cV[R]_lxi) (Qxi : nat -> 'M[R]_lxi)
          (Az : nat -> 'M[R]_lz) (fz : nat -> 'cV[R]_lz) (Qz : nat -> 'M[R]_lz) (Qc : nat -> 'M[R]_(lxi, lz)).
Let ps := tab N (fun i => rbrow (xi i) (z i) (P i) (rest i)).
Hypothesis HD : forall i, (i < N)%coq_nat -> dynamics_at L ps u t i (Axi i) (fxi i) (Qxi i) (Az i) (fz i) (Qz i) (Qc i).
Variable xn : nat -> 'cV[R]_lxi.
Hypothesis HP : forall i, (i < N)%coq_nat -> psd (P i).
Hypothesis HQ : forall i, (i < N)%coq_nat -> posdef (Qxi i).
Let zc' := zc z P Axi fxi Qxi xn.
Let Pc' := Pc P Axi Qxi.
Lemma cond_predict_ok flat : flat = false \/ lxi = 1%nat \/ (ml_cross L ps u t = None /\ ml_Qxiz L = None) ->
  cond_predict L flat ps (tab N xn) u t =
  Ok (tab N (fun i => rbrow (xn i) (fc fxi Qxi fz Qc xn i + Ac Axi Qxi Az Qc i *m zc' i) (Ac Axi Qxi Az Qc i *m Pc' i *m (Ac Axi Qxi Az Qc i)^T + Qz i) (rest i))).
Proof.
move=> Hf. rewrite /cond_predict (meas_xi_ok HD xn HP HQ) /=.
rewrite (cond_dyn_ok (z := zc z P Axi fxi Qxi xn) (P := Pc P Axi Qxi) (rest := rest) (same_dynamics_at HL HD _ _ _) xn HQ) /=.
rewrite get_states_tab /= /correlated.
case: (same_dyn HL N u t xi z P rest (zc z P Axi fxi Qxi xn) (Pc P Axi Qxi) rest) => _ [_ ->].
have -> : (flat && match ml_cross L ps u t with Some _ => true | None => match ml_Qxiz L with Some _ => true | None => false end end && (lxi != 1%nat) &&
          (List.length (tab N (fun i => rbrow (xi i) (zc z P Axi fxi Qxi xn i) (Pc P Axi Qxi i) (rest i))) != 0%nat)) = false.
{ case: Hf => [-> //|[H1|[-> ->]]]; last by rewrite andbF. have -> : (lxi != 1%nat) = false by apply/eqP. by rewrite !andbF. }
rewrite tab_length (@forr_ok _ N _ (fun i => (xn i, fc fxi Qxi fz Qc xn i + Ac Axi Qxi Az Qc i *m zc' i, Ac Axi Qxi Az Qc i *m Pc' i *m (Ac Axi Qxi Az Qc i)^T + Qz i))) /=; last first.
{ by move=> i Hi; rewrite !idx_tab. }
exact: set_states_tab.
Qed.
End Dyn2.

(** ** Specification: the joint distribution of the next state *)
Section Spec.
Variables lxi lz : nat.
(** mean and covariance of (xi', z') when z has mean [z] and covariance [P] *)
Definition joint_mean (Axi : 'M[R]_(lxi, lz)) (fxi : 'cV[R]_lxi) (Az : 'M[R]_lz) (fz : 'cV[R]_lz) (z : 'cV[R]_lz) : 'cV[R]_(lxi + lz) :=
  col_mx (Axi *m z + fxi) (Az *m z + fz).
Definition noise_cov (Qxi : 'M[R]_lxi) (Qc : 'M[R]_(lxi, lz)) (Qz : 'M[R]_lz) : 'M[R]_(lxi + lz) := block_mx Qxi Qc Qc^T Qz.
Definition joint_cov (Axi : 'M[R]_(lxi, lz)) (Az P : 'M[R]_lz) Qxi Qc Qz : 'M[R]_(lxi + lz) :=
  col_mx Axi Az *m P *m (col_mx Axi Az)^T + noise_cov Qxi Qc Qz.
End Spec.
Lemma joint_covE lxi lz (Axi : 'M[R]_(lxi, lz)) (Az P : 'M[R]_lz) Qxi Qc Qz : symmetric P ->
  joint_cov Axi Az P Qxi Qc Qz = block_mx (Axi *m P *m Axi^T + Qxi) (Axi *m P *m Az^T + Qc) (Axi *m P *m Az^T + Qc)^T (Az *m P *m Az^T + Qz).
Proof.
move=> SP. rewrite /joint_cov /noise_cov tr_col_mx mul_col_mx mul_col_row add_block_mx. congr block_mx.
by rewrite trD !trmx_mul trmxK SP mulmxA.
Qed.
Lemma joint_posdef lxi lz (Axi : 'M[R]_(lxi, lz)) (Az P : 'M[R]_lz) Qxi Qc Qz : psd P -> posdef (noise_cov Qxi Qc Qz) -> posdef (joint_cov Axi Az P Qxi Qc Qz).
Proof. move=> HP HQ. apply: posdef_add => //. exact: psd_cong. Qed.

Lemma diag_posdef lxi lz (Qxi : 'M[R]_lxi) (Qz : 'M[R]_lz) : posdef Qxi -> posdef Qz -> posdef (noise_cov Qxi 0 Qz).
Proof.
move=> H1 H2. split.
- rewrite /symmetric /noise_cov tr_block_mx !trmx0 (proj1 H1) (proj1 H2) //.
- move=> x. rewrite -[x]vsubmxK. move: (usubmx x) (dsubmx x) => a b Hx. rewrite /noise_cov quad_block /scal11 mulmx0 mul0mx mxE.
  have Ha := proj2 (posdef_psd H1) a. have Hb := proj2 (posdef_psd H2) b.
  case: (eqVneq a 0) => Ea; last by have := proj2 H1 _ Ea; rewrite r0E; lra.
  case: (eqVneq b 0) => Eb; last by have := proj2 H2 _ Eb; rewrite r0E; lra.
  by rewrite Ea Eb col_mx0 eqxx in Hx.
Qed.
Lemma joint_cond lxi lz (z : nat -> 'cV[R]_lz) (P : nat -> 'M[R]_lz)
  (Axi : nat -> 'M[R]_(lxi, lz)) (fxi : nat -> 'cV[R]_lxi) (Qxi : nat -> 'M[R]_lxi) (Az : nat -> 'M[R]_lz) (fz : nat -> 'cV[R]_lz) (Qz : nat -> 'M[R]_lz) (Qc : nat -> 'M[R]_(lxi, lz)) xn i :
  psd (P i) -> posdef (noise_cov (Qxi i) (Qc i) (Qz i)) ->
  let Pn := Ac Axi Qxi Az Qc i *m Pc P Axi Qxi i *m (Ac Axi Qxi Az Qc i)^T + Qz i - (Qc i)^T *m invmx (Qxi i) *m Qc i in
  posdef Pn /\ forall z', normal_logpdf (joint_mean (Axi i) (fxi i) (Az i) (fz i) (z i)) (joint_cov (Axi i) (Az i) (P i) (Qxi i) (Qc i) (Qz i)) (col_mx (xn i) z') =
    (normal_logpdf (Axi i *m z i + fxi i)%mx (Axi i *m P i *m (Axi i)^T + Qxi i)%mx (xn i) + normal_logpdf (fc fxi Qxi fz Qc xn i + Ac Axi Qxi Az Qc i *m zc z P Axi fxi Qxi xn i)%mx Pn z')%Re.
Proof.
move=> HPi HNi Pn. rewrite /Pn. clear Pn.
have HJ := joint_posdef (Axi i) (Az i) HPi HNi. have SP := proj1 HPi.
rewrite joint_covE // in HJ. rewrite joint_covE //.
have HT := T_posdef HJ. have HS := S11_posdef HJ. have HQi := S11_posdef HNi.
have uS := posdef_unit HS. have uQ := posdef_unit HQi.
have BPB : Axi i *m P i *m (Axi i)^T = (Axi i *m P i *m (Axi i)^T + Qxi i) - Qxi i by rewrite addrK.
have TQ : (Qc i)^T *m invmx (Qxi i) *m Qxi i = (Qc i)^T by rewrite mulmxKV.
have EA : (Ac Axi Qxi Az Qc i)^T = (Az i)^T - (Axi i)^T *m ((Qc i)^T *m invmx (Qxi i))^T by rewrite /Ac trB trmx_mul.
have Ec : ((Qc i)^T *m invmx (Qxi i))^T = invmx (Qxi i) *m Qc i by rewrite trmx_mul trmxK (sym_inv (proj1 HQi)).
have EP : Ac Axi Qxi Az Qc i *m Pc P Axi Qxi i *m (Ac Axi Qxi Az Qc i)^T + Qz i - (Qc i)^T *m invmx (Qxi i) *m Qc i =
   Az i *m P i *m (Az i)^T + Qz i - (Axi i *m P i *m (Az i)^T + Qc i)^T *m invmx (Axi i *m P i *m (Axi i)^T + Qxi i) *m (Axi i *m P i *m (Az i)^T + Qc i).
{ rewrite EA -(mulmxA (Qc i)^T (invmx (Qxi i)) (Qc i)) -Ec.
  rewrite (cond_cov_alg BPB (mulmxV uS) (mulVmx uS) TQ SP (proj1 HQi) (Qz i) (erefl (Az i *m P i *m (Axi i)^T))) //.
  by rewrite trD !trmx_mul !trmxK SP !mulmxA. }
have EZ : fc fxi Qxi fz Qc xn i + Ac Axi Qxi Az Qc i *m zc z P Axi fxi Qxi xn i =
   Az i *m z i + fz i + (Axi i *m P i *m (Az i)^T + Qc i)^T *m invmx (Axi i *m P i *m (Axi i)^T + Qxi i) *m (xn i - (Axi i *m z i + fxi i)).
{ rewrite /fc /Ac /zc. have -> : xn i - fxi i = (xn i - (Axi i *m z i + fxi i)) + Axi i *m z i by mxab.
  rewrite (cond_mean_alg (Az i) BPB (mulmxV uS) TQ). by rewrite trD !trmx_mul !trmxK SP !mulmxA. }
rewrite EP EZ. split; first exact: HT. move=> z'. rewrite /joint_mean. exact: joint_logpdf.
Qed.
(** ** C45, C63 *)
Section C45.
Context {lxi lz m : nat} {U Y Tm : Type}.
Variables (L : mlnlg lxi lz m U Y Tm) (N : nat) (u : U) (t : Tm).
Variables (xi : nat -> 'cV[R]_lxi) (z : nat -> 'cV[R]_lz) (P : nat -> 'M[R]_lz) (rest : nat -> row).
Variables (Axi : nat -> 'M[R]_(lxi, lz)) (fxi : nat -> 'cV[R]_lxi) (Qxi : nat -> 'M[R]_lxi)
          (Az : nat -> 'M[R]_lz) (fz : nat -> 'cV[R]_lz) (Qz : nat -> 'M[R]_lz) (Qc : nat -> 'M[R]_(lxi, lz)).
Let ps := tab N (fun i => rbrow (xi i) (z i) (P i) (rest i)).

(** C45: what conditioning on the next nonlinear state computes when the noises may be correlated: the mean is the
    exact conditional mean, the covariance is too large by exactly Qc' Qxi^-1 Qc. *)
Theorem C45_cond_predict : xi_only L ->
  (forall i, (i < N)%coq_nat -> dynamics_at L ps u t i (Axi i) (fxi i) (Qxi i) (Az i) (fz i) (Qz i) (Qc i) /\ psd (P i) /\ posdef (noise_cov (Qxi i) (Qc i) (Qz i))) ->
  forall (xn : nat -> 'cV[R]_lxi) flat, flat = false \/ lxi = 1%nat \/ (ml_cross L ps u t = None /\ ml_Qxiz L = None) ->
  exists z1 P1, cond_predict L flat ps (tab N xn) u t = Ok (tab N (fun i => rbrow (xn i) (z1 i) (P1 i) (rest i))) /\
    forall i, (i < N)%coq_nat -> posdef (P1 i - (Qc i)^T *m invmx (Qxi i) *m Qc i) /\
      forall z', normal_pdf (joint_mean (Axi i) (fxi i) (Az i) (fz i) (z i)) (joint_cov (Axi i) (Az i) (P i) (Qxi i) (Qc i) (Qz i)) (col_mx (xn i) z') =
        (normal_pdf (Axi i *m z i + fxi i)%mx (Axi i *m P i *m (Axi i)^T + Qxi i)%mx (xn i) * normal_pdf (z1 i) (P1 i - (Qc i)^T *m invmx (Qxi i) *m Qc i)%mx z')%Re.
Proof.
move=> HL H xn flat Hf.
have HD := fun i Hi => proj1 (H i Hi). have HP := fun i Hi => proj1 (proj2 (H i Hi)). have HN := fun i Hi => proj2 (proj2 (H i Hi)).
have HQ := fun i Hi => S11_posdef (HN i Hi).
do 2 eexists. split; first exact: (cond_predict_ok HL HD xn HP HQ Hf). move=> i Hi. cbv beta.
case: (@joint_cond _ _ z P Axi fxi Qxi Az fz Qz Qc xn i (HP i Hi) (HN i Hi)) => HT HE. split; first exact: HT. move=> z'.
have HJ := joint_posdef (Axi i) (Az i) (HP i Hi) (HN i Hi). have HS : posdef (Axi i *m P i *m (Axi i)^T + Qxi i) by apply: posdef_add (HQ i Hi); exact: psd_cong (HP i Hi).
rewrite !normal_pdf_log; [|exact: posdef_det HT|exact: posdef_det HS|exact: posdef_det HJ]. rewrite -exp_plus. congr exp. exact: HE.
Qed.
End C45.

(** C45, C63: with uncorrelated noises conditioning on the next nonlinear state is exact: the new mean and covariance
    are those of the conditional distribution of z' given xi', for each particle. *)
Theorem C63_cond_predict_exact : forall lxi lz m U Y Tm (L : mlnlg lxi lz m U Y Tm) N u t (xi : nat -> 'cV[R]_lxi) (z : nat -> 'cV[R]_lz) (P : nat -> 'M[R]_lz) (rest : nat -> row)
  (Axi : nat -> 'M[R]_(lxi, lz)) (fxi : nat -> 'cV[R]_lxi) (Qxi : nat -> 'M[R]_lxi) (Az : nat -> 'M[R]_lz) (fz : nat -> 'cV[R]_lz) (Qz : nat -> 'M[R]_lz),
  let ps := tab N (fun i => rbrow (xi i) (z i) (P i) (rest i)) in
  xi_only L ->
  (forall i, (i < N)%coq_nat -> dynamics_at L ps u t i (Axi i) (fxi i) (Qxi i) (Az i) (fz i) (Qz i) 0 /\ psd (P i) /\ posdef (Qxi i) /\ posdef (Qz i)) ->
  forall (xn : nat -> 'cV[R]_lxi) flat, flat = false \/ lxi = 1%nat \/ (ml_cross L ps u t = None /\ ml_Qxiz L = None) ->
  exists z1 P1, cond_predict L flat ps (tab N xn) u t = Ok (tab N (fun i => rbrow (xn i) (z1 i) (P1 i) (rest i))) /\
    forall i, (i < N)%coq_nat -> posdef (P1 i) /\
      forall z', normal_pdf (joint_mean (Axi i) (fxi i) (Az i) (fz i) (z i)) (joint_cov (Axi i) (Az i) (P i) (Qxi i) 0 (Qz i)) (col_mx (xn i) z') =
        (normal_pdf (Axi i *m z i + fxi i)%mx (Axi i *m P i *m (Axi i)^T + Qxi i)%mx (xn i) * normal_pdf (z1 i) (P1 i) z')%Re.
Proof.
move=> lxi lz m U Y Tm L N u t xi z P rest Axi fxi Qxi Az fz Qz ps HL H xn flat Hf.
have H' : forall i, (i < N)%coq_nat -> dynamics_at L ps u t i (Axi i) (fxi i) (Qxi i) (Az i) (fz i) (Qz i) ((fun _ => 0) i) /\ psd (P i) /\ posdef (noise_cov (Qxi i) ((fun _ => 0) i) (Qz i)).
{ move=> i Hi. case: (H i Hi) => H1 [H2 [H3 H4]]. do 2 split => //. exact: diag_posdef. }
case: (C45_cond_predict HL H' xn Hf) => z1 [P1 [E HE]]. exists z1, P1. split => // i Hi.
case: (HE i Hi). by rewrite mulmx0 subr0.
Qed.

(** C63: one update of the particle filter: for a model with one nonlinear state, xi' is the predicted mean plus the
    noise, and the linear state is conditioned on it exactly.  The noise the filter asks for is that of the marginal
    distribution of xi'. *)
Theorem C63_update_exact : forall lz m U Y Tm (L : mlnlg 1 lz m U Y Tm) N u t (xi : nat -> 'cV[R]_1) (z : nat -> 'cV[R]_lz) (P : nat -> 'M[R]_lz) (rest : nat -> row)
  (Axi : nat -> 'M[R]_(1, lz)) (fxi : nat -> 'cV[R]_1) (Qxi : nat -> 'M[R]_1) (Az : nat -> 'M[R]_lz) (fz : nat -> 'cV[R]_lz) (Qz : nat -> 'M[R]_lz),
  let ps := tab N (fun i => rbrow (xi i) (z i) (P i) (rest i)) in
  xi_only L ->
  (forall i, (i < N)%coq_nat -> dynamics_at L ps u t i (Axi i) (fxi i) (Qxi i) (Az i) (fz i) (Qz i) 0 /\ psd (P i) /\ posdef (Qxi i) /\ posdef (Qz i)) ->
  (forall mvn, sample_process_noise L mvn ps u t = Ok (tab N (fun i => mvn i 0 (Axi i *m P i *m (Axi i)^T + Qxi i)))) /\
  forall noise : nat -> 'cV[R]_1, exists z1 P1,
    rb_update L ps u t (tab N noise) = Ok (tab N (fun i => rbrow (Axi i *m z i + fxi i + noise i) (z1 i) (P1 i) (rest i))) /\
    forall i, (i < N)%coq_nat -> posdef (P1 i) /\
      forall z', normal_pdf (joint_mean (Axi i) (fxi i) (Az i) (fz i) (z i)) (joint_cov (Axi i) (Az i) (P i) (Qxi i) 0 (Qz i)) (col_mx (Axi i *m z i + fxi i + noise i) z') =
        (normal_pdf 0 (Axi i *m P i *m (Axi i)^T + Qxi i)%mx (noise i) * normal_pdf (z1 i) (P1 i) z')%Re.
Proof.
move=> lz m U Y Tm L N u t xi z P rest Axi fxi Qxi Az fz Qz ps HL H.
have HD := fun i Hi => proj1 (H i Hi). have NA := nonlin_at HD. split.
- move=> mvn. rewrite /sample_process_noise. case: (nonlin_int L _ u t) NA => [[[a ?] [f ?]] [q ?]] NA.
  rewrite get_states_tab /= tab_length. apply: forr_ok => i Hi. case: (NA _ Hi) => [-> [_ ->]]. by rewrite idx_tab //= addrC.
- move=> noise. case: (C63_cond_predict_exact HL H (fun i => Axi i *m z i + fxi i + noise i) (flat := true) (or_intror (or_introl (erefl _)))) => z1 [P1 [E HE]].
  exists z1, P1. split.
  + rewrite /rb_update /calc_xi_next /pred_xi. case: (nonlin_int L _ u t) NA => [[[a ?] [f ?]] [q ?]] NA.
    rewrite get_states_tab /= tab_length (@forr_ok _ N _ (fun i => Axi i *m z i + fxi i)) /=; last first.
    { by move=> i Hi; case: (NA _ Hi) => [-> [-> _]] /=; rewrite idx_tab. }
    by rewrite (@map2r_tab _ _ _ N _ _ _ (fun i => Axi i *m z i + fxi i + noise i)).
  + move=> i Hi. case: (HE i Hi) => H1 H2. split => // z'. rewrite H2. congr Rmult. rewrite /normal_pdf (_ : Axi i *m z i + fxi i + noise i - (Axi i *m z i + fxi i) = noise i - 0) //. by rewrite subr0 addrAC subrr add0r.
Qed.
(** C63: with more than one nonlinear state the library's own update raises an error, whatever the particles
    (unless calc_xi_next is overridden). *)
Theorem C63_update_refuted : forall lxi lz m U Y Tm (L : mlnlg lxi lz m U Y Tm) N u t (xi : nat -> 'cV[R]_lxi) (z : nat -> 'cV[R]_lz) (P : nat -> 'M[R]_lz) (rest : nat -> row)
  (Axi : nat -> 'M[R]_(lxi, lz)) (fxi : nat -> 'cV[R]_lxi) (Qxi : nat -> 'M[R]_lxi) (Az : nat -> 'M[R]_lz) (fz : nat -> 'cV[R]_lz) (Qz : nat -> 'M[R]_lz) (Qc : nat -> 'M[R]_(lxi, lz)) noise,
  let ps := tab N (fun i => rbrow (xi i) (z i) (P i) (rest i)) in
  (forall i, (i < N)%coq_nat -> dynamics_at L ps u t i (Axi i) (fxi i) (Qxi i) (Az i) (fz i) (Qz i) (Qc i)) ->
  lxi <> 1%nat -> (0 < N)%coq_nat -> rb_update L ps u t noise = Err ValueError.
Proof.
move=> lxi lz m U Y Tm L N u t xi z P rest Axi fxi Qxi Az fz Qz Qc noise ps HD Hl HN. have NA := nonlin_at HD.
rewrite /rb_update /calc_xi_next /pred_xi. case: (nonlin_int L _ u t) NA => [[[a ?] [f ?]] [q ?]] NA.
rewrite get_states_tab /= tab_length. case: N HN @ps HD NA => [|N] HN ps HD NA; first lia.
rewrite /forr [List.seq 0 _]/=. rewrite mapr_cons. case: (NA 0%nat HN) => [-> [-> _]] /=. by move/eqP/negbTE: Hl => ->.
Qed.

(** ** C64: transition densities and backward sampling *)
Lemma reshape_col n1 n2 (a : 'cV[R]_n1) (b : 'cV[R]_n2) rest : reshape (n1 + n2) 1 (slice (ravel a ++ ravel b ++ rest)%SEQ 0 (n1 + n2)) = Ok (col_mx a b).
Proof.
rewrite (catA (ravel a)) -(cat0s ((ravel a ++ ravel b) ++ rest)%SEQ) slice_mid ?size_cat ?sz_cv //. rewrite /reshape size_cat !sz_cv muln1 eqxx. congr Ok.
have nr k (v : 'cV[R]_k) (i : 'I_k) : seq.nth 0%Re (ravel v) i = v i ord0.
{ rewrite nth_mkseq ?muln1 ?ltn_ord // divn1 modn1. exact: (mgetE v i ord0). }
apply/matrixP => i j. rewrite [j]ord1 !mxE muln1 addn0 nth_cat sz_cv. case: splitP => k Hk.
- by rewrite Hk nr.
- by rewrite Hk addKn nr.
Qed.

Lemma calc_AfQ_ok lxi lz m U Y Tm (L : mlnlg lxi lz m U Y Tm) N u t (xi : nat -> 'cV[R]_lxi) (z : nat -> 'cV[R]_lz) (P : nat -> 'M[R]_lz) (rest : nat -> row)
  (Axi : nat -> 'M[R]_(lxi, lz)) (fxi : nat -> 'cV[R]_lxi) (Qxi : nat -> 'M[R]_lxi) (Az : nat -> 'M[R]_lz) (fz : nat -> 'cV[R]_lz) (Qz : nat -> 'M[R]_lz) (Qc : nat -> 'M[R]_(lxi, lz)) :
  let ps := tab N (fun i => rbrow (xi i) (z i) (P i) (rest i)) in
  (forall i, (i < N)%coq_nat -> dynamics_at L ps u t i (Axi i) (fxi i) (Qxi i) (Az i) (fz i) (Qz i) (Qc i)) ->
  calc_A_f_Q L ps u t = Ok (tab N (fun i => (col_mx (Axi i) (Az i), col_mx (fxi i) (fz i), noise_cov (Qxi i) (Qc i) (Qz i)))).
Proof.
move=> ps HD. rewrite /calc_A_f_Q. have NA := nonlin_at HD. have LA := lin_at HD. move: (HD).
have E0 T (x : option (list T)) st i : (i < N)%coq_nat -> (fill N x st).2 -> at_ (fill N x st).1 0 = at_ (fill N x st).1 i.
{ move=> Hi. rewrite /fill. case: x => [l|] //= _. rewrite /at_ repeat_tab !idx_tab //. lia. }
rewrite /dynamics_at. move: NA LA. rewrite /nonlin_int /lin_int tab_length.
case: (ml_nonlin L ps u t) => [[oa og] oq]. case: (ml_lin L ps u t) => [[oa' og'] oq'].
have Ea := E0 _ oa (ml_Axi L). have Ef := E0 _ og (Some (ml_fxi L)). have Eq := E0 _ oq (ml_Qxi L).
have Ea' := E0 _ oa' (kf_A (ml_kf L)). have Ef' := E0 _ og' (Some (kf_f (ml_kf L))). have Eq' := E0 _ oq' (kf_Q (ml_kf L)).
move: Ea Ef Eq Ea' Ef' Eq'.
case: (fill N oa _) => [a ia]; case: (fill N og _) => [f jf]; case: (fill N oq _) => [q iq].
case: (fill N oa' _) => [a' ia']; case: (fill N og' _) => [f' jf']; case: (fill N oq' _) => [q' iq'] /=.
move=> Ea Ef Eq Ea' Ef' Eq' NA LA HC.
set Qx := match ml_cross L ps u t with None => _ | Some l => _ end.
have HQQ : (forall i, (i < N)%coq_nat -> idx Qx.1 i = Ok (Qc i)) /\ (forall i, (i < N)%coq_nat -> Qx.2 -> idx Qx.1 0 = idx Qx.1 i).
{ rewrite /Qx. split => i Hi.
  - case: (HC i Hi) => [_ [_ [_ [_ [_ [_ H]]]]]]. move: H. case: (ml_cross L ps u t) => [l|]; [|case: (ml_Qxiz L) => [c|]]; rewrite /=.
    + by rewrite /idx => ->.
    + by rewrite repeat_tab idx_tab // => [[->]].
    + by rewrite repeat_tab idx_tab // => ->.
  - case: (ml_cross L ps u t) => [l|] //= _. rewrite repeat_tab !idx_tab //. lia. }
case: Qx HQQ => [c ic] /= [HQx HQ0]. apply: forr_ok => i Hi.
case: (NA i Hi) => [N1 [N2 N3]]. case: (LA i Hi) => [L1 [L2 L3]].
have -> : at_ a (if ia' && ia then 0%nat else i) = Ok (Axi i) by case: ifP => // /andP [? ?]; rewrite (Ea i).
have -> : at_ a' (if ia' && ia then 0%nat else i) = Ok (Az i) by case: ifP => // /andP [? ?]; rewrite (Ea' i).
have -> : at_ f (if jf && jf' then 0%nat else i) = Ok (fxi i) by case: ifP => // /andP [? ?]; rewrite (Ef i).
have -> : at_ f' (if jf && jf' then 0%nat else i) = Ok (fz i) by case: ifP => // /andP [? ?]; rewrite (Ef' i).
have -> : at_ q (if iq && iq' && ic then 0%nat else i) = Ok (Qxi i) by case: ifP => // /andP [/andP [? ?] ?]; rewrite (Eq i).
have -> : at_ q' (if iq && iq' && ic then 0%nat else i) = Ok (Qz i) by case: ifP => // /andP [/andP [? ?] ?]; rewrite (Eq' i).
have -> : idx c (if iq && iq' && ic then 0%nat else i) = Ok (Qc i) by case: ifP => // [/andP [/andP [? ?] ?]|_]; rewrite ?(HQ0 i) ?HQx.
by [].
Qed.

Lemma lognormpdf_cho_ok n (e : 'cV[R]_n) (mu x : 'cV[R]_n) (S U : 'M[R]_n) : posdef S -> chol S = Ok U -> e = x - mu -> lognormpdf_cho e U = normal_logpdf mu S x.
Proof.
move=> HS HU ->. rewrite /lognormpdf_cho /normal_logpdf (proj2 (chol_det (proj1 HS) HU)) (cho_solveE _ (proj1 HS) HU) solve_quad //. exact: (proj1 HS).
Qed.

(** C64: [logp_xnext] is the log density of the next state (xi', z') given the particle's xi and its distribution of z,
    for one next state per particle or one for all; correlated noises included. *)
Theorem C64_logp_xnext : forall lxi lz m U Y Tm (L : mlnlg lxi lz m U Y Tm) N u t (xi : nat -> 'cV[R]_lxi) (z : nat -> 'cV[R]_lz) (P : nat -> 'M[R]_lz) (rest : nat -> row)
  (Axi : nat -> 'M[R]_(lxi, lz)) (fxi : nat -> 'cV[R]_lxi) (Qxi : nat -> 'M[R]_lxi) (Az : nat -> 'M[R]_lz) (fz : nat -> 'cV[R]_lz) (Qz : nat -> 'M[R]_lz) (Qc : nat -> 'M[R]_(lxi, lz)),
  let ps := tab N (fun i => rbrow (xi i) (z i) (P i) (rest i)) in
  (forall i, (i < N)%coq_nat -> dynamics_at L ps u t i (Axi i) (fxi i) (Qxi i) (Az i) (fz i) (Qz i) (Qc i) /\ psd (P i) /\ posdef (noise_cov (Qxi i) (Qc i) (Qz i))) ->
  forall (xn : nat -> 'cV[R]_lxi) (zn : nat -> 'cV[R]_lz) (rest' : nat -> row) next_part,
  (next_part = tab N (fun i => ravel (xn i) ++ ravel (zn i) ++ rest' i)%SEQ \/
   (next_part = cons (ravel (xn 0%nat) ++ ravel (zn 0%nat) ++ rest' 0%nat)%SEQ nil /\ forall i, xn i = xn 0%nat /\ zn i = zn 0%nat)) ->
  exists lp, logp_xnext L ps next_part u t = Ok (tab N lp) /\
    forall i, (i < N)%coq_nat -> exp (lp i) = normal_pdf (joint_mean (Axi i) (fxi i) (Az i) (fz i) (z i)) (joint_cov (Axi i) (Az i) (P i) (Qxi i) (Qc i) (Qz i)) (col_mx (xn i) (zn i)).
Proof.
move=> lxi lz m U Y Tm L N u t xi z P rest Axi fxi Qxi Az fz Qz Qc ps H xn zn rest' next_part Hn.
have HD := fun i Hi => proj1 (H i Hi).
exists (fun i => normal_logpdf (joint_mean (Axi i) (fxi i) (Az i) (fz i) (z i)) (joint_cov (Axi i) (Az i) (P i) (Qxi i) (Qc i) (Qz i)) (col_mx (xn i) (zn i))).
have HJ i (Hi : (i < N)%coq_nat) : posdef (joint_cov (Axi i) (Az i) (P i) (Qxi i) (Qc i) (Qz i)) by case: (H i Hi) => _ [? ?]; exact: joint_posdef.
split; last by move=> i Hi; rewrite normal_pdf_log //; exact: posdef_det (HJ i Hi).
rewrite /logp_xnext get_states_tab (calc_AfQ_ok HD) /= tab_length. apply: forr_ok => i Hi.
set nx := match next_part with nil => _ | _ => _ end.
have [r Hr] : exists r, idx nx i = Ok (ravel (xn i) ++ ravel (zn i) ++ r)%SEQ.
{ rewrite /nx. case: Hn => [->|[-> Hc]].
  - exists (rest' i). rewrite (_ : match tab N _ with nil => _ | _ => _ end = tab N (fun i => ravel (xn i) ++ ravel (zn i) ++ rest' i)%SEQ) ?idx_tab //.
    by case: (N) => [|[|N']].
  - exists (rest' 0%nat). case: (Hc i) => -> ->. case: ifP => HN; first by rewrite repeat_tab idx_tab.
    have -> : i = 0%nat by move/ltP: HN; lia. by []. }
rewrite Hr /= reshape_col !idx_tab //=.
have HJi := HJ i Hi. rewrite /joint_cov in HJi *. case: (chol_total HJi) => Uc HU. rewrite HU /=. congr Ok.
apply: lognormpdf_cho_ok HU _ => //. by rewrite /joint_mean mul_col_mx add_col_mx (addrC (fxi i)) (addrC (fz i)).
Qed.

(** C64: [logp_xnext_singlestep] is the log density of the next nonlinear state given the particle. *)
Theorem C64_logp_singlestep : forall lxi lz m U Y Tm (L : mlnlg lxi lz m U Y Tm) N u t (xi : nat -> 'cV[R]_lxi) (z : nat -> 'cV[R]_lz) (P : nat -> 'M[R]_lz) (rest : nat -> row)
  (Axi : nat -> 'M[R]_(lxi, lz)) (fxi : nat -> 'cV[R]_lxi) (Qxi : nat -> 'M[R]_lxi) (Az : nat -> 'M[R]_lz) (fz : nat -> 'cV[R]_lz) (Qz : nat -> 'M[R]_lz) (Qc : nat -> 'M[R]_(lxi, lz)),
  let ps := tab N (fun i => rbrow (xi i) (z i) (P i) (rest i)) in
  (forall i, (i < N)%coq_nat -> dynamics_at L ps u t i (Axi i) (fxi i) (Qxi i) (Az i) (fz i) (Qz i) (Qc i) /\ psd (P i) /\ posdef (Qxi i)) ->
  forall (xn : nat -> 'cV[R]_lxi) (rest' : nat -> row),
  exists lp, logp_xnext_singlestep L ps (tab N (fun i => ravel (xn i) ++ rest' i)%SEQ) u t = Ok (tab N lp) /\
    forall i, (i < N)%coq_nat -> exp (lp i) = normal_pdf (Axi i *m z i + fxi i) (Axi i *m P i *m (Axi i)^T + Qxi i) (xn i).
Proof.
move=> lxi lz m U Y Tm L N u t xi z P rest Axi fxi Qxi Az fz Qz Qc ps H xn rest'.
have HD := fun i Hi => proj1 (H i Hi). have NA := nonlin_at HD.
exists (fun i => normal_logpdf (Axi i *m z i + fxi i) (Axi i *m P i *m (Axi i)^T + Qxi i) (xn i)).
have HJ i (Hi : (i < N)%coq_nat) : posdef (Axi i *m P i *m (Axi i)^T + Qxi i) by case: (H i Hi) => _ [? ?]; apply: posdef_add => //; exact: psd_cong.
split; last by move=> i Hi; rewrite normal_pdf_log //; exact: posdef_det (HJ i Hi).
rewrite /logp_xnext_singlestep get_states_tab /=. case: (nonlin_int L _ u t) NA => [[[a ?] [f ?]] [q ?]] NA.
rewrite tab_length. apply: forr_ok => i Hi. case: (NA i Hi) => [-> [-> ->]]. rewrite !idx_tab //=.
rewrite -(cat0s (ravel (xn i) ++ rest' i)%SEQ) slice_mid ?sz_cv // reshape_ravel /=. rewrite addrC.
case: (chol_total (HJ i Hi)) => Uc HU. rewrite HU /=. congr Ok. apply: lognormpdf_cho_ok HU _; [exact: HJ|by rewrite (addrC (fxi i))].
Qed.

(** C64: the distribution from which [sample_smooth] draws the linear state is exactly its conditional distribution
    given the next state (xi', z'), for uncorrelated noises; xi is kept.  At the last step it is the filter's. *)
Theorem C64_sample_smooth : forall lxi lz m U Y Tm (L : mlnlg lxi lz m U Y Tm) N u t (xi : nat -> 'cV[R]_lxi) (z : nat -> 'cV[R]_lz) (P : nat -> 'M[R]_lz) (rest : nat -> row)
  (Axi : nat -> 'M[R]_(lxi, lz)) (fxi : nat -> 'cV[R]_lxi) (Qxi : nat -> 'M[R]_lxi) (Az : nat -> 'M[R]_lz) (fz : nat -> 'cV[R]_lz) (Qz : nat -> 'M[R]_lz),
  let ps := tab N (fun i => rbrow (xi i) (z i) (P i) (rest i)) in
  xi_only L ->
  (forall i, (i < N)%coq_nat -> dynamics_at L ps u t i (Axi i) (fxi i) (Qxi i) (Az i) (fz i) (Qz i) 0 /\ posdef (P i) /\ posdef (Qxi i) /\ posdef (Qz i)) ->
  forall mvn (xn : nat -> 'cV[R]_lxi) (zn : nat -> 'cV[R]_lz), exists zs Ps,
    sample_smooth L mvn ps (Some (tab N (fun i => ravel (xn i) ++ ravel (zn i))%SEQ)) u t = Ok (tab N (fun i => ravel (xi i) ++ ravel (mvn i (zs i) (Ps i)))%SEQ) /\
    sample_smooth L mvn ps None u t = Ok (tab N (fun i => ravel (xi i) ++ ravel (mvn i (z i) (P i)))%SEQ) /\
    forall i, (i < N)%coq_nat -> posdef (Ps i) /\
      forall x, (normal_pdf (z i) (P i) x * normal_pdf (joint_mean (Axi i) (fxi i) (Az i) (fz i) x) (noise_cov (Qxi i) 0 (Qz i)) (col_mx (xn i) (zn i)) =
        normal_pdf (joint_mean (Axi i) (fxi i) (Az i) (fz i) (z i)) (joint_cov (Axi i) (Az i) (P i) (Qxi i) 0 (Qz i)) (col_mx (xn i) (zn i)) * normal_pdf (zs i) (Ps i) x)%Re.
Proof.
move=> lxi lz m U Y Tm L N u t xi z P rest Axi fxi Qxi Az fz Qz ps HL H mvn xn zn.
have HD := fun i Hi => proj1 (H i Hi). have HP := fun i Hi => proj1 (proj2 (H i Hi)). have HQ := fun i Hi => proj1 (proj2 (proj2 (H i Hi))). have HQz := fun i Hi => proj2 (proj2 (proj2 (H i Hi))).
set z1 := zc z P Axi fxi Qxi xn. set P1 := Pc P Axi Qxi.
set S2 := fun i => Az i *m P1 i *m (Az i)^T + Qz i.
exists (fun i => z1 i + P1 i *m (Az i)^T *m invmx (S2 i) *m (zn i - (Az i *m z1 i + fz i))), (fun i => P1 i - P1 i *m (Az i)^T *m (invmx (S2 i) *m (Az i *m P1 i))).
have HP1 i (Hi : (i < N)%coq_nat) : posdef (P1 i) by exact: P1_posdef (HP i Hi) (HQ i Hi).
have HD0 : forall i, (i < N)%coq_nat -> dynamics_at L (tab N (fun i => rbrow (xi i) (z i) (P i) (rest i))) u t i (Axi i) (fxi i) (Qxi i) (Az i) (fz i) (Qz i) ((fun _ => 0) i) by exact: HD.
split; [|split].
- rewrite /sample_smooth /sample_smooth_dist.
  rewrite (@mapr_tab _ _ N _ _ xn) /=; last first.
  { by move=> i _; rewrite -(cat0s (ravel (xn i) ++ ravel (zn i))%SEQ) slice_mid ?sz_cv // reshape_ravel. }
  rewrite (@mapr_tab _ _ N _ _ zn) /=; last by move=> i _; rewrite drop_size_cat ?sz_cv // reshape_ravel.
  rewrite (cond_dyn_ok HD0 xn HQ) /= (meas_xi_ok HD0 xn (fun i Hi => posdef_psd (HP i Hi)) HQ) /= get_states_tab /= !tab_length.
  rewrite (@forr_ok _ N _ (fun i => (xi i, z1 i + P1 i *m (Az i)^T *m invmx (S2 i) *m (zn i - (Az i *m z1 i + fz i)), P1 i - P1 i *m (Az i)^T *m (invmx (S2 i) *m (Az i *m P1 i))))) /=; last first.
  { move=> i Hi. rewrite !idx_tab //=. rewrite /Ac /fc trmx0 !mul0mx subr0 addr0. rewrite (measure_ok _ _ _ _ (posdef_psd (HP1 i Hi)) (HQz i Hi)) //. }
  by apply: forr_ok => i Hi; rewrite idx_tab.
- rewrite /sample_smooth /sample_smooth_dist get_states_tab /= tab_length. by apply: forr_ok => i Hi; rewrite idx_tab.
- move=> i Hi. have HPs := P1_posdef (Az i) (HP1 i Hi) (HQz i Hi). split => // x.
  have HN := diag_posdef (HQ i Hi) (HQz i Hi). have HJ := joint_posdef (Axi i) (Az i) (posdef_psd (HP i Hi)) HN.
  rewrite !normal_pdf_log; [|exact: posdef_det HPs|exact: posdef_det HJ|exact: posdef_det HN|exact: posdef_det (HP i Hi)].
  rewrite -!exp_plus. congr exp.
  have B1 := gauss_bayes_log (Axi i) (HP i Hi) (HQ i Hi) (z i) x (xn i) (fxi i).
  have B2 := gauss_bayes_log (Az i) (HP1 i Hi) (HQz i Hi) (z1 i) x (zn i) (fz i).
  have J1 := joint_logpdf HN (Axi i *m x + fxi i) (xn i) (Az i *m x + fz i) (zn i).
  rewrite trmx0 !mul0mx subr0 addr0 in J1.
  case: (@joint_cond _ _ z P Axi fxi Qxi Az fz Qz (fun _ => 0) xn i (posdef_psd (HP i Hi)) HN) => _ J2. move: (J2 (zn i)). rewrite /Ac /fc trmx0 !mul0mx !subr0 addr0 (addrC (fz i)) => {}J2.
  rewrite /joint_mean in J2 *. rewrite J2 {1}/noise_cov trmx0 J1. rewrite -/z1 -/P1 in J2 *. rewrite -/(z1 i) -/(P1 i) in B1.
  move: B1 B2. rewrite -/(S2 i).
  suff H0 : forall a b c d e f g : R, (a + b = c + d)%Re -> (d + e = f + g)%Re -> (a + (b + e) = c + f + g)%Re by exact: H0.
  by move=> a b c d e f g; lra.
Qed.

Lemma mapr_in A B (f : A -> res B) l r b : mapr f l = Ok r -> List.In b r -> exists a, List.In a l /\ f a = Ok b.
Proof.
elim: l r => [|a l IH] r /=; first by move=> [<-].
case E : (f a) => [c|//] /=. case El : (mapr f l) => [r'|//] /= [<-] [<-|Hb]; first by exists a; split; [left|].
case: (IH _ El Hb) => a' [H1 H2]. by exists a'; split; [right|].
Qed.

(** ** C41: the bound used by rejection sampling *)
Lemma fold_max_ge (l : list R) a : (a <= List.fold_left Rmax l a)%Re /\ forall x, List.In x l -> (x <= List.fold_left Rmax l a)%Re.
Proof.
elim: l a => [|b l IH] a /=; first by split => //; lra. case: (IH (Rmax a b)) => H1 H2. have := Rmax_l a b. have := Rmax_r a b. move=> Hr Hl.
split; first by lra. by move=> x [<-|Hx]; [lra|exact: H2].
Qed.
Lemma rmax_ge (l : list R) v x : rmax l = Ok v -> List.In x l -> (x <= v)%Re.
Proof. case: l => [//|a l] /= [<-]. case: (fold_max_ge l a) => H1 H2. by case=> [<- //|]; exact: H2. Qed.
Lemma normal_logpdf_le n (mu x : 'cV[R]_n) (S : 'M[R]_n) : posdef S -> (normal_logpdf mu S x <= - (1 / 2) * (INR n * ln (2 * PI) + ln (\det S)))%Re.
Proof. move=> HS. rewrite /normal_logpdf. have := proj2 (posdef_psd (posdef_inv HS)) (x - mu). lra. Qed.

(** C41 for mixed linear/nonlinear models: the bound is at least the log density of every next state, for every
    particle, whether the noises are correlated or not. *)
Theorem C41_mlnlg_bound : forall lxi lz m U Y Tm (L : mlnlg lxi lz m U Y Tm) N u t (xi : nat -> 'cV[R]_lxi) (z : nat -> 'cV[R]_lz) (P : nat -> 'M[R]_lz) (rest : nat -> row)
  (Axi : nat -> 'M[R]_(lxi, lz)) (fxi : nat -> 'cV[R]_lxi) (Qxi : nat -> 'M[R]_lxi) (Az : nat -> 'M[R]_lz) (fz : nat -> 'cV[R]_lz) (Qz : nat -> 'M[R]_lz) (Qc : nat -> 'M[R]_(lxi, lz)),
  let ps := tab N (fun i => rbrow (xi i) (z i) (P i) (rest i)) in
  (forall i, (i < N)%coq_nat -> dynamics_at L ps u t i (Axi i) (fxi i) (Qxi i) (Az i) (fz i) (Qz i) (Qc i) /\ psd (P i) /\ posdef (noise_cov (Qxi i) (Qc i) (Qz i))) ->
  (0 < N)%coq_nat ->
  exists bound, logp_xnext_max L ps u t = Ok bound /\
    forall next_part lps lp, logp_xnext L ps next_part u t = Ok lps -> List.In lp lps -> (lp <= bound)%Re.
Proof.
move=> lxi lz m U Y Tm L N u t xi z P rest Axi fxi Qxi Az fz Qz Qc ps H HN.
have HD := fun i Hi => proj1 (H i Hi).
have HJ i (Hi : (i < N)%coq_nat) : posdef (joint_cov (Axi i) (Az i) (P i) (Qxi i) (Qc i) (Qz i)) by case: (H i Hi) => _ [? ?]; exact: joint_posdef.
set b := fun i => (- (1 / 2) * (INR (lxi + lz) * ln (2 * PI) + ln (\det (joint_cov (Axi i) (Az i) (P i) (Qxi i) (Qc i) (Qz i)))))%Re.
have E : logp_xnext_max L ps u t = rmax (tab N b).
{ rewrite /logp_xnext_max get_states_tab (calc_AfQ_ok HD) /= tab_length.
  rewrite (@forr_ok _ N _ b) //. move=> i Hi. rewrite !idx_tab //=. have HJi := HJ i Hi. rewrite /b /joint_cov addrC in HJi *.
  case: (chol_total HJi) => Uc HU. by rewrite HU /= (proj2 (chol_det (proj1 HJi) HU)). }
have [v Ev] : exists v, rmax (tab N b) = Ok v by case: (N) HN => [|N'] HN; [lia|eexists; reflexivity].
exists v. split; first by rewrite E. move=> next_part lps lp. rewrite /logp_xnext get_states_tab (calc_AfQ_ok HD) /= tab_length => Hl.
move=> Hin. case: (mapr_in Hl Hin) => i [/List.in_seq Hi]. have {}Hi : (i < N)%coq_nat by lia.
case: (idx _ i) => [p|//] /=. case: (reshape _ _ _) => [xnx|//] /=. rewrite !idx_tab //=. have HJi := HJ i Hi.
move: (HJi). rewrite {1}/joint_cov => HJi'. case: (chol_total HJi') => Uc HU. rewrite HU /= => [[<-]].
have Hb : List.In (b i) (tab N b) by apply: (List.nth_error_In _ i); exact: tab_nth.
apply: (Rle_trans _ (b i)); last exact: rmax_ge Ev Hb.
rewrite (lognormpdf_cho_ok (mu := col_mx (fxi i) (fz i) + col_mx (Axi i) (Az i) *m z i) (x := xnx) HJi' HU) //. exact: normal_logpdf_le.
Qed.

(** C45: with correlated noises the conditional covariance is never right: whenever Qc' Qxi^-1 Qc is not zero for a
    particle, the new mean and covariance are not those of z' given xi'. *)
Theorem C45_correlated_refuted : forall lxi lz m U Y Tm (L : mlnlg lxi lz m U Y Tm) N u t (xi : nat -> 'cV[R]_lxi) (z : nat -> 'cV[R]_lz) (P : nat -> 'M[R]_lz) (rest : nat -> row)
  (Axi : nat -> 'M[R]_(lxi, lz)) (fxi : nat -> 'cV[R]_lxi) (Qxi : nat -> 'M[R]_lxi) (Az : nat -> 'M[R]_lz) (fz : nat -> 'cV[R]_lz) (Qz : nat -> 'M[R]_lz) (Qc : nat -> 'M[R]_(lxi, lz)),
  let ps := tab N (fun i => rbrow (xi i) (z i) (P i) (rest i)) in
  xi_only L ->
  (forall i, (i < N)%coq_nat -> dynamics_at L ps u t i (Axi i) (fxi i) (Qxi i) (Az i) (fz i) (Qz i) (Qc i) /\ psd (P i) /\ posdef (noise_cov (Qxi i) (Qc i) (Qz i))) ->
  forall (xn : nat -> 'cV[R]_lxi) flat z1 P1 i, (i < N)%coq_nat -> flat = false \/ lxi = 1%nat ->
  cond_predict L flat ps (tab N xn) u t = Ok (tab N (fun i => rbrow (xn i) (z1 i) (P1 i) (rest i))) -> posdef (P1 i) ->
  (Qc i)^T *m invmx (Qxi i) *m Qc i <> 0 ->
  ~ (forall z', normal_pdf (joint_mean (Axi i) (fxi i) (Az i) (fz i) (z i)) (joint_cov (Axi i) (Az i) (P i) (Qxi i) (Qc i) (Qz i)) (col_mx (xn i) z') =
        (normal_pdf (Axi i *m z i + fxi i)%mx (Axi i *m P i *m (Axi i)^T + Qxi i)%mx (xn i) * normal_pdf (z1 i) (P1 i) z')%Re).
Proof.
move=> lxi lz m U Y Tm L N u t xi z P rest Axi fxi Qxi Az fz Qz Qc ps HL H xn flat z1 P1 i Hi Hf E HP1 Hc Hd.
have Hf' : flat = false \/ lxi = 1%nat \/ (ml_cross L ps u t = None /\ ml_Qxiz L = None) by case: Hf => ?; [left|right; left].
case: (C45_cond_predict HL H xn Hf') => z2 [P2 [E2 HE]]. case: (HE i Hi) => HT {}HE.
have [Ez EP] : z2 i = z1 i /\ P2 i = P1 i.
{ move: E2. rewrite -/ps E => [[E2]]. have := congr1 (fun l => nth_error l i) E2. rewrite !tab_nth // => [[{}E2]].
  have := get_rbrow (xn i) (z1 i) (P1 i) (rest i). rewrite E2 get_rbrow => [[-> ->]] //. }
rewrite Ez EP in HE HT. case: Hc.
have HS : posdef (Axi i *m P i *m (Axi i)^T + Qxi i).
{ case: (H i Hi) => _ [HPi HNi]. apply: posdef_add (S11_posdef HNi). exact: psd_cong. }
have Hp : (0 < normal_pdf (Axi i *m z i + fxi i)%mx (Axi i *m P i *m (Axi i)^T + Qxi i)%mx (xn i))%Re by rewrite normal_pdf_log; [exact: exp_pos|exact: posdef_det].
have HH : forall z', normal_pdf (z1 i) (P1 i) z' = normal_pdf (z1 i) (P1 i - (Qc i)^T *m invmx (Qxi i) *m Qc i) z'.
{ move=> z'. have := HE z'. rewrite Hd => /Rmult_eq_reg_l; apply. by move=> H0; rewrite H0 in Hp; lra. }
case: (normal_pdf_inj HP1 HT HH) => _ /eqP. rewrite -subr_eq0 opprB addrCA subrr addr0 => /eqP //.
Qed.

(** ** Examples *)
(** one nonlinear and two linear states *)
Definition exL (Qc : option 'M[R]_(1, 2)) : mlnlg 1 2 1 unit unit unit :=
  ml_init (Some ex_P) (Some ex_C) (Some ex_P) (Some ex_R) (Some ex_u) (Some ex_C) (Some ex_R) Qc None None
    (fun _ _ _ => (None, None, None)) (fun _ _ _ => (None, None, None)) (fun _ _ _ => (const_mx 5%Re, None, None, None)) (fun _ _ _ => None).
Lemma exL_xi_only Qc : xi_only (exL Qc). Proof. by []. Qed.
Lemma exL_dyn ps i : dynamics_at (exL None) ps tt tt i ex_C 0 ex_R ex_P ex_u ex_P 0. Proof. by []. Qed.
Example C63_case : exists (z1 : nat -> 'cV[R]_2) (P1 : nat -> 'M[R]_2), rb_update (exL None) (tab 3 (fun i => rbrow (const_mx (INR i) : 'cV[R]_1) ex_u ex_P nil)) tt tt (tab 3 (fun _ => 0)) =
  Ok (tab 3 (fun i => rbrow (ex_C *m ex_u + 0 + 0) (z1 i) (P1 i) nil)).
Proof.
have HP := posdef_psd ex_P_posdef.
case: (@C63_update_exact _ _ _ _ _ (exL None) 3 tt tt (fun i => const_mx (INR i)) (fun _ => ex_u) (fun _ => ex_P) (fun _ => nil)
  (fun _ => ex_C) (fun _ => 0) (fun _ => ex_R) (fun _ => ex_P) (fun _ => ex_u) (fun _ => ex_P) (@exL_xi_only None)) => [|_ H].
{ by move=> i _; split; [exact: exL_dyn|split; [|split; [exact: ex_R_posdef|exact: ex_P_posdef]]]. }
case: (H (fun _ => 0)) => z1 [P1 [E _]]. by exists z1, P1.
Qed.
(** two nonlinear states: the update raises *)
Example C63_case_two : exists (L : mlnlg 2 1 1 unit unit unit), rb_update L (tab 3 (fun i => rbrow (const_mx (INR i) : 'cV[R]_2) (0 : 'cV[R]_1) 0 nil)) tt tt nil = Err ValueError.
Proof.
pose L := ml_init (lxi := 2) (lz := 1) (m := 1) (U := unit) (Y := unit) (Tm := unit) (Some 0) None (Some 0) None None (Some 0) (Some 0) None None None
  (fun _ _ _ => (None, None, None)) (fun _ _ _ => (None, None, None)) (fun _ _ _ => (0, None, None, None)) (fun _ _ _ => None).
exists L. apply: (@C63_update_refuted _ _ _ _ _ _ L 3 tt tt _ _ _ _ (fun _ => 0) (fun _ => 0) (fun _ => 0) (fun _ => 0) (fun _ => 0) (fun _ => 0) (fun _ => 0)) => //. lia.
Qed.
Lemma ex_noise_posdef : posdef (noise_cov (1%:M + 1%:M : 'M[R]_1) (1%:M : 'M[R]_1) (1%:M : 'M[R]_1)).
Proof.
split; first by rewrite /symmetric /noise_cov tr_block_mx trmxK trD !trmx1.
move=> x. rewrite -[x]vsubmxK. move: (usubmx x) (dsubmx x) => a b Hx. rewrite /noise_cov quad_block.
rewrite (mx11 a) (mx11 b) in Hx *. move: (a ord0 ord0) (b ord0 ord0) Hx => p q Hx.
have Q1 r : quad (1%:M : 'M[R]_1) r%:M = (r * r)%Re by rewrite /quad tr_scalar_mx mulmx1 -scalar_mxM mxE eqxx.
rewrite quadD !Q1 tr_scalar_mx mulmx1 -scalar_mxM /scal11 mxE eqxx mulr1n rmulE.
have [Hp|Hp] : p <> 0%Re \/ q <> 0%Re.
{ case: (Req_EM_T p 0) => Ep; [right|by left]. move=> Eq. move: Hx. by rewrite Ep Eq -r0E !raddf0 col_mx0 eqxx. }
- have : (0 < p * p)%Re by exact: Rsqr_pos_lt. have := Rle_0_sqr (p + q). rewrite /Rsqr. lra.
- have : (0 < q * q)%Re by exact: Rsqr_pos_lt. have := Rle_0_sqr (2 * p + q). rewrite /Rsqr. lra.
Qed.
(** correlated noises: the hypotheses of C45 are met *)
Example C45_case : let L := ml_init (lxi := 1) (lz := 1) (m := 1) (U := unit) (Y := unit) (Tm := unit) (Some 1%:M) None (Some 1%:M) None None (Some 1%:M) (Some (1%:M + 1%:M)) (Some 1%:M) None None
  (fun _ _ _ => (None, None, None)) (fun _ _ _ => (None, None, None)) (fun _ _ _ => (0, None, None, None)) (fun _ _ _ => None) in
  exists (z1 : nat -> 'cV[R]_1) (P1 : nat -> 'M[R]_1), cond_predict L true (tab 3 (fun i => rbrow (const_mx (INR i) : 'cV[R]_1) (0 : 'cV[R]_1) 1%:M nil)) (tab 3 (fun i => const_mx 7%Re)) tt tt = Ok (tab 3 (fun i => rbrow (const_mx 7%Re : 'cV[R]_1) (z1 i) (P1 i) nil)) /\
  posdef (P1 0%nat : 'M[R]_1) /\ (1%:M : 'M[R]_1)^T *m invmx (1%:M + 1%:M : 'M[R]_1) *m 1%:M <> 0.
Proof.
move=> L. have H1 : posdef (1%:M + 1%:M : 'M[R]_1) by apply: posdef_add; [exact: posdef_psd (posdef1 _)|exact: posdef1].
case: (@C45_cond_predict _ _ _ _ _ _ L 3 tt tt (fun i => const_mx (INR i)) (fun _ => 0) (fun _ => 1%:M) (fun _ => nil)
  (fun _ => 1%:M) (fun _ => 0) (fun _ => 1%:M + 1%:M) (fun _ => 1%:M) (fun _ => 0) (fun _ => 1%:M) (fun _ => 1%:M) _ _ (fun _ => const_mx 7%Re) true) => //.
- move=> i _; split; first by []. split; [exact: posdef_psd (posdef1 _)|exact: ex_noise_posdef].
- by right; left.
- move=> z1 [P1 [E H]]. exists z1, P1. split => //. case: (H 0%nat) => [|HP _]; first lia. split.
  + have -> : P1 0%nat = (1%:M : 'M[R]_1)^T *m invmx (1%:M + 1%:M : 'M[R]_1) *m 1%:M + (P1 0%nat - (1%:M : 'M[R]_1)^T *m invmx (1%:M + 1%:M : 'M[R]_1) *m 1%:M) by mxab.
    apply: posdef_add => //. rewrite trmx1 mul1mx mulmx1. exact: posdef_psd (posdef_inv H1).
  + rewrite trmx1 mul1mx mulmx1 => H0. have := posdef_unit (posdef_inv H1). rewrite H0. by rewrite unitmxE det0 unitr0.
Qed.
Example C64_case : exists (bound : R), logp_xnext_max (exL None) (tab 3 (fun i => rbrow (const_mx (INR i) : 'cV[R]_1) ex_u ex_P nil)) tt tt = Ok bound.
Proof.
case: (@C41_mlnlg_bound _ _ _ _ _ _ (exL None) 3 tt tt (fun i => const_mx (INR i)) (fun _ => ex_u) (fun _ => ex_P) (fun _ => nil)
  (fun _ => ex_C) (fun _ => 0) (fun _ => ex_R) (fun _ => ex_P) (fun _ => ex_u) (fun _ => ex_P) (fun _ => 0)) => [||b [E _]]; [|lia|by exists b].
move=> i _; split; first exact: exL_dyn. split; first exact: posdef_psd ex_P_posdef. exact: diag_posdef ex_R_posdef ex_P_posdef.
Qed.
Print Assumptions C45_cond_predict.
Print Assumptions C64_sample_smooth.
