(** Lemmas on rows xi | z | P | rest, on lists indexed by particle number, and on jointly Gaussian vectors. *)
From mathcomp Require Import all_ssreflect all_algebra.
From Coq Require Import Reals Lra List Lia.
From Verif Require Import Base RMat KalmanModel LinAlg Gauss Moments Storage MlnlgModel Prop_Kalman.
Set Implicit Arguments.
Unset Strict Implicit.
Unset Printing Implicit Defensive.
Import GRing.Theory.
Local Open Scope ring_scope.

(** ** Lists indexed by particle number *)
(** the list f 0, f 1, ..., f (N-1) *)
Definition tab (T : Type) (N : nat) (f : nat -> T) : list T := List.map f (List.seq 0 N).
Lemma tab_length T N (f : nat -> T) : List.length (tab N f) = N.
Proof. by rewrite /tab List.map_length List.seq_length. Qed.
Lemma tab_nth T N (f : nat -> T) i : (i < N)%coq_nat -> nth_error (tab N f) i = Some (f i).
Proof.
move=> H. rewrite /tab List.nth_error_map. rewrite (List.nth_error_nth' _ 0%nat); last by rewrite List.seq_length.
by rewrite List.seq_nth.
Qed.
Lemma idx_tab T N (f : nat -> T) i : (i < N)%coq_nat -> idx (tab N f) i = Ok (f i).
Proof. by move=> H; rewrite /idx tab_nth. Qed.
Lemma tab_ext T N (f g : nat -> T) : (forall i, (i < N)%coq_nat -> f i = g i) -> tab N f = tab N g.
Proof. move=> H. apply: List.map_ext_in => i /List.in_seq Hi. apply: H. lia. Qed.
Lemma forr_ok B N (f : nat -> res B) g : (forall i, (i < N)%coq_nat -> f i = Ok (g i)) -> forr N f = Ok (tab N g).
Proof. move=> H. apply: mapr_ok_in => i /List.in_seq Hi. apply: H. lia. Qed.
Lemma mapr_tab A B N (g : nat -> A) (f : A -> res B) h : (forall i, (i < N)%coq_nat -> f (g i) = Ok (h i)) -> mapr f (tab N g) = Ok (tab N h).
Proof.
rewrite /tab. have : forall i, List.In i (List.seq 0 N) -> (i < N)%coq_nat by move=> i /List.in_seq Hi; lia.
elim: (List.seq 0 N) => [//|a l IH] /= Hl H. rewrite H /=; last by apply: Hl; left. rewrite IH //. by move=> i Hi; apply: Hl; right.
Qed.
Lemma map2r_tab A B C N (a : nat -> A) (b : nat -> B) (f : A -> B -> res C) h : (forall i, (i < N)%coq_nat -> f (a i) (b i) = Ok (h i)) -> map2r f (tab N a) (tab N b) = Ok (tab N h).
Proof.
rewrite /tab. have : forall i, List.In i (List.seq 0 N) -> (i < N)%coq_nat by move=> i /List.in_seq Hi; lia.
elim: (List.seq 0 N) => [//|x l IH] /= Hl H. rewrite H /=; last by apply: Hl; left. rewrite IH //. by move=> i Hi; apply: Hl; right.
Qed.
Lemma map_tab A B N (f : nat -> A) (g : A -> B) : List.map g (tab N f) = tab N (fun i => g (f i)).
Proof. by rewrite /tab List.map_map. Qed.
Lemma repeat_tab A N (a : A) : List.repeat a N = tab N (fun _ => a).
Proof. rewrite /tab. elim: N 0%nat => [//|N IH] s /=. by rewrite (IH s.+1). Qed.
(** every list is such a table *)
Lemma tab_ex T (d : T) (l : list T) : exists f, l = tab (List.length l) f.
Proof.
exists (fun i => List.nth i l d). apply: (List.nth_ext _ _ d d); first by rewrite tab_length.
move=> i Hi. rewrite (List.nth_error_nth _ _ _ (tab_nth (fun i => List.nth i l d) Hi)) //.
Qed.

(** ** Which matrix is in effect for particle i *)
(** the user's list entry if the callback returned a list, else the stored matrix *)
Definition given T (x : option (list T)) (stored : option T) (i : nat) (v : T) : Prop :=
  match x with Some l => nth_error l i = Some v | None => stored = Some v end.
Lemma at_fill T N (x : option (list T)) stored i v : (i < N)%coq_nat -> given x stored i v -> at_ (fill N x stored).1 i = Ok v.
Proof.
rewrite /at_ /fill /given /idx. case: x => [l|] Hi /= H.
- by rewrite List.nth_error_map H.
- by rewrite (repeat_tab N) tab_nth //= H.
Qed.

(** ** Rows *)
Definition rbrow lxi lz (xi : 'cV[R]_lxi) (z : 'cV[R]_lz) (P : 'M[R]_lz) (rest : row) : row := (ravel xi ++ ravel z ++ ravel P ++ rest)%SEQ.
Section Rows.
Variables lxi lz : nat.
Implicit Types (xi : 'cV[R]_lxi) (z : 'cV[R]_lz) (P : 'M[R]_lz).
Lemma sz_cv n (v : 'cV[R]_n) : size (ravel v) = n. Proof. by rewrite size_ravel muln1. Qed.
Lemma get_rbrow xi z P rest : get_state3 (rbrow xi z P rest) = Ok (xi, z, P).
Proof.
rewrite /get_state3 /rbrow /slice drop0 subn0 take_size_cat ?sz_cv // reshape_ravel /=.
rewrite drop_size_cat ?sz_cv // addKn take_size_cat ?sz_cv // reshape_ravel /=.
by rewrite addKn catA drop_size_cat ?size_cat ?sz_cv // take_size_cat ?size_ravel // reshape_ravel.
Qed.
Lemma set_mid (a b c v : row) i j : size a = i -> (i + size b)%nat = j -> size v = size b -> set_slice (a ++ b ++ c)%SEQ i j v = Ok (a ++ v ++ c)%SEQ.
Proof.
move=> Ha Hj Hv. rewrite -Hj set_slice_ok ?leq_addr ?addKn // ?size_cat ?Ha ?leq_add2l ?leq_addr //.
congr (Ok (_ ++ (_ ++ _)))%SEQ; first by rewrite take_size_cat. by rewrite catA drop_size_cat // size_cat Ha.
Qed.
Lemma slice_mid (a b c : row) i j : size a = i -> (i + size b)%nat = j -> slice (a ++ b ++ c)%SEQ i j = b.
Proof. by move=> Ha Hj; rewrite /slice -Hj addKn drop_size_cat // take_size_cat. Qed.
Lemma set_rbrow xi z P xi' z' P' rest : set_state3 (rbrow xi z P rest) (xi', z', P') = Ok (rbrow xi' z' P' rest).
Proof.
rewrite /set_state3 /rbrow (@set_mid nil) ?sz_cv //= (@set_mid (ravel xi')) ?sz_cv //=.
by rewrite catA (@set_mid (ravel xi' ++ ravel z')%SEQ) ?size_cat ?size_ravel ?muln1 // -!catA.
Qed.
Lemma take_rbrow xi z P rest : seq.take lxi (rbrow xi z P rest) = ravel xi.
Proof. by rewrite /rbrow take_size_cat ?sz_cv. Qed.
Lemma xi_rbrow xi z P rest : reshape lxi 1 (slice (rbrow xi z P rest) 0 lxi) = Ok xi.
Proof. by rewrite /slice drop0 subn0 take_rbrow reshape_ravel. Qed.
Lemma get_Mz_rbrow xi z P (M : 'M[R]_lz) rest : get_Mz3 (lxi := lxi) (rbrow xi z P (ravel M ++ rest)%SEQ) = Ok M.
Proof. by rewrite /get_Mz3 /rbrow !catA -(catA _ _ rest) slice_mid ?size_cat ?size_ravel ?muln1 // reshape_ravel. Qed.
Lemma set_Mz_rbrow xi z P (M M' : 'M[R]_lz) rest : set_Mz3 (lxi := lxi) (rbrow xi z P (ravel M ++ rest)%SEQ) M' = Ok (rbrow xi z P (ravel M' ++ rest)%SEQ).
Proof. by rewrite /set_Mz3 /rbrow !catA -!(catA _ _ rest) set_mid ?size_cat ?size_ravel ?muln1. Qed.
Lemma ravel_ex a b (l : row) : size l = (a * b)%nat -> exists M : 'M[R]_(a, b), l = ravel M.
Proof.
move=> Hl. exists (\matrix_(i, j) seq.nth 0%Re l (i * b + j)%nat). apply: (@eq_from_nth _ 0%Re); first by rewrite size_ravel.
move=> k Hk. rewrite nth_mkseq; last by rewrite -Hl. rewrite Hl in Hk. have Hb : (0 < b)%nat by case: b Hk {Hl} => //; rewrite muln0.
have H1 : (k %/ b < a)%nat by rewrite ltn_divLR. have H2 : (k %% b < b)%nat by rewrite ltn_mod.
by rewrite /mget !insubT !mxE /= -divn_eq.
Qed.
(** every row that is long enough is of that form *)
Lemma rbrow_ex (p : row) : (lxi + lz + lz * lz <= size p)%nat -> exists xi z P rest, p = rbrow xi z P rest.
Proof.
move=> H. have H1 : (lxi <= size p)%nat by apply: leq_trans H; rewrite -addnA leq_addr.
have H2 : (lz + lz * lz <= size (drop lxi p))%nat by rewrite size_drop leq_subRL // addnA.
have H3 : (lz <= size (drop lxi p))%nat by exact: leq_trans (leq_addr _ _) H2.
case: (@ravel_ex lxi 1%nat (seq.take lxi p)) => [|xi Exi]; first by rewrite size_takel ?muln1.
case: (@ravel_ex lz 1%nat (seq.take lz (drop lxi p))) => [|z Ez]; first by rewrite size_takel ?muln1.
case: (@ravel_ex lz lz (seq.take (lz * lz) (drop lz (drop lxi p)))) => [|P EP]; first by rewrite size_takel // (size_drop lz) leq_subRL.
exists xi, z, P, (drop (lz * lz) (drop lz (drop lxi p))). by rewrite /rbrow -Exi -Ez -EP !cat_take_drop.
Qed.

Lemma get_states_tab N (xi : nat -> 'cV[R]_lxi) (z : nat -> 'cV[R]_lz) (P : nat -> 'M[R]_lz) rest :
  get_states3 (tab N (fun i => rbrow (xi i) (z i) (P i) (rest i))) = Ok (tab N (fun i => (xi i, z i, P i))).
Proof. apply: mapr_tab => i _; exact: get_rbrow. Qed.
Lemma set_states_tab N (xi : nat -> 'cV[R]_lxi) (z : nat -> 'cV[R]_lz) (P : nat -> 'M[R]_lz) (xi' : nat -> 'cV[R]_lxi) (z' : nat -> 'cV[R]_lz) (P' : nat -> 'M[R]_lz) rest :
  set_states3 (tab N (fun i => rbrow (xi i) (z i) (P i) (rest i))) (tab N (fun i => (xi' i, z' i, P' i))) = Ok (tab N (fun i => rbrow (xi' i) (z' i) (P' i) (rest i))).
Proof. apply: map2r_tab => i _; exact: set_rbrow. Qed.
End Rows.

(** ** Jointly Gaussian vectors *)
Lemma add00 (A B : 'M[R]_1) : (A + B) ord0 ord0 = (A ord0 ord0 + B ord0 ord0)%Re. Proof. by rewrite mxE. Qed.
Lemma opp00 (A : 'M[R]_1) : (- A) ord0 ord0 = (- A ord0 ord0)%Re. Proof. by rewrite mxE. Qed.
Section Joint.
Variables n1 n2 : nat.
Variables (S11 : 'M[R]_n1) (S12 : 'M[R]_(n1, n2)) (S22 : 'M[R]_n2).
Let S : 'M[R]_(n1 + n2) := block_mx S11 S12 S12^T S22.
Hypothesis HS : posdef S.
Let T := S22 - S12^T *m invmx S11 *m S12.

Lemma quad_block (x : 'cV[R]_n1) (y : 'cV[R]_n2) :
  quad S (col_mx x y) = (quad S11 x + 2 * scal11 (x^T *m S12 *m y) + quad S22 y)%Re.
Proof.
rewrite /quad /S tr_col_mx mul_row_block mul_row_col !mulmxDl !add00 /scal11.
rewrite (_ : y^T *m S12^T *m x = (x^T *m S12 *m y)^T); last by rewrite !trmx_mul trmxK mulmxA.
rewrite scal_tr. suff H : forall a b c : R, (a + b + (b + c) = a + 2 * b + c)%Re by exact: H.
by move=> a b c; lra.
Qed.
Lemma S11_posdef : posdef S11.
Proof.
case: HS => [SS PS]. split.
- move: SS. rewrite /symmetric /S tr_block_mx. by case/eq_block_mx.
- move=> x Hx. have := PS (col_mx x 0). rewrite quad_block quad0 mulmx0 /scal11 mxE Rmult_0_r !Rplus_0_r. apply.
  apply: contra_neq Hx. by rewrite -col_mx0 => /eq_col_mx [].
Qed.
Lemma S22_sym : symmetric S22.
Proof. move: (proj1 HS). rewrite /symmetric /S tr_block_mx. by case/eq_block_mx. Qed.
Let u11 : S11 \in unitmx := posdef_unit S11_posdef.
Lemma T_posdef : posdef T.
Proof.
have S1s := proj1 S11_posdef. have SI := sym_inv S1s. split.
- rewrite /symmetric /T trB !trmx_mul trmxK SI S22_sym mulmxA //.
- move=> y Hy. have := (proj2 HS) (col_mx (- (invmx S11 *m S12 *m y)) y). rewrite quad_block.
  rewrite (_ : quad S11 (- (invmx S11 *m S12 *m y)) = quad (S12^T *m invmx S11 *m S12) y); last first.
  { rewrite /quad trN mulmxN !mulNmx opprK !trmx_mul SI !mulmxA. by rewrite (mulmxKV u11). }
  rewrite (_ : scal11 _ = (- quad (S12^T *m invmx S11 *m S12) y)%Re); last first.
  { rewrite /scal11 /quad trN !mulNmx mxE rE !trmx_mul SI !mulmxA //. }
  move=> H. have : (0 < quad S22 y - quad (S12^T *m invmx S11 *m S12) y)%Re.
  { set q := quad (S12^T *m _ *m _) y in H *. set q' := quad S22 y in H *. suff : (0 < q + 2 * - q + q')%Re by lra.
    apply: H. apply: contra_neq Hy. by rewrite -col_mx0 => /eq_col_mx []. }
  by rewrite /T quadD quadN.
Qed.
Lemma joint_logpdf (m1 x : 'cV[R]_n1) (m2 z : 'cV[R]_n2) :
  normal_logpdf (col_mx m1 m2) S (col_mx x z) = (normal_logpdf m1 S11 x + normal_logpdf (m2 + S12^T *m invmx S11 *m (x - m1))%mx T z)%Re.
Proof.
have uT := posdef_unit T_posdef. have uS := posdef_unit HS. have SI := sym_inv (proj1 S11_posdef). have STI := sym_inv (proj1 T_posdef).
set e1 := x - m1. set e2 := z - m2. set e := z - (m2 + S12^T *m invmx S11 *m e1).
have Ee : e2 = e + S12^T *m invmx S11 *m e1 by rewrite /e2 /e; mxab.
set w := col_mx (invmx S11 *m (e1 - S12 *m (invmx T *m e))) (invmx T *m e).
have Hw : S *m w = col_mx e1 e2.
{ rewrite /S /w mul_block_col. congr col_mx.
  - by rewrite mulmxA (mulmxV u11) mul1mx mulmxA subrK.
  - rewrite Ee mulmxBr mulmxBr !mulmxA. rewrite [RHS]addrC -{3}[e]mul1mx -(mulmxV uT) -addrA. congr (_ + _).
    rewrite {3}/T !mulmxBl addrC //. }
have Hq : quad (invmx S) (col_mx e1 e2) = (quad (invmx S11) e1 + quad (invmx T) e)%Re.
{ rewrite /quad. rewrite -mulmxA -{2}Hw (mulKmx uS) /w tr_col_mx mul_row_col.
  have -> : e2^T = e^T + e1^T *m invmx S11 *m S12 by rewrite Ee [LHS]trD !trmx_mul trmxK SI mulmxA.
  rewrite mulmxDl mulmxBr mulmxBr !mulmxA.
  rewrite addrA addrAC subrK add00 //. }
have Hd : ln (\det S) = (ln (\det S11) + ln (\det T))%Re.
{ rewrite /S det_schur_ul // -ln_mult //; [exact: (posdef_det S11_posdef)|exact: (posdef_det T_posdef)]. }
rewrite /normal_logpdf opp_col_mx add_col_mx Hq Hd -/e1 -/e plus_INR.
move: (quad _ _) (quad _ _) (ln (\det S11)) (ln (\det T)) => a b c d. lra.
Qed.
End Joint.

(** A normal density determines its mean and covariance. *)
Lemma quad_inj n (A B : 'M[R]_n) : symmetric A -> symmetric B -> (forall x, quad A x = quad B x) -> A = B.
Proof.
move=> SA SB H.
have Pol (M : 'M[R]_n) x y : symmetric M -> (quad M (x + y) = quad M x + quad M y + 2 * scal11 (x^T *m M *m y))%Re.
{ move=> SM. rewrite /quad trD !mulmxDl !mulmxDr !add00 /scal11.
  rewrite (_ : y^T *m M *m x = (x^T *m M *m y)^T); last by rewrite !trmx_mul trmxK SM mulmxA.
  rewrite scal_tr. suff Hq : forall a b c : R, (a + b + (b + c) = a + c + 2 * b)%Re by exact: Hq. by move=> a b c; lra. }
apply/matrixP => i j. have := H (delta_mx i ord0 + delta_mx j ord0). rewrite !Pol // !H => Hq.
have Hd (M : 'M[R]_n) : scal11 ((delta_mx i ord0)^T *m M *m delta_mx j ord0) = M i j.
{ rewrite /scal11 trmx_delta -rowE -colE !mxE //. }
rewrite !Hd in Hq. lra.
Qed.
Lemma normal_pdf_inj n (mu mu' : 'cV[R]_n) (S S' : 'M[R]_n) : posdef S -> posdef S' -> (forall x, normal_pdf mu S x = normal_pdf mu' S' x) -> mu = mu' /\ S = S'.
Proof.
move=> HS HS' H. have HI := posdef_inv HS. have HI' := posdef_inv HS'.
have Hl x : normal_logpdf mu S x = normal_logpdf mu' S' x by apply: exp_inv; rewrite -!normal_pdf_log; [exact: H|exact: posdef_det|exact: posdef_det].
rewrite /normal_logpdf in Hl. have E1 := Hl mu. have E2 := Hl mu'. rewrite subrr quad0 in E1. rewrite subrr quad0 in E2.
have P1 := proj2 (posdef_psd HI) (mu' - mu). have P2 := proj2 (posdef_psd HI') (mu - mu').
have Em : mu = mu'.
{ apply/eqP; rewrite -subr_eq0; apply/negPn/negP => Hne. have := proj2 HI' _ Hne. lra. }
split => //. rewrite Em in Hl E1 E2. rewrite subrr quad0 in E1.
have Eq : invmx S = invmx S'. { apply: quad_inj; [exact: (proj1 HI)|exact: (proj1 HI')|]. move=> x. have := Hl (x + mu'). rewrite addrK. lra. }
by rewrite -[S]invmxK Eq invmxK.
Qed.
