(** C84: the element loops of (c)mlnlg_compute on arrays compute the matrix expressions of the gradients, never index out of range, and do
    not depend on what the work arrays hold; with no linear state they do index out of range. *)
From mathcomp Require Import all_ssreflect all_algebra.
From Coq Require Import Reals Lra List Lia.
From Verif Require Import Base RMat KalmanModel Storage LtvModel MlnlgModel MlnlgEmModel GradLoopModel GradLoops.
Set Implicit Arguments.
Unset Strict Implicit.
Unset Printing Implicit Defensive.
Import GRing.Theory.
Local Open Scope ring_scope.

(** the array [a] holds the N matrices [F 0], ..., [F (N-1)] *)
Definition holds N m n (a : arr) (F : nat -> 'M[R]_(m, n)) : Prop :=
  fst a = [:: N; m; n] /\ forall i (k : 'I_m) (l : 'I_n), (i < N)%coq_nat -> snd a [:: i; nat_of_ord k; nat_of_ord l] = F i k l.
(** the array [a] holds the N x np matrices [F i j] *)
Definition holds2 N np m n (a : arr) (F : nat -> nat -> 'M[R]_(m, n)) : Prop :=
  fst a = [:: N; np; m; n] /\ forall i j (k : 'I_m) (l : 'I_n), (i < N)%coq_nat -> (j < np)%coq_nat -> snd a [:: i; j; nat_of_ord k; nat_of_ord l] = F i j k l.

Lemma sumn_big n (f : nat -> R) (g : 'I_n -> R) : (forall m : 'I_n, f m = g m) -> sumn n f = \sum_(m < n) g m.
Proof.
elim: n f g => [|n IH] f g H; first by rewrite big_ord0.
rewrite big_ord_recr /= (IH f (fun m => g (widen_ord (leqnSn n) m))); last by move=> m; rewrite -H.
by rewrite -(H ord_max).
Qed.

Section Loops.
Variables (N np lxi lz : nat).
Notation dim := (lxi + lz)%nat.
Variables (perr zl Pl M A : arr) (e : nat -> 'cV[R]_dim) (z : nat -> 'cV[R]_lz) (P Mz : nat -> 'M[R]_lz) (Am : nat -> 'M[R]_(dim, lz)).
Hypotheses (He : holds N perr e) (Hz : holds N zl z) (HP : holds N Pl P) (HM : holds N M Mz) (HA : holds N A Am).

Lemma ltc n (k : 'I_n) : (k < n)%coq_nat. Proof. by apply/ltP. Qed.

Lemma f_loops fg (G : nat -> nat -> 'cV[R]_dim) out O tmp : holds2 N np fg G -> holds2 N np out O -> fst tmp = [:: dim; dim] ->
  exists out' tmp', loop_grad_f N np dim out perr fg tmp = Ok (out', tmp') /\ fst tmp' = [:: dim; dim] /\ holds2 N np out' (fun i j => O i j + l2_grad_f (e i) (G i j)).
Proof.
move=> [Df Cf] [Do Co] Dt. case: He => De Ce.
have [out' [tmp' [E [Do' [Dt' V]]]]] := @loop_grad_f_ok N np dim lxi lz erefl perr fg out tmp Do Dt De Df.
exists out', tmp'. split; first by []. split; first by []. split; first by [].
move=> i j k l Hi Hj. rewrite (V i j k l Hi Hj (ltc k) (ltc l)) (Co i j k l Hi Hj) /l2_grad_f !mxE !big_ord1 !mxE /add_f /gf /r_fg /r_perr.
rewrite -(Ce i l ord0 Hi) -(Ce i k ord0 Hi) -(Cf i j l ord0 Hi Hj) -(Cf i j k ord0 Hi Hj) /=. reflexivity.
Qed.

Lemma in_cols_l (b : 'I_lxi) : in_cols lxi lz b = false.
Proof. rewrite /in_cols. case: PeanoNat.Nat.leb_spec => //= H. have := ltc b. lia. Qed.
Lemma in_cols_r (b : 'I_lz) : in_cols lxi lz (lxi + b)%coq_nat = true.
Proof. rewrite /in_cols. have := ltc b. case: PeanoNat.Nat.leb_spec; case: PeanoNat.Nat.ltb_spec => //=; lia. Qed.
Lemma row_corner (T : 'M[R]_(dim, lz)) (v : nat -> R) (a b : 'I_dim) : (forall l : 'I_lz, v l = T a l) ->
  row_mx (0 : 'M[R]_(dim, lxi)) (- T) a b = (if in_cols lxi lz b then - v (b - lxi)%coq_nat else 0)%Re.
Proof.
move=> H. case: (split_ordP b) => b' ->.
- by rewrite row_mxEl mxE /= in_cols_l.
- rewrite row_mxEr mxE /= in_cols_r. have -> : (addn lxi b' - lxi)%coq_nat = b' by (change (addn lxi b') with (Nat.add lxi b'); lia). by rewrite -H.
Qed.

Lemma A_loops ag (G : nat -> nat -> 'M[R]_(dim, lz)) out O tmp1 tmp2 : (0 < lz)%coq_nat -> holds2 N np ag G -> holds2 N np out O -> fst tmp1 = [:: dim; dim] -> fst tmp2 = [:: dim; lz] ->
  exists out' tmp1' tmp2', loop_grad_A N np dim out perr lxi zl Pl M A ag tmp1 tmp2 = Ok (out', tmp1', tmp2') /\
    holds2 N np out' (fun i j => O i j + l2_grad_A (e i) (z i) (P i) (Mz i) (Am i) (G i j)).
Proof.
move=> Hlz [Dg Cg] [Do Co] Dt1 Dt2. case: He => De Ce. case: Hz => Dz Cz. case: HP => DP CP. case: HM => DM CM. case: HA => DA CA.
have [out' [tmp1' [tmp2' [E [Do' V]]]]] := @loop_grad_A_ok N np dim lxi lz erefl perr zl Pl M A ag out tmp1 tmp2 Hlz Do Dt1 Dt2 De Dz DP DM DA Dg.
exists out', tmp1', tmp2'. split; first by []. split; first by [].
move=> i j k l Hi Hj. rewrite (V i j k l Hi Hj (ltc k) (ltc l)) (Co i j k l Hi Hj) /l2_grad_A.
have Ez (a : 'I_dim) : gz lz zl ag i j a = (G i j *m z i) a ord0.
{ rewrite mxE. apply: sumn_big => m. by rewrite -(Cg i j a m Hi Hj) -(Cz i m ord0 Hi). }
have EP (a : 'I_dim) (b : 'I_lz) : gP lz Pl ag i j a b = (G i j *m P i) a b.
{ rewrite mxE. apply: sumn_big => m. by rewrite -(Cg i j a m Hi Hj) -(CP i m b Hi). }
have EM (a : 'I_dim) (b : 'I_lz) : gM lz M ag i j a b = (G i j *m Mz i) a b.
{ rewrite mxE. apply: sumn_big => m. by rewrite -(Cg i j a m Hi Hj) -(CM i m b Hi). }
have EPA (a b : 'I_dim) : gPA lz Pl A ag i j a b = (G i j *m P i *m (Am i)^T) a b.
{ rewrite mxE. apply: sumn_big => m. by rewrite EP !mxE -(CA i b m Hi). }
have Er (a : 'I_dim) : r_perr perr i a = e i a ord0 by rewrite -(Ce i a ord0 Hi).
have Eo (a b : 'I_dim) : (G i j *m z i *m (e i)^T) a b = (gz lz zl ag i j a * r_perr perr i b)%Re.
{ by rewrite mxE big_ord1 Ez Er !mxE. }
have Erow (a b : 'I_dim) : row_mx (0 : 'M[R]_(dim, lxi)) (- (G i j *m Mz i)) a b = (if in_cols lxi lz b then - gM lz M ag i j a (b - lxi)%coq_nat else 0)%Re.
{ apply: (@row_corner _ (fun x => gM lz M ag i j a x)) => b'. exact: EM. }
rewrite /add_A EPA (EPA l k) -(Eo k l) -(Eo l k) -(Erow k l) -(Erow l k).
have -> : col_mx (0 : 'M[R]_(lxi, dim)) (- (G i j *m Mz i))^T = (row_mx (0 : 'M[R]_(dim, lxi)) (- (G i j *m Mz i)))^T by rewrite tr_row_mx trmx0.
move: (row_mx _ _) (G i j *m P i *m _) (G i j *m z i *m _) => m1 m2 m3. rewrite !mxE. reflexivity.
Qed.
End Loops.

(** an optional array of gradients holds the optional matrices *)
Definition oholds2 N np m n (a : option arr) (F : option (nat -> nat -> 'M[R]_(m, n))) : Prop :=
  match a, F with Some a, Some F => holds2 N np a F | None, None => True | _, _ => False end.

(** C84: for arrays of the shapes the caller makes, filled with the particles' matrices, the loops never index out of range (so the
    compiled version without bounds checks does what the Python version does) and leave, for every particle and parameter, the gradient
    of the l2 matrix.  [A_grad] may be given only when there is a linear state. *)
Theorem C84_gradient lxi lz N np (xin : nat -> 'cV[R]_lxi) (zn z : nat -> 'cV[R]_lz) (P Mz Pn : nat -> 'M[R]_lz) (f : nat -> 'cV[R]_(lxi + lz)) (Am : nat -> 'M[R]_(lxi + lz, lz))
  (perr zl Pl M A : arr) (f_grad A_grad : option arr) (fg : option (nat -> nat -> 'cV[R]_(lxi + lz))) (Ag : option (nat -> nat -> 'M[R]_(lxi + lz, lz))) :
  (A_grad = None \/ (0 < lz)%coq_nat) ->
  holds N perr (fun i => col_mx (xin i) (zn i) - f i - Am i *m z i) -> holds N zl z -> holds N Pl P -> holds N M Mz -> holds N A Am ->
  oholds2 N np f_grad fg -> oholds2 N np A_grad Ag ->
  exists r, loop_l2_grad N np lxi lz perr zl Pl M A f_grad A_grad = Ok r /\
    holds2 N np r (fun i j => ml_l2_grad (xin i, zn i, Pn i) (z i) (P i) (Mz i) (Am i) (f i) (option_map (fun G => G i j) fg) (option_map (fun G => G i j) Ag)).
Proof.
move=> Hlz He Hz HP HM HA Hf Hg. rewrite /loop_l2_grad.
have Z : holds2 N np (zeros [:: N; np; (lxi + lz)%nat; (lxi + lz)%nat]) (fun _ _ => 0 : 'M[R]_(lxi + lz)) by split=> // i j k l _ _; rewrite mxE.
have [d [t [E [Dt H1]]]] : exists d t, (match f_grad with Some fga => loop_grad_f N np (lxi + lz)%nat (zeros [:: N; np; (lxi + lz)%nat; (lxi + lz)%nat]) perr fga (zeros [:: (lxi + lz)%nat; (lxi + lz)%nat])
    | None => Ok (zeros [:: N; np; (lxi + lz)%nat; (lxi + lz)%nat], zeros [:: (lxi + lz)%nat; (lxi + lz)%nat]) end) = Ok (d, t) /\ fst t = [:: (lxi + lz)%nat; (lxi + lz)%nat] /\
    holds2 N np d (fun i j => match option_map (fun G => G i j) fg with Some g => 0 + l2_grad_f (col_mx (xin i) (zn i) - f i - Am i *m z i) g | None => 0 end).
{ case: f_grad fg Hf => [a|] [G|] //= Hf.
  - exact: (f_loops He Hf Z).
  - by exists (zeros [:: N; np; (lxi + lz)%nat; (lxi + lz)%nat]), (zeros [:: (lxi + lz)%nat; (lxi + lz)%nat]). }
case: A_grad Hlz Ag Hg => [a|] Hlz [G|] //= Hg.
- have Hp : (0 < lz)%coq_nat by case: Hlz.
  have [d' [t1 [t2 [E' H2]]]] := A_loops He Hz HP HM HA (tmp2 := zeros [:: (lxi + lz)%nat; lz]) Hp Hg H1 Dt erefl.
  exists d'. split; last by exact: H2.
  apply/rbind_ok. exists (d, t). split; first by exact: E. apply/rbind_ok. exists (d', t1, t2). split; by [exact: E'|].
- exists d. split; last by exact: H1. apply/rbind_ok. exists (d, t). split; by [exact: E|].
Qed.

(** C84: what the work arrays hold before does not matter: whatever they hold, the loops add the same to [out]. *)
Theorem C84_work_arrays lxi lz N np (e : nat -> 'cV[R]_(lxi + lz)) (z : nat -> 'cV[R]_lz) (P Mz : nat -> 'M[R]_lz) (Am : nat -> 'M[R]_(lxi + lz, lz)) (O : nat -> nat -> 'M[R]_(lxi + lz))
  (perr zl Pl M A f_grad A_grad out : arr) (F : nat -> nat -> 'cV[R]_(lxi + lz)) (G : nat -> nat -> 'M[R]_(lxi + lz, lz)) (w1 w2 : list nat -> R) :
  holds N perr e -> holds N zl z -> holds N Pl P -> holds N M Mz -> holds N A Am -> holds2 N np f_grad F -> holds2 N np A_grad G -> holds2 N np out O ->
  (exists out' tmp, loop_grad_f N np (lxi + lz) out perr f_grad ([:: (lxi + lz)%nat; (lxi + lz)%nat], w1) = Ok (out', tmp) /\ holds2 N np out' (fun i j => O i j + l2_grad_f (e i) (F i j))) /\
  ((0 < lz)%coq_nat -> exists out' tmp1 tmp2, loop_grad_A N np (lxi + lz) out perr lxi zl Pl M A A_grad ([:: (lxi + lz)%nat; (lxi + lz)%nat], w1) ([:: (lxi + lz)%nat; lz], w2) = Ok (out', tmp1, tmp2) /\
     holds2 N np out' (fun i j => O i j + l2_grad_A (e i) (z i) (P i) (Mz i) (Am i) (G i j))).
Proof.
move=> He Hz HP HM HA Hf Hg Ho. split.
- have [out' [tmp [E [_ H]]]] := f_loops He Hf Ho (tmp := ([:: (lxi + lz)%nat; (lxi + lz)%nat], w1)) erefl. by exists out', tmp.
- move=> Hl. have [out' [t1 [t2 [E H]]]] := A_loops He Hz HP HM HA (tmp1 := ([:: (lxi + lz)%nat; (lxi + lz)%nat], w1)) (tmp2 := ([:: (lxi + lz)%nat; lz], w2)) Hl Hg Ho erefl erefl. by exists out', t1, t2.
Qed.

Lemma for_err {S} n (body : nat -> S -> res S) s er : (0 < n)%coq_nat -> body O s = Err er -> for_ n body s = Err er.
Proof.
elim: n => [|n IH] H E; first by lia. case: n IH H => [|n] IH H; first by rewrite /= E.
change (rbind (for_ n.+1 body s) (body n.+1) = Err er). by rewrite IH //; lia.
Qed.

(** C84 refuted for models without linear state that give an [A_grad]: the first write to the work array is out of range, so that no
    gradient is computed (IndexError with the Python version; undefined behaviour with the compiled one, which does not check). *)
Theorem C84_no_linear_state_refuted lxi N np (e : nat -> 'cV[R]_(lxi + 0)) (perr zl Pl M A a : arr) (f_grad : option arr) (fg : option (nat -> nat -> 'cV[R]_(lxi + 0))) :
  (0 < N)%coq_nat -> (0 < np)%coq_nat -> (0 < lxi)%coq_nat -> holds N perr e -> oholds2 N np f_grad fg ->
  loop_l2_grad N np lxi 0 perr zl Pl M A f_grad (Some a) = Err IndexError.
Proof.
move=> HN Hnp Hlxi He Hf. rewrite /loop_l2_grad.
have A_err s : loop_grad_A N np (lxi + 0) (fst s) perr lxi zl Pl M A a (snd s) (zeros [:: (lxi + 0)%nat; O]) = Err IndexError.
{ rewrite /loop_grad_A. apply: for_err; first by []. apply: for_err; first by [].
  etransitivity; first (apply: (f_equal (fun x => rbind x _)); apply: for_err; first by rewrite addn0).
  - rewrite /wr /zeros /= /GradLoopModel.inb. by rewrite andbF.
  - by []. }
case: f_grad fg Hf => [fa|] [G|] //= Hf.
- have Z : holds2 N np (zeros [:: N; np; (lxi + 0)%nat; (lxi + 0)%nat]) (fun _ _ => 0 : 'M[R]_(lxi + 0)) by split=> // i j k l _ _; rewrite mxE.
  have [out' [tmp [E [_ H]]]] := f_loops He Hf Z (tmp := zeros [:: (lxi + 0)%nat; (lxi + 0)%nat]) erefl.
  etransitivity; first (apply: (f_equal (fun x => rbind x _)); exact: E). cbn [rbind]. by rewrite (A_err (out', tmp)).
- by rewrite (A_err (_, _)).
Qed.

(** every family of matrices is held by an array *)
Definition of_mx N m n (F : nat -> 'M[R]_(m, n)) : arr :=
  ([:: N; m; n], fun idx => match idx with [:: i; k; l] => match insub k, insub l with Some k, Some l => F i k l | _, _ => 0 end | _ => 0 end).
Definition of_mx2 N np m n (F : nat -> nat -> 'M[R]_(m, n)) : arr :=
  ([:: N; np; m; n], fun idx => match idx with [:: i; j; k; l] => match insub k, insub l with Some k, Some l => F i j k l | _, _ => 0 end | _ => 0 end).
Lemma of_mx_holds N m n (F : nat -> 'M[R]_(m, n)) : holds N (of_mx N F) F.
Proof. split=> // i k l _. by rewrite /of_mx /= !valK. Qed.
Lemma of_mx2_holds N np m n (F : nat -> nat -> 'M[R]_(m, n)) : holds2 N np (of_mx2 N np F) F.
Proof. split=> // i j k l _ _. by rewrite /of_mx2 /= !valK. Qed.

(** The hypotheses of C84_gradient can be met for every N, np, lxi and lz > 0 and all matrices. *)
Example C84_arrays lxi lz N np (xin : nat -> 'cV[R]_lxi) (zn z : nat -> 'cV[R]_lz.+1) (P Mz Pn : nat -> 'M[R]_lz.+1) (f : nat -> 'cV[R]_(lxi + lz.+1)) (Am : nat -> 'M[R]_(lxi + lz.+1, lz.+1))
  (fg : nat -> nat -> 'cV[R]_(lxi + lz.+1)) (Ag : nat -> nat -> 'M[R]_(lxi + lz.+1, lz.+1)) :
  exists r, loop_l2_grad N np lxi lz.+1 (of_mx N (fun i => col_mx (xin i) (zn i) - f i - Am i *m z i)) (of_mx N z) (of_mx N P) (of_mx N Mz) (of_mx N Am)
      (Some (of_mx2 N np fg)) (Some (of_mx2 N np Ag)) = Ok r /\
    holds2 N np r (fun i j => ml_l2_grad (xin i, zn i, Pn i) (z i) (P i) (Mz i) (Am i) (f i) (Some (fg i j)) (Some (Ag i j))).
Proof.
have := @C84_gradient lxi lz.+1 N np xin zn z P Mz Pn f Am _ _ _ _ _ (Some (of_mx2 N np fg)) (Some (of_mx2 N np Ag)) (Some fg) (Some Ag). apply; [right; lia|exact: of_mx_holds|exact: of_mx_holds|exact: of_mx_holds|exact: of_mx_holds|exact: of_mx_holds|exact: of_mx2_holds|exact: of_mx2_holds].
Qed.
(** One particle, one parameter, one nonlinear and one linear state, with cov(z, z') = 1 and an A_grad of 1 for the linear state: the lower
    right entry of the gradient is -2, both increments of the last loop hitting the same cell. *)
Example C84_corner_example : exists r,
  loop_l2_grad 1 1 1 1 (of_mx 1 (fun _ => 0 : 'cV[R]_(1 + 1))) (of_mx 1 (fun _ => 0 : 'cV[R]_1)) (of_mx 1 (fun _ => 0 : 'M[R]_1)) (of_mx 1 (fun _ => 1%:M : 'M[R]_1))
    (of_mx 1 (fun _ => 0 : 'M[R]_(1 + 1, 1))) None (Some (of_mx2 1 1 (fun _ _ => col_mx (0 : 'M[R]_(1, 1)) 1%:M))) = Ok r /\
  snd r [:: O; O; 1%nat; 1%nat] = (- 2)%Re.
Proof.
have He : holds 1 (of_mx 1 (fun _ => 0 : 'cV[R]_(1 + 1))) (fun _ => col_mx (0 : 'cV[R]_1) (0 : 'cV[R]_1) - 0 - (0 : 'M[R]_(1 + 1, 1)) *m (0 : 'cV[R]_1)).
{ have := of_mx_holds 1 (fun _ => 0 : 'cV[R]_(1 + 1)). by rewrite col_mx0 mulmx0 !subr0. }
have [r [E [_ H]]] := @C84_gradient 1 1 1 1 (fun _ => 0) (fun _ => 0) (fun _ => 0) (fun _ => 0) (fun _ => 1%:M) (fun _ => 0) (fun _ => 0) (fun _ => 0)
  (of_mx 1 (fun _ => 0 : 'cV[R]_(1 + 1))) (of_mx 1 (fun _ => 0 : 'cV[R]_1)) (of_mx 1 (fun _ => 0 : 'M[R]_1)) (of_mx 1 (fun _ => 1%:M : 'M[R]_1)) (of_mx 1 (fun _ => 0 : 'M[R]_(1 + 1, 1)))
  None (Some (of_mx2 1 1 (fun _ _ => col_mx (0 : 'M[R]_(1, 1)) 1%:M))) None (Some (fun _ _ => col_mx (0 : 'M[R]_(1, 1)) 1%:M)) (or_intror (le_n _))
  He (of_mx_holds _ _) (of_mx_holds _ _) (of_mx_holds _ _) (of_mx_holds _ _) I (of_mx2_holds _ _ _).
exists r. split; first by exact: E.
rewrite (H O O (rshift 1 ord0) (rshift 1 ord0)); [|lia|lia].
rewrite /ml_l2_grad. cbn [option_map fst snd]. rewrite /pred_err col_mx0 mulmx0 !subr0 add0r /l2_grad_A.
rewrite !mulmx0 ?mul0mx ?trmx0 mulmx1 ?subr0 ?oppr0 ?addr0 ?add0r.
rewrite mxE row_mxEr.
have E1 : (- col_mx (0 : 'M[R]_(1, 1)) 1%:M) (rshift 1 ord0) ord0 = (- (1))%Re by rewrite mxE col_mxEd mxE eqxx.
etransitivity; first (apply: (f_equal2 Rplus); first by exact: E1).
- rewrite col_mxEd mxE. exact: E1.
- lra.
Qed.

Print Assumptions C84_gradient.
Print Assumptions C84_work_arrays.
Print Assumptions C84_no_linear_state_refuted.
