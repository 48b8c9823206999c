(** numpy rows as lists of numbers: slices, slice assignment, ravel and reshape; loops that may raise. *)
From mathcomp Require Import all_ssreflect all_algebra.
From Coq Require Import Reals List.
From Verif Require Import Base RMat.
Set Implicit Arguments.
Unset Strict Implicit.
Unset Printing Implicit Defensive.
Import GRing.Theory.
Local Open Scope seq_scope.

(** [[f(x) for x in l]] where f may raise *)
(** a Python loop building a list *)
Fixpoint mapr (A B : Type) (f : A -> res B) (l : list A) : res (list B) :=
  match l with
  | nil => Ok nil
  | cons a l' => dor b <- f a ; dor r <- mapr f l' ; Ok (cons b r)
  end.
(** [[f(a[i], b[i]) for i in range(len(a))]]: raises if b is shorter *)
(** a Python loop over two lists *)
Fixpoint map2r (A B C : Type) (f : A -> B -> res C) (a : list A) (b : list B) : res (list C) :=
  match a, b with
  | nil, _ => Ok nil
  | cons _ _, nil => Err IndexError
  | cons x a', cons y b' => dor c <- f x y ; dor r <- map2r f a' b' ; Ok (cons c r)
  end.

(** numpy: one row of the particle array *)
Definition row := list R.
(** [x[a:b]] *)
(** numpy [p[a:b]] *)
Definition slice (l : row) (a b : nat) : row := seq.take (b - a) (drop a l).
(** [x[a:b] = v]; numpy raises if v does not have the length of the slice *)
Definition set_slice (l : row) (a b : nat) (v : row) : res row :=
  if size v == size (slice l a b) then Ok (seq.take a l ++ v ++ drop (a + size v) l) else Err ValueError.
(** entry i, j of a matrix for natural numbers i, j *)
(** numpy [A[i, j]] *)
Definition mget m n (M : 'M[R]_(m, n)) (i j : nat) : R := match insub i, insub j with Some i', Some j' => M i' j' | _, _ => 0%Re end.
(** [M.ravel()]: row by row *)
(** numpy [A.ravel()] *)
Definition ravel m n (M : 'M[R]_(m, n)) : row := mkseq (fun k => mget M (k %/ n) (k %% n)) (m * n).
(** [x.reshape((m, n))] *)
(** numpy [p.reshape(r, c)] *)
Definition reshape m n (l : row) : res 'M[R]_(m, n) :=
  if size l == (m * n)%nat then Ok (\matrix_(i, j) seq.nth 0%Re l (i * n + j)%nat)%mx else Err ValueError.

(** ** Lemmas *)
Lemma size_ravel m n (M : 'M[R]_(m, n)) : size (ravel M) = (m * n)%nat. Proof. exact: size_mkseq. Qed.
Lemma mgetE m n (M : 'M[R]_(m, n)) (i : 'I_m) (j : 'I_n) : mget M i j = M i j.
Proof. by rewrite /mget !insubT ?ltn_ord // => Hi Hj; congr (M _ _); exact: val_inj. Qed.
Lemma reshape_ravel m n (M : 'M[R]_(m, n)) : reshape m n (ravel M) = Ok M.
Proof.
rewrite /reshape size_ravel eqxx; congr Ok; apply/matrixP => i j; rewrite mxE.
have Hj := ltn_ord j. have Hn : (0 < n)%nat by exact: leq_ltn_trans (leq0n _) Hj.
have H : (i * n + j < m * n)%nat.
{ apply: (@leq_trans (i * n + n)); first by rewrite ltn_add2l. by rewrite -mulSnr leq_mul2r ltn_ord orbT. }
by rewrite nth_mkseq // divnMDl // modnMDl (divn_small Hj) addn0 (modn_small Hj) mgetE.
Qed.
Lemma size_slice l a b : (a <= b)%nat -> (b <= size l)%nat -> size (slice l a b) = (b - a)%nat.
Proof. by move=> H1 H2; rewrite /slice size_take size_drop; case: ltnP => // H3; apply/eqP; rewrite eqn_leq H3 leq_sub2r. Qed.
Lemma set_slice_ok (l : row) a b v : (a <= b)%nat -> (b <= size l)%nat -> size v = (b - a)%nat ->
  set_slice l a b v = Ok (seq.take a l ++ v ++ drop b l).
Proof. by move=> H1 H2 H3; rewrite /set_slice size_slice // H3 eqxx subnKC. Qed.
Lemma size_set (l : row) a b v : (a <= b)%nat -> (b <= size l)%nat -> size v = (b - a)%nat -> size (seq.take a l ++ v ++ drop b l) = size l.
Proof.
move=> H1 H2 H3; rewrite !size_cat size_drop H3 size_takel; last exact: leq_trans H2.
by rewrite addnA (subnKC H1) subnKC.
Qed.
(** reading back: the slice written, or any slice before or after it *)
Lemma slice_set_same (l : row) a b v : (a <= b)%nat -> (b <= size l)%nat -> size v = (b - a)%nat -> slice (seq.take a l ++ v ++ drop b l) a b = v.
Proof.
move=> H1 H2 H3. have Ha : size (seq.take a l) = a by rewrite size_takel //; exact: leq_trans H2.
by rewrite /slice drop_cat Ha ltnn subnn drop0 -H3 take_size_cat.
Qed.
Lemma slice_set_after (l : row) a b v c d : (a <= b)%nat -> (b <= size l)%nat -> size v = (b - a)%nat -> (b <= c)%nat -> slice (seq.take a l ++ v ++ drop b l) c d = slice l c d.
Proof.
move=> H1 H2 H3 H4. have Ha : size (seq.take a l) = a by rewrite size_takel //; exact: leq_trans H2.
rewrite /slice catA drop_cat size_cat Ha H3 subnKC // ltnNge H4 /= drop_drop subnK //.
Qed.
Lemma slice_set_before (l : row) a b v c d : (a <= size l)%nat -> (c <= d)%nat -> (d <= a)%nat -> slice (seq.take a l ++ v ++ drop b l) c d = slice l c d.
Proof.
move=> H0 H1 H2. have Ha : size (seq.take a l) = a by rewrite size_takel.
rewrite /slice. case: (ltngtP c a) => Hc.
- rewrite drop_cat Ha Hc take_cat size_drop Ha. case: ltnP => Hd.
  + rewrite -{2}(cat_take_drop a l) drop_cat Ha Hc take_cat size_drop Ha Hd //.
  + have -> : d = a by apply/eqP; rewrite eqn_leq H2 /=; move: Hd; rewrite leq_subLR subnKC // ltnW.
    rewrite subnn take0 cats0 -{2}(cat_take_drop a l) drop_cat Ha Hc take_cat size_drop Ha ltnn subnn take0 cats0 //.
- by move: (leq_trans (leq_trans Hc H1) H2); rewrite ltnn.
- have -> : d = a by apply/eqP; rewrite eqn_leq H2 -Hc.
  by rewrite Hc subnn !take0.
Qed.
Lemma mapr_ok (A B : Type) (f : A -> res B) (g : A -> B) l : (forall a, f a = Ok (g a)) -> mapr f l = Ok (List.map g l).
Proof. by move=> H; elim: l => [//|a l IH] /=; rewrite H /= IH. Qed.
Lemma mapr_ok_in (A B : Type) (f : A -> res B) (g : A -> B) l : (forall a, List.In a l -> f a = Ok (g a)) -> mapr f l = Ok (List.map g l).
Proof. elim: l => [//|a l IH] /= H; rewrite H /=; last by left. rewrite IH //=. by move=> b Hb; apply: H; right. Qed.
