(** Bookkeeping of ParticleTrajectory (C13, C14, C17). *)
From Coq Require Import String Bool Reals Lra Lia List Arith.
From Verif Require Import Base XR SampleModel SampleSpec SampleProofs PAModel WeightSpec WeightProofs
  FilterModel TrajModel FilterSpec FilterProofs.
Import ListNotations.
Open Scope nat_scope.

Ltac liftinv H :=
  apply lift_ok in H; let x := fresh "x" in let E := fresh "E" in let E1 := fresh "E" in let E2 := fresh "E" in
  destruct H as (x & H & E); injection E as E1 E2; subst x;
  match type of E2 with ?a = _ => subst a end.

Section Book.
Context {W P U Y V : Type}.
Variable mdl : fmodel W P U Y V.
Variable g : rng W.

Definition book (s : ptraj P U Y) (l : @ledger U Y) : Prop :=
  let (us, ys) := l in
  length (pt_traj s) = length ys /\
  pt_ind1 s = length ys /\
  length us = pred (length ys) /\
  (forall k y, nth_error ys k = Some y -> nth_error (pt_y s) k = Some (cell_of y)) /\
  (forall k u, nth_error us k = Some (Some u) -> nth_error (pt_u s) k = Some (cell_of u)) /\
  (forall k, k < length ys -> nth_error (pt_t s) k = Some k) /\
  pt_T s <= length (pt_y s) /\ pt_T s <= length (pt_t s) /\ pt_T s <= S (length (pt_u s)) /\
  nth_error (pt_t s) 0 = Some 0 /\
  (ys = [] -> nth_error (pt_y s) 0 = Some CNone).

Lemma book_init N r name o T (s : ptraj P U Y) :
  pt_init N r 0 name o T = Ok s -> book s ([], []).
Proof.
  unfold pt_init. destruct T as [n|]; simpl; intros H.
  - destruct n as [|n]; simpl in H; [discriminate|].
    destruct (make_filter name r o); simpl in H; [|discriminate]. inversion H; subst; clear H.
    unfold book; simpl. rewrite !repeat_length, !seq_length.
    repeat split; auto; try lia; try (intros k; destruct k; discriminate); intros; lia.
  - destruct (make_filter name r o); simpl in H; [|discriminate]. inversion H; subst; clear H.
    unfold book; simpl. repeat split; auto; try lia; try (intros k; destruct k; discriminate); intros; lia.
Qed.

Lemma nth_error_snoc {A} (l : list A) a k :
  nth_error (l ++ [a]) k = if k =? length l then Some a else nth_error l k.
Proof.
  destruct (Nat.eqb_spec k (length l)) as [->|H].
  - rewrite nth_error_app2 by lia. rewrite Nat.sub_diag. auto.
  - destruct (Nat.lt_ge_cases k (length l)).
    + rewrite nth_error_app1 by lia. auto.
    + rewrite nth_error_app2 by lia. rewrite (proj2 (nth_error_None l k)) by lia.
      apply nth_error_None. simpl. lia.
Qed.

Lemma nth_error_None_lt {A} (l : list A) k x : nth_error l k = Some x -> k < length l.
Proof. intros H. apply nth_error_Some. congruence. Qed.

(** Vectors after the resizing test and the three assignments of forward. *)
Lemma grow_nth {A} (d : A) (n T c k : nat) (l : list A) x :
  nth_error l k = Some x -> k < n ->
  nth_error (if Nat.leb T c then resize d n l else l) k = Some x.
Proof.
  intros H Hk. destruct (Nat.leb T c); auto. rewrite resize_nth.
  rewrite (proj2 (Nat.ltb_lt k n)) by auto.
  rewrite (proj2 (Nat.ltb_lt k (length l))) by (eapply nth_error_None_lt; eauto). auto.
Qed.

Lemma if4 {A B C D} (b : bool) (a1 a2 : A) (b1 b2 : B) (c1 c2 : C) (d1 d2 : D) :
  (if b then (a1, b1, c1, d1) else (a2, b2, c2, d2)) =
  ((if b then a1 else a2), (if b then b1 else b2), (if b then c1 else c2), (if b then d1 else d2)).
Proof. destruct b; auto. Qed.

Lemma book_forward s l u y w s' b w' : book s l ->
  pt_forward mdl g s u y w = Ok ((s', b), w') ->
  book s' (ledger_step (using_pfy (pt_f s)) l (Fwd u y)) /\ pt_f s' = pt_f s.
Proof.
  destruct l as [us ys]. intros (B1 & B2 & B3 & B4 & B5 & B6 & B7 & B8 & B9 & B10 & B11) H.
  unfold pt_forward in H. apply bind_ok in H. destruct H as ([tr ind] & w1 & H1 & H).
  rewrite if4 in H.
  set (uv := if Nat.leb (pt_T s) (ind + 1) then resize CZero (ind + 1) (pt_u s) else pt_u s) in *.
  set (yv := if Nat.leb (pt_T s) (ind + 1) then resize CZero (ind + 2) (pt_y s) else pt_y s) in *.
  set (tv := if Nat.leb (pt_T s) (ind + 1) then resize 0 (ind + 2) (pt_t s) else pt_t s) in *.
  set (TT := if Nat.leb (pt_T s) (ind + 1) then ind + 2 else pt_T s) in *.
  cbv beta iota in H.
  apply bind_ok in H. destruct H as (uv' & w2 & Hu & H). liftinv Hu.
  apply bind_ok in H. destruct H as (yv' & w3 & Hy & H). liftinv Hy.
  apply bind_ok in H. destruct H as (tv' & w4 & Ht & H). liftinv Ht.
  apply bind_ok in H. destruct H as ([[pa b'] anc] & w5 & Hf & H). apply ret_ok in H.
  inversion H; subst; clear H Hf.
  assert (Htr : length tr = ind + 1 /\ ((ys = [] /\ ind = 0) \/ (ys <> [] /\ length ys = ind + 1))).
  { destruct (pt_traj s) as [|st tr0] eqn:Etr.
    - minv H1. split; auto. left. destruct ys; [auto|discriminate].
    - destruct (pt_ind1 s) as [|i] eqn:Ei; minv H1. simpl in *.
      split; [lia|]. right. split; [|lia]. intros ->. discriminate. }
  clear H1. destruct Htr as [Ltr Hcase].
  pose proof (upd_nth _ _ _ _ Hu) as Nu. pose proof (upd_nth _ _ _ _ Hy) as Ny.
  pose proof (upd_nth _ _ _ _ Ht) as Nt.
  pose proof (upd_length _ _ _ _ Hu) as Lu. pose proof (upd_length _ _ _ _ Hy) as Ly.
  pose proof (upd_length _ _ _ _ Ht) as Lt.
  assert (Q : TT <= length yv /\ TT <= length tv /\ TT <= S (length uv)).
  { unfold TT, yv, tv, uv. destruct (Nat.leb (pt_T s) (ind + 1)); rewrite ?resize_length; lia. }
  clearbody TT.
  split; [|reflexivity].
  assert (T0 : nth_error tv' 0 = Some 0).
  { rewrite Nt. replace (0 =? ind + 1) with false by (symmetry; apply Nat.eqb_neq; lia).
    apply grow_nth; auto. lia. }
  destruct Hcase as [[-> ->]|[Hne Ln]].
  - simpl. rewrite app_length, Ltr. simpl.
    split; [auto|]. split; [auto|]. split; [auto|].
    split; [|split; [|split; [|split; [lia|split; [lia|split; [lia|split; [auto|discriminate]]]]]]].
    + intros [|[|k]] z Hz; simpl in Hz; try (injection Hz as <-).
      * rewrite Ny. change (nth_error yv 0 = Some CNone). unfold yv. apply grow_nth; [exact (B11 eq_refl)|lia].
      * rewrite Ny. simpl. auto.
      * destruct k; discriminate.
    + intros [|k] z Hz; simpl in Hz; [inversion Hz; subst; rewrite Nu; auto|destruct k; discriminate].
    + intros [|[|k]] Hk; [auto| |lia]. rewrite Nt. auto.
  - assert (El : ledger_step (using_pfy (pt_f s)) (us, ys) (Fwd u y) = (us ++ [Some u], ys ++ [y])).
    { destruct ys; [congruence|auto]. }
    rewrite El. simpl. rewrite !app_length. simpl.
    split; [lia|]. split; [lia|]. split; [lia|].
    split; [|split; [|split; [|split; [lia|split; [lia|split; [lia|split; [auto|]]]]]]].
    + intros k z Hz. rewrite nth_error_snoc in Hz. rewrite Ny, Ln in *.
      destruct (k =? ind + 1) eqn:E; [congruence|].
      apply grow_nth; auto. apply nth_error_None_lt in Hz. lia.
    + intros k z Hz. rewrite nth_error_snoc in Hz. rewrite Nu. replace (length us) with ind in Hz by lia.
      destruct (k =? ind) eqn:E; [congruence|]. apply grow_nth; auto.
      apply nth_error_None_lt in Hz. lia.
    + intros k Hk. rewrite Nt. destruct (Nat.eqb_spec k (ind + 1)) as [->|Hn]; auto.
      apply grow_nth; [|lia]. apply B6. lia.
    + intros E. destruct ys; discriminate.
Qed.

Lemma set_last_nth (ys : list (option Y)) y k : ys <> [] ->
  nth_error (set_last ys y) k = if k =? length ys - 1 then Some y else nth_error ys k.
Proof.
  intros Hne. unfold set_last. destruct (exists_last Hne) as (l & z & ->).
  rewrite removelast_last, !nth_error_snoc, app_length. simpl.
  replace (length l + 1 - 1) with (length l) by lia. destruct (k =? length l); auto.
Qed.

Lemma set_last_length (ys : list (option Y)) y : ys <> [] -> length (set_last ys y) = length ys.
Proof.
  intros Hne. unfold set_last. destruct (exists_last Hne) as (l & z & ->).
  rewrite removelast_last, !app_length. auto.
Qed.

Lemma book_measure s l y w s' w' : book s l ->
  pt_measure mdl s y w = Ok (s', w') ->
  book s' (ledger_step (using_pfy (pt_f s)) l (Meas y)) /\ pt_f s' = pt_f s.
Proof.
  destruct l as [us ys]. intros (B1 & B2 & B3 & B4 & B5 & B6 & B7 & B8 & B9 & B10 & B11) H.
  unfold pt_measure in H. rewrite if4 in H. rewrite B2 in H.
  set (n := length ys) in *.
  set (uv := if Nat.leb (pt_T s) n then resize CZero (n + 1) (pt_u s) else pt_u s) in *.
  set (yv := if Nat.leb (pt_T s) n then resize CZero (n + 1) (pt_y s) else pt_y s) in *.
  set (tv := if Nat.leb (pt_T s) n then resize 0 (n + 1) (pt_t s) else pt_t s) in *.
  set (TT := if Nat.leb (pt_T s) n then n + 1 else pt_T s) in *.
  assert (Q : TT <= length yv /\ TT <= length tv /\ TT <= S (length uv)).
  { unfold TT, yv, tv, uv. destruct (Nat.leb (pt_T s) n); rewrite ?resize_length; lia. }
  clearbody TT.
  assert (Gy : forall k z, nth_error ys k = Some z -> nth_error yv k = Some (cell_of z)).
  { intros k z Hz. apply grow_nth; auto. apply nth_error_None_lt in Hz. unfold n. lia. }
  assert (Gu : forall k z, nth_error us k = Some (Some z) -> nth_error uv k = Some (cell_of z)).
  { intros k z Hz. apply grow_nth; auto. apply nth_error_None_lt in Hz. unfold n. lia. }
  assert (Gt : forall k, k < n -> nth_error tv k = Some k).
  { intros k Hk. apply grow_nth; auto. lia. }
  assert (G0 : nth_error tv 0 = Some 0) by (apply grow_nth; auto; lia).
  destruct (using_pfy (pt_f s)) eqn:Ef.
  - apply bind_ok in H. destruct H as (yv' & w2 & Hy & H). liftinv Hy.
    apply bind_ok in H. destruct H as (tv' & w4 & Ht & H). liftinv Ht.
    apply bind_ok in H. destruct H as (pa & w5 & Hf & H). apply ret_ok in H.
    inversion H; subst; clear H Hf. split; [|reflexivity].
    pose proof (upd_nth _ _ _ _ Hy) as Ny. pose proof (upd_nth _ _ _ _ Ht) as Nt.
    pose proof (upd_length _ _ _ _ Hy) as Ly. pose proof (upd_length _ _ _ _ Ht) as Lt.
    assert (T0 : nth_error tv' 0 = Some 0).
    { rewrite Nt. destruct (Nat.eqb_spec 0 n) as [<-|]; auto. }
    assert (D : ys = [] \/ ys <> []) by (destruct ys; [auto|right; congruence]).
    destruct D as [->|Hne].
    + simpl in n. subst n. simpl. rewrite app_length, B1. simpl. simpl in B3.
      split; [auto|]. split; [auto|]. split; [auto|].
      split; [|split; [|split; [|split; [lia|split; [lia|split; [lia|split; [auto|discriminate]]]]]]].
      * intros [|k] z Hz; [|destruct k; discriminate]. rewrite Ny. simpl in *. congruence.
      * auto.
      * intros [|k] Hk; [auto|lia].
    +
      assert (Lpos : 0 < n) by (unfold n; destruct ys; [congruence|simpl; lia]).
      assert (El : ledger_step true (us, ys) (Meas y) = (us ++ [None], ys ++ [y])).
      { destruct ys; [congruence|auto]. }
      rewrite El. simpl. rewrite !app_length, B1. fold n. simpl.
      split; [lia|]. split; [lia|]. split; [fold n in B3; lia|].
      split; [|split; [|split; [|split; [lia|split; [lia|split; [lia|split; [auto|]]]]]]].
      * intros k z Hz. rewrite nth_error_snoc in Hz. fold n in Hz. rewrite Ny.
        destruct (k =? n); [congruence|auto].
      * intros k z Hz. rewrite nth_error_snoc in Hz. destruct (k =? length us); [discriminate|auto].
      * intros k Hk. rewrite Nt. destruct (Nat.eqb_spec k n); [congruence|]. apply Gt. lia.
      * intros E. destruct ys; discriminate.
  - apply bind_ok in H. destruct H as ([tr ind] & w1 & H1 & H).
    apply bind_ok in H. destruct H as (yv' & w2 & Hy & H). liftinv Hy.
    apply bind_ok in H. destruct H as (tv' & w4 & Ht & H). liftinv Ht.
    apply bind_ok in H. destruct H as (last & w5 & Hla & H). clear Hla.
    apply bind_ok in H. destruct H as (pa & w6 & Hf & H).
    apply bind_ok in H. destruct H as (tr' & w7 & Hup & H). liftinv Hup.
    apply ret_ok in H. inversion H; subst; clear H Hf.
    split; [|reflexivity].
    apply upd_last_ok in Hup. destruct Hup as (_ & _ & Lup).
    pose proof (upd_nth _ _ _ _ Hy) as Ny. pose proof (upd_nth _ _ _ _ Ht) as Nt.
    pose proof (upd_length _ _ _ _ Hy) as Ly. pose proof (upd_length _ _ _ _ Ht) as Lt.
    assert (Htr : length tr = ind + 1 /\ ((ys = [] /\ ind = 0) \/ (ys <> [] /\ n = ind + 1))).
    { unfold n in *. destruct (pt_traj s) as [|st tr0] eqn:Etr.
      - minv H1. split; auto. left. destruct ys; [auto|discriminate].
      - rewrite <- B1 in H1. simpl in H1. minv H1. simpl in *.
        split; [lia|]. right. split; [|lia]. intros ->. discriminate. }
    clear H1. destruct Htr as [Ltr Hcase].
    assert (T0 : nth_error tv' 0 = Some 0).
    { rewrite Nt. destruct (Nat.eqb_spec 0 ind) as [<-|]; auto. }
    destruct Hcase as [[-> ->]|[Hne Ln]].
    + simpl in *. rewrite Lup, Ltr.
      split; [auto|]. split; [auto|]. split; [auto|].
      split; [|split; [|split; [|split; [lia|split; [lia|split; [lia|split; [auto|discriminate]]]]]]].
      * intros [|k] z Hz; [|destruct k; discriminate]. rewrite Ny. simpl in *. congruence.
      * auto.
      * intros [|k] Hk; [auto|lia].
    + assert (El : ledger_step false (us, ys) (Meas y) = (us, set_last ys y)).
      { destruct ys; [congruence|auto]. }
      rewrite El. simpl. rewrite set_last_length by auto. fold n. rewrite Lup.
      split; [lia|]. split; [lia|]. split; [fold n in B3; lia|].
      split; [|split; [|split; [|split; [lia|split; [lia|split; [lia|split; [auto|]]]]]]].
      * intros k z Hz. rewrite set_last_nth in Hz by auto. fold n in Hz. rewrite Ny.
        replace (n - 1) with ind in Hz by lia. destruct (k =? ind); [congruence|auto].
      * auto.
      * intros k Hk. rewrite Nt. destruct (Nat.eqb_spec k ind); [congruence|]. apply Gt. lia.
      * intros E. apply (f_equal (@length _)) in E. rewrite set_last_length in E by auto.
        destruct ys; [congruence|discriminate].
Qed.

Lemma book_run ops : forall s l w s' w', book s l ->
  pt_run mdl g s ops w = Ok (s', w') ->
  book s' (fold_left (ledger_step (using_pfy (pt_f s))) ops l) /\ pt_f s' = pt_f s.
Proof.
  induction ops as [|o ops IH]; intros s l w s' w' B H; simpl in H.
  - apply ret_ok in H. inversion H; subst. auto.
  - apply bind_ok in H. destruct H as (s1 & w1 & H1 & H). destruct o as [u y|y]; simpl in H1.
    + apply bind_ok in H1. destruct H1 as ([s2 b] & w2 & H1 & H2). apply ret_ok in H2.
      inversion H2; subst s1 w1. destruct (book_forward _ _ _ _ _ _ _ _ B H1) as [B' Ef].
      destruct (IH _ _ _ _ _ B' H) as [B'' Ef']. simpl in *. rewrite Ef in *. split; auto; congruence.
    + destruct (book_measure _ _ _ _ _ _ B H1) as [B' Ef].
      destruct (IH _ _ _ _ _ B' H) as [B'' Ef']. simpl in *. rewrite Ef in *. split; auto; congruence.
Qed.

Lemma replay_count ops : forall l,
  length (snd (fold_left (ledger_step false) ops l)) =
  match snd l, ops with
  | [], [] => 0
  | [], _ => S (@forwards U Y ops)
  | _, _ => length (snd l) + @forwards U Y ops
  end.
Proof.
  induction ops as [|o ops IH]; intros [us ys]; simpl.
  - destruct ys; simpl; lia.
  - rewrite IH. destruct o as [u y|y]; destruct ys as [|y0 ys0]; simpl.
    + lia.
    + rewrite app_length. simpl. lia.
    + lia.
    + assert (length (set_last (y0 :: ys0) y) = length (y0 :: ys0)) by (apply set_last_length; congruence).
      destruct (set_last (y0 :: ys0) y) eqn:E; [discriminate|]. simpl in *. lia.
Qed.
End Book.
