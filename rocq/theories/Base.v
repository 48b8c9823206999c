(** Base vocabulary shared by the models: exceptions as values, numpy-style
    indexing, and a state ("world") monad for code that draws random numbers or
    calls user supplied methods. *)
From Coq Require Import List Arith Lia.
Import ListNotations.

(** The exception classes the modelled code can raise.  [UserError] stands for
    anything raised by a user supplied method.  [OutOfFuel] is not a Python
    exception: it marks a [while True] loop that was cut off by the bound given to
    its model.  [NotFinite] is not a Python exception either: it marks a place where
    numpy would go on with a nan or inf that the real-number part of the model does not
    represent. *)
Inductive exn :=
| IndexError | TypeError | ValueError | AttributeError | UnboundLocalError
| AssertionError | KeyError | NotImplementedError | ZeroDivisionError | LinAlgError
| UserError | NotFinite
| OutOfFuel.

Inductive res (A : Type) : Type :=
| Ok (a : A)
| Err (e : exn).
Arguments Ok {A} a.
Arguments Err {A} e.

Definition rbind {A B} (x : res A) (f : A -> res B) : res B :=
  match x with Ok a => f a | Err e => Err e end.

(** World monad: a computation may read and change the world (random generator
    state, state of the user's model object) and may raise. *)
Definition M (W A : Type) : Type := W -> res (A * W).
Definition ret {W A} (a : A) : M W A := fun s => Ok (a, s).
Definition raise {W A} (e : exn) : M W A := fun _ => Err e.
Definition bind {W A B} (x : M W A) (f : A -> M W B) : M W B :=
  fun s => match x s with
           | Ok (a, s') => f a s'
           | Err e => Err e
           end.
Definition lift {W A} (x : res A) : M W A :=
  fun s => match x with Ok a => Ok (a, s) | Err e => Err e end.

Declare Scope monad_scope.
Delimit Scope monad_scope with monad.
Notation "'do' x <- a ; b" := (bind a (fun x => b))
  (at level 200, x pattern, a at level 100, b at level 200) : monad_scope.
Notation "'dor' x <- a ; b" := (rbind a (fun x => b))
  (at level 200, x pattern, a at level 100, b at level 200) : monad_scope.
Open Scope monad_scope.

(** [x[i]] for a non-negative index: raises IndexError out of bounds (numpy and
    list semantics). *)
Definition idx {A} (l : list A) (i : nat) : res A :=
  match nth_error l i with Some a => Ok a | None => Err IndexError end.

(** [x[-1]]. *)
Definition idx_last {A} (l : list A) : res A :=
  match rev l with a :: _ => Ok a | [] => Err IndexError end.

(** Integer-array ("fancy") indexing [x[ind]]: raises IndexError if some index
    is out of bounds. *)
Fixpoint take {A} (l : list A) (ind : list nat) : res (list A) :=
  match ind with
  | [] => Ok []
  | i :: ind' =>
      dor a <- idx l i ;
      dor r <- take l ind' ;
      Ok (a :: r)
  end.

(** [x[i] = a] in place (value semantics: the new array). *)
Fixpoint upd {A} (l : list A) (i : nat) (a : A) : res (list A) :=
  match l, i with
  | [], _ => Err IndexError
  | _ :: l', O => Ok (a :: l')
  | b :: l', S i' => dor r <- upd l' i' a ; Ok (b :: r)
  end.

(** [x[-1] = a] in place. *)
Definition upd_last {A} (l : list A) (a : A) : res (list A) :=
  match l with [] => Err IndexError | _ => Ok (removelast l ++ [a]) end.

(** [ndarray.resize(n)] along the first axis: truncate or pad with [d]. *)
Definition resize {A} (d : A) (n : nat) (l : list A) : list A :=
  firstn n l ++ repeat d (n - length l).

(** Elementwise binary operation on two arrays of equal shape; numpy raises
    ValueError if the shapes do not broadcast (length-1 broadcasting of the
    second argument is not modelled). *)
Fixpoint zipw {A B C} (f : A -> B -> C) (a : list A) (b : list B) : res (list C) :=
  match a, b with
  | [], [] => Ok []
  | x :: a', y :: b' => dor r <- zipw f a' b' ; Ok (f x y :: r)
  | _, _ => Err ValueError
  end.

(* ------------------------------------------------------------------ *)
(** * Lemmas *)

Lemma idx_ok {A} (l : list A) i a : idx l i = Ok a <-> nth_error l i = Some a.
Proof. unfold idx. destruct (nth_error l i); split; intros H; inversion H; auto. Qed.

Lemma idx_lt {A} (l : list A) i : i < length l -> exists a, idx l i = Ok a.
Proof.
  intros H. unfold idx. apply nth_error_Some in H.
  destruct (nth_error l i); [eauto | congruence].
Qed.

Lemma take_length {A} (l : list A) ind r : take l ind = Ok r -> length r = length ind.
Proof.
  revert r. induction ind as [|i ind IH]; simpl; intros r H.
  - inversion H; auto.
  - destruct (idx l i); simpl in H; [|discriminate].
    destruct (take l ind); simpl in H; [|discriminate].
    inversion H; subst. simpl. f_equal. auto.
Qed.

Lemma take_ok {A} (l : list A) ind :
  Forall (fun i => i < length l) ind -> exists r, take l ind = Ok r.
Proof.
  induction 1 as [|i ind Hi _ [r IH]]; simpl; [eauto|].
  destruct (idx_lt l i Hi) as [a Ha]. rewrite Ha, IH. simpl. eauto.
Qed.

Lemma take_ok_inv {A} (l : list A) ind r :
  take l ind = Ok r -> Forall (fun i => i < length l) ind.
Proof.
  revert r; induction ind as [|i ind IH]; intros r H; constructor.
  - simpl in H. unfold idx in H. destruct (nth_error l i) eqn:E; [|discriminate].
    apply nth_error_Some. congruence.
  - simpl in H. destruct (idx l i); simpl in H; [|discriminate].
    destruct (take l ind); simpl in H; [|discriminate]. eauto.
Qed.

Lemma take_nth {A} (l : list A) ind r :
  take l ind = Ok r ->
  forall k i, nth_error ind k = Some i -> nth_error r k = nth_error l i.
Proof.
  revert r; induction ind as [|j ind IH]; intros r H k i Hk.
  - destruct k; discriminate.
  - simpl in H. unfold idx in H. destruct (nth_error l j) as [a|] eqn:E; [|discriminate].
    simpl in H. destruct (take l ind) as [r'|]; simpl in H; [|discriminate].
    inversion H; subst. destruct k; simpl in *.
    + inversion Hk; subst. auto.
    + eauto.
Qed.

Lemma take_Forall {A} (Q : A -> Prop) (l : list A) ind r :
  take l ind = Ok r -> Forall Q l -> Forall Q r.
Proof.
  revert r; induction ind as [|j ind IH]; intros r H HQ; simpl in H.
  - inversion H. constructor.
  - unfold idx in H. destruct (nth_error l j) as [a|] eqn:E; [|discriminate].
    simpl in H. destruct (take l ind) as [r'|]; simpl in H; [|discriminate].
    inversion H; subst. constructor; eauto.
    eapply Forall_forall in HQ; eauto. eapply nth_error_In; eauto.
Qed.

Lemma take_seq {A} (l : list A) : take l (seq 0 (length l)) = Ok l.
Proof.
  enough (H : forall n (pre l : list A), take (pre ++ l) (seq (length pre) n) =
                 if Nat.leb n (length l) then Ok (firstn n l) else Err IndexError).
  { specialize (H (length l) [] l). simpl in H. rewrite H.
    rewrite Nat.leb_refl, firstn_all. auto. }
  induction n as [|n IH]; intros pre l'; simpl; auto.
  unfold idx. rewrite nth_error_app2 by lia. rewrite Nat.sub_diag.
  destruct l' as [|a l']; simpl; auto.
  specialize (IH (pre ++ [a]) l').
  rewrite <- app_assoc in IH. simpl in IH.
  rewrite app_length in IH. simpl in IH.
  replace (length pre + 1) with (S (length pre)) in IH by lia.
  rewrite IH. destruct (Nat.leb n (length l')); auto.
Qed.

Lemma upd_length {A} (l : list A) i a r : upd l i a = Ok r -> length r = length l.
Proof.
  revert i r; induction l as [|b l IH]; intros [|i] r H; simpl in H; try discriminate.
  - inversion H; auto.
  - destruct (upd l i a) eqn:E; simpl in H; [|discriminate]. inversion H; subst.
    simpl. f_equal. eauto.
Qed.

Lemma upd_ok {A} (l : list A) i a : i < length l -> exists r, upd l i a = Ok r.
Proof.
  revert i; induction l as [|b l IH]; intros i H; simpl in H; [lia|].
  destruct i; simpl; [eauto|].
  destruct (IH i) as [r Hr]; [lia|]. rewrite Hr. simpl. eauto.
Qed.

Lemma upd_nth {A} (l : list A) i a r :
  upd l i a = Ok r ->
  forall k, nth_error r k = if Nat.eqb k i then Some a else nth_error l k.
Proof.
  revert i r; induction l as [|b l IH]; intros [|i] r H; simpl in H; try discriminate.
  - inversion H; subst. intros [|k]; auto.
  - destruct (upd l i a) eqn:E; simpl in H; [|discriminate]. inversion H; subst.
    intros [|k]; auto. simpl. eauto.
Qed.

Lemma resize_length {A} (d : A) n l : length (resize d n l) = n.
Proof.
  unfold resize. rewrite app_length, firstn_length, repeat_length. lia.
Qed.

Lemma nth_error_firstn_lt {A} (l : list A) n k :
  k < n -> nth_error (firstn n l) k = nth_error l k.
Proof.
  revert n k; induction l as [|a l IH]; intros n k H.
  - rewrite firstn_nil. destruct k; auto.
  - destruct n; [lia|]. destruct k; simpl; auto. apply IH. lia.
Qed.

Lemma resize_nth {A} (d : A) n l k :
  nth_error (resize d n l) k =
  if Nat.ltb k n then (if Nat.ltb k (length l) then nth_error l k else Some d) else None.
Proof.
  unfold resize. destruct (Nat.ltb_spec k n) as [Hn|Hn].
  - destruct (Nat.ltb_spec k (length l)) as [Hl|Hl].
    + rewrite nth_error_app1 by (rewrite firstn_length; lia).
      apply nth_error_firstn_lt; lia.
    + rewrite nth_error_app2 by (rewrite firstn_length; lia).
      rewrite firstn_length.
      rewrite nth_error_repeat; auto. lia.
  - apply nth_error_None. rewrite app_length, firstn_length, repeat_length. lia.
Qed.

Lemma zipw_length {A B C} (f : A -> B -> C) a b r :
  zipw f a b = Ok r -> length r = length a /\ length r = length b.
Proof.
  revert b r; induction a as [|x a IH]; intros [|y b] r H; simpl in H; try discriminate.
  - inversion H; auto.
  - destruct (zipw f a b) eqn:E; simpl in H; [|discriminate]. inversion H; subst.
    destruct (IH _ _ E). simpl. auto.
Qed.

Lemma zipw_ok {A B C} (f : A -> B -> C) a b :
  length a = length b -> exists r, zipw f a b = Ok r.
Proof.
  revert b; induction a as [|x a IH]; intros [|y b] H; simpl in *; try discriminate; eauto.
  destruct (IH b) as [r Hr]; [lia|]. rewrite Hr. simpl; eauto.
Qed.

Lemma zipw_nth {A B C} (f : A -> B -> C) a b r :
  zipw f a b = Ok r ->
  forall k x y, nth_error a k = Some x -> nth_error b k = Some y ->
                nth_error r k = Some (f x y).
Proof.
  revert b r; induction a as [|x a IH]; intros [|y b] r H; simpl in H; try discriminate.
  - intros [|k]; discriminate.
  - destruct (zipw f a b) eqn:E; simpl in H; [|discriminate]. inversion H; subst.
    intros [|k] x' y' Hx Hy; simpl in *; [congruence|]. eauto.
Qed.

Lemma bind_ok {W A B} (x : M W A) (f : A -> M W B) s r :
  bind x f s = Ok r <-> exists a s', x s = Ok (a, s') /\ f a s' = Ok r.
Proof.
  unfold bind. split.
  - destruct (x s) as [[a s']|]; [|discriminate]. eauto.
  - intros (a & s' & H & H'). rewrite H. auto.
Qed.

Lemma rbind_ok {A B} (x : res A) (f : A -> res B) r :
  rbind x f = Ok r <-> exists a, x = Ok a /\ f a = Ok r.
Proof.
  unfold rbind. split.
  - destruct x; [|discriminate]. eauto.
  - intros (a & H & H'). rewrite H. auto.
Qed.

Lemma lift_ok {W A} (x : res A) (s : W) r :
  lift x s = Ok r <-> exists a, x = Ok a /\ r = (a, s).
Proof.
  unfold lift. destruct x; split.
  - intros H; inversion H; eauto.
  - intros (a' & H & ->). inversion H; auto.
  - discriminate.
  - intros (a' & H & _). discriminate.
Qed.

Lemma ret_ok {W A} (a : A) (s : W) r : ret a s = Ok r <-> r = (a, s).
Proof. unfold ret. split; intros H; inversion H; auto. Qed.

(** Invert a successful monadic computation in hypothesis [H]. *)
Ltac minv H :=
  repeat match type of H with
  | bind _ _ _ = Ok _ =>
      let a := fresh "a" in let s := fresh "s" in
      let H1 := fresh "Hm" in
      apply bind_ok in H; destruct H as (a & s & H1 & H);
      try (apply lift_ok in H1; let b := fresh "b" in let Hb := fresh "Hl" in let Hc := fresh "Hc" in
           destruct H1 as (b & Hb & Hc); inversion Hc; clear Hc; subst)
  | ret _ _ = Ok _ => apply ret_ok in H; try subst; try (inversion H; subst; clear H)
  | lift _ _ = Ok _ =>
      let b := fresh "b" in let Hb := fresh "Hl" in
      apply lift_ok in H; destruct H as (b & Hb & H)
  | rbind _ _ = Ok _ =>
      let a := fresh "a" in let H1 := fresh "Hr" in
      apply rbind_ok in H; destruct H as (a & H1 & H)
  | raise _ _ = Ok _ => discriminate H
  end.

Lemma nth_error_ext {A} (l l' : list A) :
  (forall k, nth_error l k = nth_error l' k) -> l = l'.
Proof.
  revert l'; induction l as [|a l IH]; intros [|b l'] H; auto.
  - specialize (H 0). discriminate.
  - specialize (H 0). discriminate.
  - f_equal.
    + specialize (H 0). simpl in H. congruence.
    + apply IH. intros k. apply (H (S k)).
Qed.
