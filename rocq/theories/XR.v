(** Floating point values with IEEE-754 special values but exact (unrounded)
    finite arithmetic.  Used for log-weights and for the linear weights handed to
    [sample], so that -inf log-likelihoods, NaN propagation and 0/0 behave as in
    numpy.  Simplification: zero is unsigned (x/0 uses +0) and there is no
    overflow. *)
From Coq Require Import Reals Lra List.
From Verif Require Import Base.
Import ListNotations.
Open Scope R_scope.

Inductive xr : Type := NaN | NInf | PInf | Fin (r : R).

Definition Rltb (a b : R) : bool := if Rlt_dec a b then true else false.
Definition Rleb (a b : R) : bool := if Rle_dec a b then true else false.
Definition Reqb (a b : R) : bool := if Req_EM_T a b then true else false.

Lemma Rltb_true a b : Rltb a b = true <-> a < b.
Proof. unfold Rltb. destruct (Rlt_dec a b); split; intros; auto; try discriminate; try tauto. Qed.
Lemma Rltb_false a b : Rltb a b = false <-> b <= a.
Proof. unfold Rltb. destruct (Rlt_dec a b); split; intros; auto; try discriminate; lra. Qed.
Lemma Rleb_true a b : Rleb a b = true <-> a <= b.
Proof. unfold Rleb. destruct (Rle_dec a b); split; intros; auto; try discriminate; try tauto. Qed.
Lemma Rleb_false a b : Rleb a b = false <-> b < a.
Proof. unfold Rleb. destruct (Rle_dec a b); split; intros; auto; try discriminate; lra. Qed.

(** IEEE addition on special values. *)
Definition xadd (a b : xr) : xr :=
  match a, b with
  | NaN, _ | _, NaN => NaN
  | PInf, NInf | NInf, PInf => NaN
  | PInf, _ | _, PInf => PInf
  | NInf, _ | _, NInf => NInf
  | Fin x, Fin y => Fin (x + y)
  end.

Definition xopp (a : xr) : xr :=
  match a with NaN => NaN | PInf => NInf | NInf => PInf | Fin x => Fin (- x) end.

Definition xsub (a b : xr) : xr := xadd a (xopp b).

(** numpy.maximum / numpy.max: NaN propagates. *)
Definition xmax2 (a b : xr) : xr :=
  match a, b with
  | NaN, _ | _, NaN => NaN
  | PInf, _ | _, PInf => PInf
  | NInf, c => c
  | c, NInf => c
  | Fin x, Fin y => Fin (Rmax x y)
  end.

(** numpy.exp *)
Definition xexp (a : xr) : xr :=
  match a with NaN => NaN | PInf => PInf | NInf => Fin 0 | Fin x => Fin (exp x) end.

(** numpy.log *)
Definition xlog (a : xr) : xr :=
  match a with
  | NaN => NaN | PInf => PInf | NInf => NaN
  | Fin x => if Rltb 0 x then Fin (ln x) else if Reqb x 0 then NInf else NaN
  end.

(** IEEE multiplication on special values. *)
Definition xsign_mul_inf (x : R) (pos : xr) (neg : xr) : xr :=
  if Rltb 0 x then pos else if Rltb x 0 then neg else NaN.

Definition xmul (a b : xr) : xr :=
  match a, b with
  | NaN, _ | _, NaN => NaN
  | PInf, PInf | NInf, NInf => PInf
  | PInf, NInf | NInf, PInf => NInf
  | PInf, Fin y | Fin y, PInf => xsign_mul_inf y PInf NInf
  | NInf, Fin y | Fin y, NInf => xsign_mul_inf y NInf PInf
  | Fin x, Fin y => Fin (x * y)
  end.

(** IEEE division on special values. *)
Definition xdiv (a b : xr) : xr :=
  match a, b with
  | NaN, _ | _, NaN => NaN
  | Fin x, Fin y =>
      if Reqb y 0 then (if Rltb 0 x then PInf else if Rltb x 0 then NInf else NaN)
      else Fin (x / y)
  | Fin _, _ => Fin 0
  | PInf, Fin y => if Rltb y 0 then NInf else PInf
  | NInf, Fin y => if Rltb y 0 then PInf else NInf
  | _, _ => NaN
  end.

(** Floating point comparison [a < b] (false as soon as a NaN is involved). *)
Definition xltb (a b : xr) : bool :=
  match a, b with
  | NaN, _ | _, NaN => false
  | NInf, NInf => false | NInf, _ => true
  | _, NInf => false
  | PInf, _ => false
  | Fin _, PInf => true
  | Fin x, Fin y => Rltb x y
  end.

(** numpy's ordering used by sort/searchsorted: NaN is larger than everything. *)
Definition np_less (a b : xr) : bool :=
  match a, b with
  | NaN, _ => false
  | _, NaN => true
  | _, _ => xltb a b
  end.

(** numpy.sum *)
Definition xsum (l : list xr) : xr := fold_left xadd l (Fin 0).

(** numpy.max: ValueError on an empty array. *)
Definition xmax (l : list xr) : res xr :=
  match l with [] => Err ValueError | a :: l' => Ok (fold_left xmax2 l' a) end.

Definition is_nan (a : xr) : bool := match a with NaN => true | _ => false end.

(** Finite or -inf: the log of some probability weight. *)
Definition logish (a : xr) : Prop := match a with NaN | PInf => False | _ => True end.

(** The linear weight a log weight denotes. *)
Definition lin (a : xr) : R := match a with Fin x => exp x | _ => 0 end.

(** Sum of a list of reals (specification side). *)
Definition rsum (l : list R) : R := fold_right Rplus 0 l.

(* ------------------------------------------------------------------ *)

Lemma rsum_app a b : rsum (a ++ b) = rsum a + rsum b.
Proof. induction a; simpl; [lra|]. rewrite IHa; lra. Qed.

Lemma rsum_nonneg l : Forall (fun x => 0 <= x) l -> 0 <= rsum l.
Proof. induction 1; simpl; lra. Qed.

Lemma rsum_map_mul c l : rsum (map (fun x => c * x) l) = c * rsum l.
Proof. induction l; simpl; [lra|]. rewrite IHl. lra. Qed.

Lemma rsum_map_scale {A} c (f : A -> R) l :
  rsum (map (fun x => c * f x) l) = c * rsum (map f l).
Proof. induction l; simpl; [lra|]. rewrite IHl. lra. Qed.

Lemma rsum_map_div {A} c (f : A -> R) l :
  rsum (map (fun x => f x / c) l) = rsum (map f l) / c.
Proof. induction l; simpl; [unfold Rdiv; lra|]. rewrite IHl. unfold Rdiv; lra. Qed.

Lemma rsum_map_plus {A} (f g : A -> R) l :
  rsum (map (fun x => f x + g x) l) = rsum (map f l) + rsum (map g l).
Proof. induction l; simpl; lra. Qed.

Lemma rsum_ext {A} (f g : A -> R) l :
  (forall x, In x l -> f x = g x) -> rsum (map f l) = rsum (map g l).
Proof.
  intros H. f_equal. apply map_ext_in. auto.
Qed.

Lemma rsum_le {A} (f g : A -> R) l :
  (forall x, In x l -> f x <= g x) -> rsum (map f l) <= rsum (map g l).
Proof.
  induction l as [|a l IH]; simpl; intros H; [lra|].
  assert (f a <= g a) by auto.
  assert (rsum (map f l) <= rsum (map g l)) by (apply IH; auto). lra.
Qed.

Lemma rsum_in_le l x : Forall (fun x => 0 <= x) l -> In x l -> x <= rsum l.
Proof.
  induction 1 as [|a l Ha Hl IH]; simpl; [tauto|].
  intros [->|H]; [apply rsum_nonneg in Hl; lra | apply IH in H; lra].
Qed.

Lemma rsum_repeat c n : rsum (repeat c n) = INR n * c.
Proof.
  induction n; [simpl; lra|]. rewrite S_INR. simpl repeat. simpl rsum. rewrite IHn. lra.
Qed.

Lemma rsum_pos l : Forall (fun x => 0 <= x) l -> Exists (fun x => 0 < x) l -> 0 < rsum l.
Proof.
  intros H1 H2. apply Exists_exists in H2. destruct H2 as (x & Hx & Hpos).
  pose proof (rsum_in_le l x H1 Hx). lra.
Qed.

Lemma rsum_pos_Exists l : Forall (fun x => 0 <= x) l -> 0 < rsum l -> Exists (fun x => 0 < x) l.
Proof.
  induction 1 as [|a l Ha Hl IH]; simpl; intros H; [lra|].
  destruct (Rlt_dec 0 a); [left; auto|]. right. apply IH. lra.
Qed.

Lemma fold_xadd_fin l : forall a,
  fold_left xadd (map Fin l) (Fin a) = Fin (a + rsum l).
Proof.
  induction l as [|b l IH]; intros a; simpl; [f_equal; lra|].
  rewrite IH. f_equal. lra.
Qed.

Lemma xsum_fin l : xsum (map Fin l) = Fin (rsum l).
Proof. unfold xsum. rewrite fold_xadd_fin. f_equal; lra. Qed.

Lemma fold_xadd_nan l : fold_left xadd l NaN = NaN.
Proof. induction l; simpl; auto. Qed.

Lemma lin_nonneg a : 0 <= lin a.
Proof. destruct a; simpl; try lra. left; apply exp_pos. Qed.

Lemma xexp_logish a : logish a -> xexp a = Fin (lin a).
Proof. destruct a; simpl; tauto || auto. Qed.

Lemma lin_xadd a b : logish a -> logish b -> lin (xadd a b) = lin a * lin b.
Proof.
  destruct a, b; simpl; try tauto; intros; try lra. apply exp_plus.
Qed.

Lemma logish_xadd a b : logish a -> logish b -> logish (xadd a b).
Proof. destruct a, b; simpl; tauto. Qed.

Lemma logish_xsub_fin a m : logish a -> logish (xsub a (Fin m)).
Proof. destruct a; simpl; tauto. Qed.

Lemma lin_xsub_fin a m : logish a -> lin (xsub a (Fin m)) = lin a * exp (- m).
Proof. destruct a; simpl; try tauto; intros; try lra. rewrite <- exp_plus. auto. Qed.

Lemma logish_max2 a b : logish a -> logish b -> logish (xmax2 a b).
Proof. destruct a, b; simpl; tauto. Qed.

(** Order on log weights. *)
Definition xle (a b : xr) : Prop :=
  match a, b with
  | NInf, NInf => True | NInf, Fin _ => True
  | Fin x, Fin y => x <= y
  | _, _ => False
  end.

Lemma xle_refl a : logish a -> xle a a.
Proof. destruct a; simpl; try tauto. intros; lra. Qed.

Lemma xle_trans a b c : xle a b -> xle b c -> xle a c.
Proof. destruct a, b, c; simpl; try tauto. lra. Qed.

Lemma xmax2_spec a b : logish a -> logish b ->
  xle a (xmax2 a b) /\ xle b (xmax2 a b) /\ (xmax2 a b = a \/ xmax2 a b = b).
Proof.
  destruct a, b; simpl; try tauto; intros; repeat split; auto; try lra.
  - apply Rmax_l.
  - apply Rmax_r.
  - unfold Rmax. destruct (Rle_dec r r0); auto.
Qed.

(** [numpy.max] of log weights is an element that is an upper bound. *)
Lemma fold_xmax2_spec l : forall a, logish a -> Forall logish l ->
  let m := fold_left xmax2 l a in
  logish m /\ xle a m /\ Forall (fun x => xle x m) l /\ (m = a \/ In m l).
Proof.
  induction l as [|b l IH]; intros a Ha Hl; simpl.
  - repeat split; auto using xle_refl.
  - inversion Hl; subst. destruct (xmax2_spec a b) as (H1' & H2' & H3'); auto.
    destruct (IH (xmax2 a b)) as (A & B & C & D); auto using logish_max2.
    repeat split; auto.
    + eapply xle_trans; eauto.
    + constructor; auto. eapply xle_trans; eauto.
    + destruct D as [D|D]; auto. destruct H3' as [E|E]; rewrite E in *; auto.
Qed.

Lemma xmax_spec l m : Forall logish l -> xmax l = Ok m ->
  logish m /\ Forall (fun x => xle x m) l /\ In m l.
Proof.
  destruct l as [|a l]; simpl; [discriminate|]. intros H E. inversion E; subst.
  inversion H; subst. destruct (fold_xmax2_spec l a) as (A & B & C & D); auto.
  repeat split; auto. destruct D; auto.
Qed.

Lemma xmax_ok l : l <> [] -> exists m, xmax l = Ok m.
Proof. destruct l; simpl; eauto; congruence. Qed.

Lemma xmax_fin l m : Forall logish l -> xmax l = Ok m ->
  (exists r, In (Fin r) l) -> exists r, m = Fin r.
Proof.
  intros H E (r & Hr). destruct (xmax_spec l m H E) as (A & B & C).
  rewrite Forall_forall in B. specialize (B _ Hr).
  destruct m; simpl in B; try contradiction. eauto.
Qed.

(** Decide comparisons of concrete reals in the goal. *)
Lemma Reqb_true a b : a = b -> Reqb a b = true.
Proof. intros ->. unfold Reqb. destruct (Req_EM_T b b); tauto. Qed.
Lemma Reqb_false a b : a <> b -> Reqb a b = false.
Proof. intros H. unfold Reqb. destruct (Req_EM_T a b); tauto. Qed.
Ltac xdec :=
  repeat match goal with
  | |- context [Rltb ?a ?b] =>
      first [ rewrite (proj2 (Rltb_true a b)) by lra
            | rewrite (proj2 (Rltb_false a b)) by lra ]
  | |- context [Rleb ?a ?b] =>
      first [ rewrite (proj2 (Rleb_true a b)) by lra
            | rewrite (proj2 (Rleb_false a b)) by lra ]
  | |- context [Reqb ?a ?b] =>
      first [ rewrite (Reqb_true a b) by lra
            | rewrite (Reqb_false a b) by lra ]
  end.
Ltac xcompute := cbn; repeat (progress (xdec; cbn)).
