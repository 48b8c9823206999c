(** Specification for HeapModel: what a step of a trajectory looks like to a reader, what it means that cells are kept, and the frame
    contract of a user model.  Nothing here models code. *)
From Coq Require Import Bool Reals List Arith Lia.
From Verif Require Import Base XR SampleModel PAModel FilterModel TrajModel HeapModel.
Import ListNotations.

(** [l'] agrees with [l] on every entry of [l] that satisfies [prot], and is at least as long. *)
Definition keepsl {A} (prot : nat -> Prop) (l l' : list A) : Prop :=
  (length l <= length l')%nat /\ forall i, (i < length l)%nat -> prot i -> nth_error l' i = nth_error l i.
Definition all_loc (_ : nat) : Prop := True.
Definition but (l : nat) (i : nat) : Prop := i <> l.
(** Every entry of [l] is kept. *)
Definition extends {A} (l l' : list A) : Prop := keepsl all_loc l l'.

Section Frame.
Context {W P U Y V : Type}.
Notation hst := (hst W P).
Notation hmodel := (hmodel W P U Y V).

(** No cell that existed is changed, except possibly the particle array [p]. *)
Definition keeps_but (p : nat) (s s' : hst) : Prop :=
  keepsl (but p) (h_part s) (h_part s') /\ extends (h_w s) (h_w s') /\ extends (h_idx s) (h_idx s') /\ extends (h_pa s) (h_pa s').
(** No cell that existed is changed. *)
Definition keeps_all (s s' : hst) : Prop :=
  extends (h_part s) (h_part s') /\ extends (h_w s) (h_w s') /\ extends (h_idx s) (h_idx s') /\ extends (h_pa s) (h_pa s').
(** The array returned is a new one. *)
Definition fresh {C} (cells : hst -> list C) (s : hst) (x : res nat * hst) : Prop :=
  match fst x with Ok l => (length (cells s) <= l < length (cells (snd x)))%nat | Err _ => True end.
Definition returns_new {C} (cells : hst -> list C) (x : HM nat) : Prop :=
  forall s : hst, keeps_all s (snd (x s)) /\ fresh cells s (x s).

(** What a reader of a stored step sees: particles, log-weights, number of particles, weight offset, ancestors. *)
Record step_view := mkView { sv_part : list P; sv_w : list xr; sv_num : nat; sv_off : xr; sv_anc : list nat }.
Definition view (s : hst) (st : hstep) : option step_view :=
  match nth_error (h_pa s) (hs_pa st), nth_error (h_idx s) (hs_anc st) with
  | Some a, Some anc =>
      match nth_error (h_part s) (ha_part a), nth_error (h_w s) (ha_w a) with
      | Some p, Some w => Some (mkView p w (ha_num a) (ha_off a) anc)
      | _, _ => None
      end
  | _, _ => None
  end.

(** What is asked of a model: it may read the whole heap, create arrays and objects, keep references to them, and draw random numbers;
    the arrays it returns are new ones, and it writes only into the particle array handed to [update] or [measure]. *)
Record frame_ok (hm : hmodel) : Prop := {
  fo_create : forall n, returns_new h_part (hm_create hm n);
  fo_copy : forall p i, returns_new h_part (hm_copy hm p i);
  fo_noise : forall tr a u t (s : hst), keeps_all s (snd (hm_noise hm tr a u t s));
  fo_update : forall p tr u y t a v (s : hst), keeps_but p s (snd (hm_update hm p tr u y t a v s));
  fo_measure : forall tr a p u y t (s : hst), keeps_but p s (snd (hm_measure hm tr a p u y t s)) /\
      fresh h_w s (hm_measure hm tr a p u y t s);
  fo_xnext1 : forall p tr a f i u y t k, returns_new h_w (hm_xnext1 hm p tr a f i u y t k);
  fo_stage1 : forall p u y t, returns_new h_w (hm_stage1 hm p u y t);
  fo_qsample : forall p u y t, returns_new h_part (hm_qsample hm p u y t);
  fo_logp_q : forall p q u y t, returns_new h_w (hm_logp_q hm p q u y t);
  fo_logp_xnext : forall p q u t, returns_new h_w (hm_logp_xnext hm p q u t);
  fo_meas1 : forall p y t (s : hst), keeps_but p s (snd (hm_meas1 hm p y t s)) /\ fresh h_w s (hm_meas1 hm p y t s);
  fo_propose_y : forall n y t, returns_new h_part (hm_propose_y hm n y t) }.
End Frame.
