(** When an array-level user model (HeapModel.hmodel) does what a value-level one (FilterModel.fmodel) does, and when an array-level
    trajectory shows a value-level one.  Nothing here models code. *)
From Coq Require Import Bool Reals List Arith Lia.
From Verif Require Import Base XR SampleModel PAModel FilterModel TrajModel HeapModel HeapSpec.
Import ListNotations.

Section Spec.
Context {W P U Y V : Type}.
Notation hst := (hst W P).
Notation HM := (@HM W P).

(** The contents of an array. *)
Definition part_at (s : hst) (i : nat) (x : list P) : Prop := nth_error (h_part s) i = Some x.
Definition w_at (s : hst) (i : nat) (x : list xr) : Prop := nth_error (h_w s) i = Some x.
Definition idx_at (s : hst) (i : nat) (x : list nat) : Prop := nth_error (h_idx s) i = Some x.
(** A stored step shows a value; a stored trajectory shows a list of values. *)
Definition shows (s : hst) (st : hstep) (v : tstep P) : Prop :=
  view s st = Some (mkView (part (st_pa v)) (lw (st_pa v)) (num (st_pa v)) (woff (st_pa v)) (st_anc v)).
Definition shows_traj (s : hst) (tr : list hstep) (T : list (tstep P)) : Prop := Forall2 (shows s) tr T.

(** [x], run on the heap [s], does what [v] does: it returns when [v] returns, leaving the world as [v] does and establishing [Q] between the
    two results and the new heap; it raises the exception that [v] raises. *)
Definition sim {A B} (s : hst) (x : HM A) (v : M W B) (Q : A -> B -> hst -> Prop) : Prop :=
  match v (h_world s) with
  | Ok (b, w) => exists a s', x s = (Ok a, s') /\ h_world s' = w /\ Q a b s'
  | Err e => exists s', x s = (Err e, s')
  end.

(** The array-level methods compute the value-level functions of the contents of the arrays they are handed; results are returned in arrays,
    and the updated particles are left in the array handed over. *)
Record implements (hm : hmodel W P U Y V) (mdl : fmodel W P U Y V) : Prop := {
  im_create : forall s n, sim s (hm_create hm n) (m_create mdl n) (fun l x s' => part_at s' l x);
  im_copy : forall s p i x v, part_at s p x -> idx_at s i v -> sim s (hm_copy hm p (Some i)) (m_copy mdl x v) (fun l y s' => part_at s' l y);
  im_copy_all : forall s p x, part_at s p x -> sim s (hm_copy hm p None) (m_copy_all mdl x) (fun l y s' => part_at s' l y);
  im_noise : forall s tr a u t T av, shows_traj s tr T -> idx_at s a av -> sim s (hm_noise hm tr a u t) (m_noise mdl T av u t) (fun v v' _ => v = v');
  im_update : forall s p tr u y t a v x T av, part_at s p x -> shows_traj s tr T -> idx_at s a av ->
    sim s (hm_update hm p tr u y t a v) (m_update mdl x T u y t av v) (fun _ x' s' => part_at s' p x');
  im_measure : forall s tr a p u y t T av x, shows_traj s tr T -> idx_at s a av -> part_at s p x ->
    sim s (hm_measure hm tr a p u y t) (m_measure mdl T av x u y t) (fun l xw s' => part_at s' p (fst xw) /\ w_at s' l (snd xw));
  im_xnext1 : forall s p tr a f i u y t k x T av fx iv, part_at s p x -> shows_traj s tr T -> idx_at s a av -> part_at s f fx -> idx_at s i iv ->
    sim s (hm_xnext1 hm p tr a f i u y t k) (m_xnext1 mdl x T av fx iv u y t k) (fun l w s' => w_at s' l w);
  im_stage1 : forall s p u y t x, part_at s p x -> sim s (hm_stage1 hm p u y t) (m_stage1 mdl x u y t) (fun l w s' => w_at s' l w);
  im_qsample : forall s p u y t x, part_at s p x -> sim s (hm_qsample hm p u y t) (m_qsample mdl x u y t) (fun l z s' => part_at s' l z);
  im_logp_q : forall s p q u y t x z, part_at s p x -> part_at s q z ->
    sim s (hm_logp_q hm p q u y t) (m_logp_q mdl x z u y t) (fun l w s' => w_at s' l w);
  im_logp_xnext : forall s p q u t x z, part_at s p x -> part_at s q z ->
    sim s (hm_logp_xnext hm p q u t) (m_logp_xnext mdl x z u t) (fun l w s' => w_at s' l w);
  im_meas1 : forall s p y t x, part_at s p x ->
    sim s (hm_meas1 hm p y t) (m_meas1 mdl x y t) (fun l xw s' => part_at s' p (fst xw) /\ w_at s' l (snd xw));
  im_propose_y : forall s n y t, sim s (hm_propose_y hm n y t) (m_propose_y mdl n y t) (fun l x s' => part_at s' l x) }.

(** The same filter with the same conditional trajectory. *)
Definition same_filter (s : hst) (f : hfilt) (f' : filt P) : Prop :=
  match f, f' with
  | HPF a, FPF b | HAPF a, FAPF b | HPFY a, FPFY b | HSIR a, FSIR b => a = b
  | HCPFYAS c, FCPFYAS c' | HCPFAS c, FCPFAS c' | HCPF c, FCPF c' | HCSIRAS c, FCSIRAS c' => shows_traj s c c'
  | _, _ => False
  end.
(** The array-level trajectory object shows the value-level one. *)
Definition obj_shows (s : hst) (o : hptraj U Y) (v : ptraj P U Y) : Prop :=
  hp_N o = pt_N v /\ same_filter s (hp_f o) (pt_f v) /\ hp_u o = pt_u v /\ hp_y o = pt_y v /\ hp_t o = pt_t v /\ hp_T o = pt_T v /\
  hp_ind1 o = pt_ind1 v /\ shows_traj s (hp_traj o) (pt_traj v).
End Spec.
