(** The canonical way to implement a value-level user model (FilterModel.fmodel) on the heap: read the arrays handed over, compute, return
    new arrays, and write back only the particle array handed to [update] or [measure].  This is what the models of the library and of its
    examples do.  Nothing here models library code; it gives instances of the contracts. *)
From Coq Require Import Bool Reals List Arith Lia.
From Verif Require Import Base XR SampleModel PAModel FilterModel TrajModel HeapModel HeapSpec HeapProofs.
Import ListNotations.
Local Open Scope monad_scope.

Section Of.
Context {W P U Y V : Type}.
Variable mdl : fmodel W P U Y V.
Notation HM := (@HM W P).
Notation hst := (hst W P).

(** Read a stored step, a trajectory. *)
Definition read_pa (pa : nat) : HM (papprox P) :=
  edo a <- get_pa pa ; edo p <- get_part (ha_part a) ; edo w <- get_w (ha_w a) ; eret (mkPA p w (ha_num a) (ha_off a)).
Definition read_step (st : hstep) : HM (tstep P) :=
  edo pa <- read_pa (hs_pa st) ; edo anc <- get_idx (hs_anc st) ; eret (mkStep pa anc).
Fixpoint read_traj (tr : list hstep) : HM (list (tstep P)) :=
  match tr with [] => eret [] | st :: tr' => edo x <- read_step st ; edo xs <- read_traj tr' ; eret (x :: xs) end.

Definition of_create n : HM nat := edo x <- on_world (m_create mdl n) ; new_part x.
Definition of_copy p i : HM nat :=
  edo x <- get_part p ;
  match i with
  | Some i => edo v <- get_idx i ; edo y <- on_world (m_copy mdl x v) ; new_part y
  | None => edo y <- on_world (m_copy_all mdl x) ; new_part y
  end.
Definition of_noise tr a u t : HM V := edo T <- read_traj tr ; edo av <- get_idx a ; on_world (m_noise mdl T av u t).
Definition of_update p tr u y t a v : HM unit :=
  edo x <- get_part p ; edo T <- read_traj tr ; edo av <- get_idx a ;
  edo x' <- on_world (m_update mdl x T u y t av v) ; put_part p x'.
Definition of_measure tr a p u y t : HM nat :=
  edo T <- read_traj tr ; edo av <- get_idx a ; edo x <- get_part p ;
  edo xw <- on_world (m_measure mdl T av x u y t) ; edo _ <- put_part p (fst xw) ; new_w (snd xw).
Definition of_xnext1 p tr a f i u y t k : HM nat :=
  edo x <- get_part p ; edo T <- read_traj tr ; edo av <- get_idx a ; edo fx <- get_part f ; edo iv <- get_idx i ;
  edo w <- on_world (m_xnext1 mdl x T av fx iv u y t k) ; new_w w.
Definition of_stage1 p u y t : HM nat := edo x <- get_part p ; edo w <- on_world (m_stage1 mdl x u y t) ; new_w w.
Definition of_qsample p u y t : HM nat := edo x <- get_part p ; edo w <- on_world (m_qsample mdl x u y t) ; new_part w.
Definition of_logp_q p q u y t : HM nat :=
  edo x <- get_part p ; edo z <- get_part q ; edo w <- on_world (m_logp_q mdl x z u y t) ; new_w w.
Definition of_logp_xnext p q u t : HM nat :=
  edo x <- get_part p ; edo z <- get_part q ; edo w <- on_world (m_logp_xnext mdl x z u t) ; new_w w.
Definition of_meas1 p y t : HM nat :=
  edo x <- get_part p ; edo xw <- on_world (m_meas1 mdl x y t) ; edo _ <- put_part p (fst xw) ; new_w (snd xw).
Definition of_propose_y n y t : HM nat := edo x <- on_world (m_propose_y mdl n y t) ; new_part x.
Definition hm_of : hmodel W P U Y V :=
  mkHM of_create of_copy of_noise of_update of_measure of_xnext1 of_stage1 of_qsample of_logp_q of_logp_xnext of_meas1 of_propose_y.

(** ** They satisfy the frame contract *)
Lemma ka_refl (s : hst) : keeps_all s s.
Proof. repeat split; auto. Qed.
(** Computations that change at most the world. *)
Definition reads {A} (x : HM A) : Prop := forall s, exists w, snd (x s) = set_world s w.
Lemma set_world_id (s : hst) : s = set_world s (h_world s).
Proof. destruct s; reflexivity. Qed.
Lemma reads_get {A} (f : hst -> res A) : reads (fun s => (f s, s)).
Proof. intros s. exists (h_world s). apply set_world_id. Qed.
Lemma reads_ret {A} (a : A) : reads (eret a).
Proof. intros s. exists (h_world s). apply set_world_id. Qed.
Lemma reads_world {A} (x : M W A) : reads (on_world x).
Proof. intros s. unfold on_world. destruct (x (h_world s)) as [[a w]|e]; [exists w; reflexivity|]. exists (h_world s). apply set_world_id. Qed.
Lemma reads_bind {A B} (x : HM A) (f : A -> HM B) : reads x -> (forall a, reads (f a)) -> reads (ebind x f).
Proof.
  intros Hx Hf s. unfold ebind. destruct (Hx s) as [w Ew]. destruct (x s) as [[a|e] s1]; simpl in *; subst.
  - destruct (Hf a (set_world s w)) as [w' E']. exists w'. rewrite E'. reflexivity.
  - exists w; reflexivity.
Qed.
Lemma reads_traj tr : reads (read_traj tr).
Proof.
  induction tr; simpl; [apply reads_ret|]. apply reads_bind; [|intro; apply reads_bind; [auto|intro; apply reads_ret]].
  unfold read_step, read_pa. repeat (apply reads_bind; [|intro]); try apply reads_ret; try apply reads_get.
Qed.
Lemma ka_world (s : hst) w s' : keeps_all (set_world s w) s' -> keeps_all s s'.
Proof. exact (fun H => H). Qed.
Lemma rn_bind {A C} (cells : hst -> list C) (x : HM A) (f : A -> HM nat) : (forall s w, cells (set_world s w) = cells s) ->
  reads x -> (forall a, returns_new cells (f a)) -> returns_new cells (ebind x f).
Proof.
  intros Hc Hx Hf s. unfold ebind. destruct (Hx s) as [w Ew]. destruct (x s) as [[a|e] s1]; simpl in *; subst.
  - destruct (Hf a (set_world s w)) as [K1 F1]. split; [exact K1|]. unfold fresh in *. rewrite Hc in F1. exact F1.
  - split; [apply (ka_world s w), ka_refl|]. exact I.
Qed.
Lemma kb_bind {A B} p (x : HM A) (f : A -> HM B) : reads x -> (forall a s, keeps_but p s (snd (f a s))) ->
  forall s, keeps_but p s (snd (ebind x f s)).
Proof.
  intros Hx Hf s. unfold ebind. destruct (Hx s) as [w Ew]. destruct (x s) as [[a|e] s1]; simpl in *; subst.
  - exact (Hf a (set_world s w)).
  - repeat split; auto.
Qed.
Lemma kbw_bind {A} p (x : HM A) (f : A -> HM nat) : reads x -> (forall a s, keeps_but p s (snd (f a s)) /\ fresh h_w s (f a s)) ->
  forall s, keeps_but p s (snd (ebind x f s)) /\ fresh h_w s (ebind x f s).
Proof.
  intros Hx Hf s. unfold ebind. destruct (Hx s) as [w Ew]. destruct (x s) as [[a|e] s1]; simpl in *; subst.
  - exact (Hf a (set_world s w)).
  - repeat split; auto.
Qed.
Lemma kb_put p x (s : hst) : keeps_but p s (snd (put_part p x s)).
Proof. split; [|split; [|split]]; simpl; try apply keepsl_refl. apply keepsl_put. unfold but; auto. Qed.
Lemma kbw_put p x w (s : hst) : keeps_but p s (snd ((edo _ <- put_part p x ; new_w w) s)) /\ fresh h_w s ((edo _ <- put_part p x ; new_w w) s).
Proof.
  unfold ebind; simpl. split; [|unfold fresh; simpl; rewrite app_length; simpl; lia].
  split; [|split; [|split]]; simpl; try apply keepsl_refl; [|apply keepsl_app]. apply keepsl_put. unfold but; auto.
Qed.
Lemma hm_of_frame : frame_ok hm_of.
Proof.
  Local Ltac rd := first [apply reads_get | apply reads_traj | apply reads_world].
  split; simpl; intros.
  - unfold of_create. repeat (apply rn_bind; [reflexivity|rd|intro]). apply returns_new_part.
  - unfold of_copy. repeat (apply rn_bind; [reflexivity|rd|intro]). destruct i; repeat (apply rn_bind; [reflexivity|rd|intro]); apply returns_new_part.
  - unfold of_noise. assert (H : reads (of_noise tr a u t)) by (unfold of_noise; repeat (apply reads_bind; [rd|intro]); rd).
    destruct (H s) as [w E]. unfold of_noise in E. rewrite E. exact (ka_world s w _ (ka_refl _)).
  - unfold of_update. revert s. repeat (apply kb_bind; [rd|intro]). apply kb_put.
  - unfold of_measure. revert s. repeat (apply kbw_bind; [rd|intro]). apply kbw_put.
  - unfold of_xnext1. repeat (apply rn_bind; [reflexivity|rd|intro]). apply returns_new_w.
  - unfold of_stage1. repeat (apply rn_bind; [reflexivity|rd|intro]). apply returns_new_w.
  - unfold of_qsample. repeat (apply rn_bind; [reflexivity|rd|intro]). apply returns_new_part.
  - unfold of_logp_q. repeat (apply rn_bind; [reflexivity|rd|intro]). apply returns_new_w.
  - unfold of_logp_xnext. repeat (apply rn_bind; [reflexivity|rd|intro]). apply returns_new_w.
  - unfold of_meas1. revert s. repeat (apply kbw_bind; [rd|intro]). apply kbw_put.
  - unfold of_propose_y. repeat (apply rn_bind; [reflexivity|rd|intro]). apply returns_new_part.
Qed.
End Of.
