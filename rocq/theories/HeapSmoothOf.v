(** The canonical heap implementation of a value-level smoothing model (SmoothModel.smodel): read the arrays handed over, compute, return
    new arrays.  Nothing here models library code; it gives instances of the contracts. *)
From Coq Require Import Bool Reals List Arith Lia.
From Verif Require Import Base XR SampleModel PAModel FilterModel TrajModel SmoothModel HeapModel HeapSpec HeapProofs HeapTraj HeapOf HeapSmooth HeapSmoothSpec.
Import ListNotations.
Local Open Scope monad_scope.

Section SOf.
Context {W P U Y V : Type}.
Variable sm : smodel W P U Y V.
Notation HM := (@HM W P).
Notation hst := (hst W P).

(** Store a step, a trajectory. *)
Definition store_step (st : tstep P) : HM hstep :=
  edo p <- new_part (part (st_pa st)) ; edo w <- new_w (lw (st_pa st)) ;
  edo pa <- new_pa (mkHPA p w (num (st_pa st)) (woff (st_pa st))) ; edo a <- new_idx (st_anc st) ; eret (mkHS pa a).
Fixpoint store_traj (tr : list (tstep P)) : HM (list hstep) :=
  match tr with [] => eret [] | st :: tr' => edo x <- store_step st ; edo xs <- store_traj tr' ; eret (x :: xs) end.

Definition sof_xnext p past pind fut find u y t k : HM nat :=
  edo x <- get_part p ; edo T <- read_traj past ; edo i <- get_idx pind ; edo Fu <- read_traj fut ; edo j <- get_idx find ;
  edo r <- on_world (s_xnext sm x T i Fu j u y t k) ; new_w r.
Definition sof_xmax p past pind u y t k : HM xr :=
  edo x <- get_part p ; edo T <- read_traj past ; edo i <- get_idx pind ; on_world (s_xmax sm x T i u y t k).
Definition sof_sample p past pind fut find u y t k : HM nat :=
  edo x <- get_part p ; edo T <- read_traj past ; edo i <- get_idx pind ; edo Fu <- read_traj fut ; edo j <- get_idx find ;
  edo r <- on_world (s_sample sm x T i Fu j u y t k) ; new_part r.
Definition sof_cpred p past pind fp find u y t k : HM nat :=
  edo x <- get_part p ; edo T <- read_traj past ; edo i <- get_idx pind ; edo z <- get_part fp ; edo j <- get_idx find ;
  edo r <- on_world (s_cpred sm x T i z j u y t k) ; new_part r.
Definition sof_cinit p t : HM nat := edo x <- get_part p ; edo r <- on_world (s_cinit sm x t) ; new_part r.
Definition sof_propose past pind fut find u y t k : HM nat :=
  edo T <- read_traj past ; edo i <- get_idx pind ; edo Fu <- read_traj fut ; edo j <- get_idx find ;
  edo r <- on_world (s_propose sm T i Fu j u y t k) ; new_part r.
Definition sof_logprop p past pind fut find u y t k : HM nat :=
  edo x <- get_part p ; edo T <- read_traj past ; edo i <- get_idx pind ; edo Fu <- read_traj fut ; edo j <- get_idx find ;
  edo r <- on_world (s_logprop sm x T i Fu j u y t k) ; new_w r.
Definition sof_x0 p t : HM nat := edo x <- get_part p ; edo r <- on_world (s_x0 sm x t) ; new_w r.
Definition sof_hook (h : list (tstep P) -> list (cell U) -> list (cell Y) -> list nat -> nat -> M W (list (tstep P)))
    (tr : list hstep) (u : list (cell U)) (y : list (cell Y)) (t : list nat) (m : nat) : HM (list hstep) :=
  edo T <- read_traj tr ; edo r <- on_world (h T u y t m) ; store_traj r.
Definition hsm_of : hsmodel W P U Y V :=
  mkHSM (hm_of (s_f sm)) sof_xnext sof_xmax sof_sample sof_cpred sof_cinit sof_propose sof_logprop sof_x0
    (option_map sof_hook (s_post sm)) (option_map sof_hook (s_pre sm)).

(** ** They satisfy the contracts *)
Lemma nw_bind {A B} (x : HM A) (f : A -> HM B) : reads x -> (forall a, no_write (f a)) -> no_write (ebind x f).
Proof.
  intros Hx Hf s. unfold ebind. destruct (Hx s) as [w Ew]. destruct (x s) as [[a|e] s1]; simpl in *; subst.
  - exact (Hf a (set_world s w)).
  - exact (ka_world s w _ (ka_refl _)).
Qed.
Lemma nw_bind2 {A B} (x : HM A) (f : A -> HM B) : no_write x -> (forall a, no_write (f a)) -> no_write (ebind x f).
Proof.
  intros Hx Hf s. unfold ebind. specialize (Hx s). destruct (x s) as [[a|e] s1]; simpl in *; auto.
  eapply keeps_all_trans; [exact Hx|apply Hf].
Qed.
Lemma nw_reads {A} (x : HM A) : reads x -> no_write x.
Proof. intros H s. destruct (H s) as [w ->]. exact (ka_world s w _ (ka_refl _)). Qed.
Lemma nw_new_part x : no_write (new_part x : HM nat). Proof. intros s; apply returns_new_part. Qed.
Lemma nw_new_w x : no_write (new_w x : HM nat). Proof. intros s; apply returns_new_w. Qed.
Lemma nw_new_idx x : no_write (new_idx x : HM nat).
Proof. intros s. split; [|split; [|split]]; simpl; try apply keepsl_refl; apply keepsl_app. Qed.
Lemma nw_new_pa x : no_write (new_pa x : HM nat).
Proof. intros s. split; [|split; [|split]]; simpl; try apply keepsl_refl; apply keepsl_app. Qed.
Lemma nw_store_step st : no_write (store_step st).
Proof.
  unfold store_step. apply nw_bind2; [apply nw_new_part|intro]. apply nw_bind2; [apply nw_new_w|intro].
  apply nw_bind2; [apply nw_new_pa|intro]. apply nw_bind2; [apply nw_new_idx|intro]. apply nw_reads, reads_ret.
Qed.
Lemma nw_store tr : no_write (store_traj tr).
Proof.
  induction tr; simpl; [apply nw_reads, reads_ret|]. apply nw_bind2; [apply nw_store_step|intro].
  apply nw_bind2; [assumption|intro]. apply nw_reads, reads_ret.
Qed.
Lemma store_step_new st s x s' : store_step st s = (Ok x, s') -> unshared s s' x.
Proof.
  unfold store_step, ebind. simpl. intros [= <- <-]. split; simpl.
  - split; [simpl; lia|]. simpl. rewrite nth_error_app2, Nat.sub_diag by lia. simpl. eexists; split; [reflexivity|]. simpl.
    rewrite !app_length; simpl. lia.
  - red; simpl. rewrite app_length; simpl; lia.
Qed.
Lemma unshared_later (s1 s2 s3 : hst) st : unshared s1 s2 st -> keeps_all s2 s3 -> unshared s1 s3 st.
Proof.
  intros [(A & a & E & B & C) X] (K1 & K2 & K3 & K4). split; [split; auto; exists a|].
  - split; [eapply extends_nth; eassumption|]. destruct K1, K2. split; lia.
  - red in X |- *. destruct K3. lia.
Qed.
Lemma unshared_earlier (s1 s2 s3 : hst) st : keeps_all s1 s2 -> unshared s2 s3 st -> unshared s1 s3 st.
Proof.
  intros (K1 & K2 & K3 & K4) [(A & a & E & B & C) X]. destruct K1, K2, K3, K4. split; [split; [lia|exists a]|].
  - split; auto. split; lia.
  - red in X |- *. lia.
Qed.
Lemma store_new tr : forall s x s', store_traj tr s = (Ok x, s') -> Forall (unshared s s') x.
Proof.
  induction tr as [|st tr IH]; intros s x s'; cbn [store_traj].
  - intros [= <- <-]. constructor.
  - unfold ebind. destruct (store_step st s) as [[y|e] s1] eqn:E1; [|discriminate].
    destruct (store_traj tr s1) as [[ys|e] s2] eqn:E2; [|discriminate]. intros [= <- <-].
    pose proof (nw_store_step st s) as K1. rewrite E1 in K1. pose proof (nw_store tr s1) as K2. rewrite E2 in K2. simpl in K1, K2.
    constructor.
    + eapply unshared_later; [eapply store_step_new; exact E1|exact K2].
    + eapply Forall_impl; [|eapply IH; exact E2]. intros z. apply unshared_earlier. exact K1.
Qed.
Lemma sof_hook_new h : hook_new (sof_hook h).
Proof.
  intros tr u y t m s tr' s'. unfold sof_hook, ebind. destruct (reads_traj tr s) as [w1 E1].
  destruct (read_traj tr s) as [[T|e] s1]; simpl in E1; subst s1; [|discriminate].
  destruct (on_world (h T u y t m) (set_world s w1)) as [[r|e] s2] eqn:E2; [|discriminate].
  destruct (reads_world (h T u y t m) (set_world s w1)) as [w2 E3]. rewrite E2 in E3. simpl in E3. subst s2. intros E.
  eapply Forall_impl; [|eapply store_new; exact E]. intros st [A B]. split; right; [exact A|exact B].
Qed.

Lemma hsm_of_frame : sframe_ok hsm_of.
Proof.
  Local Ltac rd := first [apply reads_get | apply reads_traj | apply reads_world].
  split; simpl; intros.
  - apply hm_of_frame.
  - unfold sof_xnext. repeat (apply rn_bind; [reflexivity|rd|intro]). apply returns_new_w.
  - apply nw_reads. unfold sof_xmax. repeat (apply reads_bind; [rd|intro]). rd.
  - match goal with |- keeps_but _ _ (snd (?x _)) => assert (K : no_write x) by (unfold sof_sample; repeat (apply nw_bind; [rd|intro]); apply nw_new_part) end.
    destruct (K s) as (K1 & K2). split; [|exact K2]. eapply keepsl_weak; [|exact K1]. intros; exact Logic.I.
  - unfold sof_cpred. repeat (apply nw_bind; [rd|intro]). apply nw_new_part.
  - unfold sof_cinit. repeat (apply nw_bind; [rd|intro]). apply nw_new_part.
  - unfold sof_propose. repeat (apply nw_bind; [rd|intro]). apply nw_new_part.
  - unfold sof_logprop. repeat (apply nw_bind; [rd|intro]). apply nw_new_w.
  - unfold sof_x0. repeat (apply nw_bind; [rd|intro]). apply nw_new_w.
  - destruct (s_post sm); inversion H. unfold sof_hook. repeat (apply nw_bind; [rd|intro]). apply nw_store.
  - destruct (s_pre sm); inversion H. unfold sof_hook. repeat (apply nw_bind; [rd|intro]). apply nw_store.
Qed.
Lemma hsm_of_post f : hs_post hsm_of = Some f -> hook_new f.
Proof. simpl. destruct (s_post sm); [|discriminate]. intros [= <-]. apply sof_hook_new. Qed.
Lemma hsm_of_pre f : hs_pre hsm_of = Some f -> hook_new f.
Proof. simpl. destruct (s_pre sm); [|discriminate]. intros [= <-]. apply sof_hook_new. Qed.
End SOf.
