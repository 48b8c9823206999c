(** ParticleTrajectory on the heap computes what the value-level ParticleTrajectory computes.  Nothing here models code. *)
From Coq Require Import Bool Reals List Arith Lia.
From Verif Require Import Base XR SampleModel PAModel FilterModel TrajModel HeapModel HeapSpec HeapProofs HeapTraj HeapRefineSpec HeapRefine.
Import ListNotations.
Local Open Scope monad_scope.

Section Refine.
Context {W P U Y V : Type}.
Notation hst := (hst W P).
Notation HM := (@HM W P).
Notation hptraj := (hptraj U Y).
Notation ptraj := (ptraj P U Y).
Notation PM := (@PM W P U Y).
Variable hm : hmodel W P U Y V.
Variable mdl : fmodel W P U Y V.
Variable g : rng W.
Hypothesis F : frame_ok hm.
Hypothesis I : implements hm mdl.

(** The same as [sim] for method calls. *)
Definition psim {A B} (o : hptraj) (s : hst) (x : PM A) (v : M W B) (Q : A -> B -> hptraj -> hst -> Prop) : Prop :=
  match v (h_world s) with
  | Ok (b, w) => exists a o' s', x (o, s) = (Ok a, (o', s')) /\ h_world s' = w /\ Q a b o' s'
  | Err e => exists o' s', x (o, s) = (Err e, (o', s'))
  end.
Lemma p_ext {A B} o s (x : PM A) (v v' : M W B) Q : (forall w, v w = v' w) -> psim o s x v' Q -> psim o s x v Q.
Proof. unfold psim. intros E. rewrite E. auto. Qed.
Lemma p_step {A C D} o o' s (x : PM A) a (f : A -> PM C) (v : M W D) R : x (o, s) = (Ok a, (o', s)) -> psim o' s (f a) v R -> psim o s (ebind x f) v R.
Proof. unfold psim, ebind. intros ->. auto. Qed.
Lemma p_lift {A C D} o s (r : res A) (f : A -> PM C) (k : A -> M W D) R :
  (forall a, r = Ok a -> psim o s (f a) (k a) R) -> psim o s (ebind (elift r) f) (bind (lift r) k) R.
Proof. unfold psim, ebind, bind, lift, elift. intros H. destruct r as [a|e]; [exact (H a eq_refl)|]. eauto. Qed.
Lemma p_bind {A B C D} o s (x : PM A) (v : M W B) Q (f : A -> PM C) (k : B -> M W D) R :
  psim o s x v Q -> (forall a b o' s', x (o, s) = (Ok a, (o', s')) -> Q a b o' s' -> psim o' s' (f a) (k b) R) -> psim o s (ebind x f) (bind v k) R.
Proof.
  unfold psim, ebind, bind. intros H K. destruct (v (h_world s)) as [[b w]|e].
  - destruct H as (a & o' & s' & E & Ew & HQ). specialize (K a b o' s' E HQ). rewrite E. subst w. exact K.
  - destruct H as (o' & s' & E). rewrite E. eauto.
Qed.
Lemma p_heap {A B C D} o s (x : HM A) (v : M W B) Q (f : A -> PM C) (k : B -> M W D) R :
  sim s x v Q -> (forall a b s', x s = (Ok a, s') -> Q a b s' -> psim o s' (f a) (k b) R) -> psim o s (ebind (on_heap x) f) (bind v k) R.
Proof.
  unfold sim, psim, ebind, bind, on_heap. intros H K. simpl. destruct (v (h_world s)) as [[b w]|e].
  - destruct H as (a & s' & E & Ew & HQ). specialize (K a b s' E HQ). rewrite E. subst w. exact K.
  - destruct H as [s' E]. rewrite E. eauto.
Qed.
Lemma p_heap0 {A B D} o s (x : HM A) (v : M W B) Q (k : B -> M W D) R :
  sim s x v Q -> (forall a b s', x s = (Ok a, s') -> Q a b s' -> psim o s' (eret a) (k b) R) -> psim o s (on_heap x) (bind v k) R.
Proof.
  intros H K. assert (G : psim o s (ebind (on_heap x) eret) (bind v k) R) by (eapply p_heap; eassumption).
  unfold psim in *. unfold ebind, on_heap, eret in G. unfold on_heap. simpl in *. destruct (x s) as [[a|e] s']; exact G.
Qed.
Lemma p_ret {A B} o s (a : A) (b : B) (Q : A -> B -> hptraj -> hst -> Prop) : Q a b o s -> psim o s (eret a) (ret b) Q.
Proof. unfold psim, ret, eret. intros. exists a, o, s. auto. Qed.
Lemma p_raise {A B} o s e (Q : A -> B -> hptraj -> hst -> Prop) : psim o s (eraise e) (raise e) Q.
Proof. unfold psim, raise, eraise. eauto. Qed.
Lemma p_new_idx {C D} o s x (f : nat -> PM C) (v : M W D) R :
  (forall s' l, keeps_all s s' -> idx_at s' l x -> psim o s' (f l) v R) -> psim o s (ebind (on_heap (new_idx x)) f) v R.
Proof.
  intros H. unfold psim, ebind, on_heap; simpl. change (h_world s) with (h_world (set_idxs s (h_idx s ++ [x]))). apply H; [apply new_idx_keeps|apply at_app].
Qed.
Lemma p_idx {A B C D} (R : A -> B -> Prop) o s l l' i (f : A -> PM C) (k : B -> M W D) Q :
  Forall2 R l l' -> (forall a b, R a b -> psim o s (f a) (k b) Q) -> psim o s (ebind (elift (idx l i)) f) (bind (lift (idx l' i)) k) Q.
Proof.
  intros H K. assert (E : match idx l i, idx l' i with Ok a, Ok b => R a b | Err e, Err e' => e = e' | _, _ => False end).
  { unfold idx. revert i. induction H; intros [|i]; simpl; auto. apply IHForall2. }
  unfold psim, ebind, bind, lift, elift. destruct (idx l i) as [a|e], (idx l' i) as [b|e']; try easy; [exact (K a b E)|]. subst. eauto.
Qed.
Lemma p_last {A B C D} (R : A -> B -> Prop) o s l l' (f : A -> PM C) (k : B -> M W D) Q :
  Forall2 R l l' -> (forall a b l0 l0', l = l0 ++ [a] -> l' = l0' ++ [b] -> Forall2 R l0 l0' -> R a b -> psim o s (f a) (k b) Q) ->
  psim o s (ebind (elift (idx_last l)) f) (bind (lift (idx_last l')) k) Q.
Proof.
  intros H K. assert (E : match idx_last l, idx_last l' with
    | Ok a, Ok b => exists l0 l0', l = l0 ++ [a] /\ l' = l0' ++ [b] /\ Forall2 R l0 l0' /\ R a b | Err e, Err e' => e = e' | _, _ => False end).
  { unfold idx_last. destruct (rev l) as [|a r] eqn:Ea.
    - apply (f_equal (@rev _)) in Ea. rewrite rev_involutive in Ea. subst l. inversion H; subst. reflexivity.
    - apply (f_equal (@rev _)) in Ea. rewrite rev_involutive in Ea. simpl in Ea. subst l. apply Forall2_app_inv_l in H.
      destruct H as (l1 & l2 & H1 & H2 & ->). inversion H2 as [|? b ? ? Hab H3]; subst. inversion H3; subst. rewrite rev_unit. exists (rev r), l1. auto. }
  unfold psim, ebind, bind, lift, elift. destruct (idx_last l) as [a|e], (idx_last l') as [b|e']; try easy; [|subst; eauto].
  destruct E as (l0 & l0' & E1 & E2 & E3 & E4). exact (K a b l0 l0' E1 E2 E3 E4).
Qed.
Lemma sim_post' {A B} s (x : HM A) (v : M W B) (Q R : A -> B -> hst -> Prop) :
  sim s x v Q -> (forall a b s', x s = (Ok a, s') -> Q a b s' -> R a b s') -> sim s x v R.
Proof.
  unfold sim. intros H K. destruct (v (h_world s)) as [[b w]|e]; auto. destruct H as (a & s' & E & Ew & HQ). exists a, s'. auto.
Qed.

(** The object's attributes without the trajectory, the filter read in the heap [b]. *)
Definition attrs (b : hst) (o : hptraj) N (f : filt P) (u : list (cell U)) (y : list (cell Y)) (t : list nat) TT i1 : Prop :=
  hp_N o = N /\ same_filter b (hp_f o) f /\ hp_u o = u /\ hp_y o = y /\ hp_t o = t /\ hp_T o = TT /\ hp_ind1 o = i1.
(** The object shows [v]; the filter is read in [b]. *)
Definition oshows (b : hst) (o : hptraj) (s : hst) (v : ptraj) : Prop :=
  attrs b o (pt_N v) (pt_f v) (pt_u v) (pt_y v) (pt_t v) (pt_T v) (pt_ind1 v) /\ shows_traj s (hp_traj o) (pt_traj v).
Lemma mine_shows (b s : hst) pa v anc av : mine b s pa v -> idx_at s anc av -> shows s (mkHS pa anc) (mkStep v av).
Proof. intros (a & H & _) Hi. eapply pa_shows; simpl; eassumption. Qed.

Lemma r_first_step (b : hst) o s v : keeps_all b s -> oshows b o s v ->
  psim o s (h_first_step hm) (match pt_traj v with
            | [] => do st <- initial_step mdl (pt_f v) (pt_N v) ; ret ([st], 0%nat)
            | tr => match pt_ind1 v with O => ret (tr, 0%nat) | S i => ret (tr, i) end end)
    (fun _ ti o' s' => keeps_all b s' /\ shows_traj s' (hp_traj o') (fst ti) /\ fst ti <> [] /\
       (pt_traj v <> [] -> s' = s /\ o' = o) /\ (pt_traj v = [] -> snd ti = 0%nat) /\
       attrs b o' (pt_N v) (pt_f v) (pt_u v) (pt_y v) (pt_t v) (pt_T v) (match pt_traj v with [] => S (snd ti) | _ => pt_ind1 v end)).
Proof.
  intros Kb [Ha Ht]. unfold h_first_step. eapply p_step; [reflexivity|]. cbn [fst].
  remember (hp_traj o) as htr eqn:Eh. remember (pt_traj v) as ptr eqn:Ep. destruct Ht as [|st sv htr ptr Hs Ht].
  - eapply p_step; [reflexivity|]. destruct Ha as (A1 & A2 & A3 & A4 & A5 & A6 & A7). simpl. rewrite A1.
    unfold initial_step.
    eapply (p_ext _ _ _ _ (do p <- create_initial mdl (pt_f v) (pt_N v); do pa <- lift (pa_init p None); ret ([mkStep pa (seq 0 (pt_N v))], 0%nat))).
    { intros w. unfold bind, ret, lift. destruct (create_initial _ _ _ w) as [[p w']|]; auto. destruct (pa_init p None); auto. }
    eapply p_heap; [eapply r_create_initial; eassumption|]. intros p x s1 _ (Hp & Kb1). clear Kb.
    eapply p_heap; [apply (r_pa_init b _ _ _ None None); [exact Kb1|exact Hp|exact Logic.I]|]. intros pa pv s2 _ (M2 & K2 & _).
    apply p_new_idx. intros s3 anc K3 Hanc. unfold psim, with_traj, ret. simpl. do 3 eexists. split; [reflexivity|]. split; [reflexivity|]. simpl.
    split; [eapply keeps_all_trans; [exact Kb1|]; eapply keeps_all_trans; eassumption|]. split.
    + constructor; [|constructor]. eapply mine_shows; [eapply mine_keep; eassumption|exact Hanc].
    + split; [discriminate|]. split; [congruence|]. split; [reflexivity|]. repeat split; auto.
  - destruct (pt_ind1 v) as [|i] eqn:Ei; unfold psim, ret, eret; simpl; do 3 eexists; split; try reflexivity; split; try reflexivity;
      simpl; (split; [exact Kb|split; [rewrite <- Eh; constructor; auto|split; [discriminate|split; [auto|split; [congruence|]]]]]);
      destruct Ha as (A1 & A2 & A3 & A4 & A5 & A6 & A7); repeat split; congruence || auto.
Qed.

(** The part of [forward] after the first step. *)
Lemma r_forward_rest (b : hst) o s T N f u0 y0 t0 TT i1 u y : keeps_all b s -> shows_traj s (hp_traj o) T -> attrs b o N f u0 y0 t0 TT i1 ->
  psim o s (edo o <- self ;
  edo ind <- (match hp_ind1 o with O => eraise IndexError | S i => eret i end) ;
  edo _ <- (if Nat.leb (hp_T o) (ind + 1)
            then with_vecs (resize CZero (ind + 1) (hp_u o)) (resize CZero (ind + 2) (hp_y o)) (resize 0%nat (ind + 2) (hp_t o)) (ind + 2)
            else eret tt) ;
  edo o <- self ;
  edo uv <- elift (upd (hp_u o) ind (cell_of u)) ;
  edo _ <- with_vecs uv (hp_y o) (hp_t o) (hp_T o) ;
  edo yv <- elift (upd (hp_y o) (ind + 1) (cell_of y)) ;
  edo _ <- with_vecs uv yv (hp_t o) (hp_T o) ;
  edo tv <- elift (upd (hp_t o) (ind + 1) (ind + 1)%nat) ;
  edo _ <- with_vecs uv yv tv (hp_T o) ;
  edo _ <- with_ind1 (ind + 2) ;
  edo r <- on_heap (h_filter_forward hm g (hp_f o) (hp_N o) (hp_traj o) yv uv tv ind) ;
  let '(pa, resampled, anc) := r in
  edo _ <- with_traj (hp_traj o ++ [mkHS pa anc]) ;
  eret resampled)
  (do ti <- (match i1 with O => raise IndexError | S i => ret (T, i) end) ;
   let '(tr, ind) := ti in
   let '(uv, yv, tv, TT) :=
    if Nat.leb TT (ind + 1)
    then (resize CZero (ind + 1) u0, resize CZero (ind + 2) y0, resize 0%nat (ind + 2) t0, (ind + 2)%nat)
    else (u0, y0, t0, TT) in
  do uv <- lift (upd uv ind (cell_of u)) ;
  do yv <- lift (upd yv (ind + 1) (cell_of y)) ;
  do tv <- lift (upd tv (ind + 1) (ind + 1)%nat) ;
  do r <- filter_forward mdl g f N tr yv uv tv ind ;
  let '(pa, resampled, anc) := r in
  ret (mkPT N f uv yv tv TT (ind + 2) (tr ++ [mkStep pa anc]), resampled))
  (fun r r' o' s' => r = snd r' /\ oshows b o' s' (fst r')).
Proof.
  intros Kb HT (A1 & A2 & A3 & A4 & A5 & A6 & A7). eapply p_step; [reflexivity|]. cbn [fst]. rewrite A7. destruct i1 as [|ind].
  { unfold psim, bind, raise, ebind, eraise. eauto. }
  eapply p_step; [reflexivity|].
  eapply p_ext; [intro w; reflexivity|]. unfold bind at 1, ret at 1.
  set (cv := if Nat.leb TT (ind + 1) then (resize CZero (ind + 1) u0, resize CZero (ind + 2) y0, resize 0%nat (ind + 2) t0, (ind + 2)%nat) else (u0, y0, t0, TT)).
  set (o1 := mkHPT (hp_N o) (hp_f o) (fst (fst (fst cv))) (snd (fst (fst cv))) (snd (fst cv)) (snd cv) (S ind) (hp_traj o)).
  apply (p_step _ o1 _ _ tt).
  { subst o1 cv. rewrite A6. destruct (Nat.leb TT (ind + 1)).
    - unfold with_vecs; simpl. rewrite A3, A4, A5, A7. reflexivity.
    - simpl. unfold eret. destruct o; simpl in *; subst; reflexivity. }
  destruct cv as [[[u1 y1] t1] TT1]. simpl in o1. change (fun w => ?h w) with h. eapply p_step; [reflexivity|].
  cbn [hp_u hp_y hp_t hp_T hp_N hp_f hp_traj hp_ind1 o1]. apply p_lift. intros uv _. eapply p_step; [reflexivity|]. apply p_lift. intros yv _.
  eapply p_step; [reflexivity|]. apply p_lift. intros tv _. eapply p_step; [reflexivity|]. eapply p_step; [reflexivity|]. simpl.
  rewrite A1. eapply p_heap; [eapply (r_filter_forward _ _ _ F I s s); [apply keeps_all_refl|exact HT|]|].
  { clear -A2 Kb. destruct (hp_f o), f; simpl in *; auto; eapply showst_keep; eassumption. }
  intros [[pa rs] anc] [[pv rs'] av] s2 _ (E1 & M1 & Hanc & K2). simpl in E1, M1, Hanc. subst rs'.
  unfold psim, ebind, with_traj, ret, eret. simpl. do 3 eexists. split; [reflexivity|]. split; [reflexivity|]. simpl. split; [reflexivity|].
  split; [repeat split; auto|]. simpl. apply Forall2_app; [eapply showst_keep; eassumption|]. constructor; [|constructor]. eapply mine_shows; eassumption.
Qed.

Lemma r_forward (b : hst) o s v u y : keeps_all b s -> oshows b o s v ->
  psim o s (h_forward hm g u y) (pt_forward mdl g v u y) (fun r r' o' s' => r = snd r' /\ oshows b o' s' (fst r')).
Proof.
  intros Kb Hv. pose proof (r_first_step b o s v Kb Hv) as G. unfold h_forward, pt_forward.
  destruct (pt_traj v) as [|st tr] eqn:Ep.
  - eapply p_bind; [exact G|]. intros [] [T i] o' s' _ (Kb' & HT & _ & _ & Hi & Ha). specialize (Hi eq_refl). simpl in Hi, HT, Ha. subst i.
    eapply p_ext; [|exact (r_forward_rest b o' s' T _ _ _ _ _ _ _ u y Kb' HT Ha)]. reflexivity.
  - destruct (pt_ind1 v) as [|i] eqn:Ei.
    + destruct G as ([] & o' & s' & E & Ew & Kb' & HT & _ & Hs & _ & Ha). destruct Hs as [-> ->]; [discriminate|].
      unfold psim, bind, raise. exists o, s. unfold ebind at 1. rewrite E. unfold ebind at 1, self. simpl. destruct Ha as (_ & _ & _ & _ & _ & _ & A7).
      unfold ebind at 1. rewrite A7. reflexivity.
    + destruct G as ([] & o' & s' & E & Ew & Kb' & HT & _ & Hs & _ & Ha). destruct Hs as [-> ->]; [discriminate|]. simpl in HT, Ha.
      eapply p_step; [exact E|]. exact (r_forward_rest b o s (st :: tr) _ _ _ _ _ _ _ u y Kb' HT Ha).
Qed.

(** ** measure *)
Lemma Forall2_length {A B} (R : A -> B -> Prop) l l' : Forall2 R l l' -> length l = length l'.
Proof. induction 1; simpl; auto. Qed.
Lemma Forall2_nth_error_intro {A B} (R : A -> B -> Prop) l : forall l', length l = length l' ->
  (forall i a b, nth_error l i = Some a -> nth_error l' i = Some b -> R a b) -> Forall2 R l l'.
Proof.
  induction l as [|a l IH]; intros [|b l'] E H; try discriminate; constructor; [apply (H 0%nat); reflexivity|].
  apply IH; [simpl in E; lia|]. intros i. apply (H (S i)).
Qed.
Lemma Forall2_nth_error_elim {A B} (R : A -> B -> Prop) l l' : Forall2 R l l' -> forall i a b, nth_error l i = Some a -> nth_error l' i = Some b -> R a b.
Proof. induction 1; intros [|i] a b E E'; simpl in *; try discriminate; [congruence|eauto]. Qed.
Lemma r_measure_last (b : hst) o s N f u0 y0 t0 TT ind T y : keeps_all b s -> growing b s (hp_traj o) -> shows_traj s (hp_traj o) T -> attrs b o N f u0 y0 t0 TT (S ind) ->
  psim o s (edo yv <- elift (upd (hp_y o) ind (cell_of y)) ;
    edo _ <- with_vecs (hp_u o) yv (hp_t o) (hp_T o) ;
    edo tv <- elift (upd (hp_t o) ind ind) ;
    edo _ <- with_vecs (hp_u o) yv tv (hp_T o) ;
    edo last <- elift (idx_last (hp_traj o)) ;
    on_heap (h_measure hm (hp_traj o) (hs_anc last) (hs_pa last) (hp_u o) yv tv ind))
  (do yv <- lift (upd y0 ind (cell_of y)) ;
    do tv <- lift (upd t0 ind ind) ;
    do last <- lift (idx_last T) ;
    do pa <- pf_measure mdl T (st_anc last) (st_pa last) u0 yv tv ind ;
    do tr <- lift (upd_last T (mkStep pa (st_anc last))) ;
    ret (mkPT N f u0 yv tv TT (ind + 1) tr))
  (fun _ v' o' s' => oshows b o' s' v').
Proof.
  intros Kb Hg HT (A1 & A2 & A3 & A4 & A5 & A6 & A7). rewrite A4, A5, A6, A3. apply p_lift. intros yv _. eapply p_step; [reflexivity|].
  apply p_lift. intros tv _. eapply p_step; [reflexivity|]. cbn [hp_N hp_f hp_u hp_y hp_t hp_T hp_ind1 hp_traj fst].
  eapply p_last; [exact HT|]. intros last lv tr0 T0 El ET HT0 Hl. destruct (shows_pa _ _ _ Hl) as (a & Ha & Hx).
  assert (Mv : mine b s (hs_pa last) (st_pa lv)).
  { inversion Hg as [? ? Hn _]; subst. rewrite Forall_forall in Hn. destruct (Hn last) as (L & _ & a' & Ea' & [L1 _] & [L2 _]); [rewrite El; apply in_or_app; simpl; auto|].
    exists a. split; auto. assert (a' = a) as -> by (destruct Ha as [Ea _]; congruence). auto. }
  eapply p_heap0; [apply (r_measure hm mdl F I b); [exact Kb|exact Mv|exact HT|exact Hx]|].
  intros [] pv s' E (M' & K').
  pose proof (measure_last hm F (mkHPT (hp_N o) (hp_f o) u0 yv tv TT (hp_ind1 o) (hp_traj o)) s last tr0 u0 yv tv ind El) as (_ & _ & Hc).
  destruct (Hc b Kb Hg) as (Kb' & _ & _ & Hv). cbn [hp_traj] in Hv, Kb'. rewrite E in Hv, Kb'. simpl in Hv, Kb'.
  apply (p_ext _ _ _ _ (ret (mkPT N f u0 yv tv TT (ind + 1) (T0 ++ [mkStep pv (st_anc lv)])))).
  { intros w. rewrite ET. unfold bind, lift, upd_last. rewrite removelast_last.
    destruct (T0 ++ [lv]) eqn:Ex; [destruct T0; discriminate|]. reflexivity. }
  apply p_ret. split; [repeat split; simpl; auto; lia|]. simpl. rewrite El. apply Forall2_app.
  - apply Forall2_nth_error_intro.
    + eapply Forall2_length; exact HT0.
    + intros i st sv E1 E2. unfold shows. apply (Hv i).
      * rewrite El, app_length. simpl. assert (i < length tr0)%nat by (apply nth_error_Some; congruence). lia.
      * rewrite El, nth_error_app1; auto. apply nth_error_Some; congruence.
      * apply (Forall2_nth_error_elim _ _ _ HT0 i); auto.
  - constructor; [|constructor]. destruct M' as (a' & Ha' & _). eapply pa_shows; [exact Ha'|]. eapply k3_idx; [exact K'|exact Hx].
Qed.

Lemma r_pt_measure (b : hst) o s v y : keeps_all b s -> growing b s (hp_traj o) -> oshows b o s v ->
  psim o s (h_pt_measure hm y) (pt_measure mdl v y) (fun _ v' o' s' => oshows b o' s' v').
Proof.
  intros Kb Hg [Ha HT]. unfold h_pt_measure, pt_measure. eapply p_step; [reflexivity|]. cbn [fst]. cbv zeta.
  destruct Ha as (A1 & A2 & A3 & A4 & A5 & A6 & A7). rewrite A7, A6, A5, A4, A3. set (i1 := pt_ind1 v) in *.
  set (cv := if Nat.leb (pt_T v) i1 then (resize CZero (i1 + 1) (pt_u v), resize CZero (i1 + 1) (pt_y v), resize 0%nat (i1 + 1) (pt_t v), (i1 + 1)%nat)
             else (pt_u v, pt_y v, pt_t v, pt_T v)).
  set (o1 := mkHPT (hp_N o) (hp_f o) (fst (fst (fst cv))) (snd (fst (fst cv))) (snd (fst cv)) (snd cv) i1 (hp_traj o)).
  apply (p_step _ o1 _ _ tt).
  { subst o1 cv. destruct (Nat.leb (pt_T v) i1).
    - unfold with_vecs; simpl. rewrite A7. reflexivity.
    - simpl. unfold eret. destruct o; simpl in *; subst; reflexivity. }
  destruct cv as [[[u1 y1] t1] TT1]. simpl in o1.
  assert (Ef : h_using_pfy (hp_f o) = using_pfy (pt_f v)) by (clear -A2; destruct (hp_f o), (pt_f v); simpl in *; tauto).
  rewrite Ef. destruct (using_pfy (pt_f v)) eqn:Eu.
  - eapply p_step; [reflexivity|]. eapply p_step; [reflexivity|]. cbn [fst hp_N hp_f hp_u hp_y hp_t hp_T hp_ind1 hp_traj o1].
    apply p_lift. intros yv _. eapply p_step; [reflexivity|]. apply p_lift. intros tv _. eapply p_step; [reflexivity|].
    apply p_new_idx. intros s1 anc K1 Hanc. rewrite A1 in *.
    eapply (p_heap _ _ _ _ (fun pa pv s' => mine s1 s' pa pv /\ keeps_all s1 s')).
    { assert (Sf : same_filter s1 (hp_f o) (pt_f v)).
      { clear -A2 Kb K1. pose proof (keeps_all_trans _ _ _ Kb K1). destruct (hp_f o), (pt_f v); simpl in *; auto; eapply showst_keep; eassumption. }
      cbn [fst hp_N hp_f hp_u hp_y hp_t hp_T hp_ind1 hp_traj].
      destruct (hp_f o), (pt_f v); simpl in Eu, Sf; try discriminate; try contradiction.
      - eapply sim_post'; [apply (r_pfy_measure hm mdl F I s1); apply keeps_all_refl|]. auto.
      - eapply sim_post'; [apply (r_cpfyas_measure hm mdl F I s1); [apply keeps_all_refl|exact Sf]|]. intros pa pv s' _ (M1 & K & _). auto. }
    intros pa pv s2 _ (M2 & K2). unfold psim, with_traj, ret. simpl. do 3 eexists. split; [reflexivity|]. split; [reflexivity|].
    split; [repeat split; simpl; auto|]. simpl. apply Forall2_app; [eapply showst_keep; [exact (keeps_all_trans _ _ _ K1 K2)|exact HT]|].
    constructor; [|constructor]. eapply mine_shows; [exact M2|eapply idx_keep; eassumption].
  - set (v1 := mkPT (pt_N v) (pt_f v) u1 y1 t1 TT1 i1 (pt_traj v)).
    assert (Hv1 : oshows b o1 s v1) by (split; [repeat split; auto|exact HT]).
    pose proof (r_first_step b o1 s v1 Kb Hv1) as G. pose proof (first_step_appends hm F o1 s) as [(_ & [_ Gg] & _) _].
    specialize (Gg b Kb Hg). simpl pt_traj in G. simpl pt_ind1 in G. simpl pt_f in G. simpl pt_N in G.
    destruct (pt_traj v) as [|st tr] eqn:Ep.
    + eapply p_bind; [exact G|]. intros [] [T i] o' s' E (Kb' & HT' & _ & _ & Hi & Ha'). specialize (Hi eq_refl). simpl in Hi, HT', Ha'. subst i.
      rewrite E in Gg. simpl in Gg. eapply p_step; [reflexivity|]. cbn [fst]. pose proof Ha' as (_ & _ & _ & _ & _ & _ & A7'). rewrite A7'. eapply p_step; [reflexivity|].
      exact (r_measure_last b o' s' _ _ _ _ _ _ 0 T y Kb' Gg HT' Ha').
    + destruct i1 as [|i] eqn:Ei.
      * destruct G as ([] & o' & s' & E & Ew & Kb' & HT' & _ & Hs & _ & Ha'). destruct Hs as [-> ->]; [discriminate|].
        unfold psim, bind, raise. exists o1, s. unfold ebind at 1. rewrite E. reflexivity.
      * destruct G as ([] & o' & s' & E & Ew & Kb' & HT' & _ & Hs & _ & Ha'). destruct Hs as [-> ->]; [discriminate|]. simpl in HT', Ha'.
        eapply p_step; [exact E|]. eapply p_step; [reflexivity|]. cbn [fst]. cbn [hp_ind1 o1]. eapply p_step; [reflexivity|].
        exact (r_measure_last b o1 s _ _ _ _ _ _ i (st :: tr) y Kb' Hg HT' Ha').
Qed.

(** ** Histories *)
Lemma r_op (b : hst) p o s v : keeps_all b s -> growing b s (hp_traj o) -> oshows b o s v ->
  psim o s (h_op hm g p) (pt_step mdl g v p) (fun _ v' o' s' => keeps_all b s' /\ growing b s' (hp_traj o') /\ oshows b o' s' v').
Proof.
  intros Kb Hg Hv. pose proof (op_called hm g F p o s) as (_ & _ & Hc). destruct (Hc b Kb Hg) as (Kb' & Hg' & _). clear Hc.
  assert (H : psim o s (h_op hm g p) (pt_step mdl g v p) (fun _ v' o' s' => oshows b o' s' v')).
  { destruct p as [u y|y]; simpl.
    - eapply p_bind; [apply r_forward; eassumption|]. intros r r' o' s' _ [_ H]. apply p_ret. exact H.
    - apply r_pt_measure; assumption. }
  unfold psim in *. destruct (pt_step mdl g v p (h_world s)) as [[v' w]|e]; [|exact H].
  destruct H as (a & o' & s' & E & Ew & H). rewrite E in Kb', Hg'. exists a, o', s'. auto.
Qed.
Lemma r_run (b : hst) ops : forall o s v v' w, keeps_all b s -> growing b s (hp_traj o) -> oshows b o s v ->
  pt_run mdl g v ops (h_world s) = Ok (v', w) ->
  exists o' s', h_run hm g ops (o, s) = (o', s') /\ h_world s' = w /\ keeps_all b s' /\ growing b s' (hp_traj o') /\ oshows b o' s' v'.
Proof.
  induction ops as [|p ops IH]; intros o s v v' w Kb Hg Hv E.
  - simpl in E. inversion E; subst. exists o, s. auto.
  - simpl in E |- *. unfold bind in E. pose proof (r_op b p o s v Kb Hg Hv) as H. unfold psim in H.
    destruct (pt_step mdl g v p (h_world s)) as [[v1 w1]|e]; [|discriminate].
    destruct H as (a & o1 & s1 & E1 & <- & Kb1 & Hg1 & Hv1). rewrite E1. simpl. exact (IH _ _ _ _ _ Kb1 Hg1 Hv1 E).
Qed.
End Refine.
