(** The filters on the heap compute what the value-level filters compute.  Nothing here models code. *)
From Coq Require Import Bool Reals List Arith Lia.
From Verif Require Import Base XR SampleModel PAModel FilterModel TrajModel HeapModel HeapSpec HeapProofs HeapTraj HeapRefineSpec.
Import ListNotations.
Local Open Scope monad_scope.

Section Refine.
Context {W P U Y V : Type}.
Notation hst := (hst W P).
Notation HM := (@HM W P).
Variable hm : hmodel W P U Y V.
Variable mdl : fmodel W P U Y V.
Variable g : rng W.
Hypothesis F : frame_ok hm.
Hypothesis I : implements hm mdl.

(** ** Rules *)
Lemma sim_bind {A B C D} s (x : HM A) (v : M W B) Q (f : A -> HM C) (k : B -> M W D) R :
  sim s x v Q -> (forall a b s', x s = (Ok a, s') -> Q a b s' -> sim s' (f a) (k b) R) -> sim s (ebind x f) (bind v k) R.
Proof.
  unfold sim, ebind, bind. intros H K. destruct (v (h_world s)) as [[b w]|e].
  - destruct H as (a & s' & E & Ew & HQ). specialize (K a b s' E HQ). rewrite E. subst w. exact K.
  - destruct H as [s' E]. rewrite E. exists s'; reflexivity.
Qed.
Lemma sim_heap {A C D} s (x : HM A) a s' (f : A -> HM C) (v : M W D) R :
  x s = (Ok a, s') -> h_world s' = h_world s -> sim s' (f a) v R -> sim s (ebind x f) v R.
Proof. unfold sim, ebind. intros E Ew H. rewrite E. rewrite Ew in H. exact H. Qed.
Lemma sim_lift {A C D} s (r : res A) (f : A -> HM C) (k : A -> M W D) R :
  (forall a, r = Ok a -> sim s (f a) (k a) R) -> sim s (ebind (elift r) f) (bind (lift r) k) R.
Proof.
  unfold sim, ebind, bind, lift, elift. intros H. destruct r as [a|e]; [exact (H a eq_refl)|]. exists s; reflexivity.
Qed.
Lemma sim_vlift {A C D} s (r : res A) a (x : HM C) (k : A -> M W D) R : r = Ok a -> sim s x (k a) R -> sim s x (bind (lift r) k) R.
Proof. intros ->. unfold sim, bind, lift. auto. Qed.
Lemma sim_ret {A B} s (a : A) (b : B) (Q : A -> B -> hst -> Prop) : Q a b s -> sim s (eret a) (ret b) Q.
Proof. unfold sim, ret, eret. intros; eauto. Qed.
Lemma sim_raise {A B} s e (Q : A -> B -> hst -> Prop) : sim s (eraise e) (raise e) Q.
Proof. unfold sim, raise, eraise. eauto. Qed.
Lemma keeps_world (s : hst) w : keeps_all s (set_world s w).
Proof. repeat split; auto. Qed.
Lemma sim_world {A C D} s (v : M W A) (f : A -> HM C) (k : A -> M W D) R :
  (forall a w, keeps_all s (set_world s w) -> sim (set_world s w) (f a) (k a) R) -> sim s (ebind (on_world v) f) (bind v k) R.
Proof.
  unfold sim, ebind, bind, on_world. intros H. destruct (v (h_world s)) as [[a w]|e]; [|exists s; reflexivity].
  exact (H a w (keeps_world s w)).
Qed.
Lemma sim_post {A B} s (x : HM A) (v : M W B) (Q R : A -> B -> hst -> Prop) :
  sim s x v Q -> (forall a b s', x s = (Ok a, s') -> Q a b s' -> R a b s') -> sim s x v R.
Proof.
  unfold sim. intros H K. destruct (v (h_world s)) as [[b w]|e]; auto. destruct H as (a & s' & E & Ew & HQ). exists a, s'. auto.
Qed.
Lemma sim_idx {A B C D} (R : A -> B -> Prop) s l l' i (f : A -> HM C) (k : B -> M W D) Q :
  Forall2 R l l' -> (forall a b, R a b -> sim s (f a) (k b) Q) -> sim s (ebind (elift (idx l i)) f) (bind (lift (idx l' i)) k) Q.
Proof.
  intros H K. assert (E : match idx l i, idx l' i with Ok a, Ok b => R a b | Err e, Err e' => e = e' | _, _ => False end).
  { unfold idx. revert i. induction H; intros [|i]; simpl; auto. apply IHForall2. }
  unfold sim, ebind, bind, lift, elift. destruct (idx l i) as [a|e], (idx l' i) as [b|e']; try easy; [exact (K a b E)|]. subst. eauto.
Qed.
Lemma Forall2_rev' {A B} (R : A -> B -> Prop) l l' : Forall2 R l l' -> Forall2 R (rev l) (rev l').
Proof. induction 1; simpl; [constructor|]. apply Forall2_app; auto. Qed.
Lemma sim_last {A B C D} (R : A -> B -> Prop) s l l' (f : A -> HM C) (k : B -> M W D) Q :
  Forall2 R l l' -> (forall a b, R a b -> sim s (f a) (k b) Q) -> sim s (ebind (elift (idx_last l)) f) (bind (lift (idx_last l')) k) Q.
Proof.
  intros H K. assert (E : match idx_last l, idx_last l' with Ok a, Ok b => R a b | Err e, Err e' => e = e' | _, _ => False end).
  { unfold idx_last. apply Forall2_rev' in H. destruct H; auto. }
  unfold sim, ebind, bind, lift, elift. destruct (idx_last l) as [a|e], (idx_last l') as [b|e']; try easy; [exact (K a b E)|]. subst. eauto.
Qed.
Lemma Forall2_firstn {A B} (R : A -> B -> Prop) n l l' : Forall2 R l l' -> Forall2 R (firstn n l) (firstn n l').
Proof. intros H. revert n. induction H; intros [|n]; simpl; constructor; auto. Qed.

(** ** Facts about cells, kept *)
Lemma ext_at {A} (l l' : list A) i x : extends l l' -> nth_error l i = Some x -> nth_error l' i = Some x.
Proof. apply extends_nth. Qed.
Lemma but_at {A} p (l l' : list A) i x : keepsl (but p) l l' -> i <> p -> nth_error l i = Some x -> nth_error l' i = Some x.
Proof. intros [_ H] Hi E. rewrite H; auto. apply nth_error_Some; congruence. Qed.
Lemma at_lt {A} (l : list A) i x : nth_error l i = Some x -> (i < length l)%nat.
Proof. intros E. apply nth_error_Some; congruence. Qed.
Lemma shows_keep (s s' : hst) st v : keeps_all s s' -> shows s st v -> shows s' st v.
Proof. intros K H. eapply keeps_view; eassumption. Qed.
Lemma showst_keep (s s' : hst) tr T : keeps_all s s' -> shows_traj s tr T -> shows_traj s' tr T.
Proof. intros K H. induction H; constructor; auto. eapply shows_keep; eassumption. Qed.
Lemma showst_firstn (s : hst) n tr T : shows_traj s tr T -> shows_traj s (firstn n tr) (firstn n T).
Proof. apply Forall2_firstn. Qed.

(** The arrays of an approximation object. *)
Definition pa_has (s : hst) (pa : nat) (a : hpa) (v : papprox P) : Prop :=
  nth_error (h_pa s) pa = Some a /\ part_at s (ha_part a) (part v) /\ w_at s (ha_w a) (lw v) /\ ha_num a = num v /\ ha_off a = woff v.
Lemma shows_pa (s : hst) st v : shows s st v -> exists a, pa_has s (hs_pa st) a (st_pa v) /\ idx_at s (hs_anc st) (st_anc v).
Proof.
  unfold shows, view. destruct (nth_error (h_pa s) (hs_pa st)) as [a|] eqn:Ea; [|easy].
  destruct (nth_error (h_idx s) (hs_anc st)) as [anc|] eqn:Ei; [|easy].
  destruct (nth_error (h_part s) (ha_part a)) as [p|] eqn:Ep; [|easy].
  destruct (nth_error (h_w s) (ha_w a)) as [w|] eqn:Ew; [|easy]. intros H. inversion H; subst. exists a.
  unfold pa_has, part_at, w_at, idx_at. repeat split; auto.
Qed.
Lemma pa_shows (s : hst) st a v : pa_has s (hs_pa st) a (st_pa v) -> idx_at s (hs_anc st) (st_anc v) -> shows s st v.
Proof.
  intros (Ea & Ep & Ew & En & Eo) Ei. unfold shows, view, part_at, w_at, idx_at in *. rewrite Ea, Ei, Ep, Ew, En, Eo. reflexivity.
Qed.
Lemma pa_keep s s' pa a v : keeps_all s s' -> pa_has s pa a v -> pa_has s' pa a v.
Proof.
  intros (A & B & C & D) (E1 & E2 & E3 & E4 & E5). repeat split; auto; eapply ext_at; eassumption.
Qed.
(** An approximation object none of whose cells is one of [b]. *)
Definition mine (b s : hst) (pa : nat) (v : papprox P) : Prop :=
  exists a, pa_has s pa a v /\ (length (h_pa b) <= pa)%nat /\ (length (h_part b) <= ha_part a)%nat /\ (length (h_w b) <= ha_w a)%nat.
Lemma mine_keep b s s' pa v : keeps_all s s' -> mine b s pa v -> mine b s' pa v.
Proof. intros K (a & H & L). exists a. split; auto. eapply pa_keep; eassumption. Qed.
Lemma mine_base b b' s pa v : keeps_all b b' -> mine b' s pa v -> mine b s pa v.
Proof. intros ([A _] & [B _] & _ & [D _]) (a & H & L1 & L2 & L3). exists a. split; auto. lia. Qed.

(** ** Elementary steps *)
Lemma at_app {A} (l : list A) x : nth_error (l ++ [x]) (length l) = Some x.
Proof. rewrite nth_error_app2, Nat.sub_diag by lia. reflexivity. Qed.
Lemma new_part_keeps (s : hst) x : keeps_all s (set_parts s (h_part s ++ [x])).
Proof. split; [|split; [|split]]; simpl; try apply keepsl_refl. apply keepsl_app. Qed.
Lemma new_w_keeps (s : hst) x : keeps_all s (set_ws s (h_w s ++ [x])).
Proof. split; [|split; [|split]]; simpl; try apply keepsl_refl. apply keepsl_app. Qed.
Lemma new_idx_keeps (s : hst) x : keeps_all s (set_idxs s (h_idx s ++ [x])).
Proof. split; [|split; [|split]]; simpl; try apply keepsl_refl. apply keepsl_app. Qed.
Lemma new_pa_keeps (s : hst) x : keeps_all s (set_pas s (h_pa s ++ [x])).
Proof. split; [|split; [|split]]; simpl; try apply keepsl_refl. apply keepsl_app. Qed.
(** Reading. *)
Lemma s_get_part {C D} s i x (f : list P -> HM C) (v : M W D) R : part_at s i x -> sim s (f x) v R -> sim s (ebind (get_part i) f) v R.
Proof. intros E H. eapply sim_heap; [| |exact H]; [|reflexivity]. unfold get_part, idx. rewrite E. reflexivity. Qed.
Lemma s_get_w {C D} s i x (f : list xr -> HM C) (v : M W D) R : w_at s i x -> sim s (f x) v R -> sim s (ebind (get_w i) f) v R.
Proof. intros E H. eapply sim_heap; [| |exact H]; [|reflexivity]. unfold get_w, idx. rewrite E. reflexivity. Qed.
Lemma s_get_idx {C D} s i x (f : list nat -> HM C) (v : M W D) R : idx_at s i x -> sim s (f x) v R -> sim s (ebind (get_idx i) f) v R.
Proof. intros E H. eapply sim_heap; [| |exact H]; [|reflexivity]. unfold get_idx, idx. rewrite E. reflexivity. Qed.
Lemma s_get_pa {C D} s i a u (f : hpa -> HM C) (v : M W D) R : pa_has s i a u -> sim s (f a) v R -> sim s (ebind (get_pa i) f) v R.
Proof. intros [E _] H. eapply sim_heap; [| |exact H]; [|reflexivity]. unfold get_pa, idx. rewrite E. reflexivity. Qed.
Lemma s_part_of {C D} s i a u (f : list P -> HM C) (v : M W D) R : pa_has s i a u -> sim s (f (part u)) v R -> sim s (ebind (part_of i) f) v R.
Proof.
  intros (E & Ep & _) H. eapply sim_heap; [| |exact H]; [|reflexivity]. unfold part_of, ebind, get_pa, get_part, idx. rewrite E, Ep. reflexivity.
Qed.
Lemma s_w_of {C D} s i a u (f : list xr -> HM C) (v : M W D) R : pa_has s i a u -> sim s (f (lw u)) v R -> sim s (ebind (w_of i) f) v R.
Proof.
  intros (E & _ & Ew & _) H. eapply sim_heap; [| |exact H]; [|reflexivity]. unfold w_of, ebind, get_pa, get_w, idx. rewrite E, Ew. reflexivity.
Qed.
(** Creating. *)
Lemma s_new_part {C D} s x (f : nat -> HM C) (v : M W D) R :
  (forall s' l, keeps_all s s' -> part_at s' l x -> (length (h_part s) <= l)%nat -> h_world s' = h_world s -> sim s' (f l) v R) -> sim s (ebind (new_part x) f) v R.
Proof. intros H. eapply sim_heap; [reflexivity|reflexivity|]. apply H; simpl; auto; [apply new_part_keeps|apply at_app]. Qed.
Lemma s_new_w {C D} s x (f : nat -> HM C) (v : M W D) R :
  (forall s' l, keeps_all s s' -> w_at s' l x -> (length (h_w s) <= l)%nat -> h_world s' = h_world s -> sim s' (f l) v R) -> sim s (ebind (new_w x) f) v R.
Proof. intros H. eapply sim_heap; [reflexivity|reflexivity|]. apply H; simpl; auto; [apply new_w_keeps|apply at_app]. Qed.
Lemma s_new_idx {C D} s x (f : nat -> HM C) (v : M W D) R :
  (forall s' l, keeps_all s s' -> idx_at s' l x -> sim s' (f l) v R) -> sim s (ebind (new_idx x) f) v R.
Proof. intros H. eapply sim_heap; [reflexivity|reflexivity|]. apply H; simpl; auto; [apply new_idx_keeps|apply at_app]. Qed.

(** Writing into cells that are not cells of [b]. *)
Lemma put_part_b b (s : hst) i x : keeps_all b s -> (length (h_part b) <= i)%nat -> keeps_all b (set_parts s (put (h_part s) i x)).
Proof.
  intros (A & B & C & D) L. split; [|split; [|split]]; simpl; auto. destruct A as [La A]. split; [rewrite put_length; auto|].
  intros j Hj _. rewrite put_nth_neq by lia. apply A; auto. exact Logic.I.
Qed.
Lemma put_w_b b (s : hst) i x : keeps_all b s -> (length (h_w b) <= i)%nat -> keeps_all b (set_ws s (put (h_w s) i x)).
Proof.
  intros (A & B & C & D) L. split; [|split; [|split]]; simpl; auto. destruct B as [La B]. split; [rewrite put_length; auto|].
  intros j Hj _. rewrite put_nth_neq by lia. apply B; auto. exact Logic.I.
Qed.
Lemma put_pa_b b (s : hst) i x : keeps_all b s -> (length (h_pa b) <= i)%nat -> keeps_all b (set_pas s (put (h_pa s) i x)).
Proof.
  intros (A & B & C & D) L. split; [|split; [|split]]; simpl; auto. destruct D as [La D]. split; [rewrite put_length; auto|].
  intros j Hj _. rewrite put_nth_neq by lia. apply D; auto. exact Logic.I.
Qed.
Lemma but_b b (s s' : hst) p : keeps_all b s -> keeps_but p s s' -> (length (h_part b) <= p)%nat -> keeps_all b s'.
Proof.
  intros (A & B & C & D) (A' & B' & C' & D') L.
  split; [|split; [eapply keepsl_trans; eassumption|split; eapply keepsl_trans; eassumption]].
  destruct A as [La A], A' as [La' A']. split; [lia|]. intros j Hj _. rewrite A'; [apply A; auto; exact Logic.I|lia|unfold but; lia].
Qed.

(** ** Calls of the model's methods *)
Lemma c_new {C D} (cells : hst -> list C) s (x : HM nat) (v : M W D) Q : returns_new cells x -> sim s x v Q ->
  sim s x v (fun l b s' => Q l b s' /\ keeps_all s s' /\ (length (cells s) <= l)%nat).
Proof.
  intros R H. eapply sim_post; [exact H|]. intros l b s' E HQ. destruct (R s) as [K Fr]. unfold fresh in Fr. rewrite E in K, Fr. simpl in *.
  split; auto. split; auto. lia.
Qed.

(** ** ParticleApproximation(particles, logw) *)
Lemma r_pa_init b s p x (ow : option nat) (vw : option (list xr)) :
  keeps_all b s -> part_at s p x -> match ow, vw with None, None => True | Some w, Some wv => w_at s w wv | _, _ => False end ->
  sim s (h_pa_init p ow) (lift (pa_init x vw)) (fun pa v s' => mine b s' pa v /\ keeps_all s s' /\ mine s s' pa v).
Proof.
  intros Kb Hp Hw. unfold sim, h_pa_init, lift, pa_init, ebind at 1, get_part, idx. rewrite Hp. unfold ebind at 1, new_part. simpl.
  assert (G : forall s1 wv, keeps_all (set_parts s (h_part s ++ [x])) s1 -> nth_error (h_w s1) (length (h_w s)) = Some wv ->
    mine s (set_pas s1 (h_pa s1 ++ [mkHPA (length (h_part s)) (length (h_w s)) (length x) (Fin 0)])) (length (h_pa s1)) (mkPA x wv (length x) (Fin 0)) /\
    keeps_all s (set_pas s1 (h_pa s1 ++ [mkHPA (length (h_part s)) (length (h_w s)) (length x) (Fin 0)]))).
  { intros s1 wv K1 E1. split.
    - exists (mkHPA (length (h_part s)) (length (h_w s)) (length x) (Fin 0)). split.
      + split; [simpl; apply at_app|]. split; [|split; [exact E1|split; reflexivity]]. simpl.
        destruct K1 as [K1 _]. eapply ext_at; [exact K1|]. simpl. apply at_app.
      + simpl. destruct K1 as (_ & _ & _ & [L _]). simpl in L. lia.
    - eapply keeps_all_trans; [apply new_part_keeps|]. eapply keeps_all_trans; [exact K1|]. apply new_pa_keeps. }
  destruct ow as [w|], vw as [wv|]; try easy.
  - unfold ebind, get_w, idx. simpl. rewrite Hw. simpl. eexists; eexists. split; [reflexivity|]. split; [reflexivity|].
    destruct (G (set_ws (set_parts s (h_part s ++ [x])) (h_w s ++ [wv])) wv) as [G1 G2]; [apply (new_w_keeps (set_parts s (h_part s ++ [x])))|apply at_app|].
    split; [|split; [exact G2|exact G1]]. eapply mine_base; [exact Kb|exact G1].
  - destruct x as [|x0 x]; [eexists; cbv [ebind idx]; rewrite Hp; reflexivity|]. unfold ebind, new_w. simpl.
    set (wv := Fin (- ln (INR (S (length x)))) :: repeat (Fin (- ln (INR (S (length x))))) (length x)).
    eexists; eexists. split; [reflexivity|]. split; [reflexivity|].
    destruct (G (set_ws (set_parts s (h_part s ++ [x0 :: x])) (h_w s ++ [wv])) wv) as [G1 G2]; [apply (new_w_keeps (set_parts s (h_part s ++ [x0 :: x])))|apply at_app|].
    split; [|split; [exact G2|exact G1]]. eapply mine_base; [exact Kb|exact G1].
Qed.

(** Between two states: no cell of [b] changes, no weight array and no index array changes (but new ones may appear). *)
Definition kept3 (b s s' : hst) : Prop := keeps_all b s' /\ extends (h_w s) (h_w s') /\ extends (h_idx s) (h_idx s').
Lemma kept3_all b s s' : keeps_all b s -> keeps_all s s' -> kept3 b s s'.
Proof. intros K K'. split; [eapply keeps_all_trans; eassumption|]. split; apply K'. Qed.
Lemma kept3_trans b s1 s2 s3 : kept3 b s1 s2 -> kept3 b s2 s3 -> kept3 b s1 s3.
Proof. intros (_ & A & B) (K & A' & B'). split; auto. split; eapply keepsl_trans; eassumption. Qed.
Lemma keeps_ext (s s' : hst) : keeps_all s s' -> extends (h_part s) (h_part s') /\ extends (h_w s) (h_w s') /\ extends (h_idx s) (h_idx s') /\ extends (h_pa s) (h_pa s').
Proof. auto. Qed.

(** ** resample *)
Lemma r_resample b s pa v n : keeps_all b s -> mine b s pa v ->
  sim s (h_resample hm g pa n) (pa_resample g (m_copy mdl) v n)
    (fun anc r s' => mine b s' pa (fst r) /\ idx_at s' anc (snd r) /\ kept3 b s s' /\ extends (h_part s) (h_part s')).
Proof.
  intros Kb (a & H & L1 & L2 & L3). unfold h_resample, pa_resample.
  eapply s_w_of; [exact H|]. apply sim_lift. intros m _.
  apply sim_world. intros ind w K0. set (s1 := set_world s w) in *. pose proof (pa_keep _ _ _ _ _ K0 H) as H1.
  assert (Kb1 : keeps_all b s1) by exact Kb. clearbody s1. clear w.
  apply s_new_idx. intros s2 i K2 Hi. pose proof (pa_keep _ _ _ _ _ K2 H1) as H2.
  assert (Kb2 : keeps_all b s2) by (eapply keeps_all_trans; eassumption).
  eapply s_get_pa; [exact H2|].
  eapply sim_bind; [apply (c_new h_part); [apply (fo_copy _ F)|apply (im_copy _ _ I)]; [apply H2|exact Hi]|].
  intros l y s3 E3 (Hl & K3 & Ll). pose proof (pa_keep _ _ _ _ _ K3 H2) as H3.
  assert (Kb3 : keeps_all b s3) by (eapply keeps_all_trans; eassumption).
  apply s_new_w. intros s4 lw' K4 Hw Lw' Ew4. pose proof (pa_keep _ _ _ _ _ K4 H3) as H4.
  assert (Kb4 : keeps_all b s4) by (eapply keeps_all_trans; eassumption).
  eapply sim_heap; [reflexivity|reflexivity|]. apply sim_ret.
  assert (K04 : keeps_all s s4) by (eapply keeps_all_trans; [exact K0|]; eapply keeps_all_trans; [exact K2|]; eapply keeps_all_trans; [exact K3|]; exact K4).
  assert (Kf : keeps_all b (set_pas s4 (put (h_pa s4) pa {| ha_part := l; ha_w := lw'; ha_num := n; ha_off := Fin 0 |}))) by (apply put_pa_b; auto).
  split; [|split; [|split]].
  - exists {| ha_part := l; ha_w := lw'; ha_num := n; ha_off := Fin 0 |}. split.
    + split; [simpl; apply put_nth_eq; eapply at_lt; apply H4|]. simpl. split; [|split; [exact Hw|split; reflexivity]].
      eapply ext_at; [apply K4|exact Hl].
    + simpl. split; auto. destruct Kb2 as ([? _] & _), Kb3 as (_ & [? _] & _). lia.
  - simpl. eapply ext_at; [apply (keeps_all_trans _ _ _ K3 K4)|exact Hi].
  - split; [exact Kf|]. simpl. split; apply K04.
  - simpl. apply K04.
Qed.
Lemma r_maybe_resample b s pa v thr : keeps_all b s -> mine b s pa v ->
  sim s (h_maybe_resample hm g thr pa) (maybe_resample mdl g thr v)
    (fun r r' s' => fst r = snd (fst r') /\ mine b s' pa (fst (fst r')) /\ idx_at s' (snd r) (snd r') /\ kept3 b s s' /\ extends (h_part s) (h_part s')).
Proof.
  intros Kb M. pose proof M as (a & H & _). unfold h_maybe_resample, maybe_resample.
  eapply s_get_pa; [exact H|]. pose proof H as (_ & _ & _ & En & _).
  assert (G : sim s (edo anc <- new_idx (seq 0 (ha_num a)); eret (false, anc)) (ret (v, false, seq 0 (num v)))
     (fun r r' s' => fst r = snd (fst r') /\ mine b s' pa (fst (fst r')) /\ idx_at s' (snd r) (snd r') /\ kept3 b s s' /\ extends (h_part s) (h_part s'))).
  { apply s_new_idx. intros s1 i K1 Hi. apply sim_ret. simpl. rewrite <- En. split; auto. split; [eapply mine_keep; eassumption|]. split; auto.
    split; [apply kept3_all; auto|apply K1]. }
  destruct (Rltb 0 thr); [|exact G].
  eapply s_w_of; [exact H|]. unfold calc_Neff. apply sim_lift. intros ne _. rewrite En in G |- *.
  destruct (xltb ne (Fin (thr * INR (num v)))); [|exact G].
  eapply sim_bind; [apply (r_resample b); auto|]. intros anc r s1 E1 (H1 & Hi & K1 & K1'). apply sim_ret. simpl. auto.
Qed.

(** ** update *)
Lemma r_update b s traj T anc av uvec yvec tvec k pa v : keeps_all b s -> mine b s pa v -> shows_traj b traj T -> idx_at s anc av ->
  sim s (h_update hm traj anc uvec yvec tvec k pa) (pf_update mdl T av uvec yvec tvec k v)
    (fun _ v' s' => mine b s' pa v' /\ kept3 b s s').
Proof.
  intros Kb M HT Ha. unfold h_update, pf_update.
  eapply sim_bind; [apply (im_noise _ _ I); [eapply showst_keep; eassumption|exact Ha]|].
  intros nv nv' s1 E1 <-. pose proof (fo_noise _ F traj anc (firstn (k + 1) uvec) (firstn (k + 1) tvec) s) as K1. rewrite E1 in K1. simpl in K1.
  pose proof (mine_keep _ _ _ _ _ K1 M) as (a & H & L1 & L2 & L3). assert (Kb1 : keeps_all b s1) by (eapply keeps_all_trans; eassumption).
  eapply s_get_pa; [exact H|].
  match goal with |- sim ?s ?x (bind ?v ?k) ?Q => assert (G : sim s x v (fun a0 b0 s' => sim s' (eret tt) (k b0) Q)) end.
  { eapply sim_post.
    - apply (im_update _ _ I); [apply H|eapply showst_keep; eassumption|eapply ext_at; [apply K1|exact Ha]].
    - intros [] x' s2 E2 Hx. pose proof (fo_update _ F (ha_part a) traj (firstn (k + 1) uvec) (firstn (k + 1) yvec) (firstn (k + 1) tvec) anc nv s1) as K2.
      rewrite E2 in K2. simpl in K2. apply sim_ret. destruct H as (E & Ep & Ew & En & Eo). split.
      + exists a. split; auto. split; [eapply ext_at; [apply K2|exact E]|]. split; [exact Hx|]. split; [eapply ext_at; [apply K2|exact Ew]|]. split; auto.
      + split; [eapply but_b; eassumption|]. split; eapply keepsl_trans; (apply K1 || apply K2). }
  unfold sim in G |- *. unfold bind. destruct (m_update _ _ _ _ _ _ _ _ _) as [[x' w]|e]; [|exact G].
  destruct G as ([] & s2 & E2 & <- & G). rewrite E2. unfold ret in *. simpl in *. destruct G as (u0 & s3 & Eq & _ & G). inversion Eq; subst. eauto.
Qed.

(** ** The weight update *)
Lemma sim_lift_bind {A B C} s (r : res A) (k : A -> res B) (x : HM C) R : sim s x (bind (lift r) (fun a => lift (k a))) R -> sim s x (lift (rbind r k)) R.
Proof. unfold sim, bind, lift, rbind. destruct r; auto. Qed.
Lemma s_put_w {C D} s i x (f : unit -> HM C) (v : M W D) R : sim (set_ws s (put (h_w s) i x)) (f tt) v R -> sim s (ebind (put_w i x) f) v R.
Proof. intros H. eapply sim_heap; [reflexivity|reflexivity|exact H]. Qed.
Lemma s_put_part {C D} s i x (f : unit -> HM C) (v : M W D) R : sim (set_parts s (put (h_part s) i x)) (f tt) v R -> sim s (ebind (put_part i x) f) v R.
Proof. intros H. eapply sim_heap; [reflexivity|reflexivity|exact H]. Qed.
Lemma s_add_off {C D} s pa a m (f : unit -> HM C) (v : M W D) R : nth_error (h_pa s) pa = Some a ->
  sim (set_pas s (put (h_pa s) pa (mkHPA (ha_part a) (ha_w a) (ha_num a) (xadd (ha_off a) m)))) (f tt) v R -> sim s (ebind (add_off pa m) f) v R.
Proof. intros E H. eapply sim_heap; [unfold add_off, ebind, get_pa, idx; rewrite E; reflexivity|reflexivity|exact H]. Qed.
Lemma s_set_w {C D} s pa a w (f : unit -> HM C) (v : M W D) R : nth_error (h_pa s) pa = Some a ->
  sim (set_pas s (put (h_pa s) pa (mkHPA (ha_part a) w (ha_num a) (ha_off a)))) (f tt) v R -> sim s (ebind (set_w pa w) f) v R.
Proof. intros E H. eapply sim_heap; [unfold set_w, ebind, get_pa, idx; rewrite E; reflexivity|reflexivity|exact H]. Qed.
Lemma s_set_part {C D} s pa a p (f : unit -> HM C) (v : M W D) R : nth_error (h_pa s) pa = Some a ->
  sim (set_pas s (put (h_pa s) pa (mkHPA p (ha_w a) (ha_num a) (ha_off a)))) (f tt) v R -> sim s (ebind (set_part pa p) f) v R.
Proof. intros E H. eapply sim_heap; [unfold set_part, ebind, get_pa, idx; rewrite E; reflexivity|reflexivity|exact H]. Qed.
Lemma has_put (s : hst) pa a a' x v : nth_error (h_pa s) pa = Some a -> part_at s (ha_part a') (part v) -> w_at s (ha_w a') (lw v) -> ha_num a' = num v -> ha_off a' = woff v ->
  x = a' -> pa_has (set_pas s (put (h_pa s) pa x)) pa a' v.
Proof. intros E Hp Hw Hn Ho ->. split; [simpl; apply put_nth_eq; eapply at_lt; exact E|]. repeat split; auto. Qed.
Lemma put_at_eq {A} (l : list A) i x y : nth_error l i = Some y -> nth_error (put l i x) i = Some x.
Proof. intros E. apply put_nth_eq. eapply at_lt; exact E. Qed.

Lemma r_add_weights b s pa v nw wv : keeps_all b s -> mine b s pa v -> w_at s nw wv -> (length (h_w b) <= nw)%nat ->
  (forall a, nth_error (h_pa s) pa = Some a -> ha_w a <> nw) ->
  sim s (h_add_weights pa nw) (lift (add_weights v wv))
    (fun _ v' s' => mine b s' pa v' /\ keeps_all b s' /\ extends (h_part s) (h_part s') /\ keepsl (but nw) (h_w s) (h_w s') /\ extends (h_idx s) (h_idx s') /\
       h_part s' = h_part s).
Proof.
  intros Kb (a & (Ea & Ep & Ew & En & Eo) & L1 & L2 & L3) Hnw Ln Hne. specialize (Hne _ Ea).
  unfold add_weights, h_add_weights. apply sim_lift_bind.
  eapply s_get_w; [exact Hnw|]. apply sim_lift. intros m _. apply sim_lift_bind.
  eapply s_add_off; [exact Ea|].
  set (a1 := mkHPA (ha_part a) (ha_w a) (ha_num a) (xadd (ha_off a) m)). set (s1 := set_pas s (put (h_pa s) pa a1)).
  assert (Ea1 : nth_error (h_pa s1) pa = Some a1) by (eapply put_at_eq; exact Ea).
  assert (Kb1 : keeps_all b s1) by (apply put_pa_b; auto).
  apply s_put_w. set (x1 := map (fun u => xsub u m) wv). set (s2 := set_ws s1 (put (h_w s1) nw x1)).
  assert (Kb2 : keeps_all b s2) by (apply put_w_b; auto).
  assert (Hx1 : w_at s2 nw x1) by (eapply put_at_eq; exact Hnw).
  assert (Ew2 : w_at s2 (ha_w a) (lw v)) by (unfold w_at; simpl; rewrite put_nth_neq; auto).
  assert (H2 : pa_has s2 pa a1 (mkPA (part v) (lw v) (num v) (xadd (woff v) m))).
  { split; [exact Ea1|]. split; [exact Ep|]. split; [exact Ew2|]. simpl. split; [exact En|]. rewrite Eo. reflexivity. }
  eapply s_get_w; [exact Hx1|]. eapply s_w_of; [exact H2|]. apply sim_lift. intros w' _. apply sim_lift_bind.
  eapply sim_heap; [reflexivity|reflexivity|].
  set (wl := length (h_w s2)). set (s3 := set_ws s2 (h_w s2 ++ [w'])).
  assert (K3 : keeps_all s2 s3) by apply new_w_keeps. assert (Kb3 : keeps_all b s3) by (eapply keeps_all_trans; eassumption).
  assert (Hw3 : w_at s3 wl w') by apply at_app.
  assert (Ea3 : nth_error (h_pa s3) pa = Some a1) by exact Ea1.
  eapply s_set_w; [exact Ea3|]. set (a4 := mkHPA (ha_part a1) wl (ha_num a1) (ha_off a1)). set (s4 := set_pas s3 (put (h_pa s3) pa a4)).
  assert (Kb4 : keeps_all b s4) by (apply put_pa_b; auto).
  assert (Ea4 : nth_error (h_pa s4) pa = Some a4) by (eapply put_at_eq; exact Ea3).
  eapply (s_w_of s4 pa a4 (mkPA (part v) w' (num v) (xadd (woff v) m))).
  { split; [exact Ea4|]. split; [exact Ep|]. split; [exact Hw3|]. simpl. split; [exact En|]. rewrite Eo. reflexivity. }
  change (lw (mkPA (part v) w' (num v) (xadd (woff v) m))) with w'.
  apply sim_lift. intros m2 _.
  eapply s_add_off; [exact Ea4|]. set (a5 := mkHPA (ha_part a4) (ha_w a4) (ha_num a4) (xadd (ha_off a4) m2)). set (s5 := set_pas s4 (put (h_pa s4) pa a5)).
  assert (Kb5 : keeps_all b s5) by (apply put_pa_b; auto).
  assert (Ea5 : nth_error (h_pa s5) pa = Some a5) by (eapply put_at_eq; exact Ea4).
  eapply sim_heap; [unfold get_pa, idx; rewrite Ea5; reflexivity|reflexivity|].
  set (x6 := map (fun u => xsub u m2) w').
  assert (Lw : (length (h_w b) <= wl)%nat) by (destruct Kb2 as (_ & [L _] & _); exact L).
  eexists; eexists. split; [reflexivity|]. split; [reflexivity|].
  split; [|split; [apply put_w_b; auto|]].
  - exists a5. split.
    + split; [exact Ea5|]. split; [exact Ep|]. split; [|simpl; split; [exact En|rewrite Eo; reflexivity]].
      unfold w_at. simpl. eapply put_at_eq. exact Hw3.
    + split; auto.
  - simpl. split; [apply keepsl_refl|]. split; [|split; [apply keepsl_refl|reflexivity]].
    split; [rewrite put_length, app_length, put_length; lia|].
    intros i Hi Hb. unfold but in Hb. rewrite put_nth_neq; [|unfold wl; simpl; rewrite put_length; lia].
    rewrite nth_error_app1 by (rewrite put_length; exact Hi). apply put_nth_neq. auto.
Qed.

(** ** measure *)
Lemma r_measure b s traj T anc av pa v uvec yvec tvec k : keeps_all b s -> mine b s pa v -> shows_traj s traj T -> idx_at s anc av ->
  sim s (h_measure hm traj anc pa uvec yvec tvec k) (pf_measure mdl T av v uvec yvec tvec k) (fun _ v' s' => mine b s' pa v' /\ kept3 b s s').
Proof.
  intros Kb (a & H & L1 & L2 & L3) HT Ha. unfold h_measure, pf_measure. eapply s_get_pa; [exact H|].
  eapply sim_bind; [apply (im_measure _ _ I); [exact HT|exact Ha|apply H]|].
  intros nw pw s1 E1 [Hp Hw]. destruct (fo_measure _ F traj anc (ha_part a) uvec (firstn (k + 1) yvec) (firstn (k + 1) tvec) s) as [K1 Fr].
  unfold fresh in Fr. rewrite E1 in K1, Fr. simpl in K1, Fr. destruct H as (Ea & Ep & Ew & En & Eo).
  assert (Kb1 : keeps_all b s1) by (eapply but_b; eassumption).
  assert (M1 : mine b s1 pa (mkPA (fst pw) (lw v) (num v) (woff v))).
  { exists a. split; auto. split; [eapply ext_at; [apply K1|exact Ea]|]. split; [exact Hp|]. split; [eapply ext_at; [apply K1|exact Ew]|]. split; auto. }
  eapply sim_post; [apply (r_add_weights b s1 pa _ nw (snd pw)); auto|].
  - destruct Kb as (_ & [L _] & _). lia.
  - intros a' Ea'. assert (a' = a) as -> by (assert (nth_error (h_pa s1) pa = Some a) by (eapply ext_at; [apply K1|exact Ea]); congruence).
    pose proof (at_lt _ _ _ Ew). lia.
  - intros u0 v' s2 E2 (M2 & K2 & _ & Kw & Ki & _). split; auto. split; auto. split; [|eapply keepsl_trans; [apply K1|exact Ki]].
    destruct K1 as (_ & [Lw1 K1] & _). destruct Kw as [Lw Kw]. split; [lia|]. intros i Hi _. rewrite Kw; [apply K1; auto; exact Logic.I|lia|unfold but; lia].
Qed.

(** ** Moving facts along *)
Lemma part_keep (s s' : hst) i x : keeps_all s s' -> part_at s i x -> part_at s' i x.
Proof. intros K. apply ext_at, K. Qed.
Lemma w_keep (s s' : hst) i x : keeps_all s s' -> w_at s i x -> w_at s' i x.
Proof. intros K. apply ext_at, K. Qed.
Lemma idx_keep (s s' : hst) i x : keeps_all s s' -> idx_at s i x -> idx_at s' i x.
Proof. intros K. apply ext_at, K. Qed.
Lemma b_part (b s : hst) pa a v : keeps_all b s -> pa_has b pa a v -> part_at s (ha_part a) (part v).
Proof. intros K H. eapply part_keep; [exact K|apply H]. Qed.
Lemma b_w (b s : hst) pa a v : keeps_all b s -> pa_has b pa a v -> w_at s (ha_w a) (lw v).
Proof. intros K H. eapply w_keep; [exact K|apply H]. Qed.
Ltac mv K := match type of K with keeps_all ?s ?s' =>
  repeat match goal with
  | H : part_at s _ _ |- _ => apply (part_keep s s' _ _ K) in H
  | H : w_at s _ _ |- _ => apply (w_keep s s' _ _ K) in H
  | H : idx_at s _ _ |- _ => apply (idx_keep s s' _ _ K) in H
  | H : pa_has s _ _ _ |- _ => apply (pa_keep s s' _ _ _ K) in H
  | H : mine ?b s _ _ |- _ => apply (mine_keep b s s' _ _ K) in H
  | H : keeps_all ?b s |- _ => apply (fun H0 => keeps_all_trans b s s' H0 K) in H
  end end.
Lemma k3_w b s s' i x : kept3 b s s' -> w_at s i x -> w_at s' i x.
Proof. intros (_ & K & _). apply ext_at, K. Qed.
Lemma k3_idx b s s' i x : kept3 b s s' -> idx_at s i x -> idx_at s' i x.
Proof. intros (_ & _ & K). apply ext_at, K. Qed.
Lemma kb_part p (s s' : hst) i x : keeps_but p s s' -> i <> p -> part_at s i x -> part_at s' i x.
Proof. intros K N. eapply but_at; [apply K|exact N]. Qed.
Lemma kb_w p (s s' : hst) i x : keeps_but p s s' -> w_at s i x -> w_at s' i x.
Proof. intros K. apply ext_at, K. Qed.
Lemma kb_idx p (s s' : hst) i x : keeps_but p s s' -> idx_at s i x -> idx_at s' i x.
Proof. intros K. apply ext_at, K. Qed.
Lemma kb_has p (s s' : hst) pa a v : keeps_but p s s' -> ha_part a <> p -> pa_has s pa a v -> pa_has s' pa a v.
Proof.
  intros K N (E1 & E2 & E3 & E4 & E5). split; [eapply ext_at; [apply K|exact E1]|]. split; [eapply kb_part; eassumption|].
  split; [eapply kb_w; eassumption|]. split; assumption.
Qed.
Lemma put_part_but (s : hst) p x : keeps_but p s (set_parts s (put (h_part s) p x)).
Proof. split; [|split; [|split]]; simpl; try apply keepsl_refl. apply keepsl_put. unfold but; auto. Qed.
Lemma s_cond {C D} s wt x wv (f : nat -> HM C) (k : nat -> M W D) R : w_at s wt x ->
  (forall a w, keeps_all s (set_world s w) -> sim (set_world s w) (f a) (k a) R) ->
  sim s (ebind (h_cond_ancestor g wt wv) f) (bind (cond_ancestor g x wv) k) R.
Proof.
  intros H K. unfold sim. replace (ebind (h_cond_ancestor g wt wv) f s) with (ebind (on_world (cond_ancestor g x wv)) f s); [apply sim_world; exact K|].
  unfold h_cond_ancestor, ebind, get_w, idx. unfold w_at in H. rewrite H. reflexivity.
Qed.
Lemma s_put_part_at {C D} b s p x x' (f : unit -> HM C) (v : M W D) R : keeps_all b s -> part_at s p x -> (length (h_part b) <= p)%nat ->
  (forall s', keeps_all b s' -> part_at s' p x' -> keeps_but p s s' -> sim s' (f tt) v R) -> sim s (ebind (put_part p x') f) v R.
Proof.
  intros Kb Hp L H. apply s_put_part. apply H; [apply put_part_b; auto|eapply put_at_eq; exact Hp|apply put_part_but].
Qed.

(** ** forward of each filter *)
Definition fwd_rel (b : hst) (r : hfwd) (r' : fwd_result (P := P)) (s' : hst) : Prop :=
  snd (fst r) = snd (fst r') /\ mine b s' (fst (fst r)) (fst (fst r')) /\ idx_at s' (snd r) (snd r') /\ keeps_all b s'.

Lemma r_pf_forward b s traj T thr yvec uvec tvec k : keeps_all b s -> shows_traj b traj T ->
  sim s (h_pf_forward hm g thr traj yvec uvec tvec k) (pf_forward mdl g thr T yvec uvec tvec k) (fwd_rel b).
Proof.
  intros Kb HT. unfold h_pf_forward, pf_forward. eapply sim_last; [exact HT|]. intros last lv Hl.
  destruct (shows_pa _ _ _ Hl) as (a & Ha & _). eapply s_get_pa; [exact (pa_keep _ _ _ _ _ Kb Ha)|].
  eapply sim_bind; [apply (r_pa_init b); [exact Kb|exact (b_part _ _ _ _ _ Kb Ha)|exact (b_w _ _ _ _ _ Kb Ha)]|]. intros pa v s1 _ (M1 & K1 & _). mv K1.
  eapply sim_bind; [apply (r_maybe_resample b); auto|]. intros [rs anc] [[v2 rs'] av] s2 _ (E2 & M2 & H2 & (K2 & _) & _). simpl in E2, M2, H2. subst rs'.
  eapply sim_bind; [apply (r_update b); [exact K2|exact M2|exact HT|exact H2]|]. intros u0 v3 s3 _ (M3 & K3 & _ & I3).
  eapply sim_bind; [apply (r_measure b); [exact K3|exact M3|eapply showst_keep; eassumption|eapply ext_at; eassumption]|].
  intros u1 v4 s4 _ (M4 & K4 & _ & I4). apply sim_ret. split; [reflexivity|]. split; [exact M4|]. split; [|exact K4]. simpl.
  eapply ext_at; [exact I4|]. eapply ext_at; [exact I3|exact H2].
Qed.

Lemma r_sir_forward b s traj T thr yvec uvec tvec k : keeps_all b s -> shows_traj b traj T ->
  sim s (h_sir_forward hm g thr traj yvec uvec tvec k) (sir_forward mdl g thr T yvec uvec tvec k) (fwd_rel b).
Proof.
  intros Kb HT. unfold h_sir_forward, sir_forward. eapply sim_last; [exact HT|]. intros last lv Hl.
  destruct (shows_pa _ _ _ Hl) as (al & Hal & _). eapply s_get_pa; [exact (pa_keep _ _ _ _ _ Kb Hal)|].
  eapply sim_bind; [apply (r_pa_init b); [exact Kb|exact (b_part _ _ _ _ _ Kb Hal)|exact (b_w _ _ _ _ _ Kb Hal)]|]. intros pa v s1 _ (M1 & K1 & _). mv K1.
  eapply sim_bind; [apply (r_maybe_resample b); auto|]. intros [rs anc] [[v2 rs'] av] s2 _ (E2 & M2 & H2 & (K2 & _) & _). simpl in E2, M2, H2. subst rs'.
  clear M1 K1 Kb. apply sim_lift. intros u _. apply sim_lift. intros y _. apply sim_lift. intros t _. apply sim_lift. intros t1 _.
  destruct M2 as (a & Ha & L1 & L2 & L3). eapply s_get_pa; [exact Ha|].
  eapply sim_bind; [apply (c_new h_part); [apply (fo_qsample _ F)|apply (im_qsample _ _ I); apply Ha]|]. intros pn pnv s3 _ (Hpn & K3 & Lpn).
  assert (Np : ha_part a <> pn) by (destruct Ha as (_ & E & _); apply at_lt in E; lia).
  assert (Lb : (length (h_part b) <= pn)%nat) by (destruct K2 as ([? _] & _); lia). mv K3.
  eapply sim_bind; [apply (c_new h_w); [apply (fo_logp_q _ F)|apply (im_logp_q _ _ I); [apply Ha|exact Hpn]]|]. intros qw qv s4 _ (Hq & K4 & _). mv K4.
  eapply sim_bind; [apply (c_new h_w); [apply (fo_logp_xnext _ F)|apply (im_logp_xnext _ _ I); [apply Ha|exact Hpn]]|]. intros nw nv s5 _ (Hn & K5 & _). mv K5.
  eapply sim_bind; [apply (im_meas1 _ _ I); exact Hpn|]. intros yw [pv yv] s6 E6 [Hp6 Hy]. simpl in Hp6, Hy.
  destruct (fo_meas1 _ F pn y t1 s5) as [K6 _]. rewrite E6 in K6. simpl in K6.
  apply (kb_w _ _ _ _ _ K6) in Hq, Hn. apply (kb_idx _ _ _ _ _ K6) in H2. apply (kb_has _ _ _ _ _ _ K6 Np) in Ha.
  assert (Kb6 : keeps_all b s6) by (eapply but_b; eassumption).
  eapply s_get_w; [exact Hy|]. eapply s_get_w; [exact Hn|]. eapply s_get_w; [exact Hq|].
  apply sim_lift. intros z _. apply sim_lift. intros w _. apply s_new_w. intros s7 wl K7 Hw Lw _.
  assert (Nw : ha_w a <> wl) by (destruct Ha as (_ & _ & E & _); apply at_lt in E; lia).
  assert (Lbw : (length (h_w b) <= wl)%nat) by (destruct Kb6 as (_ & [? _] & _); lia). mv K7.
  eapply sim_bind; [apply (r_add_weights b); [exact Kb6| |exact Hw|exact Lbw|]|].
  { exists a. auto. }
  { intros a' E'. destruct Ha as (E & _). congruence. }
  intros u0 v' s8 _ ((a8 & H8 & L81 & L82 & L83) & K8 & _ & _ & Ki & Ep).
  eapply s_set_part; [apply H8|]. apply sim_ret. split; [reflexivity|]. split; [|split; [simpl; eapply ext_at; [exact Ki|exact H2]|apply put_pa_b; auto]].
  exists (mkHPA pn (ha_w a8) (ha_num a8) (ha_off a8)). split; [|simpl; auto].
  destruct H8 as (E1 & _ & E3 & E4 & E5). eapply has_put; [exact E1| | | | |reflexivity]; simpl; auto.
  unfold part_at. rewrite Ep. exact Hp6.
Qed.

Lemma r_csiras_forward b s ct CT traj T yvec uvec tvec k : keeps_all b s -> shows_traj b traj T -> shows_traj b ct CT ->
  sim s (h_csiras_forward hm g ct traj yvec uvec tvec k) (csiras_forward mdl g CT T yvec uvec tvec k) (fwd_rel b).
Proof.
  intros Kb HT HC. unfold h_csiras_forward, csiras_forward. eapply sim_last; [exact HT|]. intros last lv Hl.
  destruct (shows_pa _ _ _ Hl) as (al & Hal & _). eapply s_get_pa; [exact (pa_keep _ _ _ _ _ Kb Hal)|].
  eapply s_get_part; [exact (b_part _ _ _ _ _ Kb Hal)|]. eapply s_get_w; [exact (b_w _ _ _ _ _ Kb Hal)|].
  apply sim_world. intros anc0 w0 K0. set (s1 := set_world s w0) in *. clearbody s1. mv K0. clear K0.
  eapply sim_idx; [exact HT|]. intros cur cv Hc. destruct (shows_pa _ _ _ Hc) as (ac & Hac & _). eapply s_get_pa; [exact (pa_keep _ _ _ _ _ Kb Hac)|].
  eapply sim_idx; [exact HC|]. intros cst csv Hcs. destruct (shows_pa _ _ _ Hcs) as (acs & Hacs & _). eapply s_part_of; [exact (pa_keep _ _ _ _ _ Kb Hacs)|].
  apply sim_lift. intros nextp _. apply s_new_part. intros s2 nextl K2 Hnl Lnl _. mv K2. clear K2.
  apply sim_lift. intros u _. apply sim_lift. intros t _.
  eapply sim_bind; [apply (c_new h_w); [apply (fo_logp_xnext _ F)|apply (im_logp_xnext _ _ I); [exact (b_part _ _ _ _ _ Kb Hac)|exact Hnl]]|].
  intros wt wtv s3 _ (Hwt & K3 & _). mv K3. clear K3.
  eapply s_get_w; [exact (b_w _ _ _ _ _ Kb Hal)|]. apply sim_lift. intros w _.
  eapply s_cond; [exact Hwt|]. intros ci w4 K4. set (s4 := set_world s3 w4) in *. clearbody s4. mv K4. clear K4.
  apply s_new_idx. intros s5 anc K5 Hanc. mv K5. clear K5.
  eapply sim_bind; [apply (c_new h_part); [apply (fo_copy _ F)|apply (im_copy _ _ I); [exact (b_part _ _ _ _ _ Kb Hal)|exact Hanc]]|].
  intros cp cpv s6 _ (Hcp & K6 & _). mv K6. clear K6.
  eapply sim_bind; [apply (r_pa_init b _ _ _ None None); [exact Kb|exact Hcp|exact Logic.I]|]. intros pa v s7 _ ((a & Ha & L1 & L2 & L3) & K7 & _). mv K7. clear K7.
  apply sim_lift. intros y _. eapply s_get_pa; [exact Ha|].
  eapply sim_bind; [apply (c_new h_part); [apply (fo_qsample _ F)|apply (im_qsample _ _ I); apply Ha]|]. intros pn pnv s8 _ (Hpn & K8 & Lpn).
  assert (Np : ha_part a <> pn) by (destruct Ha as (_ & E & _); apply at_lt in E; lia).
  assert (Lb : (length (h_part b) <= pn)%nat) by (destruct Kb as ([? _] & _); lia). mv K8. clear K8.
  eapply s_part_of; [exact (pa_keep _ _ _ _ _ Kb Hacs)|]. apply sim_lift. intros c0 _. eapply s_get_part; [exact Hpn|].
  apply sim_lift. intros pv' _. eapply s_put_part_at; [exact Kb|exact Hpn|exact Lb|]. intros s9 Kb9 Hpn9 K9.
  apply (kb_idx _ _ _ _ _ K9) in Hanc. apply (kb_has _ _ _ _ _ _ K9 Np) in Ha. clear K9 Hpn Kb Hwt Hcp Hnl.
  eapply sim_bind; [apply (c_new h_w); [apply (fo_logp_q _ F)|apply (im_logp_q _ _ I); [apply Ha|exact Hpn9]]|]. intros qw qv s10 _ (Hq & K10 & _). mv K10. clear K10.
  eapply sim_bind; [apply (c_new h_w); [apply (fo_logp_xnext _ F)|apply (im_logp_xnext _ _ I); [apply Ha|exact Hpn9]]|]. intros nw nv s11 _ (Hn & K11 & _). mv K11. clear K11.
  apply sim_lift. intros t1 _.
  eapply sim_bind; [apply (im_meas1 _ _ I); exact Hpn9|]. intros yw [pv yv] s12 E12 [Hp12 Hy]. simpl in Hp12, Hy.
  destruct (fo_meas1 _ F pn y t1 s11) as [K12 _]. rewrite E12 in K12. simpl in K12.
  apply (kb_w _ _ _ _ _ K12) in Hq, Hn. apply (kb_idx _ _ _ _ _ K12) in Hanc. apply (kb_has _ _ _ _ _ _ K12 Np) in Ha.
  assert (Kb : keeps_all b s12) by (eapply but_b; eassumption). clear Kb9 K12 E12.
  eapply s_get_w; [exact Hy|]. eapply s_get_w; [exact Hn|]. eapply s_get_w; [exact Hq|].
  apply sim_lift. intros z _. apply sim_lift. intros wv _. apply s_new_w. intros s13 wl K13 Hw Lw _.
  assert (Lbw : (length (h_w b) <= wl)%nat) by (destruct Kb as (_ & [? _] & _); lia). mv K13. clear K13.
  eapply s_set_w; [apply Ha|]. eapply s_get_part; [exact Hp12|].
  apply s_put_part. apply sim_ret. split; [reflexivity|]. destruct Ha as (E1 & E2 & E3 & E4 & E5). split; [|split].
  - exists (mkHPA (ha_part a) wl (ha_num a) (ha_off a)). split; [|simpl; auto].
    split; [simpl; eapply put_at_eq; exact E1|]. simpl. split; [|split; [exact Hw|auto]]. unfold part_at. simpl. eapply put_at_eq; exact E2.
  - exact Hanc.
  - apply put_part_b; auto. apply put_pa_b; auto.
Qed.

Lemma r_pfy_forward b s N traj T thr yvec uvec tvec k : keeps_all b s -> shows_traj b traj T ->
  sim s (h_pfy_forward hm g N thr traj yvec uvec tvec k) (pfy_forward mdl g N thr T yvec uvec tvec k) (fwd_rel b).
Proof.
  intros Kb HT. unfold h_pfy_forward, pfy_forward. eapply sim_last; [exact HT|]. intros last lv Hl.
  destruct (shows_pa _ _ _ Hl) as (al & Hal & _). eapply s_get_pa; [exact (pa_keep _ _ _ _ _ Kb Hal)|].
  eapply sim_bind; [apply (c_new h_part); [apply (fo_copy _ F)|apply (im_copy_all _ _ I); exact (b_part _ _ _ _ _ Kb Hal)]|].
  intros cp cpv s0 _ (Hcp & K0 & _). mv K0. clear K0.
  eapply sim_bind; [apply (r_pa_init b _ _ _ (Some _) (Some _)); [exact Kb|exact Hcp|exact (b_w _ _ _ _ _ Kb Hal)]|]. intros pa v s1 _ (M1 & K1 & _). mv K1.
  eapply sim_bind; [apply (r_maybe_resample b); auto|]. intros [rs anc] [[v2 rs'] av] s2 _ (E2 & M2 & H2 & (K2 & _) & _). simpl in E2, M2, H2. subst rs'.
  clear M1 K1 Kb Hcp. rename K2 into Kb. apply sim_lift. intros y _. apply sim_lift. intros t _.
  destruct M2 as (a & Ha & L1 & L2 & L3). eapply s_part_of; [exact Ha|].
  eapply sim_bind; [apply (c_new h_part); [apply (fo_propose_y _ F)|apply (im_propose_y _ _ I)]|]. intros pn pnv s3 _ (Hpn & K3 & Lpn).
  assert (Np : ha_part a <> pn) by (destruct Ha as (_ & E & _); apply at_lt in E; lia).
  assert (Lb : (length (h_part b) <= pn)%nat) by (destruct Kb as ([? _] & _); lia). mv K3. clear K3.
  eapply sim_idx; [exact HT|]. intros cur cv Hc. destruct (shows_pa _ _ _ Hc) as (ac & Hac & Hacx). eapply s_part_of; [exact (pa_keep _ _ _ _ _ Kb Hac)|].
  eapply s_get_idx; [exact H2|]. apply sim_lift. intros pp _. apply s_new_part. intros s4 ppl K4 Hpp _ _. mv K4. clear K4.
  eapply s_get_idx; [exact (idx_keep _ _ _ _ Kb Hacx)|]. apply sim_lift. intros pind _.
  apply s_new_idx. intros s5 pi K5 Hpi. mv K5. clear K5. apply s_new_idx. intros s6 fi K6 Hfi. mv K6. clear K6.
  eapply sim_bind; [apply (c_new h_w); [apply (fo_xnext1 _ F)|
    apply (im_xnext1 _ _ I); [exact Hpp|apply showst_firstn; exact (showst_keep _ _ _ _ Kb HT)|exact Hpi|exact Hpn|exact Hfi]]|].
  intros wn wnv s7 _ (Hw & K7 & Lw).
  assert (Nw : ha_w a <> wn) by (destruct Ha as (_ & _ & E & _); apply at_lt in E; lia).
  assert (Lbw : (length (h_w b) <= wn)%nat) by (destruct Kb as (_ & [? _] & _); lia). mv K7. clear K7.
  destruct Ha as (E1 & E2 & E3 & E4 & E5). eapply s_set_part; [exact E1|].
  eapply sim_bind; [apply (r_add_weights b); [apply put_pa_b; auto| |exact Hw|exact Lbw|]|].
  { exists (mkHPA pn (ha_w a) (ha_num a) (ha_off a)). split; [|simpl; auto]. eapply has_put; [exact E1| | | | |reflexivity]; simpl; auto. }
  { intros a' E'. simpl in E'. erewrite put_at_eq in E' by exact E1. inversion E'; subst. exact Nw. }
  intros u0 v' s8 _ (M8 & K8 & _ & _ & Ki & _). apply sim_ret. split; [reflexivity|]. split; [exact M8|]. split; [|exact K8].
  simpl. eapply ext_at; [exact Ki|exact H2].
Qed.

Lemma r_pfy_measure b s N yvec tvec k : keeps_all b s ->
  sim s (h_pfy_measure hm N yvec tvec k) (pfy_measure mdl N yvec tvec k) (fun pa v s' => mine b s' pa v /\ keeps_all s s').
Proof.
  intros Kb. unfold h_pfy_measure, pfy_measure. apply sim_lift. intros y _. apply sim_lift. intros t _.
  eapply sim_bind; [apply (c_new h_part); [apply (fo_propose_y _ F)|apply (im_propose_y _ _ I)]|]. intros pn pnv s3 _ (Hpn & K3 & Lpn).
  eapply sim_post; [apply (r_pa_init b _ _ _ None None); [eapply keeps_all_trans; eassumption|exact Hpn|exact Logic.I]|].
  intros pa v s' _ (M & K & _). split; [exact M|]. eapply keeps_all_trans; eassumption.
Qed.

Lemma r_cpf_tail b s ct CT traj T anc av yvec uvec tvec k pa v : keeps_all b s -> shows_traj b traj T -> shows_traj b ct CT -> mine b s pa v -> idx_at s anc av ->
  sim s (h_cpf_tail hm ct traj anc yvec uvec tvec k pa) (cpf_tail mdl CT T av yvec uvec tvec k v) (fwd_rel b).
Proof.
  intros Kb HT HC Mv Hanc. unfold h_cpf_tail, cpf_tail.
  eapply sim_bind; [apply (r_update b); eassumption|]. intros u0 v1 s1 _ (M1 & K1). apply (k3_idx _ _ _ _ _ K1) in Hanc. clear Kb Mv. destruct K1 as (Kb & _).
  eapply sim_idx; [exact HC|]. intros cst csv Hcs. destruct (shows_pa _ _ _ Hcs) as (acs & Hacs & _). eapply s_part_of; [exact (pa_keep _ _ _ _ _ Kb Hacs)|].
  apply sim_lift. intros c0 _. destruct M1 as (a & Ha & L1 & L2 & L3). eapply s_get_pa; [exact Ha|]. eapply s_get_part; [apply Ha|].
  apply sim_lift. intros pv' _. eapply s_put_part_at; [exact Kb|apply Ha|exact L2|]. intros s2 Kb2 Hp K2.
  assert (M2 : mine b s2 pa (mkPA pv' (lw v1) (num v1) (woff v1))).
  { destruct Ha as (E1 & E2 & E3 & E4 & E5). exists a. split; [|auto]. split; [eapply ext_at; [apply K2|exact E1]|]. simpl. split; [exact Hp|].
    split; [eapply kb_w; eassumption|auto]. }
  apply (kb_idx _ _ _ _ _ K2) in Hanc. clear Kb Ha Hp K2. cbv zeta. apply sim_lift. intros y _. destruct (is_none y).
  - apply sim_ret. split; [reflexivity|]. simpl. auto.
  - eapply sim_bind; [apply (r_measure b); [exact Kb2|exact M2|eapply showst_keep; eassumption|exact Hanc]|].
    intros u1 v4 s4 _ (M4 & K4). apply sim_ret. split; [reflexivity|]. split; [exact M4|]. simpl. split; [eapply k3_idx; eassumption|apply K4].
Qed.

Lemma r_cpf_forward b s ct CT traj T yvec uvec tvec k : keeps_all b s -> shows_traj b traj T -> shows_traj b ct CT ->
  sim s (h_cpf_forward hm g ct traj yvec uvec tvec k) (cpf_forward mdl g CT T yvec uvec tvec k) (fwd_rel b).
Proof.
  intros Kb HT HC. unfold h_cpf_forward, cpf_forward.
  eapply sim_idx; [exact HT|]. intros cur cv Hc. destruct (shows_pa _ _ _ Hc) as (ac & Hac & _). eapply s_part_of; [exact (pa_keep _ _ _ _ _ Kb Hac)|].
  eapply sim_last; [exact HT|]. intros last lv Hl. destruct (shows_pa _ _ _ Hl) as (al & Hal & _). eapply s_get_pa; [exact (pa_keep _ _ _ _ _ Kb Hal)|].
  eapply s_get_w; [exact (b_w _ _ _ _ _ Kb Hal)|].
  apply sim_world. intros anc0 w0 K0. set (s1 := set_world s w0) in *. clearbody s1. mv K0. clear K0.
  apply s_new_idx. intros s5 anc K5 Hanc. mv K5. clear K5.
  eapply sim_bind; [apply (c_new h_part); [apply (fo_copy _ F)|apply (im_copy _ _ I); [exact (b_part _ _ _ _ _ Kb Hal)|exact Hanc]]|].
  intros cp cpv s6 _ (Hcp & K6 & _). mv K6. clear K6.
  eapply sim_bind; [apply (r_pa_init b _ _ _ None None); [exact Kb|exact Hcp|exact Logic.I]|]. intros pa v s7 _ (M7 & K7 & _).
  pose proof (keeps_all_trans _ _ _ Kb K7) as Kb7. pose proof (idx_keep _ _ _ _ K7 Hanc).
  apply r_cpf_tail; auto.
Qed.

Lemma r_cpfas_forward b s ct CT traj T yvec uvec tvec k : keeps_all b s -> shows_traj b traj T -> shows_traj b ct CT ->
  sim s (h_cpfas_forward hm g ct traj yvec uvec tvec k) (cpfas_forward mdl g CT T yvec uvec tvec k) (fwd_rel b).
Proof.
  intros Kb HT HC. unfold h_cpfas_forward, cpfas_forward.
  eapply sim_last; [exact HT|]. intros last lv Hl. destruct (shows_pa _ _ _ Hl) as (al & Hal & _). eapply s_get_pa; [exact (pa_keep _ _ _ _ _ Kb Hal)|].
  eapply s_get_part; [exact (b_part _ _ _ _ _ Kb Hal)|]. eapply s_get_w; [exact (b_w _ _ _ _ _ Kb Hal)|].
  apply sim_world. intros anc0 w0 K0. set (s1 := set_world s w0) in *. clearbody s1. mv K0. clear K0.
  eapply sim_idx; [exact HT|]. intros cur cv Hc. destruct (shows_pa _ _ _ Hc) as (ac & Hac & Hacx). eapply s_part_of; [exact (pa_keep _ _ _ _ _ Kb Hac)|].
  apply sim_lift. intros pp _. apply s_new_part. intros s4 ppl K4 Hpp _ _. mv K4. clear K4.
  eapply s_get_idx; [exact (idx_keep _ _ _ _ Kb Hacx)|]. apply sim_lift. intros pind _.
  apply s_new_idx. intros s5 pi K5 Hpi. mv K5. clear K5.
  eapply sim_idx; [exact HC|]. intros cst csv Hcs. destruct (shows_pa _ _ _ Hcs) as (acs & Hacs & _). eapply s_get_pa; [exact (pa_keep _ _ _ _ _ Kb Hacs)|].
  apply s_new_idx. intros s6 fi K6 Hfi. mv K6. clear K6.
  eapply sim_bind; [apply (c_new h_w); [apply (fo_xnext1 _ F)|
    apply (im_xnext1 _ _ I); [exact Hpp|apply showst_firstn; exact (showst_keep _ _ _ _ Kb HT)|exact Hpi|exact (b_part _ _ _ _ _ Kb Hacs)|exact Hfi]]|].
  intros wt wtv s7 _ (Hwt & K7 & _). mv K7. clear K7.
  eapply s_get_w; [exact (b_w _ _ _ _ _ Kb Hal)|]. apply sim_lift. intros w _.
  eapply s_cond; [exact Hwt|]. intros ci w8 K8. set (s8 := set_world s7 w8) in *. clearbody s8. mv K8. clear K8.
  apply s_new_idx. intros s9 anc K9 Hanc. mv K9. clear K9.
  eapply sim_bind; [apply (c_new h_part); [apply (fo_copy _ F)|apply (im_copy _ _ I); [exact (b_part _ _ _ _ _ Kb Hal)|exact Hanc]]|].
  intros cp cpv s10 _ (Hcp & K10 & _). mv K10. clear K10.
  eapply sim_bind; [apply (r_pa_init b _ _ _ None None); [exact Kb|exact Hcp|exact Logic.I]|]. intros pa v s11 _ (M11 & K11 & _).
  pose proof (keeps_all_trans _ _ _ Kb K11) as Kb11. pose proof (idx_keep _ _ _ _ K11 Hanc).
  apply r_cpf_tail; auto.
Qed.

Lemma r_apf_forward b s traj T thr yvec uvec tvec k : keeps_all b s -> shows_traj b traj T ->
  sim s (h_apf_forward hm g thr traj yvec uvec tvec k) (apf_forward mdl g thr T yvec uvec tvec k) (fwd_rel b).
Proof.
  intros Kb HT. unfold h_apf_forward, apf_forward.
  eapply sim_last; [exact HT|]. intros last lv Hl. destruct (shows_pa _ _ _ Hl) as (al & Hal & _). eapply s_get_pa; [exact (pa_keep _ _ _ _ _ Kb Hal)|].
  eapply sim_bind; [apply (r_pa_init b); [exact Kb|exact (b_part _ _ _ _ _ Kb Hal)|exact (b_w _ _ _ _ _ Kb Hal)]|]. intros pa v s1 _ (M1 & K1 & _). mv K1.
  clear K1. apply sim_lift. intros y _.
  eapply (sim_bind _ _ _ (fun l pl s' => mine b s' pa (fst pl) /\ keeps_all b s' /\
    match l, snd pl with None, None => True | Some l, Some x => w_at s' l x | _, _ => False end)).
  { destruct (is_none y); [apply sim_ret; simpl; auto|].
    apply sim_lift. intros u _. apply sim_lift. intros t _. destruct M1 as (a & Ha & L1 & L2 & L3). eapply s_get_pa; [exact Ha|].
    eapply sim_bind; [apply (c_new h_w); [apply (fo_stage1 _ F)|apply (im_stage1 _ _ I); apply Ha]|].
    intros l1 l1v s2 _ (Hl1 & K2 & Ll1).
    assert (Nw : ha_w a <> l1) by (destruct Ha as (_ & _ & E & _); apply at_lt in E; lia). mv K2. clear K2.
    eapply s_get_w; [exact Hl1|]. eapply s_get_w; [apply Ha|]. apply sim_lift. intros w _. apply s_put_w. apply sim_lift. intros m _.
    apply s_put_w. apply sim_ret. simpl. destruct Ha as (E1 & E2 & E3 & E4 & E5). split; [|split].
    - exists a. split; [|auto]. split; [exact E1|]. split; [exact E2|]. split; [|auto]. unfold w_at. simpl. eapply put_at_eq. eapply put_at_eq. exact E3.
    - apply put_w_b; auto. apply put_w_b; auto.
    - unfold w_at. simpl. rewrite !put_nth_neq by auto. exact Hl1. }
  clear M1 Kb. intros l1 [v2 l1v] s2 _ (M2 & Kb & Hl1). simpl in M2, Hl1. destruct M2 as (a & Ha & L1 & L2 & L3). eapply s_get_pa; [exact Ha|].
  pose proof Ha as (_ & _ & _ & En & _). rewrite En.
  eapply (sim_bind _ _ _ (fun c c' s' => c = c' /\ s' = s2)).
  { destruct (Reqb thr 0); [apply sim_ret; auto|]. eapply s_w_of; [exact Ha|]. unfold calc_Neff. apply sim_lift. intros ne _. apply sim_ret; auto. }
  intros cond cond' s2' _ [<- ->].
  eapply (sim_bind _ _ _ (fun r r' s' => fst (fst r) = snd (fst (fst r')) /\ mine b s' pa (fst (fst (fst r'))) /\ keeps_all b s' /\
    idx_at s' (snd (fst r)) (snd (fst r')) /\ match snd r, snd r' with None, None => True | Some l, Some x => w_at s' l x | _, _ => False end)).
  { destruct cond.
    - eapply sim_bind; [apply (r_resample b); [exact Kb|exists a; auto]|]. intros anc [v3 av] s3 _ (M3 & Hanc & K3 & _). simpl in M3, Hanc.
      destruct l1 as [l|], l1v as [x|]; try contradiction; [|apply sim_raise]. apply (k3_w _ _ _ _ _ K3) in Hl1. destruct K3 as (K3 & _). simpl.
      eapply s_get_w; [exact Hl1|]. eapply s_get_idx; [exact Hanc|]. apply sim_lift. intros x' _. apply s_new_w. intros s4 l' K4 Hl' _ _. mv K4.
      apply sim_ret. simpl. auto.
    - apply s_new_idx. intros s3 anc K3 Hanc. mv K3. apply sim_ret. simpl. split; auto. split; [exists a; auto|]. split; auto. split; auto.
      destruct l1, l1v; auto. eapply w_keep; eassumption. }
  clear Hl1 Kb Ha L1 L2 L3 En. intros [[rs anc] l2] [[[v3 rs'] av] l2v] s3 _ (E3 & M3 & Kb & Hanc & Hl2). simpl in E3, M3, Hanc, Hl2. subst rs'.
  cbn [fst snd].
  eapply sim_bind; [apply (r_update b); eassumption|]. intros u0 v4 s4 _ (M4 & K4). apply (k3_idx _ _ _ _ _ K4) in Hanc.
  assert (Hl4 : match l2, l2v with None, None => True | Some l, Some x => w_at s4 l x | _, _ => False end) by (destruct l2, l2v; auto; eapply k3_w; eassumption).
  destruct K4 as (Kb4 & _).
  eapply sim_bind; [apply (r_measure b); [exact Kb4|exact M4|eapply showst_keep; eassumption|exact Hanc]|]. intros u1 v5 s5 _ (M5 & K5).
  apply (k3_idx _ _ _ _ _ K5) in Hanc.
  destruct l2 as [l|], l2v as [x|]; try contradiction; [|apply sim_raise]. apply (k3_w _ _ _ _ _ K5) in Hl4. destruct K5 as (Kb5 & _).
  eapply s_get_w; [exact Hl4|]. destruct M5 as (a5 & (E1 & E2 & E3 & E4 & E5) & L1 & L2 & L3). eapply s_get_pa; [split; [exact E1|repeat split; eassumption]|].
  eapply s_get_w; [exact E3|]. apply sim_lift. intros w _. apply s_put_w. apply sim_lift. intros m _. apply s_put_w. apply sim_ret.
  split; [reflexivity|]. split; [|split; [exact Hanc|]].
  - exists a5. split; [|auto]. split; [exact E1|]. split; [exact E2|]. split; [|auto]. unfold w_at. simpl. eapply put_at_eq. eapply put_at_eq. exact E3.
  - apply put_w_b; auto. apply put_w_b; auto.
Qed.

Lemma r_cpfyas_forward b s N ct CT traj T yvec uvec tvec k : keeps_all b s -> shows_traj b traj T -> shows_traj b ct CT ->
  sim s (h_cpfyas_forward hm g N ct traj yvec uvec tvec k) (cpfyas_forward mdl g N CT T yvec uvec tvec k) (fwd_rel b).
Proof.
  intros Kb HT HC. unfold h_cpfyas_forward, cpfyas_forward.
  eapply sim_idx; [exact HT|]. intros cur cv Hc. destruct (shows_pa _ _ _ Hc) as (ac & Hac & Hacx). eapply s_get_pa; [exact (pa_keep _ _ _ _ _ Kb Hac)|].
  eapply s_get_w; [exact (b_w _ _ _ _ _ Kb Hac)|].
  apply sim_world. intros anc0 w0 K0. set (s1 := set_world s w0) in *. clearbody s1. mv K0. clear K0.
  eapply s_get_part; [exact (b_part _ _ _ _ _ Kb Hac)|].
  apply sim_lift. intros pp _. apply s_new_part. intros s4 ppl K4 Hpp _ _. mv K4. clear K4.
  eapply s_get_idx; [exact (idx_keep _ _ _ _ Kb Hacx)|]. apply sim_lift. intros pind _.
  apply s_new_idx. intros s5 pi K5 Hpi. mv K5. clear K5.
  eapply sim_idx; [exact HC|]. intros cst csv Hcs. destruct (shows_pa _ _ _ Hcs) as (acs & Hacs & _). eapply s_get_pa; [exact (pa_keep _ _ _ _ _ Kb Hacs)|].
  apply s_new_idx. intros s6 fi K6 Hfi. mv K6. clear K6.
  eapply sim_bind; [apply (c_new h_w); [apply (fo_xnext1 _ F)|
    apply (im_xnext1 _ _ I); [exact Hpp|apply showst_firstn; exact (showst_keep _ _ _ _ Kb HT)|exact Hpi|exact (b_part _ _ _ _ _ Kb Hacs)|exact Hfi]]|].
  intros wt wtv s7 _ (Hwt & K7 & _). mv K7. clear K7.
  eapply s_get_w; [exact (b_w _ _ _ _ _ Kb Hac)|]. apply sim_lift. intros w _.
  eapply s_cond; [exact Hwt|]. intros ci w8 K8. set (s8 := set_world s7 w8) in *. clearbody s8. mv K8. clear K8.
  apply s_new_idx. intros s9 anc K9 Hanc. mv K9. clear K9 Hwt Hfi Hpi Hpp.
  apply sim_lift. intros y _. apply sim_lift. intros t1 _.
  eapply sim_bind; [apply (c_new h_part); [apply (fo_propose_y _ F)|apply (im_propose_y _ _ I)]|]. intros pn pnv s10 _ (Hpn & K10 & Lpn).
  assert (Lb : (length (h_part b) <= pn)%nat) by (destruct Kb as ([? _] & _); lia). mv K10. clear K10.
  eapply s_get_part; [exact Hpn|]. eapply s_get_part; [exact (b_part _ _ _ _ _ Kb Hacs)|].
  apply sim_lift. intros pv' _. eapply s_put_part_at; [exact Kb|exact Hpn|exact Lb|]. intros s11 Kb11 Hpn11 K11.
  apply (kb_idx _ _ _ _ _ K11) in Hanc. clear K11 Hpn Kb. rename Kb11 into Kb.
  eapply sim_last; [exact HT|]. intros last lv Hl. destruct (shows_pa _ _ _ Hl) as (al & Hal & _). eapply s_part_of; [exact (pa_keep _ _ _ _ _ Kb Hal)|].
  eapply s_get_idx; [exact Hanc|]. apply sim_lift. intros pp2 _. apply s_new_part. intros s12 pp2l K12 Hpp2 _ _. mv K12. clear K12.
  eapply s_get_idx; [exact (idx_keep _ _ _ _ Kb Hacx)|]. apply sim_lift. intros pind2 _.
  apply s_new_idx. intros s13 pi2 K13 Hpi2. mv K13. clear K13. apply s_new_idx. intros s14 fi2 K14 Hfi2. mv K14. clear K14.
  eapply sim_bind; [apply (c_new h_w); [apply (fo_xnext1 _ F)|
    apply (im_xnext1 _ _ I); [exact Hpp2|apply showst_firstn; exact (showst_keep _ _ _ _ Kb HT)|exact Hpi2|exact Hpn11|exact Hfi2]]|].
  intros wn wnv s15 _ (Hwn & K15 & Lwn). assert (Lbw : (length (h_w b) <= wn)%nat) by (destruct Kb as (_ & [? _] & _); lia). mv K15. clear K15.
  eapply s_get_w; [exact Hwn|]. apply sim_lift. intros m _. apply s_put_w.
  match goal with |- sim ?s ?x ?v ?R => set (s16 := s) end.
  assert (Kb16 : keeps_all b s16) by (apply put_w_b; auto).
  assert (Hw16 : w_at s16 wn (map (fun x => xsub x m) wnv)) by (eapply put_at_eq; exact Hwn).
  assert (Hp16 : part_at s16 pn pv') by exact Hpn11. assert (Ha16 : idx_at s16 anc (anc0 ++ [ci])) by exact Hanc. clearbody s16.
  eapply sim_bind; [apply (r_pa_init b _ _ _ (Some _) (Some _)); [exact Kb16|exact Hp16|exact Hw16]|]. intros pa v s17 _ ((a & Ha & L1 & L2 & L3) & K17 & _).
  mv K17. destruct Ha as (E1 & E2 & E3 & E4 & E5). eapply s_add_off; [exact E1|]. apply sim_ret. split; [reflexivity|]. split; [|split; [exact Ha16|apply put_pa_b; auto]].
  exists (mkHPA (ha_part a) (ha_w a) (ha_num a) (xadd (ha_off a) m)). split; [|simpl; auto].
  eapply has_put; [exact E1| | | | |reflexivity]; simpl; auto. congruence.
Qed.

Lemma r_cpfyas_measure b s N ct CT yvec tvec k : keeps_all b s -> shows_traj b ct CT ->
  sim s (h_cpfyas_measure hm N ct yvec tvec k) (cpfyas_measure mdl N CT yvec tvec k) (fun pa v s' => mine b s' pa v /\ kept3 b s s').
Proof.
  intros Kb HC. unfold h_cpfyas_measure, cpfyas_measure. apply sim_lift. intros y _. apply sim_lift. intros t _.
  eapply sim_bind; [apply (c_new h_part); [apply (fo_propose_y _ F)|apply (im_propose_y _ _ I)]|]. intros pn pnv s3 _ (Hpn & K3 & Lpn).
  assert (Lb : (length (h_part b) <= pn)%nat) by (destruct Kb as ([? _] & _); lia). pose proof (keeps_all_trans _ _ _ Kb K3) as Kb3.
  eapply sim_idx; [exact HC|]. intros cst csv Hcs. destruct (shows_pa _ _ _ Hcs) as (acs & Hacs & _). eapply s_part_of; [exact (pa_keep _ _ _ _ _ Kb3 Hacs)|].
  eapply s_get_part; [exact Hpn|]. apply sim_lift. intros pv' _. eapply s_put_part_at; [exact Kb3|exact Hpn|exact Lb|]. intros s4 Kb4 Hp4 K4.
  eapply sim_post; [apply (r_pa_init b _ _ _ None None); [exact Kb4|exact Hp4|exact Logic.I]|].
  intros pa v s' _ (M & K & _). split; [exact M|]. split; [eapply keeps_all_trans; eassumption|].
  split; (eapply keepsl_trans; [apply K3|]; eapply keepsl_trans; [apply K4|apply K]).
Qed.

Lemma r_create_initial b s f f' N : keeps_all b s -> same_filter b f f' ->
  sim s (h_create_initial hm f N) (create_initial mdl f' N) (fun p x s' => part_at s' p x /\ keeps_all b s').
Proof.
  intros Kb Sf.
  assert (G0 : sim s (hm_create hm N) (m_create mdl N) (fun p x s' => part_at s' p x /\ keeps_all s s' /\ (length (h_part s) <= p)%nat))
    by (apply (c_new h_part); [apply (fo_create _ F)|apply (im_create _ _ I)]).
  assert (G : sim s (hm_create hm N) (m_create mdl N) (fun p x s' => part_at s' p x /\ keeps_all b s')).
  { eapply sim_post; [exact G0|]. intros p x s' _ (Hp & K & _). split; auto. eapply keeps_all_trans; eassumption. }
  assert (C : forall ct CT, shows_traj b ct CT -> sim s (h_create_initial hm (HCPF ct) N) (create_initial mdl (FCPF CT) N) (fun p x s' => part_at s' p x /\ keeps_all b s')).
  { intros ct CT HC. unfold h_create_initial, create_initial. eapply sim_bind; [exact G0|]. intros p x s1 _ (Hp & K & Lp).
    assert (Lb : (length (h_part b) <= p)%nat) by (destruct Kb as ([? _] & _); lia). pose proof (keeps_all_trans _ _ _ Kb K) as Kb1.
    eapply sim_idx; [exact HC|]. intros cst csv Hcs. destruct (shows_pa _ _ _ Hcs) as (acs & Hacs & _). eapply s_part_of; [exact (pa_keep _ _ _ _ _ Kb1 Hacs)|].
    apply sim_lift. intros c0 _. eapply s_get_part; [exact Hp|].
    assert (Q : sim s1 (ebind (elift (upd_last x c0)) (fun pv' => ebind (put_part p pv') (fun _ => eret p))) (bind (lift (upd_last x c0)) ret) (fun p0 x0 s' => part_at s' p0 x0 /\ keeps_all b s')).
    { apply sim_lift. intros pv' _. eapply s_put_part_at; [exact Kb1|exact Hp|exact Lb|]. intros s4 Kb4 Hp4 _. apply sim_ret. auto. }
    unfold sim in Q |- *. unfold bind, lift in Q |- *. destruct (upd_last x c0); exact Q. }
  destruct f, f'; simpl in Sf; try contradiction; try exact G; apply (C _ _ Sf).
Qed.

Lemma r_filter_forward b s f f' N traj T yvec uvec tvec k : keeps_all b s -> shows_traj b traj T -> same_filter b f f' ->
  sim s (h_filter_forward hm g f N traj yvec uvec tvec k) (filter_forward mdl g f' N T yvec uvec tvec k) (fwd_rel b).
Proof.
  intros Kb HT Sf. destruct f, f'; simpl in Sf; try contradiction; try subst; simpl;
    first [apply r_pf_forward|apply r_apf_forward|apply r_pfy_forward|apply r_sir_forward|apply r_cpfyas_forward|apply r_cpfas_forward|apply r_cpf_forward|apply r_csiras_forward]; auto.
Qed.
End Refine.
