(** The smoothers on the heap compute what the value-level smoothers compute.  Nothing here models code. *)
From Coq Require Import String Bool Reals List Arith Lia.
From Verif Require Import Base XR SampleModel PAModel FilterModel TrajModel SmoothModel HeapModel HeapSpec HeapProofs HeapTraj HeapSmooth HeapSmoothSpec
  HeapRefineSpec HeapRefine HeapSmoothRefineSpec.
Import ListNotations.
Local Open Scope monad_scope.

Section SRefine.
Context {W P U Y V : Type}.
Notation hst := (hst W P).
Notation HM := (@HM W P).
Variable hsm : hsmodel W P U Y V.
Variable sm : smodel W P U Y V.
Variable g : rng W.
Variable junk : nat -> nat.
Variable fuel : nat.
Hypothesis F : sframe_ok hsm.
Hypothesis Im : simplements hsm sm.

(** ** Frames *)
(** Every cell but the index array [i] is kept. *)
Definition kx (i : nat) (s s' : hst) : Prop :=
  extends (h_part s) (h_part s') /\ extends (h_w s) (h_w s') /\ keepsl (but i) (h_idx s) (h_idx s') /\ extends (h_pa s) (h_pa s').
Lemma kx_all i (s s' : hst) : keeps_all s s' -> kx i s s'.
Proof. intros (A & B & C & D). repeat split; try apply A; try apply B; try apply D; [apply C|]. intros j Hj _. apply C; auto. exact Logic.I. Qed.
Lemma kx_trans i (s1 s2 s3 : hst) : kx i s1 s2 -> kx i s2 s3 -> kx i s1 s3.
Proof. intros (A & B & C & D) (A' & B' & C' & D'). split; [|split; [|split]]; eapply keepsl_trans; eassumption. Qed.
Lemma kx_fresh i (s s' : hst) : kx i s s' -> (length (h_idx s) <= i)%nat -> keeps_all s s'.
Proof.
  intros (A & B & [C1 C2] & D) L. repeat split; try apply A; try apply B; try apply D; auto. intros j Hj _. apply C2; auto. unfold but; lia.
Qed.
Lemma kx_refl i (s : hst) : kx i s s.
Proof. apply kx_all, keeps_all_refl. Qed.
Lemma kx_part i (s s' : hst) j x : kx i s s' -> part_at s j x -> part_at s' j x.
Proof. intros K. apply ext_at. apply K. Qed.
Lemma kx_w i (s s' : hst) j x : kx i s s' -> w_at s j x -> w_at s' j x.
Proof. intros K. apply ext_at. apply K. Qed.
Lemma kx_idx i (s s' : hst) j x : kx i s s' -> j <> i -> idx_at s j x -> idx_at s' j x.
Proof. intros K. apply but_at. apply K. Qed.
Lemma kx_pa i (s s' : hst) pa a v : kx i s s' -> pa_has s pa a v -> pa_has s' pa a v.
Proof. intros (A & B & C & D) (E1 & E2 & E3 & E4 & E5). repeat split; auto; eapply ext_at; eassumption. Qed.
Lemma kx_shows i (s s' : hst) tr T : kx i s s' -> ~ In i (map hs_anc tr) -> shows_traj s tr T -> shows_traj s' tr T.
Proof.
  intros K N H. induction H as [|st v tr T Hs H IH]; constructor.
  - destruct (shows_pa _ _ _ Hs) as (a & Ha & Hi). eapply pa_shows; [eapply kx_pa; eassumption|]. eapply kx_idx; try eassumption. simpl in N. intuition.
  - apply IH. simpl in N. intuition.
Qed.
Lemma put_idx_kx (s : hst) i x : kx i s (set_idxs s (put (h_idx s) i x)).
Proof. split; [|split; [|split]]; simpl; try apply keepsl_refl. apply keepsl_put. unfold but. auto. Qed.

Lemma k_part (s s' : hst) j x : keeps_all s s' -> part_at s j x -> part_at s' j x.
Proof. intros K. apply ext_at. apply K. Qed.
Lemma k_w (s s' : hst) j x : keeps_all s s' -> w_at s j x -> w_at s' j x.
Proof. intros K. apply ext_at. apply K. Qed.
Lemma k_idx (s s' : hst) j x : keeps_all s s' -> idx_at s j x -> idx_at s' j x.
Proof. intros K. apply ext_at. apply K. Qed.
(** A stored cell is older than a new one. *)
Lemma shows_old (s : hst) tr T i : shows_traj s tr T -> (length (h_idx s) <= i)%nat -> ~ In i (map hs_anc tr).
Proof.
  intros H L Hin. induction H as [|st v tr T Hs H IH]; simpl in *; auto. destruct Hin as [E|Hin]; auto.
  destruct (shows_pa _ _ _ Hs) as (a & _ & Hi). apply at_lt in Hi. lia.
Qed.

Definition opt_shows (s : hst) (p : option (list hstep)) (T : option (list (tstep P))) : Prop :=
  match p, T with None, None => True | Some p, Some T => shows_traj s p T | _, _ => False end.
Definition term_at (s : hst) (x : option nat) (w : term) : Prop :=
  match x, w with None, None => True | Some x, Some w => w_at s x w | _, _ => False end.
Lemma opt_keep (s s' : hst) p T : keeps_all s s' -> opt_shows s p T -> opt_shows s' p T.
Proof. intros K. destruct p, T; simpl; auto. apply showst_keep; auto. Qed.
Lemma term_keep (s s' : hst) x w : keeps_all s s' -> term_at s x w -> term_at s' x w.
Proof. intros K. destruct x, w; simpl; auto. apply k_w; auto. Qed.
Lemma opt_traj (s : hst) p T : opt_shows s p T -> shows_traj s (h_opt p) (opt_past T).
Proof. destruct p, T; simpl; try easy. intros _. constructor. Qed.
Lemma opt_trajf (s : hst) p T : opt_shows s p T -> shows_traj s (h_opt p) (opt_future T).
Proof. destruct p, T; simpl; try easy. intros _. constructor. Qed.

(** Move every fact about [s] along [K : keeps_all s s']; [cp]: copy instead. *)
Ltac mv K :=
  match type of K with keeps_all ?s ?s' =>
    repeat match goal with
      | H : part_at s _ _ |- _ => apply (k_part _ _ _ _ K) in H
      | H : w_at s _ _ |- _ => apply (k_w _ _ _ _ K) in H
      | H : idx_at s _ _ |- _ => apply (k_idx _ _ _ _ K) in H
      | H : pa_has s _ _ _ |- _ => apply (pa_keep _ _ _ _ _ K) in H
      | H : shows_traj s _ _ |- _ => apply (showst_keep _ _ _ _ K) in H
      | H : shows s _ _ |- _ => apply (shows_keep _ _ _ _ K) in H
      | H : opt_shows s _ _ |- _ => apply (opt_keep _ _ _ _ K) in H
      | H : term_at s _ _ |- _ => apply (term_keep _ _ _ _ K) in H
      | H : keeps_all _ s |- _ => apply (fun H => keeps_all_trans _ _ _ H K) in H
      | H : kx _ _ s |- _ => apply (fun H => kx_trans _ _ _ _ H (kx_all _ _ _ K)) in H
    end
  end.

(** ** Rules *)
Lemma sim_map {A B C} (s : hst) (x : HM A) (v : M W B) (f : B -> C) Q : sim s x v (fun a b s' => Q a (f b) s') -> sim s x (bind v (fun b => ret (f b))) Q.
Proof. unfold sim, bind, ret. destruct (v (h_world s)) as [[b w]|e]; auto. Qed.
Lemma sim_lift_ret {A C} (s : hst) (r : res A) (x : HM C) Q : sim s x (bind (lift r) ret) Q -> sim s x (lift r) Q.
Proof. unfold sim, bind, ret, lift. destruct r; auto. Qed.
Lemma sim_tail_h {A B} (s : hst) (x : HM A) (v : M W B) Q : sim s (ebind x eret) v Q -> sim s x v Q.
Proof. unfold sim, ebind, eret. destruct (v (h_world s)) as [[b w]|e]; intros H; [|destruct H as [s' H]; exists s'; destruct (x s) as [[]]; auto; discriminate].
  destruct H as (a & s' & E & H). exists a, s'. destruct (x s) as [[]]; auto; discriminate. Qed.
Lemma s_put_idx {C D} (s : hst) i x (f : unit -> HM C) (v : M W D) R : sim (set_idxs s (put (h_idx s) i x)) (f tt) v R -> sim s (ebind (put_idx i x) f) v R.
Proof. intros H. eapply sim_heap; [reflexivity|reflexivity|exact H]. Qed.
Lemma s_new_idx' {C D} (s : hst) x (f : nat -> HM C) (v : M W D) R :
  (forall s' l, keeps_all s s' -> idx_at s' l x -> (length (h_idx s) <= l)%nat -> sim s' (f l) v R) -> sim s (ebind (new_idx x) f) v R.
Proof. intros H. eapply sim_heap; [reflexivity|reflexivity|]. apply H; simpl; auto; [apply new_idx_keeps|apply at_app]. Qed.
Lemma s_take_part {C D} (s : hst) x v i iv (f : nat -> HM C) (k : list P -> M W D) R : part_at s x v -> idx_at s i iv ->
  (forall r s' l, keeps_all s s' -> part_at s' l r -> (length (h_part s) <= l)%nat -> sim s' (f l) (k r) R) ->
  sim s (ebind (h_take_part x i) f) (bind (lift (take v iv)) k) R.
Proof.
  intros Hx Hi H. unfold sim, ebind, h_take_part, bind, lift. unfold ebind, get_part, get_idx, idx, elift. rewrite Hx, Hi.
  destruct (take v iv) as [r|e]; [|eauto]. unfold new_part. specialize (H r _ _ (new_part_keeps s r) (at_app _ _) (Nat.le_refl _)). exact H.
Qed.
Lemma s_take_idx {C D} (s : hst) x v i iv (f : nat -> HM C) (k : list nat -> M W D) R : idx_at s x v -> idx_at s i iv ->
  (forall r s' l, keeps_all s s' -> idx_at s' l r -> (length (h_idx s) <= l)%nat -> sim s' (f l) (k r) R) ->
  sim s (ebind (h_take_idx x i) f) (bind (lift (take v iv)) k) R.
Proof.
  intros Hx Hi H. unfold sim, ebind, h_take_idx, bind, lift. unfold ebind, get_idx, idx, elift. rewrite Hx, Hi.
  destruct (take v iv) as [r|e]; [|eauto]. unfold new_idx. specialize (H r _ _ (new_idx_keeps s r) (at_app _ _) (Nat.le_refl _)). exact H.
Qed.
Lemma s_scatter {C D} (s : hst) x c i v (f : unit -> HM C) (k : list nat -> M W D) R : idx_at s x c ->
  (forall r, sim (set_idxs s (put (h_idx s) x r)) (f tt) (k r) R) -> sim s (ebind (h_scatter x i v) f) (bind (lift (scatter c i v)) k) R.
Proof.
  intros Hx H. unfold sim, ebind, h_scatter, bind, lift. unfold ebind, get_idx, idx, elift, put_idx. rewrite Hx.
  destruct (scatter c i v) as [r|e]; [|eauto]. exact (H r).
Qed.
Lemma s_mask_set_idx {C D} (s : hst) x c m y v (f : unit -> HM C) (k : list nat -> M W D) R : idx_at s x c -> idx_at s y v ->
  (forall r, sim (set_idxs s (put (h_idx s) x r)) (f tt) (k r) R) -> sim s (ebind (h_mask_set_idx x m y) f) (bind (lift (mask_set c m v)) k) R.
Proof.
  intros Hx Hy H. unfold sim, ebind, h_mask_set_idx, bind, lift. unfold ebind, get_idx, idx, elift, put_idx. rewrite Hx, Hy.
  destruct (mask_set c m v) as [r|e]; [|eauto]. exact (H r).
Qed.
Lemma s_mask_set_w {C D} (s : hst) x c m y v (f : unit -> HM C) (k : list xr -> M W D) R : w_at s x c -> w_at s y v ->
  (forall r, sim (set_ws s (put (h_w s) x r)) (f tt) (k r) R) -> sim s (ebind (h_mask_set_w x m y) f) (bind (lift (mask_set c m v)) k) R.
Proof.
  intros Hx Hy H. unfold sim, ebind, h_mask_set_w, bind, lift. unfold ebind, get_w, idx, elift, put_w. rewrite Hx, Hy.
  destruct (mask_set c m v) as [r|e]; [|eauto]. exact (H r).
Qed.
Lemma s_mask_set_part {C D} (s : hst) x c m y v (f : unit -> HM C) (k : list P -> M W D) R : part_at s x c -> part_at s y v ->
  (forall r, sim (set_parts s (put (h_part s) x r)) (f tt) (k r) R) -> sim s (ebind (h_mask_set_part x m y) f) (bind (lift (mask_set c m v)) k) R.
Proof.
  intros Hx Hy H. unfold sim, ebind, h_mask_set_part, bind, lift. unfold ebind, get_part, idx, elift, put_part. rewrite Hx, Hy.
  destruct (mask_set c m v) as [r|e]; [|eauto]. exact (H r).
Qed.
Lemma s_pa_weights {C D} (s : hst) pa a v (f : list xr -> HM C) (k : list xr -> M W D) R : pa_has s pa a v ->
  (forall w s', keeps_all s s' -> sim s' (f w) (k w) R) -> sim s (ebind (h_pa_weights pa) f) (bind (lift (norm_weights (lw v))) k) R.
Proof.
  intros (E & _ & Ew & _) H. unfold w_at in Ew. unfold sim, ebind at 1, h_pa_weights, h_norm_weights, bind, lift, norm_weights.
  unfold ebind, get_pa, get_w, idx, elift, new_w, eret, put_w. rewrite E, Ew. cbn [rbind].
  destruct (xmax (lw v)) as [m|e]; cbn [rbind]; [|eauto]. cbn [h_w set_ws].
  rewrite (put_at_eq (h_w s ++ [lw v]) (length (h_w s)) (map (fun x => xsub x m) (lw v)) (lw v)) by apply at_app.
  refine (H (exp_norm (map (fun x => xsub x m) (lw v))) (set_ws (set_ws s (h_w s ++ [lw v])) (put (h_w s ++ [lw v]) (length (h_w s)) (map (fun v => xsub v m) (lw v)))) _). apply (put_w_b s (set_ws s (h_w s ++ [lw v]))); [apply new_w_keeps|auto].
Qed.
Lemma s_pa_init {C D} (s : hst) p x (f : nat -> HM C) (k : papprox P -> M W D) R : part_at s p x ->
  (forall v s' pa a, keeps_all s s' -> pa_has s' pa a v -> sim s' (f pa) (k v) R) -> sim s (ebind (h_pa_init p None) f) (bind (lift (pa_init x None)) k) R.
Proof.
  intros Hp H. eapply sim_bind; [apply (r_pa_init s s p x None None (keeps_all_refl s) Hp Logic.I)|].
  intros pa v s' _ (_ & K & (a & Ha & _)). eapply H; eassumption.
Qed.

(** ** Calls of the model's methods *)
Lemma c_xnext (s : hst) p past pind fut find u y t k x T pv FT fv :
  part_at s p x -> shows_traj s past T -> idx_at s pind pv -> shows_traj s fut FT -> idx_at s find fv ->
  sim s (hs_xnext hsm p past pind fut find u y t k) (s_xnext sm x T pv FT fv u y t k) (fun l w s' => w_at s' l w /\ keeps_all s s' /\ (length (h_w s) <= l)%nat).
Proof. intros. apply (c_new h_w); [apply (so_xnext _ F)|]. apply (si_xnext _ _ Im); assumption. Qed.
Lemma c_nw {A B} (s : hst) (x : HM A) (v : M W B) Q : no_write x -> sim s x v Q -> sim s x v (fun l b s' => Q l b s' /\ keeps_all s s').
Proof. intros N H. eapply sim_post; [exact H|]. intros a b s' E HQ. specialize (N s). rewrite E in N. auto. Qed.
Lemma c_sample (b s : hst) p past pind fut find u y t k x T pv FT fv : keeps_all b s -> (length (h_part b) <= p)%nat ->
  part_at s p x -> shows_traj s past T -> idx_at s pind pv -> shows_traj s fut FT -> idx_at s find fv ->
  sim s (hs_sample hsm p past pind fut find u y t k) (s_sample sm x T pv FT fv u y t k) (fun l z s' => part_at s' l z /\ keeps_all b s').
Proof.
  intros K L. intros. eapply sim_post; [apply (si_sample _ _ Im); eassumption|]. intros a z s' E Hz. split; auto.
  pose proof (so_sample _ F p past pind fut find u y t k s) as N. rewrite E in N. eapply but_b; eassumption.
Qed.

(** ** bsi_full *)
Lemma r_bsi_one (s : hst) pa a v ptr T pind pv fut FT fi u y t k : pa_has s pa a v -> shows_traj s ptr T -> idx_at s pind pv -> shows_traj s fut FT ->
  sim s (h_bsi_one hsm g pa ptr pind fut fi u y t k) (bsi_one sm g v T pv FT fi u y t k) (fun i j s' => i = j /\ keeps_all s s').
Proof.
  intros Ha HT Hi HF. unfold h_bsi_one, bsi_one. pose proof (keeps_all_refl s) as Kb. revert Kb. generalize s at 1 4. intros b Kb.
  eapply s_w_of; [exact Ha|]. apply s_new_idx'. intros s1 l K1 Hl _. mv K1.
  eapply s_get_pa; [exact Ha|]. eapply sim_bind; [eapply c_xnext; try eassumption; apply Ha|]. intros pn w s2 _ (Hw & K2 & _). mv K2.
  eapply s_w_of; [exact Ha|]. eapply s_get_w; [exact Hw|]. apply sim_lift. intros w1 _. apply sim_lift. intros wn _.
  apply sim_world. intros l0 w2 K3. mv K3. apply sim_tail_h. apply sim_lift_ret. apply sim_lift. intros i _. apply sim_ret. auto.
Qed.
Lemma upd_split {A} (l : list A) i a r : upd l i a = Ok r -> r = firstn i l ++ a :: skipn (S i) l.
Proof.
  revert i r. induction l as [|b l IH]; intros [|i] r H; simpl in H; try discriminate; [inversion H; reflexivity|].
  destruct (upd l i a) as [x|] eqn:E; [|discriminate]. simpl in H. inversion H; subst. simpl. f_equal. apply IH. exact E.
Qed.
Lemma r_bsi_full_loop n : forall j (b s : hst) res rv pa a v ptr T pind pv fut FT find fv u y t k, kx res b s ->
  pa_has b pa a v -> shows_traj b ptr T -> idx_at b pind pv -> shows_traj b fut FT -> idx_at b find fv ->
  ~ In res (map hs_anc ptr) -> pind <> res -> ~ In res (map hs_anc fut) -> find <> res ->
  idx_at s res rv -> length rv = (j + n)%nat -> length fv = (j + n)%nat ->
  sim s (h_bsi_full_loop hsm g n j res pa ptr pind fut find u y t k) (bsi_full sm g v T pv FT (skipn j fv) u y t k)
    (fun _ r s' => idx_at s' res (firstn j rv ++ r) /\ kx res b s').
Proof.
  induction n; intros j b s res rv pa a v ptr T pind pv fut FT find fv u y t k Kb Ha HT Hp HF Hf N1 N2 N3 N4 Hr Lr Lf; simpl.
  - rewrite skipn_all2 by lia. simpl. apply sim_ret. rewrite firstn_all2, app_nil_r by lia. auto.
  - destruct (nth_error fv j) as [fi|] eqn:Ef; [|apply nth_error_None in Ef; lia].
    assert (Es : skipn j fv = fi :: skipn (j + 1) fv).
    { clear -Ef. revert j Ef. induction fv; intros [|j] E; simpl in *; try discriminate; [inversion E; reflexivity|]. apply IHfv. exact E. }
    rewrite Es. simpl. eapply s_get_idx; [eapply kx_idx; eassumption|].
    eapply sim_heap; [unfold elift, idx; rewrite Ef; reflexivity|reflexivity|].
    eapply sim_bind; [apply (r_bsi_one s pa a v ptr T pind pv fut FT); [eapply kx_pa|eapply kx_shows|eapply kx_idx|eapply kx_shows]; eassumption|].
    intros i i' s1 _ [<- K1]. mv K1. eapply s_get_idx; [exact Hr|].
    destruct (upd_ok rv j i) as [r' Er]; [lia|]. eapply sim_heap; [unfold elift; rewrite Er; reflexivity|reflexivity|].
    apply s_put_idx. apply sim_map. set (s2 := set_idxs s1 (put (h_idx s1) res r')).
    assert (K2 : kx res b s2) by (eapply kx_trans; [exact Kb|apply put_idx_kx]).
    assert (Hr2 : idx_at s2 res r') by (eapply put_at_eq; exact Hr).
    pose proof (upd_length _ _ _ _ Er) as Lr'. apply upd_split in Er.
    eapply sim_post; [eapply (IHn (j + 1)%nat b s2 res r'); try eassumption; lia|]. cbv beta. intros _ r s3 _ [Hr3 K3]. split; [|exact K3].
    replace (firstn j rv ++ i :: r) with (firstn (j + 1) r' ++ r); [exact Hr3|]. subst r'.
    rewrite firstn_app, firstn_firstn, firstn_length. replace (Nat.min (j + 1) j) with j by lia. replace (j + 1 - Nat.min j (length rv))%nat with 1%nat by lia.
    simpl. rewrite <- app_assoc. reflexivity.
Qed.
Lemma r_bsi_full (s : hst) pa a v ptr T pind pv fut FT find fv u y t k :
  pa_has s pa a v -> shows_traj s ptr T -> idx_at s pind pv -> shows_traj s fut FT -> idx_at s find fv ->
  sim s (h_bsi_full hsm g junk pa ptr pind fut find u y t k) (bsi_full sm g v T pv FT fv u y t k)
    (fun l r s' => idx_at s' l r /\ keeps_all s s' /\ (length (h_idx s) <= l)%nat).
Proof.
  intros Ha HT Hp HF Hf. unfold h_bsi_full. eapply s_get_idx; [exact Hf|]. apply s_new_idx'. intros s1 res K1 Hr Lr.
  pose proof (shows_old _ _ _ _ HT Lr) as N1. pose proof (shows_old _ _ _ _ HF Lr) as N2.
  assert (N3 : pind <> res) by (apply at_lt in Hp; lia). assert (N4 : find <> res) by (apply at_lt in Hf; lia).
  assert (G : sim s1 (h_bsi_full_loop hsm g (length fv) 0 res pa ptr pind fut find u y t k) (bsi_full sm g v T pv FT (skipn 0 fv) u y t k)
    (fun _ r s' => idx_at s' res (firstn 0 (map junk (seq 0 (length fv))) ++ r) /\ kx res s s')).
  { eapply r_bsi_full_loop; try eassumption; [apply kx_all; exact K1| |reflexivity]. rewrite map_length, seq_length. reflexivity. }
  simpl in G. unfold sim in *. destruct (bsi_full _ _ _ _ _ _ _ _ _ _ _ (h_world s1)) as [[r w]|e].
  - destruct G as ([] & s' & E & Ew & Hr' & K'). exists res, s'. unfold ebind. rewrite E. split; [reflexivity|]. split; auto. split; auto. split; auto.
    eapply kx_fresh; eassumption.
  - destruct G as [s' E]. exists s'. unfold ebind. rewrite E. reflexivity.
Qed.
(** ** bsi_rs, bsi_rsas *)
Lemma r_rs_round (b s : hst) pa a v ptr T pind pv fut FT u y t k mp w todo tv res rv : kx res b s ->
  pa_has b pa a v -> shows_traj b ptr T -> idx_at b pind pv -> shows_traj b fut FT ->
  ~ In res (map hs_anc ptr) -> pind <> res -> ~ In res (map hs_anc fut) ->
  idx_at s todo tv -> todo <> res -> idx_at s res rv ->
  sim s (h_rs_round hsm g pa ptr pind fut u y t k mp w todo res) (rs_round sm g v T pv FT u y t k mp w tv rv)
    (fun x x' s' => idx_at s' res (fst (fst x')) /\ idx_at s' (fst x) (snd (fst x')) /\ fst x <> res /\ snd x = snd x' /\ kx res b s').
Proof.
  intros Kb Ha HT Hp HF N1 N2 N3 Ht N4 Hr. unfold h_rs_round, rs_round.
  apply (kx_pa _ _ _ _ _ _ Kb) in Ha. apply (kx_shows _ _ _ _ _ Kb N1) in HT. apply (kx_idx _ _ _ _ _ Kb N2) in Hp. apply (kx_shows _ _ _ _ _ Kb N3) in HF.
  eapply s_get_idx; [exact Ht|]. apply sim_world. intros sv w0 K. mv K. apply sim_world. intros iv w1 K1. mv K1.
  apply s_new_idx'. intros s2 ind K2 Hind L2. assert (Nr : ind <> res) by (apply at_lt in Hr; lia). mv K2.
  eapply s_get_pa; [exact Ha|]. eapply s_take_part; [apply Ha|exact Hind|]. intros pr s3 p K3 Hpr L3. mv K3.
  eapply s_take_idx; [exact Hp|exact Hind|]. intros pir s4 pi K4 Hpi L4. mv K4.
  eapply sim_bind; [eapply c_xnext; eassumption|]. intros pn wn s5 _ (Hw & K5 & _). mv K5.
  apply sim_world. intros test w6 K6. mv K6. eapply s_get_w; [exact Hw|]. apply sim_lift. intros acc _.
  eapply s_get_idx; [exact Ht|]. apply sim_lift. intros ta _. eapply s_get_idx; [exact Hind|]. apply sim_lift. intros ia _.
  eapply s_scatter; [exact Hr|]. intros r'.
  set (s6 := set_world s5 w6) in *. set (s7 := set_idxs s6 (put (h_idx s6) res r')).
  assert (K7 : kx res s6 s7) by apply put_idx_kx. assert (Hr7 : idx_at s7 res r') by (eapply put_at_eq; exact Hr).
  assert (Kb7 : kx res b s7) by (eapply kx_trans; eassumption). clearbody s7.
  apply sim_lift. intros tv' _. apply s_new_idx'. intros s8 todo' K8 Ht' L8. assert (Nt : todo' <> res) by (apply at_lt in Hr7; lia). mv K8.
  apply sim_ret. simpl. auto.
Qed.
Lemma r_fallback (b s : hst) pa a v ptr T pind pv fut FT u y t k todo tv res rv : kx res b s ->
  pa_has b pa a v -> shows_traj b ptr T -> idx_at b pind pv -> shows_traj b fut FT ->
  ~ In res (map hs_anc ptr) -> pind <> res -> ~ In res (map hs_anc fut) ->
  idx_at s todo tv -> todo <> res -> idx_at s res rv ->
  sim s (h_fallback hsm g junk pa ptr pind fut u y t k todo res) (bind (bsi_full sm g v T pv FT tv u y t k) (fun r => lift (scatter rv tv r)))
    (fun l r s' => l = res /\ idx_at s' res r /\ kx res b s').
Proof.
  intros Kb Ha HT Hp HF N1 N2 N3 Ht N4 Hr. unfold h_fallback.
  apply (kx_pa _ _ _ _ _ _ Kb) in Ha. apply (kx_shows _ _ _ _ _ Kb N1) in HT. apply (kx_idx _ _ _ _ _ Kb N2) in Hp. apply (kx_shows _ _ _ _ _ Kb N3) in HF.
  eapply sim_bind; [eapply r_bsi_full; eassumption|]. intros l r s1 _ (Hl & K1 & _). mv K1.
  eapply s_get_idx; [exact Ht|]. eapply s_get_idx; [exact Hl|]. apply sim_lift_ret. eapply s_scatter; [exact Hr|]. intros r'.
  apply sim_ret. split; auto. split; [eapply put_at_eq; exact Hr|]. eapply kx_trans; [exact Kb|apply put_idx_kx].
Qed.
Lemma r_rs_loop n : forall (b s : hst) pa a v ptr T pind pv fut FT u y t k mp w todo tv res rv, kx res b s ->
  pa_has b pa a v -> shows_traj b ptr T -> idx_at b pind pv -> shows_traj b fut FT ->
  ~ In res (map hs_anc ptr) -> pind <> res -> ~ In res (map hs_anc fut) ->
  idx_at s todo tv -> todo <> res -> idx_at s res rv ->
  sim s (h_rs_loop hsm g junk n pa ptr pind fut u y t k mp w todo res) (rs_loop sm g n v T pv FT u y t k mp w tv rv)
    (fun l r s' => l = res /\ idx_at s' res r /\ kx res b s').
Proof.
  induction n; intros b s pa a v ptr T pind pv fut FT u y t k mp w todo tv res rv Kb Ha HT Hp HF N1 N2 N3 Ht N4 Hr; simpl.
  - eapply r_fallback; eassumption.
  - eapply sim_bind; [eapply r_rs_round; eassumption|]. intros ta [[r' t'] na] s1 _ (H1 & H2 & H3 & H4 & K1). simpl in H1, H2, H4.
    eapply s_get_idx; [exact H2|]. destruct t' as [|t0 t']; [apply sim_ret; auto|]. eapply IHn; eassumption.
Qed.
Lemma r_bsi_rs (s : hst) pa a v ptr T pind pv fut FT find fv u y t k mp n :
  pa_has s pa a v -> shows_traj s ptr T -> idx_at s pind pv -> shows_traj s fut FT -> idx_at s find fv ->
  sim s (h_bsi_rs hsm g junk pa ptr pind fut find u y t k mp n) (bsi_rs sm g junk v T pv FT fv u y t k mp n)
    (fun l r s' => idx_at s' l r /\ keeps_all s s').
Proof.
  intros Ha HT Hp HF Hf. unfold h_bsi_rs, bsi_rs. pose proof (keeps_all_refl s) as Kb. revert Kb. generalize s at 1 4. intros b Kb.
  eapply s_get_idx; [exact Hf|]. cbv zeta. apply s_new_idx'. intros s1 todo K1 Ht L1. mv K1. apply s_new_idx'. intros s2 res K2 Hr L2.
  pose proof (shows_old _ _ _ _ HT L2) as N1. pose proof (shows_old _ _ _ _ HF L2) as N2.
  assert (N3 : pind <> res) by (apply at_lt in Hp; lia). assert (N4 : todo <> res) by (apply at_lt in Ht; lia).
  pose proof (kx_all res _ _ K2) as X. apply (k_idx _ _ _ _ K2) in Ht.
  eapply s_pa_weights; [eapply kx_pa; [exact X|exact Ha]|]. intros w s3 K3. mv K3.
  eapply sim_post; [eapply (r_rs_loop n s1); eassumption|]. cbv beta. intros l r s4 _ (-> & Hl & K4). split; auto.
  eapply keeps_all_trans; [exact Kb|]. eapply kx_fresh; eassumption.
Qed.
Lemma r_rsas_loop n : forall (b s : hst) pa a v ptr T pind pv fut FT u y t k mp sv sw st w pk Pk todo tv res rv, kx res b s ->
  pa_has b pa a v -> shows_traj b ptr T -> idx_at b pind pv -> shows_traj b fut FT ->
  ~ In res (map hs_anc ptr) -> pind <> res -> ~ In res (map hs_anc fut) ->
  idx_at s todo tv -> todo <> res -> idx_at s res rv ->
  sim s (h_rsas_loop hsm g junk n pa ptr pind fut u y t k mp sv sw st w pk Pk todo res) (rsas_loop sm g n v T pv FT u y t k mp sv sw st w pk Pk tv rv)
    (fun l r s' => l = res /\ idx_at s' res r /\ kx res b s').
Proof.
  induction n; intros b s pa a v ptr T pind pv fut FT u y t k mp sv sw st w pk Pk todo tv res rv Kb Ha HT Hp HF N1 N2 N3 Ht N4 Hr; simpl.
  - apply sim_raise.
  - eapply s_get_idx; [exact Ht|].
    eapply sim_bind; [eapply r_rs_round; eassumption|]. intros ta [[r' t'] na] s1 _ (H1 & H2 & H3 & H4 & K1). simpl in H1, H2, H4.
    eapply s_get_idx; [exact H2|]. destruct t' as [|t0 t']; [apply sim_ret; auto|]. rewrite H4. apply sim_lift. intros [pk' Pk'] _. cbn [fst snd].
    destruct (Rltb pk' st); [eapply r_fallback; eassumption|]. eapply IHn; eassumption.
Qed.
Lemma r_bsi_rsas (s : hst) pa a v ptr T pind pv fut FT find fv u y t k mp x1 P1 sv sw ra :
  pa_has s pa a v -> shows_traj s ptr T -> idx_at s pind pv -> shows_traj s fut FT -> idx_at s find fv ->
  sim s (h_bsi_rsas hsm g junk fuel pa ptr pind fut find u y t k mp x1 P1 sv sw ra) (bsi_rsas sm g junk fuel v T pv FT fv u y t k mp x1 P1 sv sw ra)
    (fun l r s' => idx_at s' l r /\ keeps_all s s').
Proof.
  intros Ha HT Hp HF Hf. unfold h_bsi_rsas, bsi_rsas. pose proof (keeps_all_refl s) as Kb. revert Kb. generalize s at 1 4. intros b Kb.
  eapply s_get_idx; [exact Hf|]. cbv zeta. apply s_new_idx'. intros s1 todo K1 Ht L1. mv K1. apply s_new_idx'. intros s2 res K2 Hr L2.
  pose proof (shows_old _ _ _ _ HT L2) as N1. pose proof (shows_old _ _ _ _ HF L2) as N2.
  assert (N3 : pind <> res) by (apply at_lt in Hp; lia). assert (N4 : todo <> res) by (apply at_lt in Ht; lia).
  pose proof (kx_all res _ _ K2) as X. apply (k_idx _ _ _ _ K2) in Ht.
  eapply s_pa_weights; [eapply kx_pa; [exact X|exact Ha]|]. intros w s3 K3. mv K3.
  eapply s_part_of; [eapply kx_pa; [exact X|exact Ha]|].
  eapply sim_post; [eapply (r_rsas_loop fuel s1); eassumption|]. cbv beta. intros l r s4 _ (-> & Hl & K4). split; auto.
  eapply keeps_all_trans; [exact Kb|]. eapply kx_fresh; eassumption.
Qed.

(** ** bsi_mcmc *)
Lemma put_w_kx i (b s : hst) j x : kx i b s -> (length (h_w b) <= j)%nat -> kx i b (set_ws s (put (h_w s) j x)).
Proof.
  intros (A & B & C & D) L. split; [|split; [|split]]; simpl; auto. destruct B as [La B]. split; [rewrite put_length; auto|].
  intros l Hl _. rewrite put_nth_neq by lia. apply B; auto. exact Logic.I.
Qed.
Lemma r_mcmc_round (b s : hst) pa a v ptr T pind pv fut FT find fv u y t k w ind iv pc pcv : kx ind b s ->
  pa_has b pa a v -> shows_traj b ptr T -> idx_at b pind pv -> shows_traj b fut FT -> idx_at b find fv ->
  ~ In ind (map hs_anc ptr) -> pind <> ind -> ~ In ind (map hs_anc fut) -> find <> ind ->
  idx_at s ind iv -> w_at s pc pcv -> (length (h_w b) <= pc)%nat ->
  sim s (h_mcmc_round hsm g pa ptr pind fut find u y t k w ind pc) (mcmc_round sm g v T pv FT fv u y t k w iv pcv)
    (fun _ x s' => idx_at s' ind (fst x) /\ w_at s' pc (snd x) /\ kx ind b s').
Proof.
  intros Kb Ha HT Hp HF Hf N1 N2 N3 N4 Hi Hc Lc. unfold h_mcmc_round, mcmc_round.
  apply (kx_pa _ _ _ _ _ _ Kb) in Ha. apply (kx_shows _ _ _ _ _ Kb N1) in HT. apply (kx_idx _ _ _ _ _ Kb N2) in Hp. apply (kx_shows _ _ _ _ _ Kb N3) in HF.
  apply (kx_idx _ _ _ _ _ Kb N4) in Hf.
  eapply s_get_idx; [exact Hf|]. apply sim_world. intros sv w0 K. mv K. apply sim_world. intros pr w1 K1. mv K1.
  apply s_new_idx'. intros s2 prop K2 Hprop L2. assert (Nr : prop <> ind) by (apply at_lt in Hi; lia). mv K2.
  eapply s_get_pa; [exact Ha|]. eapply s_take_part; [apply Ha|exact Hprop|]. intros prr s3 p K3 Hpr L3. mv K3.
  eapply s_take_idx; [exact Hp|exact Hprop|]. intros pir s4 pi K4 Hpi L4. mv K4.
  eapply sim_bind; [eapply c_xnext; eassumption|]. intros pn wn s5 _ (Hw & K5 & L5). 
  assert (Npc : pn <> pc) by (apply at_lt in Hc; lia). mv K5.
  eapply s_get_w; [exact Hw|]. eapply s_get_w; [exact Hc|]. apply sim_lift. intros diff _. cbv zeta.
  apply sim_world. intros test w6 K6. mv K6. apply sim_lift. intros acc _.
  eapply s_mask_set_idx; [exact Hi|exact Hprop|]. intros r. apply sim_tail_h.
  set (s6 := set_world s5 w6) in *. set (s7 := set_idxs s6 (put (h_idx s6) ind r)).
  assert (K7 : kx ind s6 s7) by apply put_idx_kx. assert (Hi7 : idx_at s7 ind r) by (eapply put_at_eq; exact Hi).
  assert (Kb7 : kx ind b s7) by (eapply kx_trans; eassumption).
  apply (kx_w _ _ _ _ _ K7) in Hc. apply (kx_w _ _ _ _ _ K7) in Hw. clearbody s7.
  eapply s_mask_set_w; [exact Hc|exact Hw|]. intros r2. apply sim_ret. simpl. split; [exact Hi7|]. split; [eapply put_at_eq; exact Hc|].
  apply put_w_kx; auto.
Qed.
Lemma r_mcmc_loop n : forall (b s : hst) pa a v ptr T pind pv fut FT find fv u y t k w ind iv pc pcv, kx ind b s ->
  pa_has b pa a v -> shows_traj b ptr T -> idx_at b pind pv -> shows_traj b fut FT -> idx_at b find fv ->
  ~ In ind (map hs_anc ptr) -> pind <> ind -> ~ In ind (map hs_anc fut) -> find <> ind ->
  idx_at s ind iv -> w_at s pc pcv -> (length (h_w b) <= pc)%nat ->
  sim s (h_mcmc_loop hsm g n pa ptr pind fut find u y t k w ind pc) (mcmc_loop sm g n v T pv FT fv u y t k w iv pcv)
    (fun _ x s' => idx_at s' ind x /\ kx ind b s').
Proof.
  induction n; intros b s pa a v ptr T pind pv fut FT find fv u y t k w ind iv pc pcv Kb Ha HT Hp HF Hf N1 N2 N3 N4 Hi Hc Lc; simpl.
  - apply sim_ret; auto.
  - eapply sim_bind; [eapply r_mcmc_round; eassumption|]. intros [] [i' c'] s1 _ (H1 & H2 & K1). simpl in *. eapply IHn; eassumption.
Qed.
Lemma r_bsi_mcmc (s : hst) pa a v ptr T pind pv fut FT find fv u y t k n anc av :
  pa_has s pa a v -> shows_traj s ptr T -> idx_at s pind pv -> shows_traj s fut FT -> idx_at s find fv ->
  ~ In anc (map hs_anc ptr) -> pind <> anc -> ~ In anc (map hs_anc fut) -> find <> anc -> idx_at s anc av ->
  sim s (h_bsi_mcmc hsm g pa ptr pind fut find u y t k n anc) (bsi_mcmc sm g v T pv FT fv u y t k n av)
    (fun l r s' => idx_at s' l r /\ kx anc s s').
Proof.
  intros Ha HT Hp HF Hf N1 N2 N3 N4 Hi. unfold h_bsi_mcmc, bsi_mcmc. pose proof (kx_refl anc s) as Kb. revert Kb. generalize s at 1 4. intros b Kb.
  eapply s_pa_weights; [exact Ha|]. intros w s1 K1. mv K1. eapply s_get_pa; [exact Ha|].
  eapply s_take_part; [apply Ha|exact Hi|]. intros pr s2 p K2 Hpr L2. mv K2.
  eapply s_take_idx; [exact Hp|exact Hi|]. intros pir s3 pi K3 Hpi L3. mv K3.
  eapply sim_bind; [eapply c_xnext; eassumption|]. intros pc wn s4 _ (Hw & K4 & L4). pose proof (k_idx _ _ _ _ K4 Hi) as Hi4.
  assert (G : sim s4 (h_mcmc_loop hsm g n pa ptr pind fut find u y t k w anc pc) (mcmc_loop sm g n v T pv FT fv u y t k w av wn)
    (fun _ x s' => idx_at s' anc x /\ kx anc s3 s')) by (eapply r_mcmc_loop; try eassumption; apply kx_all; exact K4).
  unfold sim in *. destruct (mcmc_loop _ _ _ _ _ _ _ _ _ _ _ _ _ _ _ (h_world s4)) as [[r w']|e].
  - destruct G as ([] & s' & E & Ew & Hr' & K'). exists anc, s'. unfold ebind. rewrite E. split; [reflexivity|]. split; auto. split; auto.
    eapply kx_trans; eassumption.
  - destruct G as [s' E]. exists s'. unfold ebind. rewrite E. reflexivity.
Qed.
(** ** mc_step *)
Lemma sim_hmap {A B C} (s : hst) (x : HM A) (v : M W B) (h : A -> C) Q : sim s x v (fun a b s' => Q (h a) b s') -> sim s (ebind x (fun a => eret (h a))) v Q.
Proof.
  unfold sim, ebind, eret. destruct (v (h_world s)) as [[b w]|e]; intros H.
  - destruct H as (a & s' & E & H). exists (h a), s'. rewrite E. auto.
  - destruct H as [s' E]. exists s'. rewrite E. auto.
Qed.
Lemma Forall2_removelast {A B} (R : A -> B -> Prop) l l' : Forall2 R l l' -> Forall2 R (removelast l) (removelast l').
Proof. induction 1 as [|x y l l' H HF IH]; simpl; [constructor|]. destruct HF; constructor; auto. Qed.
Lemma s_term {C D} (s : hst) x w (f : term -> HM C) (v : M W D) R : term_at s x w -> sim s (f w) v R -> sim s (ebind (h_term x) f) v R.
Proof.
  intros Hx H. destruct x as [x|], w as [w|]; simpl in Hx; try easy; (eapply sim_heap; [|reflexivity|exact H]).
  unfold h_term, ebind, get_w, idx. rewrite Hx. reflexivity.
Qed.
Lemma r_mc_current (s : hst) p x ptr T pc pcv u y t k : part_at s p x -> opt_shows s ptr T -> idx_at s pc pcv ->
  sim s (h_mc_current hsm p ptr pc u y t k) (mc_current sm x T pcv u y t k) (fun l z s' => part_at s' l z /\ keeps_all s s').
Proof.
  intros Hp HT Hc. unfold h_mc_current, mc_current. destruct ptr as [tr|], T as [T|]; simpl in HT; try easy.
  - pose proof (keeps_all_refl s) as Kb. revert Kb. generalize s at 1 4. intros b Kb.
    eapply (sim_last (shows s)); [exact HT|]. intros last vl Hl. apply Forall2_removelast in HT. change (shows_traj s (removelast tr) (removelast T)) in HT.
    destruct (shows_pa _ _ _ Hl) as (a & Ha & Hi). clear Hl.
    eapply s_get_pa; [exact Ha|]. eapply s_take_part; [apply Ha|exact Hc|]. intros old s1 o K1 Ho _. mv K1.
    eapply s_take_idx; [exact Hi|exact Hc|]. intros pi s2 ip K2 Hpi _. mv K2. eapply s_get_idx; [exact Hc|].
    apply s_new_idx'. intros s3 find K3 Hf _. mv K3.
    eapply sim_post; [apply (c_nw s3); [apply (so_cpred _ F)|]; eapply (si_cpred _ _ Im); eassumption|]. cbv beta.
    intros l z s4 _ [Hl K4]. mv K4. auto.
  - apply sim_lift. intros t0 _. apply c_nw; [apply (so_cinit _ F)|]. apply (si_cinit _ _ Im); assumption.
Qed.
Lemma r_mc_propose (s : hst) r ptr T pp ppv fut FT find fv u y t k : opt_shows s ptr T -> idx_at s pp ppv -> opt_shows s fut FT -> idx_at s find fv ->
  sim s (h_mc_propose hsm r ptr pp fut find u y t k) (mc_propose sm r T ppv FT fv u y t k) (fun l z s' => part_at s' l z /\ keeps_all s s').
Proof.
  intros HT Hp HF Hf. unfold h_mc_propose, mc_propose. destruct r.
  - destruct ptr as [tr|], T as [T|]; simpl in HT; try easy.
    + pose proof (keeps_all_refl s) as Kb. revert Kb. generalize s at 1 4. intros b Kb.
      eapply sim_bind; [apply (c_nw s); [intros s0; apply (fo_noise _ (so_f _ F))|]; eapply (im_noise _ _ (si_f _ _ Im)); eassumption|].
      intros nv nv' s1 _ [<- K1]. mv K1. eapply (sim_last (shows s1)); [exact HT|]. intros last vl Hl. destruct (shows_pa _ _ _ Hl) as (a & Ha & Hi). clear Hl.
      eapply s_get_pa; [exact Ha|]. eapply s_take_part; [apply Ha|exact Hp|]. intros xp s2 x K2 Hx L2. 
      apply sim_hmap. eapply sim_post; [apply (im_update _ _ (si_f _ _ Im)); [exact Hx|eapply showst_keep; eassumption|eapply k_idx; eassumption]|].
      cbv beta. intros [] x' s3 E Hx'. split; auto. eapply keeps_all_trans; [exact Kb|].
      match type of E with hm_update ?f ?p ?tr ?u ?y ?t ?a ?n ?s = _ => pose proof (fo_update _ (so_f _ F) p tr u y t a n s) as N end. rewrite E in N.
      eapply but_b; eassumption.
    + destruct fut as [f|], FT as [ft|]; simpl in HF; try easy; [|apply sim_raise].
      eapply (sim_idx (shows s)); [exact HF|]. intros f0 v0 H0. destruct (shows_pa _ _ _ H0) as (a & Ha & _). eapply s_part_of; [exact Ha|].
      eapply sim_post; [apply (c_new h_part); [apply (fo_create _ (so_f _ F))|]; apply (im_create _ _ (si_f _ _ Im))|]. cbv beta. intros l z s' _ (A & B & _). auto.
  - apply c_nw; [apply (so_propose _ F)|]. apply (si_propose _ _ Im); auto; [apply opt_traj|apply opt_trajf]; auto.
Qed.
Lemma r_mc_prior (s : hst) r xp xpv c cv ptr T pp ppv pc pcv fut FT find fv u y t k : part_at s xp xpv -> part_at s c cv -> opt_shows s ptr T ->
  idx_at s pp ppv -> idx_at s pc pcv -> opt_shows s fut FT -> idx_at s find fv ->
  sim s (h_mc_prior_terms hsm r xp c ptr pp pc fut find u y t k) (mc_prior_terms sm r xpv cv T ppv pcv FT fv u y t k)
    (fun q q' s' => let '(a1, a2, a3, a4) := q in let '(b1, b2, b3, b4) := q' in
      term_at s' a1 b1 /\ term_at s' a2 b2 /\ term_at s' a3 b3 /\ term_at s' a4 b4 /\ keeps_all s s').
Proof.
  intros Hx Hc HT Hp Hq HF Hf. unfold h_mc_prior_terms, mc_prior_terms. destruct r.
  - apply sim_ret. simpl. repeat (split; [exact Logic.I|]). apply keeps_all_refl.
  - pose proof (keeps_all_refl s) as Kb. revert Kb. generalize s at 1 4. intros b Kb.
    eapply sim_bind; [apply (c_nw s); [apply (so_logprop _ F)|]; eapply (si_logprop _ _ Im); try eassumption; [eapply opt_traj|eapply opt_trajf]; eassumption|].
    intros qp qpv s1 _ [Hqp K1]. mv K1.
    eapply sim_bind; [apply (c_nw s1); [apply (so_logprop _ F)|]; eapply (si_logprop _ _ Im); try eassumption; [eapply opt_traj|eapply opt_trajf]; eassumption|].
    intros qc qcv s2 _ [Hqc K2]. mv K2.
    destruct ptr as [tr|], T as [T|]; simpl in HT; try easy.
    + eapply (sim_last (shows s2)); [exact HT|]. intros last vl Hl. apply Forall2_removelast in HT. change (shows_traj s2 (removelast tr) (removelast T)) in HT.
      destruct (shows_pa _ _ _ Hl) as (a & Ha & Hi). clear Hl. eapply s_get_pa; [exact Ha|].
      eapply s_take_part; [apply Ha|exact Hp|]. intros z s3 l K3 Hz _. mv K3. eapply s_take_idx; [exact Hi|exact Hp|]. intros z2 s4 l2 K4 Hz2 _. mv K4.
      eapply s_get_part; [exact Hx|]. apply s_new_idx'. intros s5 f5 K5 Hf5 _. mv K5.
      eapply sim_bind; [apply (c_new h_w); [apply (fo_xnext1 _ (so_f _ F))|]; eapply (im_xnext1 _ _ (si_f _ _ Im)); eassumption|].
      intros lp lpv s6 _ (Hlp & K6 & _). mv K6.
      eapply s_take_part; [apply Ha|exact Hq|]. intros z3 s7 l3 K7 Hz3 _. mv K7. eapply s_take_idx; [exact Hi|exact Hq|]. intros z4 s8 l4 K8 Hz4 _. mv K8.
      eapply s_get_part; [exact Hc|]. apply s_new_idx'. intros s9 f9 K9 Hf9 _. mv K9.
      eapply sim_bind; [apply (c_new h_w); [apply (fo_xnext1 _ (so_f _ F))|]; eapply (im_xnext1 _ _ (si_f _ _ Im)); eassumption|].
      intros lc lcv s10 _ (Hlc & K10 & _). mv K10. apply sim_ret. simpl. auto.
    + apply sim_lift. intros t0 _.
      eapply sim_bind; [apply (c_nw s2); [apply (so_x0 _ F)|]; eapply (si_x0 _ _ Im); eassumption|]. intros lp lpv s3 _ [Hlp K3]. mv K3.
      eapply sim_bind; [apply (c_nw s3); [apply (so_x0 _ F)|]; eapply (si_x0 _ _ Im); eassumption|]. intros lc lcv s4 _ [Hlc K4]. mv K4.
      apply sim_ret. simpl. auto.
Qed.
Lemma r_mc_meas (b s : hst) xp xpv c cv ptr T pp ppv pc pcv u y t k : keeps_all b s -> (length (h_part b) <= xp)%nat -> (length (h_part b) <= c)%nat -> xp <> c ->
  part_at s xp xpv -> part_at s c cv -> opt_shows b ptr T -> idx_at b pp ppv -> idx_at b pc pcv ->
  sim s (h_mc_meas_terms hsm xp c ptr pp pc u y t k) (mc_meas_terms sm xpv cv T ppv pcv u y t k)
    (fun q q' s' => let '(x', c', b1, b2) := q' in part_at s' xp x' /\ part_at s' c c' /\ term_at s' (fst q) b1 /\ term_at s' (snd q) b2 /\ keeps_all b s').
Proof.
  intros Kb L1 L2 N Hx Hc HT Hp Hq. unfold h_mc_meas_terms, mc_meas_terms. apply sim_lift. intros yk _. destruct (is_none yk).
  - apply sim_ret. simpl. auto.
  - assert (M : forall (s : hst) tr a p u y t T av x, shows_traj s tr T -> idx_at s a av -> part_at s p x ->
      sim s (hm_measure (hs_f hsm) tr a p u y t) (m_measure (s_f sm) T av x u y t) (fun l xw s' => part_at s' p (fst xw) /\ w_at s' l (snd xw) /\ keeps_but p s s')).
    { intros. eapply sim_post; [eapply (im_measure _ _ (si_f _ _ Im)); eassumption|]. cbv beta. intros l xw s' E [A B]. split; auto. split; auto.
      match type of E with hm_measure ?f ?tr ?a ?p ?u ?y ?t ?s = _ => pose proof (fo_measure _ (so_f _ F) tr a p u y t s) as [N0 _] end. rewrite E in N0. exact N0. }
    eapply sim_bind; [apply M; [eapply showst_keep; [exact Kb|eapply opt_traj; eassumption]|eapply k_idx; eassumption|exact Hx]|].
    intros w1 [x' w1v] s1 _ (Hx1 & Hw1 & K1). simpl in Hx1, Hw1. assert (Kb1 : keeps_all b s1) by (eapply but_b; eassumption).
    assert (Hc1 : part_at s1 c cv) by (eapply but_at; [apply K1| |exact Hc]; auto).
    eapply sim_bind; [apply M; [eapply showst_keep; [exact Kb1|eapply opt_traj; eassumption]|eapply k_idx; eassumption|exact Hc1]|].
    intros w2 [c' w2v] s2 _ (Hc2 & Hw2 & K2). simpl in Hc2, Hw2. apply sim_ret. simpl.
    split; [eapply but_at; [apply K2| |exact Hx1]; auto|]. split; auto. split; [eapply ext_at; [apply K2|exact Hw1]|]. split; auto. eapply but_b; eassumption.
Qed.
Lemma r_mc_next (s : hst) xp xpv c cv ptr T pp ppv pc pcv fut FT find fv u y t k : part_at s xp xpv -> part_at s c cv -> opt_shows s ptr T ->
  idx_at s pp ppv -> idx_at s pc pcv -> opt_shows s fut FT -> idx_at s find fv ->
  sim s (h_mc_next_terms hsm xp c ptr pp pc fut find u y t k) (mc_next_terms sm xpv cv T ppv pcv FT fv u y t k)
    (fun q q' s' => term_at s' (fst q) (fst q') /\ term_at s' (snd q) (snd q') /\ keeps_all s s').
Proof.
  intros Hx Hc HT Hp Hq HF Hf. unfold h_mc_next_terms, mc_next_terms. destruct fut as [f|], FT as [ft|]; simpl in HF; try easy.
  - pose proof (keeps_all_refl s) as Kb. revert Kb. generalize s at 1 4. intros b Kb. apply opt_traj in HT.
    eapply sim_bind; [eapply c_xnext; eassumption|]. intros l w s1 _ (Hw & K1 & _). mv K1.
    eapply sim_bind; [eapply c_xnext; eassumption|]. intros l2 w2 s2 _ (Hw2 & K2 & _). mv K2. apply sim_ret. simpl. auto.
  - apply sim_ret. simpl. split; [exact Logic.I|]. split; [exact Logic.I|apply keeps_all_refl].
Qed.
Lemma r_mc_step (s : hst) p x ptr T pp ppv pc pcv fut FT find fv u y t k r : part_at s p x -> opt_shows s ptr T ->
  idx_at s pp ppv -> idx_at s pc pcv -> opt_shows s fut FT -> idx_at s find fv ->
  sim s (h_mc_step hsm g p ptr pp pc fut find u y t k r) (mc_step sm g x T ppv pcv FT fv u y t k r)
    (fun q q' s' => part_at s' (fst q) (fst q') /\ snd q = snd q' /\ keeps_all s s' /\ (length (h_part s) <= fst q)%nat).
Proof.
  intros Hx HT Hp Hq HF Hf. unfold h_mc_step, mc_step.
  assert (Le : (length (h_part s) <= length (h_part s))%nat) by auto. 
  pose proof (keeps_all_refl s) as Kb. revert Kb. generalize s at 1 4 5. intros b Kb. clear Le.
  eapply sim_bind; [eapply r_mc_current; eassumption|]. intros c cv s1 _ [Hc K1]. mv K1.
  eapply sim_bind; [eapply r_mc_propose; eassumption|]. intros xp xpv s2 _ [Hxp K2]. mv K2.
  eapply sim_bind; [eapply (r_mc_prior s2 r xp xpv c cv); eassumption|]. intros [[[qp qc] lp] lc] [[[qpv qcv] lpv] lcv] s3 _ (H1 & H2 & H3 & H4 & K3). mv K3.
  eapply s_get_part; [exact Hxp|]. apply s_new_part. intros s4 xy K4 Hxy L4 _.
  assert (Hc4 : part_at s4 c cv) by (eapply k_part; eassumption).
  eapply s_get_part; [exact Hc4|]. apply s_new_part. intros s5 cy K5 Hcy L5 _.
  assert (Nn : xy <> cy) by (apply at_lt in Hxy; lia).
  assert (K35 : keeps_all s3 s5) by (eapply keeps_all_trans; eassumption).
  assert (Lcy : (length (h_part s3) <= cy)%nat) by (destruct K4 as [[? _] _]; lia).
  apply (k_part _ _ _ _ K5) in Hxy.
  eapply sim_bind; [eapply (r_mc_meas s3 s5 xy xpv cy cv); eassumption|]. intros [m1 m2] [[[x' c'] m1v] m2v] s6 _ (Hx6 & Hc6 & M1 & M2 & K6). simpl in M1, M2.
  assert (Lb : (length (h_part b) <= cy)%nat) by (destruct Kb as [[? _] _]; lia). mv K6.
  eapply sim_bind; [eapply (r_mc_next s6 xy x' cy c'); eassumption|]. intros [n1 n2] [n1v n2v] s7 _ (Q1 & Q2 & K7). simpl in Q1, Q2. mv K7.
  eapply s_term; [exact H3|]. eapply s_term; [exact H4|]. eapply s_term; [exact M1|]. eapply s_term; [exact M2|].
  eapply s_term; [exact Q1|]. eapply s_term; [exact Q2|]. eapply s_term; [exact H2|]. eapply s_term; [exact H1|].
  do 7 (apply sim_lift; intros ? _). match goal with |- sim _ (match ?z with _ => _ end) _ _ => destruct z as [ratio|]; [|apply sim_raise] end.
  apply sim_world. intros test w8 K8. mv K8. apply sim_lift. intros acc _. set (s8 := set_world s7 w8) in *.
  eapply s_mask_set_part; [exact Hc6|exact Hx6|]. intros rr. apply sim_ret. cbn [fst snd]. split; [eapply put_at_eq; exact Hc6|]. split; auto. split; auto.
  apply put_part_b; auto.
Qed.
(** ** Ancestor trajectories *)
Lemma shows_cons (s : hst) pa a v i iv tr T : pa_has s pa a v -> idx_at s i iv -> shows_traj s tr T -> shows_traj s (mkHS pa i :: tr) (mkStep v iv :: T).
Proof. intros. constructor; auto. eapply pa_shows; simpl; eassumption. Qed.
Lemma s_draw {C D} (b s : hst) p x past T pind pv fut FT find fv u y t k (f : nat -> HM C) (kk : papprox P -> M W D) R :
  keeps_all b s -> (length (h_part b) <= p)%nat ->
  part_at s p x -> shows_traj s past T -> idx_at s pind pv -> shows_traj s fut FT -> idx_at s find fv ->
  (forall v s' pa a, keeps_all b s' -> pa_has s' pa a v -> sim s' (f pa) (kk v) R) ->
  sim s (ebind (hs_sample hsm p past pind fut find u y t k) (fun p' => ebind (h_pa_init p' None) f))
    (bind (s_sample sm x T pv FT fv u y t k) (fun p' => bind (lift (pa_init p' None)) kk)) R.
Proof.
  intros K L Hx HT Hp HF Hf H. eapply sim_bind; [eapply c_sample; eassumption|]. intros l z s1 _ [Hl K1].
  eapply s_pa_init; [exact Hl|]. intros v s2 pa a K2 Ha. eapply H; [eapply keeps_all_trans; eassumption|exact Ha].
Qed.
Ltac kp K := first [eassumption | eapply (k_idx _ _ _ _ K); eassumption | eapply (showst_keep _ _ _ _ K); eassumption
  | eapply (showst_keep _ _ _ _ K), showst_firstn; eassumption | constructor].
Lemma r_ancestors_loop n : forall (s : hst) tr T u y t find fv anc av fut FT, shows_traj s tr T -> idx_at s find fv -> idx_at s anc av -> shows_traj s fut FT ->
  sim s (h_ancestors_loop hsm n tr u y t find anc fut) (ancestors_loop sm n T u y t fv av FT) (fun tr' T' s' => shows_traj s' tr' T' /\ keeps_all s s').
Proof.
  induction n; intros s tr T u y t find fv anc av fut FT HT Hf Ha HF; cbn [h_ancestors_loop ancestors_loop].
  - apply sim_ret. split; auto. apply keeps_all_refl.
  - pose proof (keeps_all_refl s) as Kb. revert Kb. generalize s at 1 4. intros b Kb.
    eapply (sim_idx (shows s)); [exact HT|]. intros st v Hs. destruct (shows_pa _ _ _ Hs) as (a & Hp & Hi). clear Hs. cbv zeta.
    eapply s_take_idx; [exact Hi|exact Ha|]. intros a2 s1 anc2 K1 Ha2 _. mv K1. eapply s_get_pa; [exact Hp|].
    eapply s_take_part; [apply Hp|exact Ha|]. intros x s2 p K2 Hx L2.
    eapply (s_draw s1 s2); [exact K2|exact L2|exact Hx|kp K2|kp K2|kp K2|kp K2|]. intros v' s3 pa a' K3 Hpa. mv K3.
    eapply sim_post; [eapply IHn; try eassumption; eapply shows_cons; eassumption|]. cbv beta. intros tr' T' s4 _ [H4 K4]. split; auto.
    eapply keeps_all_trans; eassumption.
Qed.
Lemma showst_length (s : hst) tr T : shows_traj s tr T -> length tr = length T.
Proof. induction 1; simpl; auto. Qed.
Lemma r_calculate_ancestors (s : hst) tr T u y t ind iv : shows_traj s tr T -> idx_at s ind iv ->
  sim s (h_calculate_ancestors hsm tr u y t ind) (calculate_ancestors sm T u y t iv) (fun tr' T' s' => shows_traj s' tr' T' /\ keeps_all s s').
Proof.
  intros HT Hi. unfold h_calculate_ancestors, calculate_ancestors. rewrite (showst_length _ _ _ HT). pose proof (keeps_all_refl s) as Kb. revert Kb. generalize s at 1 4. intros b Kb.
  eapply (sim_last (shows s)); [exact HT|]. intros last vl Hl. destruct (shows_pa _ _ _ Hl) as (a & Ha & Hia). clear Hl.
  eapply s_get_idx; [exact Hi|]. eapply s_take_idx; [exact Hia|exact Hi|]. intros av s1 anc K1 Hanc _. mv K1.
  apply s_new_idx'. intros s2 find K2 Hf _. mv K2. eapply s_get_pa; [exact Ha|].
  eapply s_take_part; [apply Ha|exact Hi|]. intros x s3 p K3 Hx L3. apply s_new_idx'. intros s4 none K4 Hn _.
  apply (k_part _ _ _ _ K4) in Hx. pose proof (keeps_all_trans _ _ _ K3 K4) as K5.
  assert (HT' : shows_traj s4 (removelast tr) (removelast T)) by (apply Forall2_removelast; eapply showst_keep; eassumption).
  eapply (s_draw s2 s4); [exact K5|exact L3|exact Hx|exact HT'|kp K5|constructor|exact Hn|]. intros v' s6 pa a' K6 Hpa. mv K6. cbv zeta.
  apply s_new_idx'. intros s7 find2 K7 Hf2 _. mv K7.
  eapply sim_post; [eapply r_ancestors_loop; try eassumption; eapply shows_cons; [eassumption|eassumption|constructor]|]. cbv beta.
  intros tr' T' s8 _ [H8 K8]. split; auto. eapply keeps_all_trans; eassumption.
Qed.
Lemma r_perform_ancestors (s : hst) tr T u y t m : shows_traj s tr T ->
  sim s (h_perform_ancestors_int hsm g tr u y t m) (perform_ancestors_int sm g T u y t m) (fun tr' T' s' => shows_traj s' tr' T' /\ keeps_all s s').
Proof.
  intros HT. unfold h_perform_ancestors_int, perform_ancestors_int. pose proof (keeps_all_refl s) as Kb. revert Kb. generalize s at 1 4. intros b Kb.
  eapply (sim_last (shows s)); [exact HT|]. intros last vl Hl. destruct (shows_pa _ _ _ Hl) as (a & Ha & _). clear Hl.
  eapply s_pa_weights; [exact Ha|]. intros w s1 K1. mv K1. apply sim_world. intros iv w2 K2. mv K2. apply s_new_idx'. intros s3 ind K3 Hi _. mv K3.
  eapply sim_post; [eapply r_calculate_ancestors; eassumption|]. cbv beta. intros tr' T' s8 _ [H8 K8]. split; auto. eapply keeps_all_trans; eassumption.
Qed.
(** ** perform_bsi *)
Lemma notin_firstn i n (tr : list hstep) : ~ In i (map hs_anc tr) -> ~ In i (map hs_anc (firstn n tr)).
Proof. intros H Hin. apply H. revert n Hin. induction tr as [|st tr IH]; intros [|n] Hin; simpl in *; auto; try contradiction. destruct Hin as [->|Hin]; auto. right. eapply IH; [|exact Hin]. intuition. Qed.
Lemma r_bsi_select kind o (s : hst) st v k tr T fut FT find fv u y t anc av : shows s st v -> shows_traj s tr T -> shows_traj s fut FT -> idx_at s find fv ->
  idx_at s anc av -> ~ In anc (map hs_anc tr) -> hs_anc st <> anc -> ~ In anc (map hs_anc fut) -> find <> anc ->
  sim s (h_bsi_select hsm g junk fuel kind o st k tr fut find u y t anc) (bsi_select sm g junk fuel kind o v k T FT fv u y t av)
    (fun l r s' => idx_at s' l r /\ kx anc s s').
Proof.
  intros Hs HT HF Hf Ha N1 N2 N3 N4. destruct (shows_pa _ _ _ Hs) as (a & Hp & Hi). apply (showst_firstn _ k) in HT.
  unfold h_bsi_select, bsi_select. destruct kind.
  - eapply sim_post; [eapply r_bsi_full; eassumption|]. cbv beta. intros l r s' _ (H & K & _). split; auto. apply kx_all; auto.
  - do 2 (apply sim_lift; intros ? _). eapply r_bsi_mcmc; try eassumption. apply notin_firstn; auto.
  - do 3 (apply sim_lift; intros ? _). eapply sim_post; [eapply r_bsi_rs; eassumption|]. cbv beta. intros l r s' _ [H K]. split; auto. apply kx_all; auto.
  - do 7 (apply sim_lift; intros ? _). eapply sim_post; [eapply r_bsi_rsas; eassumption|]. cbv beta. intros l r s' _ [H K]. split; auto. apply kx_all; auto.
Qed.
Lemma r_bsi_loop kind o m n : forall (b s : hst) tr T u y t find anc av fut FT, keeps_all b s -> (length (h_idx b) <= anc)%nat ->
  shows_traj s tr T -> shows_traj s fut FT -> idx_at s find (seq 0 m) -> idx_at s anc av ->
  ~ In anc (map hs_anc tr) -> ~ In anc (map hs_anc fut) -> find <> anc ->
  sim s (h_bsi_loop hsm g junk fuel kind o m n tr u y t find anc fut) (bsi_loop sm g junk fuel kind o m n T u y t av FT)
    (fun tr' T' s' => shows_traj s' tr' T' /\ keeps_all b s').
Proof.
  induction n; intros b s tr T u y t find anc av fut FT Kb Lb HT HF Hf Ha N1 N2 N3; cbn [h_bsi_loop bsi_loop].
  - apply sim_ret. auto.
  - eapply (sim_idx (fun st v => shows s st v /\ hs_anc st <> anc)).
    { clear -HT N1. induction HT as [|st v tr T H HT IH]; constructor; [|apply IH]; simpl in N1; intuition. }
    intros st v [Hs Ns]. eapply sim_bind; [eapply r_bsi_select; eassumption|]. intros ind iv s1 _ [Hind K1].
    assert (Kb1 : keeps_all b s1) by (eapply kx_fresh; [eapply kx_trans; [apply kx_all; exact Kb|exact K1]|exact Lb]).
    apply (kx_shows _ _ _ _ _ K1 N1) in HT. apply (kx_shows _ _ _ _ _ K1 N2) in HF.
    destruct (shows_pa _ _ _ Hs) as (a & Hp & Hi). clear Hs. apply (kx_pa _ _ _ _ _ _ K1) in Hp. apply (kx_idx _ _ _ _ _ K1 Ns) in Hi.
    eapply s_take_idx; [exact Hi|exact Hind|]. intros a2 s2 anc2 K2 Ha2 L2.
    pose proof (shows_old _ _ _ _ HT L2) as M1. pose proof (shows_old _ _ _ _ HF L2) as M2.
    assert (Lb2 : (length (h_idx b) <= anc2)%nat) by (destruct Kb1 as (_ & _ & [? _] & _); lia).
    mv K2. apply s_new_idx'. intros s3 find2 K3 Hf2 L3. assert (M3 : find2 <> anc2) by (apply at_lt in Ha2; lia). mv K3.
    eapply s_get_pa; [exact Hp|]. eapply s_take_part; [apply Hp|exact Hind|]. intros x s4 p K4 Hx L4.
    eapply (s_draw s3 s4); [exact K4|exact L4|exact Hx|kp K4|kp K4|kp K4|kp K4|]. intros v' s5 pa a' K5 Hpa. mv K5.
    apply s_new_idx'. intros s6 ai K6 Hai L6. assert (M4 : ai <> anc2) by (apply at_lt in Ha2; lia). mv K6.
    eapply IHn; try eassumption; [eapply shows_cons; eassumption|]. simpl. intuition.
Qed.
Lemma r_perform_bsi kind o (s : hst) tr T u y t m : shows_traj s tr T ->
  sim s (h_perform_bsi hsm g junk fuel kind o tr u y t m) (perform_bsi sm g junk fuel kind o T u y t m) (fun tr' T' s' => shows_traj s' tr' T' /\ keeps_all s s').
Proof.
  intros HT. unfold h_perform_bsi, perform_bsi. rewrite (showst_length _ _ _ HT). pose proof (keeps_all_refl s) as Kb. revert Kb. generalize s at 1 4. intros b Kb.
  eapply (sim_last (shows s)); [exact HT|]. intros last vl Hl. destruct (shows_pa _ _ _ Hl) as (a & Ha & Hia). clear Hl.
  eapply s_pa_weights; [exact Ha|]. intros w s1 K1. mv K1. apply sim_world. intros iv w2 K2. mv K2. apply s_new_idx'. intros s3 ind K3 Hi _. mv K3.
  eapply s_take_idx; [exact Hia|exact Hi|]. intros av s4 anc K4 Hanc L4. pose proof (shows_old _ _ _ _ HT L4) as M1.
  assert (Lb : (length (h_idx b) <= anc)%nat) by (destruct Kb as (_ & _ & [? _] & _); lia). mv K4.
  eapply s_get_pa; [exact Ha|]. eapply s_take_part; [apply Ha|exact Hi|]. intros x s5 p K5 Hx L5. apply s_new_idx'. intros s6 none K6 Hn _.
  apply (k_part _ _ _ _ K6) in Hx. pose proof (keeps_all_trans _ _ _ K5 K6) as K7.
  assert (HT' : shows_traj s6 (removelast tr) (removelast T)) by (apply Forall2_removelast; eapply showst_keep; eassumption).
  eapply (s_draw s4 s6); [exact K7|exact L5|exact Hx|exact HT'|kp K7|constructor|exact Hn|]. intros v' s8 pa a' K8 Hpa. mv K8.
  apply s_new_idx'. intros s9 ai K9 Hai L9. assert (M2 : ai <> anc) by (apply at_lt in Hanc; lia). mv K9.
  apply sim_lift. intros _ _. apply s_new_idx'. intros s10 find K10 Hf L10. assert (M3 : find <> anc) by (apply at_lt in Hanc; lia). mv K10.
  eapply r_bsi_loop; try eassumption; [eapply shows_cons; [eassumption|eassumption|constructor]|]. simpl. intuition.
Qed.
(** ** perform_mhbp *)
Definition oidx (s : hst) (o : option nat) (v : option (list nat)) : Prop :=
  match o, v with None, None => True | Some i, Some x => idx_at s i x | _, _ => False end.
Definition kxo (o : option nat) (s s' : hst) : Prop := match o with Some i => kx i s s' | None => keeps_all s s' end.
Lemma oidx_keep (s s' : hst) o v : keeps_all s s' -> oidx s o v -> oidx s' o v.
Proof. intros K. destruct o, v; simpl; auto. apply k_idx; auto. Qed.
Lemma kxo_all o (s s' : hst) : keeps_all s s' -> kxo o s s'.
Proof. destruct o; simpl; auto. apply kx_all. Qed.
Lemma kxo_trans o (s1 s2 s3 : hst) : kxo o s1 s2 -> kxo o s2 s3 -> kxo o s1 s3.
Proof. destruct o; simpl; [apply kx_trans|apply keeps_all_trans]. Qed.
Lemma kx_opt i (s s' : hst) p T : kx i s s' -> ~ In i (map hs_anc (h_opt p)) -> opt_shows s p T -> opt_shows s' p T.
Proof. intros K. destruct p, T; simpl; auto. apply kx_shows; auto. Qed.
Lemma kx_but i p (b s s' : hst) : kx i b s -> keeps_but p s s' -> (length (h_part b) <= p)%nat -> kx i b s'.
Proof.
  intros (A & B & C & D) (A' & B' & C' & D') L. split; [|split; [|split]].
  - destruct A as [La A], A' as [La' A']. split; [lia|]. intros j Hj _. rewrite A' by (unfold but; lia). apply A; auto. exact Logic.I.
  - eapply keepsl_trans; eassumption.
  - eapply keepsl_trans; [exact C|]. destruct C' as [Lc C']. split; auto. intros j Hj _. apply C'; auto. exact Logic.I.
  - eapply keepsl_trans; eassumption.
Qed.
Lemma kx_len i (s s' : hst) : kx i s s' -> (length (h_part s) <= length (h_part s'))%nat.
Proof. intros [[L _] _]. exact L. Qed.
Lemma r_mhbp_inner n : forall (b s : hst) m w ptr T fut FT find u y t k r pnew x panc pancv i av,
  kx i b s -> part_at s pnew x -> (length (h_part b) <= pnew)%nat -> opt_shows b ptr T -> opt_shows b fut FT -> idx_at b find (seq 0 m) ->
  ~ In i (map hs_anc (h_opt ptr)) -> ~ In i (map hs_anc (h_opt fut)) -> find <> i -> panc <> Some i ->
  oidx s panc pancv -> idx_at s i av ->
  sim s (h_mhbp_inner hsm g n m w ptr fut find u y t k r pnew panc (Some i)) (mhbp_inner sm g n m w T FT u y t k r x pancv (Some av))
    (fun q q' s' => part_at s' (fst q) (fst (fst q')) /\ (length (h_part b) <= fst q)%nat /\ oidx s' (snd q) (snd (fst q')) /\ oidx s' (Some i) (snd q') /\
      kx i b s' /\ snd q <> Some i).
Proof.
  induction n; intros b s m w ptr T fut FT find u y t k r pnew x panc pancv i av Kb Hx Lx HT HF Hf N1 N2 N3 N4 Hp Ha; cbn [h_mhbp_inner mhbp_inner].
  - apply sim_ret. cbn [fst snd]. auto 10.
  - eapply (sim_bind s _ _ (fun p p' s' => oidx s' p p' /\ keeps_all s s' /\ p <> Some i)).
    { destruct w as [w|]; [|apply sim_ret; split; [exact Hp|split; [apply keeps_all_refl|exact N4]]].
      apply sim_world. intros l w1 K1. pose proof (k_idx _ _ _ _ K1 Ha) as Ha1. apply s_new_idx'. intros s2 pi K2 Hpi L2.
      apply sim_ret. simpl. split; [exact Hpi|]. split; [exact (keeps_all_trans _ _ _ K1 K2)|]. intros [= ->]. apply at_lt in Ha1. lia. }
    intros p2 p2v s1 _ (Hp2 & K1 & M4). mv K1.
    destruct p2 as [pv|], p2v as [pvv|]; simpl in Hp2; try contradiction; [|simpl; unfold sim, ebind, elift, bind, lift; simpl; eauto].
    cbn [bound]. do 2 (eapply sim_vlift; [reflexivity|]; eapply sim_heap; [reflexivity|reflexivity|]).
    pose proof (kx_opt _ _ _ _ _ Kb N1 HT) as HT1. pose proof (kx_opt _ _ _ _ _ Kb N2 HF) as HF1. pose proof (kx_idx _ _ _ _ _ Kb N3 Hf) as Hf1.
    eapply sim_bind; [eapply r_mc_step; eassumption|]. intros [nl nacc] [nx acc] s2 _ (Hn & Eacc & K2 & Ln). cbn [fst snd] in *. subst nacc.
    pose proof (kx_len _ _ _ Kb) as Lk. clear Hx HT1 HF1 Hf1. mv K2.
    eapply s_mask_set_idx; [exact Ha|exact Hp2|]. intros r'.
    set (s3 := set_idxs s2 (put (h_idx s2) i r')). assert (K3 : kx i s2 s3) by apply put_idx_kx.
    assert (Ni : pv <> i) by congruence.
    eapply IHn; try eassumption; [eapply kx_trans; eassumption|lia|simpl; eapply kx_idx; eassumption|eapply put_at_eq; exact Ha].
Qed.
Lemma r_mhbp_loop n : forall (b s : hst) m nR r tr T u y t find cind cv panc pancv anc ancv fut FT,
  keeps_all b s -> shows_traj s tr T -> shows_traj s fut FT -> idx_at s find (seq 0 m) -> idx_at s cind cv -> oidx s panc pancv -> oidx s anc ancv ->
  (forall i, anc = Some i -> (length (h_idx b) <= i)%nat /\ ~ In i (map hs_anc tr) /\ ~ In i (map hs_anc fut) /\ find <> i /\ panc <> Some i) ->
  sim s (h_mhbp_loop hsm g n m nR r tr u y t find cind panc anc fut) (mhbp_loop sm g n m nR r T u y t cv pancv ancv FT)
    (fun tr' T' s' => shows_traj s' tr' T' /\ keeps_all b s').
Proof.
  induction n; intros b s m nR r tr T u y t find cind cv panc pancv anc ancv fut FT Kb HT HF Hf Hc Hp Ha Hi; cbn [h_mhbp_loop mhbp_loop].
  - apply sim_ret. auto.
  - cbv zeta. assert (HF' : exists ft ftv, match fut with [] => None | _ => Some fut end = ft /\ match FT with [] => None | _ => Some FT end = ftv /\
      opt_shows s ft ftv /\ h_opt ft = fut /\ opt_future ftv = FT).
    { destruct HF as [|? ? ? ? H1 H2]; [exists None, None|do 2 eexists (Some _)]; repeat split; auto. simpl. constructor; auto. }
    destruct HF' as (ft & ftv & -> & -> & Hft & Eft & Eftv).
    eapply (sim_idx (shows s)); [exact HT|]. intros st v Hs. destruct (shows_pa _ _ _ Hs) as (a & Hpa & Hia). clear Hs.
    eapply s_get_pa; [exact Hpa|]. eapply s_take_part; [apply Hpa|exact Hc|]. intros x s1 pnew K1 Hx L1.
    eapply (sim_bind s1 _ _ (fun q q' s' => fst (fst q) = fst (fst q') /\ opt_shows s (snd (fst q)) (snd (fst q')) /\ keeps_all s1 s' /\
      oidx s' (snd q) (snd q') /\ forall i, snd q = Some i -> (length (h_idx b) <= i)%nat /\ ~ In i (map hs_anc tr) /\ ~ In i (map hs_anc fut) /\ find <> i /\
        panc <> Some i /\ ~ In i (map hs_anc (h_opt (snd (fst q)))))).
    { destruct n as [|k'].
      - apply sim_ret. cbn [fst snd]. split; auto. split; [exact Logic.I|]. split; [apply keeps_all_refl|]. split; [eapply oidx_keep; eassumption|].
        intros i E. destruct (Hi i E) as (A & B & C & D & G). simpl. auto 10.
      - eapply s_take_idx; [eapply k_idx; eassumption|eapply k_idx; eassumption|]. intros aiv s2 ai K2 Hai L2.
        eapply (sim_idx (shows s)); [exact HT|]. intros prev pv Hpr. destruct (shows_pa _ _ _ Hpr) as (a' & Hpa' & _). clear Hpr.
        pose proof (keeps_all_trans _ _ _ K1 K2) as K12.
        eapply s_pa_weights; [eapply pa_keep; [exact K12|exact Hpa']|]. intros w s3 K3. apply sim_ret. cbn [fst snd]. split; auto.
        split; [apply (showst_firstn s (S k')); exact HT|]. split; [eapply keeps_all_trans; eassumption|]. split; [simpl; eapply k_idx; eassumption|].
        intros i [= <-]. assert (L : (length (h_idx s) <= ai)%nat) by (destruct K1 as (_ & _ & [? _] & _); lia).
        split; [destruct Kb as (_ & _ & [? _] & _); lia|]. pose proof (shows_old _ _ _ _ HT L). split; auto. split; [eapply shows_old; eassumption|].
        split; [apply at_lt in Hf; lia|]. split; [intros ->; destruct pancv; simpl in Hp; try contradiction; apply at_lt in Hp; lia|].
        cbn [h_opt]. apply notin_firstn; auto. }
    intros [[w ptr] anc2] [[w' ptr'] anc2v] s2 _ (Ew & Hptr & K2 & Ha2 & Hi2). cbn [fst snd] in *. subst w'.
    destruct anc2 as [i|], anc2v as [av|]; simpl in Ha2; try contradiction; cycle 1.
    { (* no ancestors at all: every proposal raises, and so does the next read *)
      assert (G : forall (s : hst) pnew x pv pvv, oidx s pv pvv -> sim s (h_mhbp_inner hsm g nR m w ptr ft find u y t n r pnew pv None)
        (mhbp_inner sm g nR m w ptr' ftv u y t n r x pvv None) (fun q q' s' => snd q' = None)).
      { clear -F Im. destruct nR; intros s pnew x pv pvv Hp; cbn [h_mhbp_inner mhbp_inner]; [apply sim_ret; reflexivity|].
        eapply (sim_bind s _ _ (fun p p' s' => oidx s' p p')).
        { destruct w as [w|]; [|apply sim_ret; exact Hp]. apply sim_world. intros l w1 _. apply s_new_idx'. intros s2 pi _ Hpi _. apply sim_ret. exact Hpi. }
        intros p2 p2v s1 _ Hp2. destruct p2, p2v; simpl in Hp2; try contradiction.
        - cbn [bound]. eapply sim_vlift; [reflexivity|]. eapply sim_heap; [reflexivity|reflexivity|]. unfold sim, ebind, elift, bind, lift; simpl; eauto.
        - cbn [bound]. unfold sim, ebind, elift, bind, lift; simpl; eauto. }
      eapply sim_bind; [apply (G s2 pnew x panc pancv)|].
      - eapply oidx_keep; [exact K2|]. eapply oidx_keep; eassumption.
      - intros q [[x' pv'] an'] s3 _ E. simpl in E. subst an'. destruct q. cbn [bound]. unfold sim, ebind, elift, bind, lift; simpl; eauto. }
    destruct (Hi2 i eq_refl) as (A & B & C & D & G & G2). pose proof (keeps_all_trans _ _ _ K1 K2) as K12.
    assert (Kx : kx i s s2) by (apply kx_all; exact K12).
    eapply sim_bind; [eapply (r_mhbp_inner nR s s2 m w ptr ptr' ft ftv find u y t n r pnew x panc pancv i av)|];
      [exact Kx|exact (k_part _ _ _ _ K2 Hx)|exact L1|exact Hptr|exact Hft|exact Hf|exact G2|rewrite Eft; exact C|exact D|exact G|exact (oidx_keep _ _ _ _ K12 Hp)|exact Ha2|].
    intros [pn' panc'] [[x' pancv'] ancv'] s3 _ (Hx' & Lx' & Hp' & Ha' & Kx' & Nq). cbn [fst snd] in *.
    destruct ancv' as [av'|]; simpl in Ha'; [|contradiction]. cbn [bound]. eapply sim_vlift; [reflexivity|]. eapply sim_heap; [reflexivity|reflexivity|].
    pose proof (kx_shows _ _ _ _ _ Kx' B HT) as HT3. pose proof (kx_shows _ _ _ _ _ Kx' C HF) as HF3.
    pose proof (kx_idx _ _ _ _ _ Kx' D Hf) as Hf3. pose proof (kx_opt _ _ _ _ _ Kx' G2 Hptr) as Hptr3.
    rewrite Eft, Eftv.
    eapply (sim_bind s3 _ _ (fun l z s' => part_at s' l z /\ keeps_but pn' s3 s')).
    { eapply sim_post; [apply (si_sample _ _ Im); [exact Hx'|apply opt_traj; exact Hptr3|exact Ha'|exact HF3|exact Hf3]|]. cbv beta. intros l z s' E Hz. split; auto.
      match type of E with hs_sample ?m ?p ?a ?b ?c ?d ?e ?f ?g ?h ?s = _ => pose proof (so_sample _ F p a b c d e f g h s) as N0 end. rewrite E in N0. exact N0. }
    intros p' z s4 _ [Hz K4].
    assert (Kx4 : kx i s s4) by (eapply kx_but; eassumption).
    pose proof (kx_shows _ _ _ _ _ Kx4 B HT) as HT4. pose proof (kx_shows _ _ _ _ _ Kx4 C HF) as HF4.
    pose proof (kx_idx _ _ _ _ _ Kx4 D Hf) as Hf4. apply (kb_idx _ _ _ _ _ K4) in Ha'.
    assert (Hp4 : oidx s4 panc' pancv') by (destruct panc', pancv'; simpl in *; auto; eapply kb_idx; eassumption).
    assert (Kb4 : keeps_all b s4) by (eapply kx_fresh; [eapply kx_trans; [apply kx_all; exact Kb|exact Kx4]|exact A]).
    clear HT HF Hf HT3 HF3 Hf3 Hptr3.
    eapply s_pa_init; [exact Hz|]. intros pv s5 pa a5 K5 Hpa5. mv K5. apply s_new_idx'. intros s6 none K6 Hn L6.
    assert (Ni : none <> i) by (apply at_lt in Ha'; lia). mv K6.
    eapply IHn; try eassumption; [eapply shows_cons; eassumption| |].
    + exact (oidx_keep _ _ _ _ K5 Hp4).
    + intros j [= <-]. split; auto. split; auto. split; [simpl; intuition|]. auto.
Qed.
Lemma r_perform_mhbp nR r (s : hst) tr T u y t m : shows_traj s tr T ->
  sim s (h_perform_mhbp hsm g nR r tr u y t m) (perform_mhbp sm g nR r T u y t m) (fun tr' T' s' => shows_traj s' tr' T' /\ keeps_all s s').
Proof.
  intros HT. unfold h_perform_mhbp, perform_mhbp. rewrite (showst_length _ _ _ HT). pose proof (keeps_all_refl s) as Kb. revert Kb. generalize s at 1 4. intros b Kb.
  eapply (sim_last (shows s)); [exact HT|]. intros last vl Hl. destruct (shows_pa _ _ _ Hl) as (a & Ha & Hia). clear Hl.
  eapply s_pa_weights; [exact Ha|]. intros w s1 K1. mv K1. apply sim_world. intros iv w2 K2. mv K2. apply s_new_idx'. intros s3 ind K3 Hi _. mv K3.
  apply s_new_idx'. intros s4 find K4 Hf _. mv K4.
  eapply r_mhbp_loop; try eassumption; try exact Logic.I; [constructor|]. discriminate.
Qed.
(** ** MHIPS *)
Lemma r_mhips_loop n : forall (s : hst) m r tr T u y t pind fut FT, shows_traj s tr T -> shows_traj s fut FT -> idx_at s pind (seq 0 m) ->
  sim s (h_mhips_loop hsm g n r tr u y t pind fut) (mhips_loop sm g n m r T u y t FT) (fun tr' T' s' => shows_traj s' tr' T' /\ keeps_all s s').
Proof.
  induction n; intros s m r tr T u y t pind fut FT HT HF Hp; cbn [h_mhips_loop mhips_loop].
  - apply sim_ret. split; auto. apply keeps_all_refl.
  - cbv zeta. eapply (sim_idx (shows s)); [exact HT|]. intros st v Hs. destruct (shows_pa _ _ _ Hs) as (a & Hpa & Hia). clear Hs.
    eapply s_get_pa; [exact Hpa|].
    eapply sim_bind; [eapply r_mc_step; [apply Hpa|apply (showst_firstn s (S n)); exact HT|exact Hp|exact Hp|simpl; exact HF|exact Hp]|].
    intros [q acc] [qv accv] s1 _ (Hq & _ & K1 & Lq). cbn [fst snd] in *.
    eapply (s_draw s s1); [exact K1|exact Lq|exact Hq|kp K1|kp K1|kp K1|kp K1|]. intros v' s2 pa a' K2 Hpa2.
    apply (showst_keep _ _ _ _ K2) in HT. apply (showst_keep _ _ _ _ K2) in HF. apply (k_idx _ _ _ _ K2) in Hp.
    eapply sim_post; [eapply IHn; [exact HT|eapply shows_cons; eassumption|exact Hp]|]. cbv beta. intros tr' T' s4 _ [H4 K4]. split; auto.
    eapply keeps_all_trans; eassumption.
Qed.
Lemma r_mhips_pass (s : hst) r tr T u y t m : shows_traj s tr T ->
  sim s (h_perform_mhips_pass hsm g r tr u y t m) (perform_mhips_pass sm g r T u y t m) (fun tr' T' s' => shows_traj s' tr' T' /\ keeps_all s s').
Proof.
  intros HT. unfold h_perform_mhips_pass, perform_mhips_pass. rewrite (showst_length _ _ _ HT). cbv zeta. set (L := (length T - 1)%nat). set (L2 := (length T - 2)%nat).
  pose proof (keeps_all_refl s) as Kb. revert Kb. generalize s at 1 4. intros b Kb.
  apply s_new_idx'. intros s1 pind K1 Hp _. mv K1.
  eapply (sim_last (shows s1)); [exact HT|]. intros last vl Hl. destruct (shows_pa _ _ _ Hl) as (a & Ha & Hia). clear Hl.
  eapply s_get_pa; [exact Ha|].
  eapply sim_bind; [eapply r_mc_step; [apply Ha|apply (showst_firstn s1 L); exact HT|exact Hp|exact Hp|exact Logic.I|exact Hp]|].
  intros [q acc] [qv accv] s2 _ (Hq & _ & K2 & Lq). cbn [fst snd] in *.
  eapply sim_bind; [eapply (c_sample s1 s2); [exact K2|exact Lq|exact Hq|kp K2|kp K2|kp K2|kp K2]|]. intros p' z s3 _ [Hz K3]. mv K3.
  eapply s_get_part; [exact Hz|]. apply s_new_part. intros s4 tmp K4 Ht _ _. mv K4.
  eapply s_pa_init; [exact Ht|]. intros pv s5 pa a5 K5 Hpa5. mv K5.
  eapply sim_bind; [eapply r_mhips_loop; [exact HT| |exact Hp]; eapply shows_cons; [eassumption|eassumption|constructor]|].
  intros fut FT s6 _ [HF K6]. mv K6.
  eapply (sim_idx (shows s6)); [exact HT|]. intros st0 v0 Hs. destruct (shows_pa _ _ _ Hs) as (a0 & Ha0 & _). clear Hs. eapply s_get_pa; [exact Ha0|].
  apply s_new_idx'. intros s7 n1 K7 Hn1 _. mv K7. apply s_new_idx'. intros s8 n2 K8 Hn2 _. mv K8.
  eapply sim_bind; [eapply r_mc_step; [apply Ha0|exact Logic.I|exact Hn1|exact Hn2|simpl; exact HF|exact Hp]|].
  intros [q1 acc1] [qv1 accv1] s9 _ (Hq1 & _ & K9 & Lq1). cbn [fst snd] in *.
  eapply (s_draw s8 s9); [exact K9|exact Lq1|exact Hq1|kp K9|kp K9|kp K9|kp K9|]. intros v' s10 pa2 a' K10 Hpa2. mv K10.
  apply sim_ret. split; [eapply shows_cons; eassumption|exact Kb].
Qed.
(** ** The trajectory object *)
Lemma r_hook hh h (s : hst) tr T (u : list (cell U)) (y : list (cell Y)) t m : hook_implements hh h -> (forall f, hh = Some f -> forall tr u y t m, no_write (f tr u y t m)) -> shows_traj s tr T ->
  sim s (h_hook hh tr u y t m) (hook h T u y t m) (fun tr' T' s' => shows_traj s' tr' T' /\ keeps_all s s').
Proof.
  intros H N HT. destruct hh as [f|], h as [f'|]; simpl in H; try contradiction; simpl.
  - apply c_nw; [apply N; reflexivity|]. apply H. exact HT.
  - apply sim_ret. split; auto. apply keeps_all_refl.
Qed.
Lemma r_post (s : hst) tr T u y t m : shows_traj s tr T ->
  sim s (h_hook (hs_post hsm) tr u y t m) (hook (s_post sm) T u y t m) (fun tr' T' s' => shows_traj s' tr' T' /\ keeps_all s s').
Proof. apply r_hook; [apply (si_post _ _ Im)|apply (so_post _ F)]. Qed.
Lemma r_mhips_passes n : forall (s : hst) r tr T u y t m, shows_traj s tr T ->
  sim s (h_mhips_passes hsm g n r tr u y t m) (mhips_passes sm g n r T u y t m) (fun tr' T' s' => shows_traj s' tr' T' /\ keeps_all s s').
Proof.
  induction n; intros s r tr T u y t m HT; cbn [h_mhips_passes mhips_passes].
  - apply sim_ret. split; auto. apply keeps_all_refl.
  - pose proof (keeps_all_refl s) as Kb. revert Kb. generalize s at 1 4. intros b Kb.
    eapply sim_bind; [apply r_hook; [apply (si_pre _ _ Im)|apply (so_pre _ F)|exact HT]|]. intros tr1 T1 s1 _ [H1 K1].
    eapply sim_bind; [apply r_mhips_pass; exact H1|]. intros tr2 T2 s2 _ [H2 K2].
    eapply sim_post; [eapply IHn; exact H2|]. cbv beta. intros tr3 T3 s3 _ [H3 K3]. split; auto.
    eapply keeps_all_trans; [exact Kb|]. eapply keeps_all_trans; [exact K1|]. eapply keeps_all_trans; eassumption.
Qed.
Lemma sim_seq {B D} (s : hst) (x : HM B) (v : M W D) Q (R : B -> D -> hst -> Prop) (b : hst) : keeps_all b s ->
  sim s x v (fun a d s' => Q a d s' /\ keeps_all s s') -> (forall a d s', Q a d s' -> keeps_all b s' -> R a d s') -> sim s x v R.
Proof. intros K H G. eapply sim_post; [exact H|]. cbv beta. intros a d s' _ [A B0]. apply G; auto. eapply keeps_all_trans; eassumption. Qed.
Lemma r_smooth (s : hst) (o : hptraj U Y) (v : ptraj P U Y) m method so : past_shows s o v ->
  sim s (h_smooth hsm g junk fuel o m method so) (smooth sm g junk fuel v m method so) (fun tr' S' s' => shows_traj s' tr' (sm_traj S') /\ keeps_all s s').
Proof.
  intros (Eu & Ey & Et & HT). unfold h_smooth, smooth. cbv zeta. rewrite Eu, Ey, Et.
  eapply (sim_bind s _ _ (fun tr' T' s' => shows_traj s' tr' T' /\ keeps_all s s')).
  - destruct (String.eqb method "full"); [apply r_perform_bsi; exact HT|]. destruct (String.eqb method "mcmc"); [apply r_perform_bsi; exact HT|].
    destruct (String.eqb method "rs"); [apply r_perform_bsi; exact HT|]. destruct (String.eqb method "rsas"); [apply r_perform_bsi; exact HT|].
    destruct (String.eqb method "ancestor").
    { eapply sim_bind; [apply r_perform_ancestors; exact HT|]. intros a d s' _ [H1 K1].
      eapply sim_seq; [exact K1|apply r_post; exact H1|]. auto. }
    destruct (String.eqb method "mhips" || String.eqb method "mhips_reduced")%bool.
    { eapply sim_bind; [apply r_perform_ancestors; exact HT|]. intros a d s' _ [H1 K1]. do 2 (apply sim_lift; intros ? _).
      eapply sim_seq; [exact K1|apply r_mhips_passes; exact H1|]. auto. }
    destruct (String.eqb method "mhbp"); [|apply sim_raise].
    do 2 (apply sim_lift; intros ? _). eapply sim_bind; [apply r_perform_mhbp; exact HT|]. intros h1 d s' _ [H1 K1].
    eapply sim_seq; [exact K1|apply r_post; exact H1|]. auto.
  - intros a d s' _ [H1 K1]. apply sim_map. eapply sim_seq; [exact K1|apply r_post; exact H1|]. auto.
Qed.
Lemma r_maxpdf n : forall (s : hst) (o : hptraj U Y) (v : ptraj P U Y) k lj, past_shows s o v ->
  sim s (h_maxpdf_coeffs hsm n k o lj) (maxpdf_coeffs sm n k v lj) (fun c c' s' => c = c' /\ keeps_all s s').
Proof.
  induction n; intros s o v k lj H; cbn [h_maxpdf_coeffs maxpdf_coeffs].
  - apply sim_ret. split; auto. apply keeps_all_refl.
  - pose proof H as (Eu & Ey & Et & HT). rewrite Eu, Ey, Et.
    eapply (sim_idx (shows s)); [exact HT|]. intros st x Hs. destruct (shows_pa _ _ _ Hs) as (a & Ha & Hi). clear Hs.
    eapply s_get_pa; [exact Ha|].
    eapply sim_bind; [apply (c_nw s); [apply (so_xmax _ F)|]; apply (si_xmax _ _ Im); [apply Ha|apply showst_firstn; exact HT|exact Hi]|].
    intros c c' s1 _ [<- K1].
    eapply sim_bind; [apply (IHn s1 o v (k + 1)%nat lj)|].
    + split; auto. split; auto. split; auto. eapply showst_keep; eassumption.
    + intros r r' s2 _ [<- K2]. apply sim_ret. split; auto. eapply keeps_all_trans; eassumption.
Qed.
Lemma r_default_options (s : hst) (o : hptraj U Y) (v : ptraj P U Y) method lj : past_shows s o v ->
  sim s (h_default_options hsm o method lj) (default_options sm v method lj) (fun c c' s' => c = c' /\ keeps_all s s').
Proof.
  intros H. pose proof H as (_ & _ & _ & HT). unfold h_default_options, default_options.
  destruct (String.eqb method "rs" || String.eqb method "rsas")%bool.
  - eapply (sim_bind s _ _ (fun c c' s' => c = c' /\ keeps_all s s')).
    + pose proof (showst_length _ _ _ HT) as EL. destruct (hp_traj o) as [|h0 htr] eqn:Eh, (pt_traj v) as [|v0 vtr] eqn:Ev; try (inversion HT; fail).
      * apply sim_ret. split; auto. apply keeps_all_refl.
      * rewrite EL. apply r_maxpdf. exact H.
    + intros c c' s1 _ [<- K1]. destruct (String.eqb method "rs").
      * eapply (sim_idx (shows s)); [exact HT|]. intros st x Hs. destruct (shows_pa _ _ _ Hs) as (a & Ha & Hi).
        eapply s_w_of; [eapply pa_keep; eassumption|]. apply sim_ret. auto.
      * apply sim_ret. auto.
  - destruct (String.eqb method "mcmc" || String.eqb method "mhips" || String.eqb method "mhbp")%bool; apply sim_ret; split; auto; apply keeps_all_refl.
Qed.
Lemma r_perform_smoothing (s : hst) (o : hptraj U Y) (v : ptraj P U Y) m method so lj : past_shows s o v ->
  sim s (h_perform_smoothing hsm g junk fuel o m method so lj) (perform_smoothing sm g junk fuel v m method so lj)
    (fun tr' S' s' => shows_traj s' tr' (sm_traj S') /\ keeps_all s s').
Proof.
  intros H. unfold h_perform_smoothing, perform_smoothing. eapply sim_bind; [apply r_default_options; exact H|]. intros d d' s1 _ [<- K1]. cbv zeta.
  assert (H1 : past_shows s1 o v) by (destruct H as (A & B & C & D); repeat split; auto; eapply showst_keep; eassumption).
  eapply sim_seq; [exact K1|apply r_smooth; exact H1|]. auto.
Qed.
End SRefine.
