(** The frame of ParticleTrajectory's methods on the heap.  Nothing here models code. *)
From Coq Require Import Bool Reals List Arith Lia.
From Verif Require Import Base XR SampleModel PAModel FilterModel TrajModel HeapModel HeapSpec HeapProofs.
Import ListNotations.
Local Open Scope monad_scope.

Section Traj.
Context {W P U Y V : Type}.
Notation hst := (hst W P).
Notation hmodel := (hmodel W P U Y V).
Notation HM := (@HM W P).
Notation hptraj := (hptraj U Y).
Notation PM := (@PM W P U Y).

Lemma keeps_all_refl (s : hst) : keeps_all s s.
Proof. repeat split; auto. Qed.
Lemma keeps_all_trans (s1 s2 s3 : hst) : keeps_all s1 s2 -> keeps_all s2 s3 -> keeps_all s1 s3.
Proof. intros (A & B & C & D) (A' & B' & C' & D'). repeat split; eapply keepsl_trans; eassumption. Qed.
Lemma kept_keeps_all (s s' : hst) : kept s all_loc all_loc all_loc [] s' <-> keeps_all s s'.
Proof. unfold kept, kept0, keeps_all, extends. split; [tauto|]. intros; split; [tauto|constructor]. Qed.
Lemma extends_nth {A} (l l' : list A) i a : extends l l' -> nth_error l i = Some a -> nth_error l' i = Some a.
Proof. intros [_ H] E. rewrite H; [exact E| |exact I]. apply nth_error_Some; congruence. Qed.
Lemma keeps_view (s s' : hst) st v : keeps_all s s' -> view s st = Some v -> view s' st = Some v.
Proof.
  intros (A & B & C & D) E. unfold view in *. destruct (nth_error (h_pa s) (hs_pa st)) as [a|] eqn:Ea; [|discriminate].
  destruct (nth_error (h_idx s) (hs_anc st)) as [anc|] eqn:Ei; [|discriminate].
  destruct (nth_error (h_part s) (ha_part a)) as [p|] eqn:Ep; [|discriminate].
  destruct (nth_error (h_w s) (ha_w a)) as [w|] eqn:Ew; [|discriminate].
  rewrite (extends_nth _ _ _ _ D Ea), (extends_nth _ _ _ _ C Ei), (extends_nth _ _ _ _ A Ep), (extends_nth _ _ _ _ B Ew). exact E.
Qed.

(** A step made of cells that did not exist in [s] and exist in [s']. *)
Definition new_step (s s' : hst) (st : hstep) : Prop :=
  (length (h_pa s) <= hs_pa st)%nat /\ (hs_anc st < length (h_idx s'))%nat /\
  exists a, nth_error (h_pa s') (hs_pa st) = Some a /\ (length (h_part s) <= ha_part a < length (h_part s'))%nat /\
    (length (h_w s) <= ha_w a < length (h_w s'))%nat.
Lemma owned_new' (s s' : hst) pa anc : owns s all_loc all_loc all_loc [pa] [] [] [] s' -> (anc < length (h_idx s'))%nat -> new_step s s' (mkHS pa anc).
Proof.
  intros (H & _ & _ & X) Xi. inversion H as [|? ? (Fa & a & Ea & [Fp Lp] & [Fw Lw]) _]; subst.
  unfold new_step; simpl. split; [|split; [apply Xi|]].
  - destruct (le_lt_dec (length (h_pa s)) pa) as [?|Hlt]; auto. exfalso; exact (Fa Hlt I).
  - exists a. split; auto. split; split; auto.
    + destruct (le_lt_dec (length (h_part s)) (ha_part a)) as [?|Hlt]; auto. exfalso; exact (Fp Hlt I).
    + destruct (le_lt_dec (length (h_w s)) (ha_w a)) as [?|Hlt]; auto. exfalso; exact (Fw Hlt I).
Qed.
Lemma owned_new (s s' : hst) pa anc : owns s all_loc all_loc all_loc [pa] [] [] [anc] s' -> new_step s s' (mkHS pa anc).
Proof.
  intros (H & A & B & X). apply owned_new'; [repeat split; auto|]. inversion X as [|? ? Xi _]; subst. apply Xi.
Qed.
Lemma new_step_later s1 s2 s3 st : new_step s1 s2 st -> keeps_all s2 s3 -> new_step s1 s3 st.
Proof.
  intros (A & X & a & E & B & C) (K1 & K2 & K3 & K4). split; auto. split; [destruct K3; lia|]. exists a.
  split; [eapply extends_nth; eassumption|]. destruct K1, K2. split; lia.
Qed.
Lemma new_step_earlier s1 s2 s3 st : keeps_all s1 s2 -> new_step s2 s3 st -> new_step s1 s3 st.
Proof.
  intros (K1 & K2 & K3 & K4) (A & X & a & E & B & C). destruct K1, K2, K4. split; [lia|]. split; auto. exists a. split; auto. split; lia.
Qed.

(** The steps of a trajectory: readable, and sharing neither objects nor arrays. *)
Definition apart (s : hst) (st st' : hstep) : Prop :=
  forall a a', nth_error (h_pa s) (hs_pa st) = Some a -> nth_error (h_pa s) (hs_pa st') = Some a' ->
    hs_pa st <> hs_pa st' /\ ha_part a <> ha_part a' /\ ha_w a <> ha_w a'.
Inductive growing (b : hst) : hst -> list hstep -> Prop :=
| Gr s tr : Forall (new_step b s) tr -> ForallOrdPairs (apart s) tr -> growing b s tr.

Lemma FOP_snoc {A} (R : A -> A -> Prop) l a : ForallOrdPairs R l -> Forall (fun x => R x a) l -> ForallOrdPairs R (l ++ [a]).
Proof.
  induction 1 as [|x l Hx Hl IH]; intros H; simpl; [repeat constructor|]. inversion H; subst. constructor; auto.
  apply Forall_app; split; auto.
Qed.
Lemma FOP_impl {A} (R R' : A -> A -> Prop) l : (forall x y, In x l -> In y l -> R x y -> R' x y) -> ForallOrdPairs R l -> ForallOrdPairs R' l.
Proof.
  intros H. induction 1 as [|x l Hx Hl IH]; constructor.
  - rewrite Forall_forall in *. intros y Hy. apply H; simpl; auto.
  - apply IH. intros; apply H; simpl; auto.
Qed.
Lemma growing_keeps b s s' tr : keeps_all s s' -> growing b s tr -> growing b s' tr.
Proof.
  intros K H. destruct H as [s tr Hn Ha]. constructor.
  - eapply Forall_impl; [|exact Hn]. intros st. intros; eapply new_step_later; eassumption.
  - rewrite Forall_forall in Hn. eapply FOP_impl; [|exact Ha]. intros x y Hx Hy R a a' E E'.
    destruct (Hn x Hx) as (_ & _ & ax & Ex & _). destruct (Hn y Hy) as (_ & _ & ay & Ey & _).
    destruct K as (_ & _ & _ & K4). pose proof (extends_nth _ _ _ _ K4 Ex). pose proof (extends_nth _ _ _ _ K4 Ey).
    replace a with ax by congruence. replace a' with ay by congruence. apply R; auto.
Qed.
Lemma growing_snoc b s s' tr st : keeps_all b s -> keeps_all s s' -> growing b s tr -> new_step s s' st -> growing b s' (tr ++ [st]).
Proof.
  intros Kb K H Hst. pose proof (growing_keeps _ _ _ _ K H) as H'. destruct H as [s tr Hn _]. inversion H' as [? ? Hn' Ha']; subst. constructor.
  - apply Forall_app; split; auto. constructor; auto. eapply new_step_earlier; eassumption.
  - apply FOP_snoc; auto. rewrite Forall_forall in *. intros x Hx a a' E E'.
    destruct (Hn x Hx) as (A & X & ax & Ex & B & C). destruct K as (_ & _ & _ & K4). pose proof (extends_nth _ _ _ _ K4 Ex).
    replace ax with a in * by congruence. destruct Hst as (A' & X' & ay & Ey & B' & C'). replace ay with a' in * by congruence.
    assert (hs_pa x < length (h_pa s))%nat by (apply nth_error_Some; congruence). repeat split; lia.
Qed.

(** ** Reading a method call *)
Variable hm : hmodel.
Variable g : rng W.
Hypothesis F : frame_ok hm.

(** Safe computations started in the state they are compared with. *)
Lemma run_safe {A} s (x : HM A) (Q : A -> hst -> Prop) : safe s all_loc all_loc all_loc [] (owns s all_loc all_loc all_loc [] [] [] []) x Q ->
  keeps_all s (snd (x s)) /\ match fst (x s) with Ok a => Q a (snd (x s)) | Err _ => True end.
Proof.
  intros H. destruct (H s) as [K Q1].
  - apply kept_keeps_all. apply keeps_all_refl.
  - repeat split; constructor.
  - split; [exact (proj1 (kept_keeps_all _ _) K)|exact Q1].
Qed.

Lemma run_safe' {A} s (x : HM A) (Q : A -> hst -> Prop) : safe s all_loc all_loc all_loc [] (owns s all_loc all_loc all_loc [] [] [] []) x Q ->
  keeps_all s (snd (x s)) /\ forall a, fst (x s) = Ok a -> Q a (snd (x s)).
Proof. intros H. destruct (run_safe _ _ _ H) as [K Q1]. split; auto. intros a E. rewrite E in Q1. exact Q1. Qed.

(** What a call does to the trajectory: it keeps all cells and appends new steps. *)
Definition grew (s : hst) (tr : list hstep) (s' : hst) (tr' : list hstep) : Prop :=
  keeps_all s s' /\ forall b, keeps_all b s -> growing b s tr -> growing b s' tr'.
Lemma grew_refl s tr : grew s tr s tr.
Proof. split; [apply keeps_all_refl|auto]. Qed.
Lemma grew_trans s1 t1 s2 t2 s3 t3 : grew s1 t1 s2 t2 -> grew s2 t2 s3 t3 -> grew s1 t1 s3 t3.
Proof.
  intros [K G] [K' G']. split; [eapply keeps_all_trans; eassumption|]. intros b Kb Hb. apply G'; auto. eapply keeps_all_trans; eassumption.
Qed.
Lemma grew_keeps s s' tr : keeps_all s s' -> grew s tr s' tr.
Proof. intros K; split; auto. intros; eapply growing_keeps; eassumption. Qed.
Lemma grew_snoc s s' tr st : keeps_all s s' -> new_step s s' st -> grew s tr s' (tr ++ [st]).
Proof. intros K H; split; auto. intros; eapply growing_snoc; eassumption. Qed.

(** The attributes that never change. *)
Definition same_cfg (o o' : hptraj) : Prop := hp_N o' = hp_N o /\ hp_f o' = hp_f o.
Lemma same_cfg_trans o1 o2 o3 : same_cfg o1 o2 -> same_cfg o2 o3 -> same_cfg o1 o3.
Proof. intros [A B] [C D]; split; congruence. Qed.
(** Outcome of a method call that only appends to the trajectory. *)
Definition appends (o : hptraj) (s : hst) {A} (x : res A * (hptraj * hst)) : Prop :=
  same_cfg o (fst (snd x)) /\ grew s (hp_traj o) (snd (snd x)) (hp_traj (fst (snd x))) /\
  exists new, hp_traj (fst (snd x)) = hp_traj o ++ new.

Lemma pbind {A B} (x : PM A) (f : A -> PM B) o s :
  appends o s (x (o, s)) -> (forall a o' s', x (o, s) = (Ok a, (o', s')) -> appends o' s' (f a (o', s'))) -> appends o s (ebind x f (o, s)).
Proof.
  intros Hx Hf. unfold ebind. destruct (x (o, s)) as [[a|e] [o' s']] eqn:E; [|exact Hx].
  specialize (Hf a o' s' eq_refl). destruct Hx as (C & G & new & T). destruct Hf as (C' & G' & new' & T'). simpl in *. split; [eapply same_cfg_trans; eassumption|].
  split; [eapply grew_trans; eassumption|]. exists (new ++ new'). rewrite T', T, app_assoc. reflexivity.
Qed.
Lemma app_id o s {A} (r : res A) : appends o s (r, (o, s)).
Proof. split; [split; reflexivity|]. split; [apply grew_refl|]. exists []. now rewrite app_nil_r. Qed.
Lemma app_heap {A} o s (x : HM A) : keeps_all s (snd (x s)) -> appends o s (on_heap x (o, s)).
Proof.
  intros K. unfold on_heap; simpl. destruct (x s) as [r s'] eqn:E; simpl in *. split; [split; reflexivity|]. simpl.
  split; [apply grew_keeps; exact K|]. exists []. now rewrite app_nil_r.
Qed.
Lemma app_vecs o s u y t T : appends o s (with_vecs u y t T (o, s) : res unit * (hptraj * hst)).
Proof. split; [split; reflexivity|]. split; [apply grew_refl|]. exists []. simpl. now rewrite app_nil_r. Qed.
Lemma app_ind1 o s i : appends o s (with_ind1 i (o, s) : res unit * (hptraj * hst)).
Proof. split; [split; reflexivity|]. split; [apply grew_refl|]. exists []. simpl. now rewrite app_nil_r. Qed.

Lemma first_step_appends o s : appends o s (h_first_step hm (o, s)) /\
  forall o' s', h_first_step hm (o, s) = (Ok tt, (o', s')) -> hp_traj o' <> [] /\
    (hp_traj o <> [] -> o' = o /\ s' = s).
Proof.
  assert (Hx : h_first_step hm (o, s) =
    match hp_traj o with
    | [] => ebind (with_ind1 1) (fun _ => ebind (on_heap (h_create_initial hm (hp_f o) (hp_N o)))
              (fun p => ebind (on_heap (h_pa_init p None)) (fun pa => ebind (on_heap (new_idx (seq 0 (hp_N o))))
              (fun anc => with_traj [mkHS pa anc])))) (o, s)
    | _ => (Ok tt, (o, s))
    end).
  { unfold h_first_step at 1. unfold ebind at 1, self; simpl. destruct (hp_traj o); reflexivity. }
  rewrite Hx; clear Hx. destruct (hp_traj o) as [|st0 tr0] eqn:Et.
  2:{ split; [apply app_id|]. intros o' s' E. inversion E; subst. rewrite Et. split; [discriminate|auto]. }
  unfold ebind, with_ind1, on_heap, with_traj; simpl.
  destruct (run_safe s (h_create_initial hm (hp_f o) (hp_N o)) _ (sp_create s _ _ _ [] hm F _ _)) as [K1 Q1].
  destruct (h_create_initial hm (hp_f o) (hp_N o) s) as [[p|e] s1] eqn:E1; simpl in *.
  2:{ split; [|discriminate]. split; [split; reflexivity|]. simpl. split; [rewrite Et; apply grew_keeps; auto|]. exists []. rewrite Et; reflexivity. }
  destruct (run_safe s1 (h_pa_init p None) _ (sp_pa_init s1 _ _ _ [] [] [] [] [] _ _)) as [K2 Q2].
  destruct (h_pa_init p None s1) as [[pa|e] s2] eqn:E2; simpl in *.
  2:{ split; [|discriminate]. split; [split; reflexivity|]. simpl. split; [rewrite Et; apply grew_keeps; eapply keeps_all_trans; eassumption|]. exists []. rewrite Et; reflexivity. }
  assert (K3 : keeps_all s2 (set_idxs s2 (h_idx s2 ++ [seq 0 (hp_N o)]))).
  { split; [|split; [|split]]; simpl; try apply keepsl_refl; apply keepsl_app. }
  set (s3 := set_idxs s2 (h_idx s2 ++ [seq 0 (hp_N o)])) in *.
  assert (N3 : new_step s s3 (mkHS pa (length (h_idx s2)))).
  { apply (new_step_earlier s s1); auto. apply owned_new. destruct Q2 as (A & _). split.
    - inversion A as [|? ? (Fa & a & Ea & Pa & Wa) _]; subst. constructor; [|constructor]. split; auto. exists a. auto.
    - split; [constructor|split; [constructor|]]. constructor; [|constructor]. red. subst s3; simpl. rewrite app_length; simpl. destruct K2 as (_ & _ & [? _] & _). lia. }
  split.
  - split; [split; reflexivity|]. simpl. split; [|exists [mkHS pa (length (h_idx s2))]; rewrite Et; reflexivity].
    rewrite Et. apply (grew_snoc s s3 []); auto. eapply keeps_all_trans; [exact K1|]. eapply keeps_all_trans; eassumption.
  - intros o' s' E. inversion E; subst. simpl. split; [discriminate|]. congruence.
Qed.

Lemma append_filter {A} o s (x : HM A) (mk : A -> hstep) (o' : A -> hst -> hptraj) (B : Type) (ret : A -> B)
    (k : A -> PM B) :
  keeps_all s (snd (x s)) ->
  (forall a, fst (x s) = Ok a -> new_step s (snd (x s)) (mk a)) ->
  (forall a s', k a (o, s') = (Ok (ret a), (o' a s', s'))) ->
  (forall a s', same_cfg o (o' a s') /\ hp_traj (o' a s') = hp_traj o ++ [mk a]) ->
  appends o s (ebind (on_heap x) k (o, s)).
Proof.
  intros K N Hk Ho. unfold ebind, on_heap; simpl. destruct (x s) as [[a|e] s1] eqn:E; simpl in *.
  - rewrite Hk. destruct (Ho a s1) as [C T]. split; auto. simpl. rewrite T. split; [apply grew_snoc; auto|eauto].
  - split; [split; reflexivity|]. simpl. split; [apply grew_keeps; auto|]. exists []. now rewrite app_nil_r.
Qed.

Lemma forward_appends u y o s : appends o s (h_forward hm g u y (o, s)).
Proof.
  unfold h_forward. apply pbind; [apply first_step_appends|]. intros _ o1 s1 _. clear o s.
  apply pbind; [apply app_id|]. intros o o2 s2 E. inversion E; subst. clear E.
  apply pbind; [destruct (hp_ind1 o2); apply app_id|]. intros ind o1 s1 E. assert (o1 = o2 /\ s1 = s2) as [-> ->].
  { destruct (hp_ind1 o2); inversion E; auto. } clear E.
  apply pbind; [destruct (Nat.leb _ _); [apply app_vecs|apply app_id]|]. intros _ o s _. clear o2 s2.
  apply pbind; [apply app_id|]. intros o1 o2 s2 E. inversion E; subst. clear E.
  apply pbind; [apply app_id|]. intros uv o1 s1 E. assert (o1 = o2 /\ s1 = s2) as [-> ->] by (inversion E; auto). clear E.
  apply pbind; [apply app_vecs|]. intros vv o1 s1 E. inversion E; subst; clear E.
  apply pbind; [apply app_id|]. intros yv o1 s E. inversion E; subst; clear E.
  apply pbind; [apply app_vecs|]. intros vv o1 s2 E. inversion E; subst; clear E.
  apply pbind; [apply app_id|]. intros tv o1 s E. inversion E; subst; clear E.
  apply pbind; [apply app_vecs|]. intros vv o1 s2 E. inversion E; subst; clear E.
  apply pbind; [apply app_ind1|]. intros vv o1 s E. inversion E; subst; clear E. simpl.
  destruct (run_safe' s _ _ (sp_filter_forward s _ _ _ [] hm g F (hp_f o2) (hp_N o2) (hp_traj o2) yv uv tv ind)) as [K Q].
  eapply (append_filter _ s _ (fun r => mkHS (fst (fst r)) (snd r))
    (fun r s' => mkHPT (hp_N o2) (hp_f o2) uv yv tv (hp_T o2) (ind + 2) (hp_traj o2 ++ [mkHS (fst (fst r)) (snd r)])) bool (fun r => snd (fst r))).
  - exact K.
  - intros a Ea. apply owned_new. exact (Q a Ea).
  - intros [[pa rs] anc] s'. simpl. reflexivity.
  - intros [[pa rs] anc] s'. simpl. split; [split; reflexivity|reflexivity].
Qed.

(** ** measure *)
(** What any method call does, for every heap [b] from which the trajectory grew: the cells of [b] are kept, the trajectory is
    extended, and all its steps but the last look the same. *)
Definition called (o : hptraj) (s : hst) (o' : hptraj) (s' : hst) : Prop :=
  same_cfg o o' /\ (exists new, hp_traj o' = hp_traj o ++ new) /\
  forall b, keeps_all b s -> growing b s (hp_traj o) ->
    keeps_all b s' /\ growing b s' (hp_traj o') /\
    (length (h_idx s) <= length (h_idx s'))%nat /\
    forall i st v, (S i < length (hp_traj o))%nat -> nth_error (hp_traj o) i = Some st -> view s st = Some v -> view s' st = Some v.
Lemma appends_called o s {A} (x : res A * (hptraj * hst)) : appends o s x -> called o s (fst (snd x)) (snd (snd x)).
Proof.
  intros (C & [K G] & N). split; auto. split; auto. intros b Kb Gb. split; [eapply keeps_all_trans; eassumption|].
  split; [apply G; auto|]. split; [apply K|]. intros i st v _ _. apply keeps_view; auto.
Qed.
Lemma called_refl o s : called o s o s.
Proof. apply (appends_called o s (Ok tt, (o, s))). apply app_id. Qed.
Lemma called_trans o1 s1 o2 s2 o3 s3 : called o1 s1 o2 s2 -> called o2 s2 o3 s3 -> called o1 s1 o3 s3.
Proof.
  intros (C & [new N] & H) (C' & [new' N'] & H'). split; [eapply same_cfg_trans; eassumption|].
  split; [exists (new ++ new'); rewrite N', N, app_assoc; reflexivity|]. intros b Kb Gb. destruct (H b Kb Gb) as (K2 & G2 & L2 & V2).
  destruct (H' b K2 G2) as (K3 & G3 & L3 & V3). split; auto. split; auto. split; [lia|]. intros i st v Hi E Hv. apply (V3 i).
  - rewrite N, app_length. lia.
  - rewrite N, nth_error_app1; auto. lia.
  - apply (V2 i); auto.
Qed.
Lemma cbind {A B} (x : PM A) (f : A -> PM B) o s :
  called o s (fst (snd (x (o, s)))) (snd (snd (x (o, s)))) ->
  (forall a o' s', x (o, s) = (Ok a, (o', s')) -> called o' s' (fst (snd (f a (o', s')))) (snd (snd (f a (o', s'))))) ->
  called o s (fst (snd (ebind x f (o, s)))) (snd (snd (ebind x f (o, s)))).
Proof.
  intros Hx Hf. unfold ebind. destruct (x (o, s)) as [[a|e] [o' s']] eqn:E; [|exact Hx].
  eapply called_trans; [exact Hx|]. exact (Hf a o' s' eq_refl).
Qed.

(** The measurement update of the last step. *)
Lemma measure_last o s last tr0 u y t k : hp_traj o = tr0 ++ [last] ->
  called o s o (snd (h_measure hm (hp_traj o) (hs_anc last) (hs_pa last) u y t k s)).
Proof.
  intros Et. split; [split; reflexivity|]. split; [exists []; now rewrite app_nil_r|]. intros b Kb Gb. rewrite Et in Gb |- *.
  inversion Gb as [? ? Hn Ha]; subst.
  assert (Hlast : new_step b s last) by (rewrite Forall_forall in Hn; apply Hn; apply in_or_app; simpl; auto).
  destruct Hlast as (A & X & a & Ea & B & C).
  set (s' := snd _).
  destruct (sp_measure s (but (ha_part a)) (but (ha_w a)) (but (hs_pa last)) [hs_pa last] hm F [hs_pa last] [] [] []
    (tr0 ++ [last]) (hs_anc last) (hs_pa last) u y t k (or_introl eq_refl) s) as [K _].
  { split; [repeat split; auto|]. constructor; [|constructor]. split; [intros _ H; apply H; reflexivity|].
    exists a. split; auto. split; (split; [intros _ H; apply H; reflexivity|lia]). }
  { split; [|repeat split; constructor]. constructor; [|constructor]. split; [intros _ H; apply H; reflexivity|].
    exists a. split; auto. split; (split; [intros _ H; apply H; reflexivity|lia]). }
  fold s' in K. destruct K as [(K1 & K2 & K3 & K4) O]. inversion O as [|? ? (Fa & a' & Ea' & [Fp Lp] & [Fw Lw]) _]; subst.
  (* the other steps *)
  assert (Hoth : forall st, In st tr0 -> exists c, nth_error (h_pa s) (hs_pa st) = Some c /\ nth_error (h_pa s') (hs_pa st) = Some c /\
      (ha_part c < length (h_part s))%nat /\ (ha_w c < length (h_w s))%nat /\
      hs_pa st <> hs_pa last /\ ha_part c <> ha_part a /\ ha_w c <> ha_w a).
  { intros st Hst. rewrite Forall_forall in Hn. destruct (Hn st) as (_ & _ & c & Ec & Bc & Cc); [apply in_or_app; auto|].
    assert (Hap : apart s st last).
    { clear -Ha Hst. induction tr0 as [|z tr0 IH]; simpl in *; [tauto|]. inversion Ha; subst. destruct Hst as [->|Hst]; auto.
      rewrite Forall_forall in H1. apply H1. apply in_or_app; simpl; auto. }
    destruct (Hap c a Ec Ea) as (D1 & D2 & D3). exists c. split; auto. split; [|repeat split; auto; lia].
    destruct K4 as [_ K4]. rewrite K4; auto. apply nth_error_Some; congruence. }
  split.
  - (* the cells of [b] *)
    destruct Kb as (B1 & B2 & B3 & B4). split; [|split; [|split]].
    + split; [destruct K1, B1; lia|]. intros i Hi _. destruct K1 as [_ K1], B1 as [L1 B1]. rewrite K1; [apply B1; auto; exact I|lia|].
      intros ->. lia.
    + split; [destruct K2, B2; lia|]. intros i Hi _. destruct K2 as [_ K2], B2 as [L1 B2]. rewrite K2; [apply B2; auto; exact I|lia|].
      intros ->. lia.
    + eapply keepsl_trans; eassumption.
    + split; [destruct K4, B4; lia|]. intros i Hi _. destruct K4 as [_ K4], B4 as [L1 B4]. rewrite K4; [apply B4; auto; exact I|lia|].
      intros ->. lia.
  - assert (P1 : (length (h_part b) <= ha_part a')%nat).
    { destruct (Nat.eq_dec (ha_part a') (ha_part a)) as [->|N]; [lia|]. destruct Kb as ([L _] & _).
      destruct (le_lt_dec (length (h_part s)) (ha_part a')) as [?|Hlt]; [lia|]. exfalso; exact (Fp Hlt N). }
    assert (P2 : (length (h_w b) <= ha_w a')%nat).
    { destruct (Nat.eq_dec (ha_w a') (ha_w a)) as [->|N]; [lia|]. destruct Kb as (_ & [L _] & _).
      destruct (le_lt_dec (length (h_w s)) (ha_w a')) as [?|Hlt]; [lia|]. exfalso; exact (Fw Hlt N). }
    split; [|split].
    + constructor.
      * apply Forall_app; split.
        -- rewrite Forall_forall in Hn |- *. intros st Hst. destruct (Hoth st Hst) as (c & Ec & Ec' & L1 & L2 & _).
           destruct (Hn st) as (A' & X' & c' & E' & B' & C'); [apply in_or_app; auto|]. replace c' with c in * by congruence.
           split; auto. split; [destruct K3; lia|]. exists c. split; auto. destruct K1, K2. split; lia.
        -- constructor; [|constructor]. split; auto. split; [destruct K3; lia|]. exists a'. split; auto.
      * apply FOP_snoc.
        -- apply (FOP_impl (apart s)).
           ++ intros x z Hx Hz R c c' E E'. destruct (Hoth x Hx) as (cx & Ex & Ex' & _). destruct (Hoth z Hz) as (cz & Ez & Ez' & _).
              replace c with cx by congruence. replace c' with cz by congruence. apply R; auto.
           ++ clear -Ha. induction tr0 as [|z tr0 IH]; simpl in *; [constructor|]. inversion Ha; subst. constructor; auto.
              apply Forall_app in H1. tauto.
        -- rewrite Forall_forall. intros x Hx c c' E E'. destruct (Hoth x Hx) as (cx & Ex & Ex' & L1 & L2 & D1 & D2 & D3).
           replace c with cx in * by congruence. replace c' with a' in * by congruence. split; auto. split.
           ++ intros E1. rewrite E1 in *. exact (Fp L1 D2).
           ++ intros E1. rewrite E1 in *. exact (Fw L2 D3).
    + apply K3.
    + intros i st v Hi E Hv. rewrite app_length in Hi; simpl in Hi. rewrite nth_error_app1 in E by lia.
      assert (Hst : In st tr0) by (eapply nth_error_In; eassumption).
      destruct (Hoth st Hst) as (c & Ec & Ec' & L1 & L2 & D1 & D2 & D3). unfold view in *. rewrite Ec in Hv. rewrite Ec'.
      destruct (nth_error (h_idx s) (hs_anc st)) as [anc|] eqn:Ei; [|discriminate]. rewrite (extends_nth _ _ _ _ K3 Ei).
      destruct K1 as [_ K1], K2 as [_ K2]. rewrite K1, K2 by assumption. exact Hv.
Qed.

Lemma pt_measure_called y o s : called o s (fst (snd (h_pt_measure hm y (o, s)))) (snd (snd (h_pt_measure hm y (o, s)))).
Proof.
  unfold h_pt_measure. apply cbind; [apply appends_called, app_id|]. intros o1 o2 s2 E. inversion E; subst. clear E.
  apply cbind; [apply appends_called; destruct (Nat.leb _ _); [apply app_vecs|apply app_id]|]. intros _ o s _.
  destruct (h_using_pfy (hp_f o2)).
  - apply appends_called. set (i1 := hp_ind1 o2). clearbody i1. clear o2 s2.
    apply pbind; [apply app_ind1|]. intros _ o1 s1 _. clear o s.
    apply pbind; [apply app_id|]. intros o o2 s2 E. inversion E; subst. clear E.
    apply pbind; [apply app_id|]. intros yv o1 s1 E. assert (o1 = o2 /\ s1 = s2) as [-> ->] by (inversion E; auto). clear E.
    apply pbind; [apply app_vecs|]. intros vv1 o11 s11 E. inversion E; try subst; clear E.
    apply pbind; [apply app_id|]. intros tv o12 s12 E. inversion E; try subst; clear E.
    apply pbind; [apply app_vecs|]. intros vv3 o13 s13 E. inversion E; try subst; clear E.
    set (x := match hp_f o2 with HCPFYAS ct => h_cpfyas_measure hm (hp_N o2) ct yv tv i1 | _ => h_pfy_measure hm (hp_N o2) yv tv i1 end).
    assert (Hx : forall s, keeps_all s (snd (x s)) /\ forall a, fst (x s) = Ok a -> owns s all_loc all_loc all_loc [a] [] [] [] (snd (x s))).
    { intros s. apply (run_safe' s x (fun pa => owns s all_loc all_loc all_loc [pa] [] [] [])). unfold x.
      destruct (hp_f o2); try (apply sp_pfy_measure; exact F). apply sp_cpfyas_measure; exact F. }
    clearbody x. unfold ebind, on_heap; simpl.
    match goal with |- context [set_idxs ?z _] => rename z into s2 end.
    set (s3 := set_idxs s2 _). assert (K3 : keeps_all s2 s3).
    { split; [|split; [|split]]; simpl; try apply keepsl_refl; apply keepsl_app. }
    destruct (Hx s3) as [K Q]. destruct (x s3) as [[pa|e] s4] eqn:E; simpl in *.
    + split; [split; reflexivity|]. simpl. split; [|eexists; reflexivity].
      apply grew_snoc; [eapply keeps_all_trans; eassumption|]. apply (new_step_earlier _ s3); auto. apply owned_new'; [exact (Q pa eq_refl)|].
      destruct K as (_ & _ & [L _] & _). subst s3. simpl in L. rewrite app_length in L. simpl in L. lia.
    + split; [split; reflexivity|]. simpl. split; [apply grew_keeps; eapply keeps_all_trans; eassumption|]. exists []. now rewrite app_nil_r.
  - clear o2 s2. apply cbind; [apply appends_called, first_step_appends|]. intros vv o1 s1 E. destruct vv.
    destruct (proj2 (first_step_appends o s) o1 s1 E) as [Hne _]. clear E o s.
    apply cbind; [apply appends_called, app_id|]. intros o o2 s2 E. inversion E; subst. clear E.
    apply cbind; [destruct (hp_ind1 o2); apply appends_called, app_id|]. intros ind o1 s1 E. assert (o1 = o2 /\ s1 = s2) as [-> ->].
    { destruct (hp_ind1 o2); inversion E; auto. } clear E.
    apply cbind; [apply appends_called, app_id|]. intros yv o1 s1 E. assert (o1 = o2 /\ s1 = s2) as [-> ->] by (inversion E; auto). clear E.
    apply cbind; [apply appends_called, app_vecs|]. intros vv4 o14 s14 E. inversion E; try subst; clear E.
    apply cbind; [apply appends_called, app_id|]. intros tv o15 s15 E. inversion E; try subst; clear E.
    apply cbind; [apply appends_called, app_vecs|]. intros vv6 o16 s16 E. inversion E; try subst; clear E.
    apply cbind; [apply appends_called, app_id|]. intros last o9 s9 E. inversion E as [[E1 E2 E3]]; subst o9 s9; clear E.
    match goal with |- context [on_heap _ (_, ?z)] => rename z into s2 end.
    destruct (exists_last Hne) as (tr0 & l & El).
    assert (l = last).
    { unfold idx_last in E1. rewrite El in E1. rewrite rev_unit in E1. simpl in E1. inversion E1; auto. }
    subst l. set (o := mkHPT _ _ _ _ _ _ _ _).
    pose proof (measure_last o s2 last tr0 (hp_u o2) yv tv ind El) as H. unfold on_heap. simpl in H |- *.
    destruct (h_measure hm (hp_traj o2) (hs_anc last) (hs_pa last) (hp_u o2) yv tv ind s2) as [r s3]. exact H.
Qed.
Lemma op_called p o s : called o s (fst (snd (h_op hm g p (o, s)))) (snd (snd (h_op hm g p (o, s)))).
Proof.
  destruct p as [u y|y]; simpl.
  - apply cbind; [apply appends_called, forward_appends|]. intros a o1 s1 _. apply appends_called, app_id.
  - apply pt_measure_called.
Qed.
Lemma run_called ops o s : called o s (fst (h_run hm g ops (o, s))) (snd (h_run hm g ops (o, s))).
Proof.
  revert o s. induction ops as [|p ops IH]; intros o s; simpl; [apply called_refl|].
  eapply called_trans; [apply (op_called p)|]. destruct (h_op hm g p (o, s)) as [r [o1 s1]]. apply IH.
Qed.
End Traj.
