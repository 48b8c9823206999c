(** Lemmas for C85. *)
From Coq Require Import String Bool Reals Lra Lia List Arith.
From Verif Require Import Base XR SampleModel SampleSpec PAModel WeightSpec WeightProofs
  FilterModel TrajModel FilterSpec FilterProofs TrajProofs FilterTotal FilterSem FilterProtoSpec.
Import ListNotations.
Open Scope nat_scope.

Lemma bind_ext {W A B} (x x' : M W A) (f f' : A -> M W B) w :
  x w = x' w -> (forall a w', x w = Ok (a, w') -> f a w' = f' a w') -> bind x f w = bind x' f' w.
Proof. intros E H. unfold bind. rewrite <- E. destruct (x w) as [[a w']|e]; auto. Qed.
Lemma bind_lift_ext {W A B} (x : res A) (f f' : A -> M W B) w :
  (forall a, x = Ok a -> f a w = f' a w) -> bind (lift x) f w = bind (lift x) f' w.
Proof. intros H. unfold bind, lift. destruct x as [a|e]; auto. Qed.
Lemma bind_lift_at {W A B} (x : res A) (f f' : A -> M W B) w a :
  x = Ok a -> f a w = f' a w -> bind (lift x) f w = bind (lift x) f' w.
Proof. intros -> H. unfold bind, lift. auto. Qed.

Section Proto.
Context {W P U Y V : Type}.
Variables (g : rng W) (m m' : fmodel W P U Y V) (N k : nat) (us : list (option (option U))) (ys : list (option Y)) (u : option U) (y : option Y).
Hypothesis HS : same_forward_calls N k us ys u y m m'.
Variables (tr : list (tstep P)) (uv : list (cell U)) (yv : list (cell Y)) (tv : list nat).
Hypotheses (Htr : length tr = k + 1) (Hu : shows_u us uv) (Hy : shows_y ys yv) (Lu : k + 1 <= length uv) (Ly : k + 2 <= length yv) (Lus : length us = k + 1) (Lys : length ys = k + 2)
  (Ht : firstn (k + 2) tv = seq 0 (k + 2)) (Nu : nth_error uv k = Some (cell_of u)) (Ny : nth_error yv (k + 1) = Some (cell_of y)).

Lemma seq_firstn a b : a <= b -> firstn a (seq 0 b) = seq 0 a.
Proof. intros H. replace b with (a + (b - a)) by lia. rewrite seq_app, firstn_app, seq_length, Nat.sub_diag, firstn_O, app_nil_r. rewrite <- (seq_length a 0) at 1. apply firstn_all. Qed.
Lemma firstn_t1 : firstn (k + 1) tv = seq 0 (k + 1).
Proof. replace (firstn (k + 1) tv) with (firstn (k + 1) (firstn (k + 2) tv)) by (rewrite firstn_firstn; f_equal; lia). rewrite Ht. apply seq_firstn. lia. Qed.
Lemma nth_seq0 n j : j < n -> nth_error (seq 0 n) j = Some j.
Proof. intros H. rewrite (nth_error_nth' _ 0) by (rewrite seq_length; auto). rewrite seq_nth by auto. reflexivity. Qed.
Lemma nth_t j : j < k + 2 -> idx tv j = Ok j.
Proof. intros Hj. apply idx_ok. rewrite <- (nth_error_firstn_lt tv (k + 2) j Hj), Ht. apply nth_seq0; auto. Qed.
Lemma shows_u_firstn n : length us <= n -> shows_u us (firstn n uv).
Proof. intros Hn j a Ha. rewrite nth_error_firstn_lt; [apply Hu; auto|]. apply nth_error_None_lt in Ha. lia. Qed.
Lemma shows_y_firstn n : shows_y (firstn n ys) (firstn n yv).
Proof.
  intros j a Ha. assert (Hj : j < n) by (apply nth_error_None_lt in Ha; rewrite firstn_length in Ha; lia).
  rewrite (nth_error_firstn_lt ys n j Hj) in Ha. rewrite (nth_error_firstn_lt yv n j Hj). apply Hy; auto.
Qed.
Lemma shows_y_all : shows_y ys (firstn (k + 2) yv).
Proof. rewrite <- (firstn_all ys) at 1. rewrite Lys. apply shows_y_firstn. Qed.

Lemma ext_pa_resample pa n w : pa_resample g (m_copy m) pa n w = pa_resample g (m_copy m') pa n w.
Proof. unfold pa_resample. repeat first [reflexivity|apply (sf_copy _ _ _ _ _ _ _ _ HS)|apply bind_lift_ext; intros|apply bind_ext; [|intros]]. Qed.
Lemma ext_maybe thr pa w : maybe_resample m g thr pa w = maybe_resample m' g thr pa w.
Proof.
  unfold maybe_resample. destruct (Rltb 0 thr); [|reflexivity]. apply bind_lift_ext. intros ne _. destruct (xltb ne _); [|reflexivity].
  apply bind_ext; [apply ext_pa_resample|reflexivity].
Qed.
Lemma ext_update anc pa w : pf_update m tr anc uv yv tv k pa w = pf_update m' tr anc uv yv tv k pa w.
Proof.
  unfold pf_update. rewrite firstn_t1.
  assert (L1 : length (firstn (k + 1) uv) = k + 1) by (rewrite firstn_length; lia).
  assert (L2 : length (firstn (k + 1) yv) = k + 1) by (rewrite firstn_length; lia).
  apply bind_ext; [apply (sf_noise _ _ _ _ _ _ _ _ HS); auto; apply shows_u_firstn; lia|]. intros v w' _.
  apply bind_ext; [|reflexivity]. apply (sf_update _ _ _ _ _ _ _ _ HS); auto; [apply shows_u_firstn; lia|apply shows_y_firstn].
Qed.
Lemma ext_measure anc pa w : pf_measure m tr anc pa uv yv tv (k + 1) w = pf_measure m' tr anc pa uv yv tv (k + 1) w.
Proof.
  unfold pf_measure. replace (k + 1 + 1) with (k + 2) by lia. rewrite Ht.
  apply bind_ext; [|reflexivity]. apply (sf_measure _ _ _ _ _ _ _ _ HS); auto; [rewrite firstn_length; lia|apply shows_y_all].
Qed.
Lemma ext_xnext p pind fp find w : m_xnext1 m p (firstn k tr) pind fp find uv yv tv k w = m_xnext1 m' p (firstn k tr) pind fp find uv yv tv k w.
Proof. apply (sf_xnext1 _ _ _ _ _ _ _ _ HS); auto. rewrite firstn_length. lia. Qed.
Lemma ext_tail ct anc pa w : cpf_tail m ct tr anc yv uv tv k pa w = cpf_tail m' ct tr anc yv uv tv k pa w.
Proof.
  unfold cpf_tail. apply bind_ext; [apply ext_update|]. intros pa1 w1 _. do 4 (apply bind_lift_ext; intros). destruct (is_none _); [reflexivity|].
  apply bind_ext; [apply ext_measure|reflexivity].
Qed.

(** the measurement a 'PFY' proposal gets must be the one of this step *)
Definition last_ok (f : filt P) : Prop := match f with FPFY _ => idx_last yv = Ok (cell_of y) /\ idx_last tv = Ok (k + 1) | _ => True end.

Ltac go := repeat first
  [ reflexivity
  | apply ext_xnext
  | apply (sf_copy _ _ _ _ _ _ _ _ HS) | apply (sf_copy_all _ _ _ _ _ _ _ _ HS)
  | apply (sf_qsample _ _ _ _ _ _ _ _ HS) | apply (sf_logp_q _ _ _ _ _ _ _ _ HS) | apply (sf_logp_xnext _ _ _ _ _ _ _ _ HS)
  | apply (sf_meas1 _ _ _ _ _ _ _ _ HS) | apply (sf_propose_y _ _ _ _ _ _ _ _ HS) | apply (sf_stage1 _ _ _ _ _ _ _ _ HS)
  | apply ext_update | apply ext_measure | apply ext_tail | apply ext_maybe | apply ext_pa_resample
  | apply (bind_lift_at _ _ _ _ _ (proj2 (idx_ok _ _ _) Nu))
  | apply (bind_lift_at _ _ _ _ _ (proj2 (idx_ok _ _ _) Ny))
  | apply (bind_lift_at _ _ _ _ _ (nth_t k ltac:(lia)))
  | apply (bind_lift_at _ _ _ _ _ (nth_t (k + 1) ltac:(lia)))
  | apply bind_lift_ext; intros
  | apply bind_ext; [|intros] ].

Lemma ext_forward f n w : last_ok f -> filter_forward m g f n tr yv uv tv k w = filter_forward m' g f n tr yv uv tv k w.
Proof.
  intros HL. destruct f as [thr|thr|thr|thr|ct|ct|ct|ct]; cbn [filter_forward].
  - unfold pf_forward. do 2 (apply bind_lift_ext; intros). apply bind_ext; [apply ext_maybe|]. intros [[pa fl] anc] w1 _. go.
  - unfold apf_forward. do 2 (apply bind_lift_ext; intros). apply (bind_lift_at _ _ _ _ _ (proj2 (idx_ok _ _ _) Ny)).
    apply bind_ext; [destruct (is_none _); [reflexivity|go]|]. intros [pa l1] w1 _.
    apply bind_ext; [destruct (Reqb thr 0); reflexivity|]. intros c w2 _.
    apply bind_ext; [destruct c; [|reflexivity]; apply bind_ext; [apply ext_pa_resample|reflexivity]|]. intros [[[pa1 fl] anc] l2] w3 _. go.
  - unfold pfy_forward. apply bind_lift_ext; intros. apply bind_ext; [go|]. intros cp w1 _. apply bind_lift_ext; intros.
    apply bind_ext; [apply ext_maybe|]. intros [[pa fl] anc] w2 _. destruct HL as [L1 L2].
    apply (bind_lift_at _ _ _ _ _ L1). apply (bind_lift_at _ _ _ _ _ L2). go.
  - unfold sir_forward. do 2 (apply bind_lift_ext; intros). apply bind_ext; [apply ext_maybe|]. intros [[pa fl] anc] w1 _. go.
  - unfold cpfyas_forward. go.
  - unfold cpfas_forward. go.
  - unfold cpf_forward. go.
  - unfold csiras_forward. go.
Qed.
End Proto.

Section Traj.
Context {W P U Y V : Type}.
Variables (g : rng W) (m m' : fmodel W P U Y V).

Lemma ext_initial N f w : (forall w, m_create m N w = m_create m' N w) -> initial_step m f N w = initial_step m' f N w.
Proof.
  intros H. unfold initial_step. apply bind_ext; [|reflexivity]. unfold create_initial.
  destruct f; repeat first [apply H|apply bind_ext; [apply H|reflexivity]].
Qed.

Lemma forward_same (s : ptraj P U Y) l u y w : book s l -> ((exists thr, pt_f s = FPFY thr) -> pt_T s <= pt_ind1 s) ->
  same_filter_calls (pt_N s) (ledger_step (using_pfy (pt_f s)) l (Fwd u y)) (Fwd u y) m m' ->
  pt_forward m g s u y w = pt_forward m' g s u y w.
Proof.
  destruct l as [us ys]. intros (B1 & B2 & B3 & B4 & B5 & B6 & B7 & B8 & B9 & B10 & B11) HT HS. cbn [same_filter_calls] in HS.
  set (l' := ledger_step (using_pfy (pt_f s)) (us, ys) (Fwd u y)) in *.
  unfold pt_forward. apply bind_ext.
  { destruct (pt_traj s); [|reflexivity]. apply bind_ext; [|reflexivity]. apply ext_initial. apply (sf_create _ _ _ _ _ _ _ _ HS). }
  intros [tr ind] w1 H1. rewrite if4.
  set (uv := if Nat.leb (pt_T s) (ind + 1) then resize CZero (ind + 1) (pt_u s) else pt_u s).
  set (yv := if Nat.leb (pt_T s) (ind + 1) then resize CZero (ind + 2) (pt_y s) else pt_y s).
  set (tv := if Nat.leb (pt_T s) (ind + 1) then resize 0 (ind + 2) (pt_t s) else pt_t s).
  set (TT := if Nat.leb (pt_T s) (ind + 1) then ind + 2 else pt_T s).
  cbv beta iota.
  assert (Htr : length tr = ind + 1 /\ ((ys = [] /\ ind = 0) \/ (ys <> [] /\ length ys = ind + 1)) /\ ind <= pt_ind1 s).
  { destruct (pt_traj s) as [|st tr0] eqn:Etr.
    - minv H1. split; auto. split; [|lia]. left. destruct ys; [auto|discriminate].
    - destruct (pt_ind1 s) as [|i] eqn:Ei; minv H1. simpl in *.
      split; [lia|]. split; [|lia]. right. split; [|lia]. intros ->. discriminate. }
  assert (HT' : (exists thr, pt_f s = FPFY thr) -> pt_T s <= ind + 1).
  { intros Q. specialize (HT Q). destruct Htr as (_ & [[-> ->]|[_ L]] & _); [simpl in *; lia|]. lia. }
  clear H1. destruct Htr as (Ltr & Hcase & Hind).
  apply bind_lift_ext. intros uv' Hu. apply bind_lift_ext. intros yv' Hy. apply bind_lift_ext. intros tv' Ht.
  pose proof (upd_nth _ _ _ _ Hu) as Nu. pose proof (upd_nth _ _ _ _ Hy) as Ny. pose proof (upd_nth _ _ _ _ Ht) as Nt.
  pose proof (upd_length _ _ _ _ Hu) as Lu. pose proof (upd_length _ _ _ _ Hy) as Ly. pose proof (upd_length _ _ _ _ Ht) as Lt.
  assert (Eu : nth_error uv' ind = Some (cell_of u)) by (rewrite Nu, Nat.eqb_refl; reflexivity).
  assert (Ey : nth_error yv' (ind + 1) = Some (cell_of y)) by (rewrite Ny, Nat.eqb_refl; reflexivity).
  assert (Et : nth_error tv' (ind + 1) = Some (ind + 1)) by (rewrite Nt, Nat.eqb_refl; reflexivity).
  assert (Gt : forall j, j < ind + 2 -> nth_error tv' j = Some j).
  { intros j Hj. rewrite Nt. destruct (Nat.eqb_spec j (ind + 1)) as [->|Hn]; auto. destruct Hcase as [[-> ->]|[Hne Ln]].
    - replace j with 0 by lia. apply grow_nth; auto. lia.
    - apply grow_nth; [|lia]. apply B6. lia. }
  assert (A : length (fst l') = ind + 1 /\ length (snd l') = ind + 2 /\ shows_u (fst l') uv' /\ shows_y (snd l') yv').
  { unfold l'. destruct Hcase as [[-> ->]|[Hne Ln]].
    - simpl. destruct us; [|simpl in B3; lia]. repeat split; auto.
      + intros [|j] a Hj; simpl in Hj; [|destruct j; discriminate]. inversion Hj; subst. exact Eu.
      + intros [|[|j]] a Hj; simpl in Hj; [| |destruct j; discriminate]; inversion Hj; subst; [|exact Ey].
        rewrite Ny. change (nth_error yv 0 = Some CNone). unfold yv. apply grow_nth; [exact (B11 eq_refl)|lia].
    - assert (El : ledger_step (using_pfy (pt_f s)) (us, ys) (Fwd u y) = (us ++ [Some u], ys ++ [y])) by (destruct ys; [congruence|auto]).
      rewrite El. simpl. rewrite !app_length. simpl. split; [lia|]. split; [lia|]. split.
      + intros j z Hz. rewrite nth_error_snoc in Hz. rewrite Nu. replace (length us) with ind in Hz by lia.
        destruct (j =? ind) eqn:E; [congruence|]. apply grow_nth; auto. apply nth_error_None_lt in Hz. lia.
      + intros j z Hz. rewrite nth_error_snoc in Hz. rewrite Ny, Ln in *.
        destruct (j =? ind + 1) eqn:E; [congruence|]. apply grow_nth; auto. apply nth_error_None_lt in Hz. lia. }
  destruct A as (Lus & Lys & Su & Sy). replace (length (snd l') - 2) with ind in HS by lia.
  assert (Ft : firstn (ind + 2) tv' = seq 0 (ind + 2)).
  { apply nth_error_ext. intros j. destruct (Nat.lt_ge_cases j (ind + 2)) as [Hj|Hj].
    - rewrite nth_error_firstn_lt, Gt, nth_seq0; auto.
    - rewrite !(proj2 (nth_error_None _ _)); auto; [rewrite seq_length; lia|rewrite firstn_length; lia]. }
  apply bind_ext; [|reflexivity].
  apply (ext_forward g m m' (pt_N s) ind (fst l') (snd l') u y HS); auto.
  - apply nth_error_None_lt in Eu. lia.
  - apply nth_error_None_lt in Ey. lia.
  - destruct (pt_f s) eqn:Ef; cbn [last_ok]; auto.
    assert (T1 : Nat.leb (pt_T s) (ind + 1) = true) by (apply Nat.leb_le; apply HT'; eauto).
    unfold yv in Ly. unfold tv in Lt. rewrite T1 in Ly, Lt. rewrite resize_length in Ly. rewrite resize_length in Lt.
    split.
    + rewrite <- (firstn_all yv'), Ly. replace (ind + 2) with (ind + 1 + 1) by lia. apply idx_last_firstn. exact Ey.
    + rewrite <- (firstn_all tv'), Lt. replace (ind + 2) with (ind + 1 + 1) by lia. apply idx_last_firstn. exact Et.
Qed.

Lemma measure_same (s : ptraj P U Y) l y w : book s l ->
  same_filter_calls (pt_N s) (ledger_step (using_pfy (pt_f s)) l (Meas y)) (Meas y) m m' ->
  pt_measure m s y w = pt_measure m' s y w.
Proof.
  destruct l as [us ys]. intros (B1 & B2 & B3 & B4 & B5 & B6 & B7 & B8 & B9 & B10 & B11) HS. cbn [same_filter_calls] in HS.
  set (l' := ledger_step (using_pfy (pt_f s)) (us, ys) (Meas y)) in *.
  unfold pt_measure. rewrite if4, B2. set (n := length ys) in *.
  set (uv := if Nat.leb (pt_T s) n then resize CZero (n + 1) (pt_u s) else pt_u s).
  set (yv := if Nat.leb (pt_T s) n then resize CZero (n + 1) (pt_y s) else pt_y s).
  set (tv := if Nat.leb (pt_T s) n then resize 0 (n + 1) (pt_t s) else pt_t s).
  set (TT := if Nat.leb (pt_T s) n then n + 1 else pt_T s).
  cbv beta iota.
  assert (Gy : forall k z, nth_error ys k = Some z -> nth_error yv k = Some (cell_of z)).
  { intros k z Hz. apply grow_nth; auto. apply nth_error_None_lt in Hz. unfold n. lia. }
  assert (Gu : forall k z, nth_error us k = Some (Some z) -> nth_error uv k = Some (cell_of z)).
  { intros k z Hz. apply grow_nth; auto. apply nth_error_None_lt in Hz. unfold n. lia. }
  assert (Gt : forall k, k < n -> nth_error tv k = Some k).
  { intros k Hk. apply grow_nth; auto. lia. }
  assert (G0 : nth_error tv 0 = Some 0) by (apply grow_nth; auto; lia).
  destruct (using_pfy (pt_f s)) eqn:Ef.
  - assert (El : length (snd l') - 1 = n).
    { unfold l'. destruct ys as [|y0 ys0] eqn:Ey; [reflexivity|]. cbn [ledger_step snd]. rewrite app_length. simpl. unfold n. simpl. lia. }
    rewrite El in HS. apply bind_lift_ext. intros yv' Hy. apply bind_lift_ext. intros tv' Ht.
    pose proof (upd_nth _ _ _ _ Hy n) as Ny. pose proof (upd_nth _ _ _ _ Ht n) as Nt. rewrite Nat.eqb_refl in Ny, Nt.
    apply idx_ok in Ny, Nt. apply bind_ext; [|reflexivity].
    destruct (pt_f s) eqn:Eff; try discriminate; unfold pfy_measure, cpfyas_measure;
      apply (bind_lift_at _ _ _ _ _ Ny); apply (bind_lift_at _ _ _ _ _ Nt); apply bind_ext; try reflexivity; apply (sm_propose_y _ _ _ _ _ _ _ HS).
  - apply bind_ext.
    { destruct (pt_traj s); [|reflexivity]. apply bind_ext; [|reflexivity]. apply ext_initial. apply (sm_create _ _ _ _ _ _ _ HS). }
    intros [tr ind] w1 H1.
    assert (Htr : length tr = ind + 1 /\ ((ys = [] /\ ind = 0) \/ (ys <> [] /\ n = ind + 1))).
    { unfold n in *. destruct (pt_traj s) as [|st tr0] eqn:Etr.
      - minv H1. split; auto. left. destruct ys; [auto|discriminate].
      - rewrite <- B1 in H1. simpl in H1. minv H1. simpl in *.
        split; [lia|]. right. split; [|lia]. intros ->. discriminate. }
    clear H1. destruct Htr as [Ltr Hcase].
    apply bind_lift_ext. intros yv' Hy. apply bind_lift_ext. intros tv' Ht. apply bind_lift_ext. intros last Hl.
    pose proof (upd_nth _ _ _ _ Hy) as Ny. pose proof (upd_nth _ _ _ _ Ht) as Nt.
    pose proof (upd_length _ _ _ _ Hy) as Ly. pose proof (upd_length _ _ _ _ Ht) as Lt.
    assert (Ey : nth_error yv' ind = Some (cell_of y)) by (rewrite Ny, Nat.eqb_refl; reflexivity).
    assert (A : length (snd l') = ind + 1 /\ fst l' = us /\ shows_y (snd l') yv').
    { unfold l'. destruct Hcase as [[Hys ->]|[Hne Ln]].
      - rewrite Hys. simpl. repeat split; auto. intros [|j] a Hj; [|destruct j; discriminate]. inversion Hj; subst. exact Ey.
      - assert (El : ledger_step false (us, ys) (Meas y) = (us, set_last ys y)) by (destruct ys; [congruence|auto]).
        rewrite El. simpl. rewrite set_last_length by auto. fold n. repeat split; auto.
        intros k z Hz. rewrite set_last_nth in Hz by auto. fold n in Hz. rewrite Ny.
        replace (n - 1) with ind in Hz by lia. destruct (k =? ind); [congruence|auto]. }
    destruct A as (Lys & Eus & Sy). replace (length (snd l') - 1) with ind in HS by lia.
    apply bind_ext; [|reflexivity]. unfold pf_measure.
    assert (Ft : firstn (ind + 1) tv' = seq 0 (ind + 1)).
    { apply nth_error_ext. intros j. destruct (Nat.lt_ge_cases j (ind + 1)) as [Hj|Hj].
      - rewrite nth_error_firstn_lt, nth_seq0 by auto. rewrite Nt. destruct (Nat.eqb_spec j ind) as [->|Hn]; auto.
        destruct Hcase as [[_ ->]|[_ Ln]]; [lia|]. apply Gt. lia.
      - rewrite !(proj2 (nth_error_None _ _)); auto; [rewrite seq_length; lia|rewrite firstn_length; lia]. }
    rewrite Ft. apply bind_ext; [|reflexivity]. apply (sm_measure _ _ _ _ _ _ _ HS); auto.
    + rewrite Eus. intros j a Ha. apply Gu. exact Ha.
    + rewrite firstn_length. apply nth_error_None_lt in Ey. lia.
    + intros j a Ha. rewrite nth_error_firstn_lt; [apply Sy; auto|]. apply nth_error_None_lt in Ha. lia.
Qed.
End Traj.
