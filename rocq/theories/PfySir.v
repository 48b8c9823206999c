(** Lemmas for C86: 'PFY' is 'SIR' with the proposal's density in the role of the measurement density. *)
From Coquelicot Require Import Coquelicot.
From Coq Require Import ZArith String Bool Reals Lra Lia List Arith.
From Verif Require Import Base XR SampleModel SampleSpec SampleProofs PAModel WeightSpec WeightProofs
  FilterModel TrajModel FilterSpec FilterProofs TrajProofs FilterTotal Prop_Sample Prop_Weights FilterSem Prop_Law Prop_Filter EvidenceSpec Evidence
  SirSpec Sir PfySirSpec FilterProto.
Import ListNotations.
Open Scope R_scope.

Lemma zipw_cancel : forall (ls : list R) (nw : list xr), length ls = length nw ->
  exists sm, zipw xadd (map Fin ls) nw = Ok sm /\ zipw xsub sm (map Fin ls) = Ok nw.
Proof.
  induction ls as [|a ls IH]; intros [|z nw] L; try discriminate; [exists []; auto|].
  destruct (IH nw) as (sm & E1 & E2); [simpl in L; lia|]. exists (xadd (Fin a) z :: sm).
  cbn [map zipw]. rewrite E1. split; [reflexivity|]. cbn [zipw]. rewrite E2. cbn [rbind]. repeat f_equal.
  destruct z as [| | |r]; cbn; auto. f_equal. ring.
Qed.

Lemma bl {W A B} (x : res A) (f : A -> M W B) w a : x = Ok a -> bind (lift x) f w = f a w.
Proof. intros ->. reflexivity. Qed.
Lemma bok {W A B} (x : M W A) (f : A -> M W B) w a w' : x w = Ok (a, w') -> bind x f w = f a w'.
Proof. unfold bind. intros ->. reflexivity. Qed.
Lemma bret {W A B} (a : A) (f : A -> M W B) w : bind (ret a) f w = f a w.
Proof. reflexivity. Qed.
Lemma add_weights_part {P} (pa : papprox P) (q : list P) nw :
  add_weights (mkPA q (lw pa) (num pa) (woff pa)) nw = dor pa2 <- add_weights pa nw ; Ok (mkPA q (lw pa2) (num pa2) (woff pa2)).
Proof.
  unfold add_weights. cbn [lw part num woff]. destruct (xmax nw) as [m|]; [|reflexivity]. cbn [rbind]. cbv zeta.
  destruct (zipw xadd (lw pa) _) as [w|]; [|reflexivity]. cbn [rbind]. destruct (xmax w) as [m2|]; reflexivity.
Qed.

Section Call.
Context {W P U Y V V' : Type}.
Variables (g : rng W) (b : bmodel W P U Y V) (b' : bmodel W P U Y V').
Hypothesis Hg : rng_ok g.
Hypothesis Hsh : shape_ok (full_of_basic b).
Hypothesis HS : as_importance b b'.

Lemma pfy_is_sir N thr pre old yv uv tv u y w :
  Forall (step_wf N) (pre ++ [old]) ->
  nth_error uv (length pre) = Some u -> nth_error yv (length pre + 1) = Some y ->
  nth_error tv (length pre) = Some (length pre) -> nth_error tv (length pre + 1) = Some (length pre + 1)%nat ->
  idx_last yv = Ok y -> idx_last tv = Ok (length pre + 1)%nat ->
  pfy_forward (full_of_basic b) g N thr (pre ++ [old]) yv uv tv (length pre) w =
  sir_forward (full_of_basic b') g thr (pre ++ [old]) yv uv tv (length pre) w.
Proof.
  intros Fwf Nu Ny Nt Nt1 Ly Lt. pose proof (old_wf _ _ _ Fwf) as Owf.
  pose proof (old_pa_wf N old (Fin 0) Owf) as Hw. destruct Owf as (O1 & O2 & O3 & O4 & O5).
  assert (Ei : idx_last (pre ++ [old]) = Ok old) by apply idx_last_app.
  assert (Ep : pa_init (part (st_pa old)) (Some (lw (st_pa old))) = Ok (mkPA (part (st_pa old)) (lw (st_pa old)) N (Fin 0))).
  { unfold pa_init. rewrite O1. reflexivity. }
  assert (Ec : idx (pre ++ [old]) (length pre) = Ok old).
  { apply idx_ok. rewrite nth_error_app2, Nat.sub_diag by lia. reflexivity. }
  apply idx_ok in Nu, Ny, Nt, Nt1.
  unfold pfy_forward, sir_forward.
  rewrite !(bl _ _ _ _ Ei).
  change (m_copy_all (full_of_basic b) (part (st_pa old))) with (@ret W _ (part (st_pa old))). rewrite bret.
  rewrite !(bl _ _ _ _ Ep).
  apply bind_ext; [reflexivity|]. intros [[pa fl] anc] w1 Hm.
  pose proof (maybe_resample_parts _ _ _ _ _ _ _ _ _ _ Hw Hm) as Hpt. cbn [part] in Hpt.
  destruct (maybe_resample_shape (full_of_basic b) g Hg Hsh thr _ _ _ _ _ _ _ Hw Hm) as [(P1 & P2 & P3) [A1 A2]].
  rewrite (bl _ _ _ _ Ly), (bl _ _ _ _ Lt), (bl _ _ _ _ Nu), (bl _ _ _ _ Ny), (bl _ _ _ _ Nt), (bl _ _ _ _ Nt1).
  cbn [full_of_basic m_propose_y m_qsample].
  apply bind_ext; [rewrite (ai_qsample _ _ HS); reflexivity|]. intros partn w2 Hp.
  pose proof (sh_propose_y _ Hsh _ _ _ _ _ _ Hp) as Lpn.
  assert (Lps : length partn = length (part pa)) by (cbn in Lpn; lia).
  destruct (ai_density _ _ HS (part pa) partn u y (length pre) ltac:(lia)) as (ls & Lls & HE).
  rewrite (bl _ _ _ _ Ec), (bl _ _ _ _ Hpt).
  destruct (take_ok (st_anc old) anc) as [pind Epi]; [rewrite O4; exact A2|]. rewrite (bl _ _ _ _ Epi).
  cbn [m_xnext1 m_logp_q m_logp_xnext m_meas1 full_of_basic]. rewrite (bok _ _ _ _ _ (proj1 (HE w2))).
  apply bind_ext.
  { unfold def_xnext1. assert (Es : take partn (seq 0 N) = Ok partn) by (rewrite <- P1, <- Lps; apply take_seq).
    rewrite (bl _ _ _ _ Es), (bl _ _ _ _ Nu), (bl _ _ _ _ Nt). symmetry. apply (ai_xnext _ _ HS). }
  intros wn w3 Hx. rewrite (bok _ _ _ _ _ (proj2 (HE w3))). cbn [fst snd].
  pose proof (sh_xnext1 _ Hsh _ _ _ _ _ _ _ _ _ _ _ _ Hx) as Lwn.
  destruct (zipw_cancel ls wn ltac:(lia)) as (sm & Z1 & Z2).
  rewrite (bl _ _ _ _ Z1), (bl _ _ _ _ Z2).
  rewrite (add_weights_part pa partn).
  unfold bind, lift. destruct (add_weights pa wn) as [pa2|e]; reflexivity.
Qed.
End Call.

Section State.
Context {W P U Y V V' : Type}.
Variables (g : rng W) (b : bmodel W P U Y V) (b' : bmodel W P U Y V').
Hypothesis Hg : rng_ok g.
Hypothesis Hsh : shape_ok (full_of_basic b).
Hypothesis HS : as_importance b b'.

Lemma pfy_forward_state N thr (s : ptraj P U Y) l u y w :
  (0 < N)%nat -> pt_N s = N -> pt_f s = FPFY thr -> book s l -> traj_wf N (pt_traj s) -> (pt_T s <= pt_ind1 s)%nat ->
  pt_forward (full_of_basic b) g s u y w =
  match pt_forward (full_of_basic b') g (with_filter (FSIR thr) s) u y w with
  | Ok ((s', fl), w') => Ok ((with_filter (FPFY thr) s', fl), w')
  | Err e => Err e
  end.
Proof.
  intros HN EN Ef Bk Wf HT. destruct l as [us ys].
  destruct Bk as (B1 & B2 & B3 & B4 & B5 & B6 & B7 & B8 & B9 & B10 & B11).
  assert (HT' : forall i, pt_ind1 s = S i -> Nat.leb (pt_T s) (i + 1) = true) by (intros; apply Nat.leb_le; lia).
  assert (Q : forall (tr : list (tstep P)) ind w1, length tr = (ind + 1)%nat -> Forall (step_wf N) tr -> (pt_T s <= ind + 1)%nat ->
     (ind <= pt_ind1 s)%nat -> (ind = pt_ind1 s -> ind = 0)%nat ->
     (let '(uv, yv, tv, TT) :=
        if Nat.leb (pt_T s) (ind + 1)
        then (resize CZero (ind + 1) (pt_u s), resize CZero (ind + 2) (pt_y s), resize 0%nat (ind + 2) (pt_t s), (ind + 2)%nat)
        else (pt_u s, pt_y s, pt_t s, pt_T s) in
      do uv <- lift (upd uv ind (cell_of u)) ; do yv <- lift (upd yv (ind + 1) (cell_of y)) ; do tv <- lift (upd tv (ind + 1) (ind + 1)%nat) ;
      do r <- pfy_forward (full_of_basic b) g (pt_N s) thr tr yv uv tv ind ;
      let '(pa, resampled, anc) := r in
      ret (mkPT (pt_N s) (FPFY thr) uv yv tv TT (ind + 2) (tr ++ [mkStep pa anc]), resampled)) w1 =
     match (let '(uv, yv, tv, TT) :=
        if Nat.leb (pt_T s) (ind + 1)
        then (resize CZero (ind + 1) (pt_u s), resize CZero (ind + 2) (pt_y s), resize 0%nat (ind + 2) (pt_t s), (ind + 2)%nat)
        else (pt_u s, pt_y s, pt_t s, pt_T s) in
      do uv <- lift (upd uv ind (cell_of u)) ; do yv <- lift (upd yv (ind + 1) (cell_of y)) ; do tv <- lift (upd tv (ind + 1) (ind + 1)%nat) ;
      do r <- sir_forward (full_of_basic b') g thr tr yv uv tv ind ;
      let '(pa, resampled, anc) := r in
      ret (mkPT (pt_N s) (FSIR thr) uv yv tv TT (ind + 2) (tr ++ [mkStep pa anc]), resampled)) w1 with
     | Ok ((s', fl), w') => Ok ((with_filter (FPFY thr) s', fl), w')
     | Err e => Err e
     end).
  { intros tr ind w1 Ltr Fwf HTT Hind Hedge.
    assert (T1 : Nat.leb (pt_T s) (ind + 1) = true) by (apply Nat.leb_le; lia). rewrite T1. cbv beta iota.
    set (uv := resize CZero (ind + 1) (pt_u s)). set (yv := resize CZero (ind + 2) (pt_y s)). set (tv := resize 0%nat (ind + 2) (pt_t s)).
    unfold bind, lift. destruct (upd uv ind (cell_of u)) as [uv'|e] eqn:Hu; [|reflexivity].
    destruct (upd yv (ind + 1) (cell_of y)) as [yv'|e] eqn:Hy; [|reflexivity].
    destruct (upd tv (ind + 1) (ind + 1)%nat) as [tv'|e] eqn:Ht; [|reflexivity].
    pose proof (upd_nth _ _ _ _ Hu) as Nu. pose proof (upd_nth _ _ _ _ Hy) as Ny. pose proof (upd_nth _ _ _ _ Ht) as Nt.
    pose proof (upd_length _ _ _ _ Hy) as Ly. pose proof (upd_length _ _ _ _ Ht) as Lt.
    assert (Eu : nth_error uv' ind = Some (cell_of u)) by (rewrite Nu, Nat.eqb_refl; reflexivity).
    assert (Ey : nth_error yv' (ind + 1) = Some (cell_of y)) by (rewrite Ny, Nat.eqb_refl; reflexivity).
    assert (Et : nth_error tv' (ind + 1) = Some (ind + 1)%nat) by (rewrite Nt, Nat.eqb_refl; reflexivity).
    assert (Et0 : nth_error tv' ind = Some ind).
    { rewrite Nt. replace (ind =? ind + 1)%nat with false by (symmetry; apply Nat.eqb_neq; lia).
      assert (G : nth_error (pt_t s) ind = Some ind).
      { destruct (Nat.eq_dec ind (pt_ind1 s)) as [E0|E0]; [rewrite (Hedge E0); exact B10|apply B6; lia]. }
      pose proof (grow_nth 0%nat (ind + 2) (pt_T s) (ind + 1) ind (pt_t s) ind G ltac:(lia)) as Z. rewrite T1 in Z. exact Z. }
    destruct (exists_last (l := tr)) as (pre & old & E); [intros ->; simpl in Ltr; lia|]. rewrite E in *.
    assert (Ei : ind = length pre) by (rewrite app_length in Ltr; simpl in Ltr; lia).
    unfold yv in Ly. unfold tv in Lt. rewrite resize_length in Ly. rewrite resize_length in Lt.
    rewrite EN. subst ind.
    rewrite (pfy_is_sir g b b' Hg Hsh HS N thr pre old yv' uv' tv' (cell_of u) (cell_of y) w1 Fwf Eu Ey Et0 Et).
    2:{ rewrite <- (firstn_all yv'), Ly. replace (length pre + 2)%nat with (length pre + 1 + 1)%nat by lia. apply idx_last_firstn. exact Ey. }
    2:{ rewrite <- (firstn_all tv'), Lt. replace (length pre + 2)%nat with (length pre + 1 + 1)%nat by lia. apply idx_last_firstn. exact Et. }
    destruct (sir_forward _ _ _ _ _ _ _ _ _) as [[[[pa fl] anc] w2]|e]; reflexivity. }
  unfold pt_forward. cbn [with_filter pt_traj pt_f pt_N pt_u pt_y pt_t pt_T pt_ind1]. rewrite Ef.
  destruct (pt_traj s) as [|st tr0] eqn:Etr.
  - assert (E1 : initial_step (full_of_basic b') (FSIR thr) (pt_N s) w = initial_step (full_of_basic b) (FPFY thr) (pt_N s) w).
    { unfold initial_step. cbn [create_initial full_of_basic m_create]. unfold bind at 1 3. rewrite (ai_create _ _ HS). reflexivity. }
    assert (Bn : forall A (x : M W (tstep P)) (f : list (tstep P) * nat -> M W A) (w : W),
       bind (bind x (fun st => ret ([st], 0%nat))) f w = match x w with Ok (st, w') => f ([st], 0%nat) w' | Err e => Err e end).
    { intros A x f w0. unfold bind, ret. destruct (x w0) as [[st w']|e]; reflexivity. }
    rewrite !Bn, E1. destruct (initial_step (full_of_basic b) (FPFY thr) (pt_N s) w) as [[st w1]|e] eqn:E; [|reflexivity].
    rewrite EN in E. destruct (initial_step_shape _ Hsh N HN (FPFY thr) w st w1 E) as [S1 _].
    simpl in B1. apply (Q [st] 0%nat w1); auto; lia.
  - simpl in B1. destruct (pt_ind1 s) as [|i] eqn:Ei; [lia|]. rewrite !bret. destruct Wf as [Wf _]. apply (Q (st :: tr0) i w); auto; simpl; try lia.
Qed.
End State.

Section Mean.
Context {P U Y V QN : Type}.
Variables (m : ssm P U Y V) (noise : (V -> R) -> R) (d : y_proposal P U Y QN) (qnoise : (QN -> R) -> R) (mu : (P -> R) -> R) (x0 : list P) (dq : QN).
Hypothesis HN : (0 < length x0)%nat.
Notation N := (length x0).
Notation pm := (pfy_model d x0 dq).
Notation g := (call_rng (V := QN)).

(** the state-space model and importance proposal that 'PFY' amounts to *)
Definition tm : ssm P U Y V := mkSSM (move m) (ylog d).
Definition td : proposal P U Y QN :=
  mkProposal (fun _ _ y t q => ydraw d y (t + 1) q) (fun _ x' _ y t => ylog d x' y (t + 1)) (ytrans d).
Notation sm := (sir_model tm td x0 dq).

Lemma map_fst_seq {A B} (f : nat -> B) (l : list A) : map (fun ix => f (fst ix)) (combine (seq 0 (length l)) l) = map f (seq 0 (length l)).
Proof. generalize 0%nat. induction l as [|a l IH]; intros k; cbn; [reflexivity|]. f_equal. apply IH. Qed.
Lemma map_snd_combine {A B C} (f : B -> C) : forall (l : list A) (l' : list B), length l = length l' -> map (fun xx => f (snd xx)) (combine l l') = map f l'.
Proof. induction l as [|a l IH]; intros [|b' l'] L; try discriminate; cbn; [reflexivity|]. f_equal. apply IH. simpl in L. lia. Qed.

Lemma pfy_as_sir : as_importance pm sm.
Proof.
  constructor; cbn [b_create b_qsample b_xnext b_logp_q b_measure b_propose_y pfy_model sir_model]; intros; try reflexivity.
  - cbn [draw td]. rewrite (map_fst_seq (fun i => ydraw d y (t + 1) (nth i (snd w) dq))). reflexivity.
  - exists (map (fun x => ylog d x y (t + 1)%nat) q). rewrite map_length. split; [reflexivity|]. intros w.
    rewrite (proj2 (Nat.eqb_eq _ _) H). unfold ret. cbn [lq td ll tm]. rewrite (map_snd_combine (fun x => Fin (ylog d x y (t + 1)))) by exact H.
    rewrite map_map. auto.
Qed.
Lemma pfy_shape : shape_ok (full_of_basic pm).
Proof.
  constructor; cbn [m_create m_copy m_copy_all m_noise m_update m_measure m_xnext1 m_stage1 m_qsample m_logp_q m_logp_xnext m_meas1 m_propose_y full_of_basic
    b_create b_noise b_update b_measure b_xnext b_stage1 b_qsample b_logp_q b_propose_y pfy_model]; intros.
  all: try (unfold def_copy, def_update, def_measure, def_xnext1 in *).
  all: try (match goal with H : raise _ _ = Ok _ |- _ => discriminate H end).
  - destruct (Nat.eqb (length x0) n) eqn:E; [|discriminate]. apply ret_ok in H. inversion H; subst. apply Nat.eqb_eq in E. exact E.
  - apply lift_ok in H. destruct H as (q & E & H). inversion H; subst. apply take_length in E. exact E.
  - apply ret_ok in H. inversion H. reflexivity.
  - repeat (apply bind_ok in H; destruct H as (? & ? & _ & H)). discriminate H.
  - repeat (apply bind_ok in H; destruct H as (? & ? & _ & H)). discriminate H.
  - repeat (apply bind_ok in H; destruct H as (? & ? & _ & H)).
    cbn [b_xnext pfy_model] in H. match type of H with (if ?c then _ else _) _ = _ => destruct c eqn:El end; [|discriminate]. apply ret_ok in H. inversion H; subst. apply Nat.eqb_eq in El.
    rewrite map_length, combine_length. lia.
  - destruct (Nat.eqb (length p) (length q)) eqn:El; [|discriminate]. apply ret_ok in H. inversion H; subst. apply Nat.eqb_eq in El.
    rewrite map_length, combine_length. lia.
  - inversion H; subst. rewrite map_length, seq_length. reflexivity.
Qed.

(** What is known about a state of the 'PFY' filter between calls. *)
Record py_ready (thr : R) (s : ptraj P U Y) : Prop := {
  py_f : pt_f s = FPFY thr; py_T : (pt_T s <= pt_ind1 s)%nat; py_sir : Sir.ready x0 thr (with_filter (FSIR thr) s) }.

Lemma py_book thr s : py_ready thr s -> exists l, book s l.
Proof. intros H. destruct (Sir.rd_book _ _ _ (py_sir _ _ H)) as [l B]. exists l. destruct l. exact B. Qed.

Lemma py_init thr o s : pt_init N thr 0 "PFY" o None = Ok s -> py_ready thr s /\ pt_traj s = [].
Proof.
  intros H. pose proof (book_init _ _ _ _ _ _ H) as B. assert (E : pt_N s = N /\ pt_f s = FPFY thr /\ pt_traj s = [] /\ pt_T s = 0%nat).
  { unfold pt_init in H. cbn in H. inversion H; auto. }
  destruct E as (E1 & E2 & E3 & E4). split; auto. constructor; [auto|lia|]. constructor; cbn [with_filter pt_N pt_f pt_traj]; auto.
  - exists ([], []). exact B.
  - rewrite E3. split; [constructor|]. intros st; discriminate.
  - intros pre st E. rewrite E3 in E. destruct pre; discriminate.
Qed.

Lemma py_forward thr s u y r qs : py_ready thr s -> exists s' fl w',
  pt_forward (full_of_basic sm) g (with_filter (FSIR thr) s) u y (r, qs) = Ok ((s', fl), w') /\
  pt_forward (full_of_basic pm) g s u y (r, qs) = Ok ((with_filter (FPFY thr) s', fl), w') /\
  py_ready thr (with_filter (FPFY thr) s').
Proof.
  intros H. destruct (py_book _ _ H) as [l B]. pose proof (py_sir _ _ H) as R. destruct (Sir.start_ex x0 _ _ R) as (pre & old & Hst).
  destruct (Sir.fwd_call tm td x0 dq HN thr _ pre old u y r qs R Hst) as (s' & fl & w' & parts & anc & E & R' & _).
  exists s', fl, w'. split; [exact E|].
  assert (E2 : pt_forward (full_of_basic pm) g s u y (r, qs) = Ok ((with_filter (FPFY thr) s', fl), w')).
  { rewrite (pfy_forward_state g pm sm call_rng_ok pfy_shape pfy_as_sir N thr s l u y (r, qs) HN (Sir.rd_N _ _ _ R) (py_f _ _ H) B (Sir.rd_wf _ _ _ R) (py_T _ _ H)).
    rewrite E. reflexivity. }
  split; [exact E2|]. constructor; [reflexivity| |].
  - eapply (pfy_T_run (full_of_basic pm) g [Fwd u y] s _ l (r, qs) w'); [exact B|rewrite (py_f _ _ H); reflexivity|apply (py_T _ _ H)|].
    cbn [pt_run pt_step]. unfold bind. rewrite E2. reflexivity.
  - replace (with_filter (FSIR thr) (with_filter (FPFY thr) s')) with s'; [exact R'|].
    pose proof (Sir.rd_f _ _ _ R') as F. destruct s'. cbn in F |- *. rewrite F. reflexivity.
Qed.

Lemma py_measure thr s s' y w w' : py_ready thr s -> pt_measure (full_of_basic pm) s y w = Ok (s', w') -> py_ready thr s'.
Proof.
  intros H E. destruct (py_book _ _ H) as [l B]. pose proof (py_sir _ _ H) as R.
  destruct (pt_measure_wf (full_of_basic pm) pfy_shape N HN s y w s' w' (Sir.rd_N _ _ _ R) (Sir.rd_wf _ _ _ R) E) as (Wf & EN & Ef).
  destruct (book_measure (full_of_basic pm) s l y w s' w' B E) as [B' _].
  constructor.
  - rewrite Ef. apply (py_f _ _ H).
  - eapply (pfy_T_run (full_of_basic pm) g [Meas y] s s' l w w'); [exact B|rewrite (py_f _ _ H); reflexivity|apply (py_T _ _ H)|].
    cbn [pt_run pt_step]. unfold bind. rewrite E. reflexivity.
  - constructor; cbn [with_filter pt_N pt_f pt_traj]; auto.
    + exists (ledger_step (using_pfy (pt_f s)) l (Meas y)). destruct (ledger_step (using_pfy (pt_f s)) l (Meas y)). exact B'.
    + intros pre st Est. unfold pt_measure in E. rewrite if4 in E. cbv beta iota zeta in E. rewrite (py_f _ _ H) in E. cbn [using_pfy] in E.
      apply bind_ok in E; destruct E as (yv & w1 & _ & E). apply bind_ok in E; destruct E as (tv & w2 & _ & E).
      apply bind_ok in E; destruct E as (pa & w3 & Hpa & E). apply ret_ok in E. inversion E; subst s'; clear E. cbn [pt_traj] in Est.
      apply app_inj_tail in Est. destruct Est as [_ <-]. cbn [st_pa].
      unfold pfy_measure in Hpa. apply bind_ok in Hpa; destruct Hpa as (yy & w4 & _ & Hpa). apply bind_ok in Hpa; destruct Hpa as (tt & w5 & _ & Hpa).
      apply bind_ok in Hpa; destruct Hpa as (q & w6 & Hq & Hpa). apply lift_ok in Hpa. destruct Hpa as (pa' & Hpa & E). inversion E; subst pa' w6; clear E.
      apply pa_init_none in Hpa. destruct Hpa as [_ ->]. cbn [lw woff].
      pose proof (sh_propose_y _ pfy_shape _ _ _ _ _ _ Hq) as Lq. assert (EN' : pt_N s = N) by apply (Sir.rd_N _ _ _ R). rewrite Lq, EN'. split; [apply (Sir.first_live x0 HN)|].
      exists 0. reflexivity.
Qed.

Lemma py_run thr ops : forall s s' w w', py_ready thr s -> pt_run (full_of_basic pm) g s ops w = Ok (s', w') -> py_ready thr s'.
Proof.
  induction ops as [|[u y|y] ops IH]; intros s s' w w' H E; cbn [pt_run] in E.
  - apply ret_ok in E. inversion E; subst. auto.
  - apply bind_ok in E. destruct E as (s1 & w1 & H1 & E). cbn [pt_step] in H1. apply bind_ok in H1. destruct H1 as ([s2 b] & w2 & H1 & H2).
    apply ret_ok in H2. inversion H2; subst; clear H2. destruct w as [r qs].
    destruct (py_forward thr s u y r qs H) as (s3 & fl & w3 & _ & Hc & R'). rewrite H1 in Hc. inversion Hc; subst. eapply IH; eauto.
  - apply bind_ok in E. destruct E as (s1 & w1 & H1 & E). cbn [pt_step] in H1. eapply IH; [|exact E]. eapply py_measure; eauto.
Qed.

Hypothesis Hav : average qnoise.

Lemma py_estimate thr phi fwds : forall s, py_ready thr s ->
  pfy_estimate d qnoise x0 dq fwds s phi = sir_estimate tm td qnoise x0 dq (fwd_ops fwds) (with_filter (FSIR thr) s) phi.
Proof.
  induction fwds as [|[u y] fwds IH]; intros s H; [reflexivity|]. cbn [pfy_estimate fwd_ops map sir_estimate fst snd].
  apply RInt_ext. intros r _. unfold pfy_outcome, sir_outcome. apply (av_ext _ (iid_average qnoise Hav N)). intros qs.
  destruct (py_forward thr s u y r qs H) as (s' & fl & w' & E1 & E2 & R'). rewrite E1, E2. rewrite (IH _ R').
  replace (with_filter (FSIR thr) (with_filter (FPFY thr) s')) with s'; [reflexivity|].
  pose proof (Sir.rd_f _ _ _ (py_sir _ _ R')) as F. destruct (Sir.start_ex x0 _ _ (py_sir _ _ H)) as (pre & old & Hst).
  destruct (Sir.fwd_call tm td x0 dq HN thr _ pre old u y r qs (py_sir _ _ H) Hst) as (s3 & fl3 & w3 & parts & anc & E3 & R3 & _).
  rewrite E1 in E3. inversion E3; subst. pose proof (Sir.rd_f _ _ _ R3) as F3. destruct s3. cbn in F3 |- *. rewrite F3. reflexivity.
Qed.

Hypothesis Hpo : y_proposal_ok m noise d qnoise mu.
Lemma td_ok : proposal_ok tm noise td qnoise mu.
Proof.
  constructor.
  - apply (yo_ext _ _ _ _ _ Hpo).
  - intros x u t f. cbn [move tm lp td]. apply (yo_dynamics _ _ _ _ _ Hpo).
  - intros x u y t f. cbn [draw td lq]. apply (yo_proposal _ _ _ _ _ Hpo).
Qed.

Lemma py_mean thr phi fwds s : py_ready thr s ->
  pfy_estimate d qnoise x0 dq fwds s phi = current x0 s (future tm noise (length (pt_traj s) - 1) (fwd_ops fwds) phi).
Proof.
  intros H. rewrite (py_estimate thr phi fwds s H).
  rewrite (Sir.estimate_mean tm noise td qnoise mu x0 dq Hav td_ok HN thr phi _ _ (py_sir _ _ H)). reflexivity.
Qed.

Lemma py_integrable thr phi u y fwds s : py_ready thr s ->
  ex_RInt (pfy_outcome d qnoise x0 dq s u y (fun s' resampled => fwd_factor s' resampled * pfy_estimate d qnoise x0 dq fwds s' phi)) 0 1.
Proof.
  intros H. pose proof (Sir.estimate_integrable tm noise td qnoise mu x0 dq Hav td_ok HN thr phi u y (fwd_ops fwds) _ (py_sir _ _ H)) as Q.
  eexists. eapply is_RInt_ext; [|exact Q]. intros r _. unfold pfy_outcome, sir_outcome. apply (av_ext _ (iid_average qnoise Hav N)). intros qs.
  destruct (py_forward thr s u y r qs H) as (s' & fl & w' & E1 & E2 & R'). rewrite E1, E2. rewrite (py_estimate thr phi fwds _ R').
  replace (with_filter (FSIR thr) (with_filter (FPFY thr) s')) with s'; [reflexivity|].
  destruct (Sir.start_ex x0 _ _ (py_sir _ _ H)) as (pre & old & Hst).
  destruct (Sir.fwd_call tm td x0 dq HN thr _ pre old u y r qs (py_sir _ _ H) Hst) as (s3 & fl3 & w3 & parts & anc & E3 & R3 & _).
  rewrite E1 in E3. inversion E3; subst. pose proof (Sir.rd_f _ _ _ R3) as F3. destruct s3. cbn in F3 |- *. rewrite F3. reflexivity.
Qed.
End Mean.
