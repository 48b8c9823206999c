(** Properties C13, C14, C15, C18, C57: ParticleTrajectory and Simulator
    (filter.py:825-1001, simulator.py:23-112). *)
From Coq Require Import String Ascii Bool Reals Lra Lia List Arith.
From Verif Require Import Base XR SampleModel SampleSpec SampleProofs PAModel WeightSpec WeightProofs
  FilterModel TrajModel FilterSpec FilterProofs TrajProofs FilterTotal ExampleModel Prop_Weights.
Import ListNotations.
Open Scope nat_scope.

(** ** C13 *)
Theorem C13_bookkeeping : forall W P U Y V (mdl : fmodel W P U Y V) (g : rng W)
    N r name o T (s0 s : ptraj P U Y) ops us ys w w',
  pt_init N r 0 name o T = Ok s0 ->
  pt_run mdl g s0 ops w = Ok (s, w') ->
  replay (using_pfy (pt_f s0)) ops = (us, ys) ->
  length (pt_traj s) = length ys /\
  (forall k y, nth_error ys k = Some y -> nth_error (pt_y s) k = Some (cell_of y)) /\
  (forall k u, nth_error us k = Some (Some u) -> nth_error (pt_u s) k = Some (cell_of u)) /\
  (forall k, k < length ys -> nth_error (pt_t s) k = Some k) /\
  length us = length ys - 1 /\
  (using_pfy (pt_f s0) = false -> ops <> [] -> length ys = forwards ops + 1).
Proof.
  intros W P U Y V mdl g N r name o T s0 s ops us ys w w' Hi Hr E.
  pose proof (book_init N r name o T s0 Hi) as B.
  destruct (book_run mdl g ops _ _ _ _ _ B Hr) as [B' _].
  unfold replay in E. rewrite E in B'.
  destruct B' as (B1 & B2 & B3 & B4 & B5 & B6 & _).
  repeat split; auto; try lia.
  intros Ef Hne. rewrite Ef in E. pose proof (replay_count ops (@nil (option (option U)), @nil (option Y))) as C.
  rewrite E in C. simpl in C. destruct ops; [congruence|lia].
Qed.

(** ** C14 *)
Lemma sim_loop_run {W P U Y V} (mdl : fmodel W P U Y V) g us ys off : forall n s i c w s' c' w',
  off <= i -> sim_loop mdl g s us ys i off n c w = Ok ((s', c'), w') ->
  exists l fl, run_flags mdl g s l w = Ok ((s', fl), w') /\ length l = n /\
    c' = c + count_occ Bool.bool_dec fl true /\
    forall j u y, nth_error l j = Some (u, y) ->
      nth_error us (i + j - off) = Some u /\ nth_error ys (i + j) = Some y.
Proof.
  induction n as [|n IH]; intros s i c w s' c' w' Hoff H; simpl in H.
  - apply ret_ok in H. inversion H; subst. exists [], []. simpl. split; [auto|split; [auto|split; [lia|]]].
    intros j u y Hj. destruct j; discriminate.
  - apply bind_ok in H. destruct H as (u & w1 & Hu & H). liftinv Hu.
    apply bind_ok in H. destruct H as (y & w2 & Hy & H). liftinv Hy.
    apply bind_ok in H. destruct H as ([s1 b] & w3 & Hf & H). simpl in H.
    apply IH in H; [|lia]. destruct H as (l & fl & Hrun & Ll & Hc & Hl).
    exists ((u, y) :: l), (b :: fl). simpl. split; [|split; [lia|split]].
    + unfold bind. rewrite Hf. simpl. rewrite Hrun. reflexivity.
    + destruct b; simpl in *; lia.
    + intros j u' y' Hj. destruct j as [|j]; simpl in Hj.
      * inversion Hj; subst. rewrite Nat.add_0_r. apply idx_ok in Hu, Hy. auto.
      * apply Hl in Hj. replace (i + S j) with (i + 1 + j) by lia. auto.
Qed.

Lemma run_flags_run {W P U Y V} (mdl : fmodel W P U Y V) g l : forall s w s' fl w',
  run_flags mdl g s l w = Ok ((s', fl), w') ->
  pt_run mdl g s (map (fun p => Fwd (fst p) (snd p)) l) w = Ok (s', w') /\ length fl = length l.
Proof.
  induction l as [|[u y] l IH]; intros s w s' fl w' H; simpl in H.
  - apply ret_ok in H. inversion H; subst. auto.
  - apply bind_ok in H. destruct H as ([s1 b] & w1 & Hf & H).
    apply bind_ok in H. destruct H as ([s2 fl2] & w2 & Hr & H). apply ret_ok in H. inversion H; subst.
    apply IH in Hr. destruct Hr as [Hr Lf]. simpl. split; [|auto].
    unfold bind. rewrite Hf. simpl. auto.
Qed.

Lemma replay_fwds {U Y} pfy (l : list (option U * option Y)) : forall us ys, ys <> [] ->
  fold_left (ledger_step pfy) (map (fun p => Fwd (fst p) (snd p)) l) (us, ys) =
  (us ++ map (fun p => Some (fst p)) l, ys ++ map snd l).
Proof.
  induction l as [|[u y] l IH]; intros us ys Hne; simpl.
  - rewrite !app_nil_r. auto.
  - destruct ys as [|y0 ys]; [congruence|]. rewrite IH.
    + rewrite <- !app_assoc. auto.
    + destruct ys; simpl; congruence.
Qed.

(** meas_first = False: step 0 has no measurement; y[i] is measured at step i+1,
    which is reached from step i with input u[i]. *)
Theorem C14_simulate : forall W P U Y V (mdl : fmodel W P U Y V) (g : rng W)
    (us : option (list (option U))) (ys : list (option Y)) N name o r (s : ptraj P U Y) cnt w w',
  simulate_filter mdl g us ys N name o r false w = Ok ((s, cnt), w') ->
  ys <> [] ->
  length (pt_traj s) = length ys + 1 /\
  nth_error (pt_y s) 0 = Some CNone /\
  (forall i y, nth_error ys i = Some y ->
     nth_error (pt_y s) (i + 1) = Some (cell_of y) /\
     exists u, nth_error (pt_u s) i = Some (cell_of u) /\
       match us with Some l => nth_error l i = Some u | None => u = None end).
Proof.
  intros W P U Y V mdl g us ys N name o r s cnt w w' H Hne. unfold simulate_filter in H.
  apply bind_ok in H. destruct H as (s0 & w1 & Hi & H). liftinv Hi.
  apply sim_loop_run in H; [|lia]. destruct H as (l & fl & Hrun & Ll & _ & Hl).
  apply run_flags_run in Hrun. destruct Hrun as [Hrun _].
  pose proof (book_init _ _ _ _ _ _ Hi) as B.
  destruct (book_run mdl g _ _ _ _ _ _ B Hrun) as [B' _]. clear B Hrun.
  destruct l as [|[u0 y0] l]; [destruct ys; [congruence|discriminate]|].
  simpl in B'. rewrite replay_fwds in B' by congruence. simpl in B'.
  destruct B' as (B1 & B2 & B3 & B4 & B5 & B6 & _). simpl in Ll, B1.
  rewrite map_length in B1.
  split; [lia|]. split; [apply (B4 0 None); auto|].
  intros i y Hy.
  assert (Hi' : i < S (length l)).
  { rewrite Ll. apply nth_error_Some. congruence. }
  destruct (nth_error ((u0, y0) :: l) i) as [[u y']|] eqn:El.
  2:{ apply nth_error_None in El. simpl in El. lia. }
  pose proof (Hl _ _ _ El) as [Hu Hy']. simpl in Hu, Hy'. rewrite Nat.sub_0_r in Hu.
  assert (y' = y) by congruence. subst y'. split.
  - apply B4. rewrite Nat.add_1_r. simpl. destruct i; simpl in *.
    + congruence.
    + rewrite nth_error_map, El. auto.
  - exists u. split.
    + apply B5. destruct i; simpl in *; [congruence|]. rewrite nth_error_map, El. auto.
    + unfold sim_inputs in Hu. destruct us; auto. apply nth_error_In in Hu. apply repeat_spec in Hu. auto.
Qed.

(** meas_first = True: y[i] is measured at step i and u[i] drives step i to i+1. *)
Theorem C14_simulate_meas_first : forall W P U Y V (mdl : fmodel W P U Y V) (g : rng W)
    (us : option (list (option U))) (ys : list (option Y)) N name o r (s : ptraj P U Y) cnt w w',
  simulate_filter mdl g us ys N name o r true w = Ok ((s, cnt), w') ->
  length (pt_traj s) = length ys /\
  (forall i y, nth_error ys i = Some y -> nth_error (pt_y s) i = Some (cell_of y)) /\
  (forall i, i + 1 < length ys ->
     exists u, nth_error (pt_u s) i = Some (cell_of u) /\
       match us with Some l => nth_error l i = Some u | None => u = None end).
Proof.
  intros W P U Y V mdl g us ys N name o r s cnt w w' H. unfold simulate_filter in H.
  apply bind_ok in H. destruct H as (s0 & w1 & Hi & H). liftinv Hi.
  apply bind_ok in H. destruct H as (y0 & w2 & Hy0 & H). liftinv Hy0. apply idx_ok in Hy0.
  apply bind_ok in H. destruct H as (s1 & w3 & Hm & H).
  apply sim_loop_run in H; [|lia]. destruct H as (l & fl & Hrun & Ll & _ & Hl).
  apply run_flags_run in Hrun. destruct Hrun as [Hrun _].
  pose proof (book_init _ _ _ _ _ _ Hi) as B.
  destruct (book_measure mdl _ _ _ _ _ _ B Hm) as [B1' _]. cbn [ledger_step] in B1'.
  destruct (book_run mdl g _ _ _ _ _ _ B1' Hrun) as [B' _]. clear B B1' Hrun.
  rewrite replay_fwds in B' by congruence. cbn [app] in B'.
  destruct B' as (B1 & B2 & B3 & B4 & B5 & B6 & _). simpl in B1. rewrite map_length in B1.
  assert (Lp : 0 < length ys) by (apply nth_error_Some; congruence).
  split; [lia|]. split.
  - intros i y Hy. apply B4. destruct i as [|i]; [simpl; congruence|]. simpl.
    rewrite nth_error_map.
    destruct (nth_error l i) as [[u y']|] eqn:El.
    + pose proof (Hl _ _ _ El) as [Hu Hy']. change (1 + i) with (S i) in Hy'. simpl. congruence.
    + apply nth_error_None in El. assert (S i < length ys) by (apply nth_error_Some; congruence). lia.
  - intros i Hi'. destruct (nth_error l i) as [[u y']|] eqn:El.
    + pose proof (Hl _ _ _ El) as [Hu Hy']. replace (1 + i - 1) with i in Hu by lia.
      exists u. split.
      * apply B5. rewrite nth_error_map, El. auto.
      * unfold sim_inputs in Hu. destruct us; auto. apply nth_error_In in Hu. apply repeat_spec in Hu. auto.
    + apply nth_error_None in El. lia.
Qed.

(** The value returned by the simulator is the number of forward calls that
    resampled. *)
Theorem C14_resampling_count : forall W P U Y V (mdl : fmodel W P U Y V) (g : rng W)
    (us : option (list (option U))) (ys : list (option Y)) N name o r mf (s : ptraj P U Y) cnt w w',
  simulate_filter mdl g us ys N name o r mf w = Ok ((s, cnt), w') ->
  exists s0 w0 l fl, run_flags mdl g s0 l w0 = Ok ((s, fl), w') /\
    length l = length ys - (if mf then 1 else 0) /\ length fl = length l /\
    cnt = count_occ Bool.bool_dec fl true /\ cnt <= length ys.
Proof.
  intros W P U Y V mdl g us ys N name o r mf s cnt w w' H. unfold simulate_filter in H.
  assert (Q : forall fl, count_occ Bool.bool_dec fl true <= length fl).
  { induction fl as [|b fl IH]; simpl; [lia|]. destruct (Bool.bool_dec b true); lia. }
  apply bind_ok in H. destruct H as (s0 & w1 & Hi & H). liftinv Hi. destruct mf.
  - apply bind_ok in H. destruct H as (y0 & w2 & Hy0 & H). liftinv Hy0.
    apply bind_ok in H. destruct H as (s1 & w3 & Hm & H).
    apply sim_loop_run in H; [|lia]. destruct H as (l & fl & Hrun & Ll & Hc & Hl).
    pose proof (proj2 (run_flags_run _ _ _ _ _ _ _ _ Hrun)). specialize (Q fl).
    exists s1, w3, l, fl. repeat split; auto; lia.
  - apply sim_loop_run in H; [|lia]. destruct H as (l & fl & Hrun & Ll & Hc & Hl).
    pose proof (proj2 (run_flags_run _ _ _ _ _ _ _ _ Hrun)). specialize (Q fl).
    exists s0, w, l, fl. repeat split; auto; lia.
Qed.

(** ** C15 *)
Theorem C15_steps_well_formed : forall W P U Y V (mdl : fmodel W P U Y V) (g : rng W)
    N r name o T (s0 s : ptraj P U Y) ops w w',
  rng_ok g -> shape_ok mdl -> 0 < N ->
  pt_init N r 0 name o T = Ok s0 ->
  pt_run mdl g s0 ops w = Ok (s, w') ->
  traj_wf N (pt_traj s).
Proof.
  intros W P U Y V mdl g N r name o T s0 s ops w w' Hg Hm HN Hi Hr.
  eapply (pt_run_wf mdl g Hg Hm N HN ops s0); [| |exact Hr].
  - unfold pt_init in Hi. destruct T; simpl in Hi; minv Hi; inversion Hi; subst; auto.
  - unfold pt_init in Hi.
    assert (E : pt_traj s0 = []).
    { destruct T; simpl in Hi; minv Hi; inversion Hi; subst; auto. }
    rewrite E. split; auto. intros st H. discriminate.
Qed.

(** For models meeting the total contract no operation sequence ever raises, for any
    filter whose extra needs are met. *)
Theorem C15_never_raises : forall W P U Y V (mdl : fmodel W P U Y V) (g : rng W)
    N r name o T (s0 : ptraj P U Y) ops w,
  rng_ok g -> total_ok N mdl -> 0 < N ->
  pt_init N r 0 name o T = Ok s0 ->
  filter_ready (pt_f s0) (length (snd (replay (using_pfy (pt_f s0)) ops))) ->
  Forall (op_ready (pt_f s0)) ops ->
  exists s w', pt_run mdl g s0 ops w = Ok (s, w') /\ traj_wf N (pt_traj s).
Proof.
  intros W P U Y V mdl g N r name o T s0 ops w Hg Hm HN Hi Hr Hop.
  pose proof (book_init N r name o T s0 Hi) as B.
  assert (E : pt_traj s0 = [] /\ pt_N s0 = N).
  { unfold pt_init in Hi. destruct T; simpl in Hi; minv Hi; inversion Hi; subst; auto. }
  destruct E as [E EN].
  eapply (pt_run_total mdl g Hg N HN Hm ops s0 ([], [])); auto.
  rewrite E. split; auto. intros st H. discriminate.
Qed.

(** Concrete instances: every filter kind on the example model, a history mixing
    measurements and inputs. *)
Definition ops_ex : list (@op R R) := [Meas (Some 1%R); Fwd (Some 2%R) (Some 3%R); Fwd None (Some 4%R)].

Example C13_C15_instance : forall name,
  In name ["PF"; "APF"; "pfy"; "CPFyas"; "CPFAS"; "CPF"; "SIR"; "CSIRAS"]%string ->
  exists s0 : ptraj R R R, pt_init 2 (1/2)%R 0 name (FODict (Some cond3)) None = Ok s0 /\
    exists s w', pt_run walk_full (const_rng (1/2)) s0 ops_ex tt = Ok (s, w') /\ traj_wf 2 (pt_traj s).
Proof.
  intros name Hin.
  assert (Q : exists s0 : ptraj R R R, pt_init 2 (1/2)%R 0 name (FODict (Some cond3)) None = Ok s0 /\
     filter_ready (pt_f s0) 3 /\ Forall (op_ready (pt_f s0)) ops_ex).
  { assert (C1 : forall k, k < 3 -> exists st, nth_error cond3 k = Some st /\ length (part (st_pa st)) = 1).
    { intros [|[|[|k]]] Hk; try lia; eexists; split; reflexivity. }
    assert (C2 : forall k, k < 3 -> exists st, nth_error cond3 k = Some st /\ part (st_pa st) <> []).
    { intros k Hk. destruct (C1 k Hk) as (st & E & L). exists st. split; auto. intros E0. rewrite E0 in L. discriminate. }
    simpl in Hin.
    repeat (destruct Hin as [<-|Hin]; [eexists; split; [reflexivity|split; [first [exact I|exact C1|exact C2]|repeat constructor]]|]).
    contradiction. }
  destruct Q as (s0 & Hi & Hr & Hop). exists s0. split; auto.
  eapply C15_never_raises; eauto.
  - apply const_rng_ok. unfold unit_draw. lra.
  - apply walk_total. lia.
Qed.

(** The simulator never raises on such models when there is an input for every
    measurement. *)
Lemma sim_loop_total {W P U Y V} (mdl : fmodel W P U Y V) g us ys off : forall l s i c w s' w',
  off <= i ->
  (forall j u y, nth_error l j = Some (u, y) ->
      nth_error us (i + j - off) = Some u /\ nth_error ys (i + j) = Some y) ->
  pt_run mdl g s (map (fun p => Fwd (fst p) (snd p)) l) w = Ok (s', w') ->
  exists c', sim_loop mdl g s us ys i off (length l) c w = Ok ((s', c'), w').
Proof.
  induction l as [|[u y] l IH]; intros s i c w s' w' Hoff Hl H; simpl in H.
  - apply ret_ok in H. inversion H; subst. simpl. eexists. reflexivity.
  - simpl. destruct (Hl 0 u y eq_refl) as [Hu Hy]. rewrite Nat.add_0_r in Hu, Hy.
    apply bind_ok in H. destruct H as (s1 & w1 & H1 & H).
    apply bind_ok in H1. destruct H1 as ([s2 b] & w2 & H1 & H2). apply ret_ok in H2. inversion H2; subst s1 w1.
    destruct (IH s2 (i + 1) (if b then c + 1 else c) w2 s' w') as [c' Hc]; auto; [lia| |].
    + intros j u' y' Hj. replace (i + 1 + j) with (i + S j) by lia. apply Hl. auto.
    + exists c'. unfold bind, lift. apply idx_ok in Hu, Hy. rewrite Hu, Hy, H1. exact Hc.
Qed.

Theorem C14_never_raises : forall W P U Y V (mdl : fmodel W P U Y V) (g : rng W)
    (us : option (list (option U))) (ys : list (option Y)) N name o r mf f w,
  rng_ok g -> total_ok N mdl -> 0 < N -> ys <> [] ->
  make_filter name r o = Ok f ->
  filter_ready f (length ys + 1) ->
  match f with FAPF _ => ~ In None ys | _ => True end ->
  match us with Some l => length ys <= length l | None => True end ->
  exists s cnt w', simulate_filter mdl g us ys N name o r mf w = Ok ((s, cnt), w').
Proof.
  intros W P U Y V mdl g us ys N name o r mf f w Hg Hm HN Hne Hf Hr Hap Hus.
  unfold simulate_filter, pt_init. simpl. rewrite Hf. simpl.
  set (s0 := mkPT N f [CNone] [CNone] [0] 0 0 []).
  assert (Hi : pt_init (U := U) (Y := Y) N r 0 name o None = Ok s0).
  { unfold pt_init. simpl. rewrite Hf. reflexivity. }
  set (U' := sim_inputs us ys).
  assert (LU : length ys <= length U').
  { unfold U', sim_inputs. destruct us; auto. rewrite repeat_length. auto. }
  set (l := combine U' ys).
  assert (Ll : length l = length ys) by (unfold l; rewrite combine_length; lia).
  assert (Hl : forall j u y, nth_error l j = Some (u, y) -> nth_error U' j = Some u /\ nth_error ys j = Some y).
  { clear. unfold l. generalize U'. induction ys as [|b ys IH]; intros [|a A] j u y H; simpl in H;
    try (destruct j; discriminate).
    destruct j; simpl in *; [inversion H; auto|]. eapply IH. eauto. }
  assert (Hy : forall u y, In (u, y) l -> In y ys).
  { intros u y H. apply In_nth_error in H. destruct H as [j H]. apply Hl in H. destruct H.
    eapply nth_error_In; eauto. }
  assert (Hops : forall l', (forall u y, In (u, y) l' -> In y ys) ->
     Forall (op_ready f) (map (fun p : option U * option Y => Fwd (fst p) (snd p)) l')).
  { intros l' H. apply Forall_map, Forall_forall. intros [u y] Hin. simpl. apply H in Hin.
    destruct f; simpl; auto. destruct y; auto. }
  destruct mf.
  - destruct ys as [|y0 ys'] eqn:Eys; [congruence|]. rewrite <- Eys in *.
    destruct U' as [|u0 U''] eqn:EU; [rewrite Eys in LU; simpl in LU; lia|].
    assert (Lc : length (combine (u0 :: U'') ys') = length ys').
    { rewrite combine_length. assert (LU' : length ys <= length (u0 :: U'')) by exact LU.
      rewrite Eys in LU'. cbn [length] in LU' |- *. lia. }
    assert (Hc : forall j u y, nth_error (combine (u0 :: U'') ys') j = Some (u, y) ->
        nth_error (u0 :: U'') j = Some u /\ nth_error ys' j = Some y).
    { clear. generalize (u0 :: U''). induction ys' as [|b ys IH]; intros [|a A] j u y H; simpl in H;
      try (destruct j; discriminate).
      destruct j; simpl in *; [inversion H; auto|]. eapply IH. eauto. }
    assert (Hc' : forall u y, In (u, y) (combine (u0 :: U'') ys') -> In y ys).
    { intros u y Hin. apply in_combine_r in Hin. rewrite Eys. right. auto. }
    set (cc := combine (u0 :: U'') ys') in *. clearbody cc.
    destruct (C15_never_raises W P U Y V mdl g N r name o None s0
        (Meas y0 :: map (fun p => Fwd (fst p) (snd p)) cc) w) as (s & w' & Hrun & _); auto.
    + unfold replay. simpl fold_left. rewrite replay_fwds by congruence. simpl.
      rewrite map_length. rewrite Eys in Hr. simpl in Hr.
      eapply filter_ready_le; cycle -1; [exact Hr|..]; eauto; lia.
    + constructor; [simpl; destruct f; exact I|].
      apply Hops. auto.
    + simpl in Hrun. apply bind_ok in Hrun. destruct Hrun as (s1 & w1 & H1 & H2).
      destruct (sim_loop_total mdl g (u0 :: U'') ys 1 cc s1 1 0 w1 s w') as [c Hcc]; auto.
      * intros j u y Hj. replace (1 + j - 1) with j by lia. rewrite Eys. apply Hc. auto.
      * exists s, c, w'. unfold bind, lift. rewrite Eys.
        change (idx (y0 :: ys') 0) with (Ok y0 : res (option Y)). cbn beta iota.
        rewrite <- Eys, H1.
        replace (length ys - 1) with (length cc); auto.
        rewrite Eys. simpl. lia.
  - destruct (C15_never_raises W P U Y V mdl g N r name o None s0
        (map (fun p => Fwd (fst p) (snd p)) l) w) as (s & w' & Hrun & _); auto.
    + unfold replay. eapply filter_ready_le; cycle -1; [exact Hr|..]; eauto.
      destruct l as [|[u y] l'] eqn:El; [simpl; lia|]. simpl fold_left.
      rewrite replay_fwds by congruence. simpl. rewrite map_length. simpl in Ll. lia.
    + destruct (sim_loop_total mdl g U' ys 0 l s0 0 0 w s w') as [c Hc]; auto.
      * intros j u y Hj. simpl. rewrite Nat.sub_0_r. auto.
      * exists s, c, w'. rewrite <- Ll. exact Hc.
Qed.

Example C14_instance : exists s cnt w',
  simulate_filter walk_full (const_rng (1/2)) None [Some 1%R; None; Some 2%R] 2 "PF" FONone (1/2)%R true tt
   = Ok ((s, cnt), w').
Proof.
  eapply C14_never_raises; try reflexivity; try exact I.
  - apply const_rng_ok. unfold unit_draw. lra.
  - apply walk_total. lia.
  - lia.
  - congruence.
Qed.

(** ** C18 *)
Definition known_filters : list string :=
  ["pf"; "apf"; "pfy"; "cpfyas"; "cpfas"; "cpf"; "sir"; "csiras"]%string.
Definition conditional_filters : list string := ["cpfyas"; "cpfas"; "cpf"; "csiras"]%string.

(** The eight names, in any letter case, are accepted (given a conditioning
    trajectory for the conditional filters); everything else is a ValueError. *)
Theorem C18_filter_names : forall P (name : string) (r : R) (o : foptions P),
  (In (lower name) known_filters ->
     (In (lower name) conditional_filters -> exists c, o = FODict (Some c)) ->
     exists f, make_filter name r o = Ok f) /\
  (~ In (lower name) known_filters -> make_filter name r o = Err ValueError).
Proof.
  intros P name r o. unfold make_filter, known_filters, conditional_filters.
  set (n := lower name). split.
  - intros H Hc. simpl in H.
    repeat (destruct H as [H|H]; [rewrite <- H in *; simpl;
      first [ eexists; reflexivity
            | destruct Hc as [c ->]; [simpl; tauto|]; eexists; reflexivity ] | ]).
    contradiction.
  - intros H. simpl in H.
    repeat match goal with |- context [String.eqb n ?k] =>
      destruct (String.eqb_spec n k); [exfalso; apply H; intuition congruence|] end.
    reflexivity.
Qed.

Theorem C18_case_insensitive : forall P (n1 n2 : string) (r : R) (o : foptions P),
  lower n1 = lower n2 -> make_filter n1 r o = make_filter n2 r o.
Proof. intros P n1 n2 r o H. unfold make_filter. rewrite H. reflexivity. Qed.

(** Which class each name selects. *)
Theorem C18_filter_kind : forall P (r : R) (c : list (tstep P)),
  map (fun n => make_filter n r (FODict (Some c)))
      ["PF"; "APF"; "pfy"; "CPFyas"; "CPFAS"; "CPF"; "SIR"; "CSIRAS"]%string =
  [Ok (FPF r); Ok (FAPF r); Ok (FPFY r); Ok (FCPFYAS c); Ok (FCPFAS c); Ok (FCPF c);
   Ok (FSIR r); Ok (FCSIRAS c)].
Proof. reflexivity. Qed.

(** A conditional filter without a conditioning trajectory raises. *)
Theorem C18_conditional_needs_trajectory : forall P (n : string) (r : R),
  In (lower n) conditional_filters ->
  make_filter (P := P) n r FONone = Err TypeError /\ make_filter (P := P) n r (FODict None) = Err KeyError.
Proof.
  intros P n r H. unfold make_filter. simpl in H.
  repeat (destruct H as [H|H]; [rewrite <- H; simpl; auto|]). contradiction.
Qed.

(** ** C57 *)
Theorem C57_spawn_fails : forall P U Y (s : ptraj P U Y),
  exists e, spawn s = Err e /\ (e = IndexError \/ e = AttributeError).
Proof.
  intros P U Y s. unfold spawn. destruct (idx_last (pt_traj s)) eqn:E; simpl.
  - destruct (pt_f s); eauto.
  - exists e. split; auto. left. unfold idx_last in E. destruct (rev (pt_traj s)); congruence.
Qed.
