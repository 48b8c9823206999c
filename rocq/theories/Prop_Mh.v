(** Properties of the Metropolis-Hastings smoothers (smoother.py:421-607, 632-779): C28,
    and the positive side of C31. *)
From Coquelicot Require Import Coquelicot.
From Coq Require Import String Bool Reals ZArith Lra Lia List Arith.
From Verif Require Import Base XR SampleModel SampleSpec SampleProofs PAModel WeightSpec WeightProofs
  FilterModel TrajModel FilterSpec FilterProofs FilterTotal ExampleModel SmoothModel SmoothSpec
  SmoothProofs SmoothBsi SmoothExample SmoothPath Prop_Bsi Prop_Smooth MhSpec MhProofs MhTotal.
Import ListNotations.
Open Scope R_scope.

(** The densities of the example model. *)
Definition swalk_dens (d : R -> R -> xr) : densities R R R :=
  mkDens (fun _ _ => Fin 0) (fun _ _ => d) (fun y _ => ll_of y) (fun _ _ _ _ _ _ _ _ _ _ => Fin 0).

Lemma mapi_const {A B} (b : B) (l : list A) : forall n, mapi_from (fun _ _ => b) n l = map (fun _ => b) l.
Proof. induction l as [|a l IH]; intros n; cbn; auto. f_equal. apply IH. Qed.

Lemma swalk_mh {W} d : mh_model (W := W) (swalk d) (swalk_dens d).
Proof.
  split; [apply swalk_markov|]. repeat split.
  - intros. cbn. unfold mapi, ret. rewrite mapi_const. reflexivity.
  - intros. cbn. unfold def_xnext1, bind, lift, rbind. cbn. destruct (take x find) as [nx|]; [|reflexivity].
    destruct (idx u k); [|reflexivity]. destruct (idx t k); [|reflexivity]. destruct (zipw d p nx); reflexivity.
  - intros. cbn. unfold def_measure, bind, lift, rbind. destruct (idx_last y) as [yk|]; [|reflexivity]. destruct (idx_last t); reflexivity.
Qed.

Lemma swalk_proposing {W} d : proposing (W := W) (swalk d).
Proof. intros past anc fut find u y t k. cbn. apply runs_ret. apply map_length. Qed.

(** ** C28 *)
(** One move of 'mhips'/'mhbp', for every model, state and generator: the proposals come
    from the model; for each trajectory [j] with current state [x], proposed state [x'] and
    the [j]-th uniform draw [v], the state becomes [x'] iff log v is below
      log p(x'|prev') + log p(y|x') + log p(next|x') - log q(x')
      - (log p(x|prev) + log p(y|x) + log p(next|x) - log q(x)),
    and stays [x] otherwise. *)
Theorem C28_mh_move : forall (W P U Y V : Type) (sm : smodel W P U Y V) (g : rng W) (e : densities P U Y)
    (cur : list P) (past : option (list (tstep P))) (pind_prop pind_curr : list nat) (fut : option (list (tstep P))) (find : list nat)
    (u : list (cell U)) (y : list (cell Y)) (t : list nat) (k : nat) (s s' : W) (res : list P) (acc : list bool),
  mh_model sm e -> (k < length t)%nat ->
  mc_step sm g cur past pind_prop pind_curr fut find u y t k false s = Ok ((res, acc), s') ->
  exists xp s1 v,
    s_propose sm (opt_past past) pind_prop (opt_future fut) find u y t k s = Ok (xp, s1) /\ stream g (length cur) s1 = (v, s') /\
    length xp = length cur /\ length v = length cur /\ length res = length cur /\ length acc = length cur /\
    forall j x x' vj, nth_error cur j = Some x -> nth_error xp j = Some x' -> nth_error v j = Some vj ->
      exists pc yc nc pp yp np,
        prior_is e past pind_curr u t k j x pc /\ meas_is e y t k x yc /\ next_is e fut find u t k j x nc /\
        prior_is e past pind_prop u t k j x' pp /\ meas_is e y t k x' yp /\ next_is e fut find u t k j x' np /\
        let r := log_ratio pc yc nc (e_prop e (opt_past past) pind_curr (opt_future fut) find u y t k j x)
                   pp yp np (e_prop e (opt_past past) pind_prop (opt_future fut) find u y t k j x') in
        nth_error acc j = Some (xltb (xlog (Fin vj)) r) /\ nth_error res j = Some (mh_move r x x' vj).
Proof. intros. eapply mc_step_full; eauto. Qed.

(** The probability, over the uniform draw, that the proposal is accepted is
    min(1, pi(x') q(x) / (pi(x) q(x'))), with pi the product of the three densities;
    log densities may be -inf. *)
Theorem C28_acceptance_probability : forall pc yc nc qc pp yp np qp : xr,
  logish pp -> logish yp -> logish np -> logish qc -> 0 < posterior pc yc nc -> 0 < lin qp ->
  is_RInt (fun v => if mh_move (log_ratio pc yc nc qc pp yp np qp) false true v then 1 else 0) 0 1
    (Rmin 1 (posterior pp yp np * lin qc / (posterior pc yc nc * lin qp))).
Proof.
  intros. rewrite <- mh_ratio_prob by auto. eapply is_RInt_ext01; [|apply accept_prob_RInt].
  intros v _. unfold mh_move. destruct (xltb _ _); reflexivity.
Qed.

(** Detailed balance: pi(x) q(x') P(accept x' from x) = pi(x') q(x) P(accept x from x'),
    for all log densities (finite or -inf), hence also summed or integrated over states:
    the move leaves the posterior invariant. *)
Theorem C28_detailed_balance : forall (pc yc nc qc pp yp np qp : xr) (a b : R),
  Forall logish [pc; yc; nc; qc; pp; yp; np; qp] ->
  is_RInt (fun v => if mh_move (log_ratio pc yc nc qc pp yp np qp) false true v then 1 else 0) 0 1 a ->
  is_RInt (fun v => if mh_move (log_ratio pp yp np qp pc yc nc qc) false true v then 1 else 0) 0 1 b ->
  posterior pc yc nc * lin qp * a = posterior pp yp np * lin qc * b.
Proof.
  intros pc yc nc qc pp yp np qp a b F Ha Hb.
  repeat match goal with H : Forall _ (_ :: _) |- _ => inversion H; clear H; subst end.
  assert (A : forall r c, is_RInt (fun v => if mh_move r false true v then 1 else 0) 0 1 c -> c = accept_prob r).
  { intros r c H. pose proof (@is_RInt_unique R_CompleteNormedModule _ _ _ _ H) as H'. rewrite <- H'. apply (@is_RInt_unique R_CompleteNormedModule). eapply is_RInt_ext01; [|apply accept_prob_RInt].
    intros v _. unfold mh_move. destruct (xltb _ _); reflexivity. }
  rewrite (A _ _ Ha), (A _ _ Hb). apply mh_balance; auto.
Qed.

(** 'mhips_reduced' proposes from the model's own dynamics, so prior and proposal
    densities cancel: the state becomes [x'] iff log v is below
      log p(y|x') + log p(next|x') - (log p(y|x) + log p(next|x)). *)
Theorem C28_reduced_move : forall (W P U Y V : Type) (sm : smodel W P U Y V) (g : rng W) (e : densities P U Y)
    (cur : list P) (past : list (tstep P)) (pind : list nat) (fut : option (list (tstep P))) (find : list nat)
    (u : list (cell U)) (y : list (cell Y)) (t : list nat) (k : nat) (s s' : W) (res : list P) (acc : list bool),
  mh_model sm e -> (k < length t)%nat ->
  mc_step sm g cur (Some past) pind pind fut find u y t k true s = Ok ((res, acc), s') ->
  exists last prev noise sn xp s1 v,
    idx_last past = Ok last /\ take (part (st_pa last)) pind = Ok prev /\
    m_noise (s_f sm) past pind (firstn k u) (firstn k t) s = Ok (noise, sn) /\
    m_update (s_f sm) prev past (firstn k u) (firstn k y) (firstn k t) pind noise sn = Ok (xp, s1) /\
    stream g (length cur) s1 = (v, s') /\ length xp = length cur /\ length v = length cur /\ length res = length cur /\
    forall j x x' vj, nth_error cur j = Some x -> nth_error xp j = Some x' -> nth_error v j = Some vj ->
      exists yc nc yp np,
        meas_is e y t k x yc /\ next_is e fut find u t k j x nc /\ meas_is e y t k x' yp /\ next_is e fut find u t k j x' np /\
        nth_error res j = Some (mh_move (xadd (xsub yp yc) (xsub np nc)) x x' vj).
Proof.
  intros W P U Y V sm g e cur past pind fut find u y t k s s' res acc He Hk H.
  destruct (mc_step_reduced sm g e He _ _ _ _ _ _ _ _ _ _ _ _ _ _ Hk H) as ((xp & s1 & v & Ep & Ev & L1 & L2 & L3 & L4 & A) & _).
  cbn in Ep. minv Ep. exists b, b0. do 2 eexists. exists xp, s1, v. do 8 (split; [eassumption || auto|]).
  intros j x x' vj Hx Hx' Hv. destruct (A j x x' vj Hx Hx' Hv) as (yc & nc & yp & np & B1 & B2 & B3 & B4 & _ & B5).
  exists yc, nc, yp, np. auto.
Qed.

(** The reduced move cannot be made where there is neither a measurement nor a next
    state (e.g. the last step of a series that ends with a prediction): it never
    succeeds. *)
Theorem C28_reduced_needs_information : forall (W P U Y V : Type) (sm : smodel W P U Y V) (g : rng W) (e : densities P U Y)
    (cur : list P) (past : option (list (tstep P))) (pp pc find : list nat)
    (u : list (cell U)) (y : list (cell Y)) (t : list nat) (k : nat) (s : W),
  mh_model sm e -> (k < length t)%nat -> nth_error y k = Some CNone ->
  exists err, mc_step sm g cur past pp pc None find u y t k true s = Err err.
Proof.
  intros W P U Y V sm g e cur past pp pc find u y t k s He Hk Hy.
  destruct (mc_step sm g cur past pp pc None find u y t k true s) as [[[res acc] s']|err] eqn:E; eauto.
  exfalso. destruct (mc_step_reduced sm g e He _ _ _ _ _ _ _ _ _ _ _ _ _ _ Hk E) as (_ & N). apply N. auto.
Qed.

(** On every well formed filter result of two or more steps, for every model with
    proposals and every number of sweeps, 'mhips' and 'mhbp' return one smoothed step of
    [m] equally weighted particles per filter step, and the filter's u, y, t. *)
Theorem C28_mh_smoothers_total : forall (W P U Y V : Type) (sm : smodel W P U Y V) (g : rng W) (junk : nat -> nat) (fuel : nat) (e : densities P U Y)
    (pt : ptraj P U Y) (N m : nat) (o : soptions) (R_ : Z) (method : string) (s : W),
  rng_ok g -> mh_model sm e -> proposing sm -> copy_smooth sm -> s_pre sm = None -> s_post sm = None ->
  (0 < N)%nat -> (0 < m)%nat -> o_R o = Some (PyInt R_) -> (0 < R_)%Z ->
  In method ["mhips"; "mhbp"]%string -> (2 <= length (pt_traj pt))%nat -> Forall (step_wf N) (pt_traj pt) ->
  (length (pt_traj pt) <= length (pt_u pt) + 1)%nat -> (length (pt_traj pt) <= length (pt_t pt))%nat -> (length (pt_traj pt) <= length (pt_y pt))%nat ->
  exists st s', smooth sm g junk fuel pt m method (Some o) s = Ok (st, s') /\
    length (sm_traj st) = length (pt_traj pt) /\ smooth_wf m (sm_traj st) /\
    sm_u st = pt_u pt /\ sm_y st = pt_y pt /\ sm_t st = pt_t pt /\ sm_M st = m.
Proof.
  intros W P U Y V sm g junk fuel e pt N m o R_ method s Hg He Hpr Hcp Hpre Hpost HN Hm HR HR0 Hin HT F Hu Ht Hy.
  assert (K : exists tr s1, (forall st, st = mkST tr (pt_u pt) (pt_y pt) (pt_t pt) m -> smooth sm g junk fuel pt m method (Some o) s = Ok (st, s1)) /\
     length tr = length (pt_traj pt) /\ Forall (fun st => length (part (st_pa st)) = m /\ lw (st_pa st) = repeat (Fin (- ln (INR m))) m) tr).
  { destruct Hin as [<-|[<-|[]]].
    - destruct (perform_ancestors_total sm g Hg Hcp N m (pt_traj pt) (pt_u pt) (pt_y pt) (pt_t pt)) with (s := s) as (a & s1 & E & _); auto.
      { intros E. rewrite E in HT. cbn in HT. lia. }
      destruct (ancestors_wfm sm g Hg Hcp m _ _ _ _ _ _ _ Hm E) as [Fa La].
      destruct (mhips_passes_total sm g e He Hpr Hcp Hpre m (pt_u pt) (pt_y pt) (pt_t pt) Hm (Z.to_nat R_) a ltac:(lia) Fa ltac:(lia) ltac:(lia) ltac:(lia) s1) as (tr & s2 & E2 & Ft & Lt).
      exists tr, s2. split; [|split; [congruence|]].
      + intros st ->. unfold smooth. cbn [String.eqb Ascii.eqb Bool.eqb orb]. unfold get_R10. rewrite HR, Hpost. unfold bind at 1 2. rewrite E.
        unfold bind at 1, lift at 1. unfold bind at 1, lift at 1. cbn [py_range]. rewrite E2. reflexivity.
      + eapply Forall_impl; [|exact Ft]. intros st (A & B & _). auto.
    - destruct (start_total g Hg N m (pt_traj pt)) as (last & w & El & Wl & Ew & Hs); auto.
      { intros E. rewrite E in HT. cbn in HT. lia. }
      destruct (Hs s) as (ind & s1 & Es & Li & Fi).
      destruct (mhbp_loop_total sm g e Hg He Hpr Hcp N m (Z.to_nat R_) (pt_traj pt) (pt_u pt) (pt_y pt) (pt_t pt) HN Hm ltac:(lia) HT F Hu Ht Hy
        (length (pt_traj pt)) ind None None [] (le_n _) Li (fun _ => Fi) (or_introl (conj eq_refl eq_refl)) s1) as (tr & s2 & E2 & Lt & Ft).
      exists tr, s2. split; [|split; [rewrite Lt; cbn; lia|apply Ft; constructor]].
      assert (EP : perform_mhbp sm g (Z.to_nat R_) false (pt_traj pt) (pt_u pt) (pt_y pt) (pt_t pt) m s = Ok (tr, s2)).
      { unfold perform_mhbp. rewrite (lift_bind_eq _ _ _ _ El), (lift_bind_eq _ _ _ _ Ew), (bind_eq _ _ _ _ _ Es), E2. reflexivity. }
      intros st ->. unfold smooth. cbn [String.eqb Ascii.eqb Bool.eqb orb]. unfold get_R10. rewrite HR, Hpost.
      set (pm := perform_mhbp) in *. unfold bind, lift, ret, hook. cbn [py_range]. rewrite EP. reflexivity. }
  destruct K as (tr & s1 & E & L & Ft). eexists. exists s1. split; [apply E; reflexivity|]. cbn. split; auto. split; auto.
  intros k st Hk. rewrite Forall_forall in Ft. apply Ft. eapply nth_error_In; eauto.
Qed.

Example C28_example : forall (W : Type) (g : rng W) (s : W) (method : string), rng_ok g -> In method ["mhips"; "mhbp"]%string ->
  exists st s', perform_smoothing (swalk soft) g (fun _ => 0%nat) 0 ex_pt 3 method None NaN s = Ok (st, s') /\ length (sm_traj st) = 2%nat.
Proof.
  intros W g s method Hg Hin.
  destruct (C28_mh_smoothers_total W R R R (list R) (swalk soft) g (fun _ => 0%nat) 0 (swalk_dens soft) ex_pt 2 3
    (mkOpt (Some (PyInt 30)) None None None None None None) 30 method s) as (st & s' & E & L & _); auto; try lia; try (cbn; lia);
    try apply swalk_mh; try apply swalk_proposing; try apply swalk_copy; try apply ex_traj_wf.
  exists st, s'. split; [|exact L]. rewrite <- E. destruct Hin as [<-|[<-|[]]]; reflexivity.
Qed.

(** A move from state 0 to the proposed state 1, with a Gaussian shaped transition to a
    next state 1 and measurement 1: the log ratio is 0 - 0 + (0 - (-1)) + ... *)
Example C28_move_example : forall (W : Type) (g : rng W) (s : W), rng_ok g ->
  exists res acc s', mc_step (swalk soft) g [0; 1] (Some [mkStep (mkPA [0; 1] [Fin 0; Fin 0] 2 (Fin 0)) [0; 1]%nat]) [0; 1]%nat [0; 1]%nat
     (Some [mkStep (mkPA [1; 1] [Fin 0; Fin 0] 2 (Fin 0)) [0; 1]%nat]) [0; 1]%nat [CVal 0; CVal 0] [CNone; CVal 1] [0; 1]%nat 1 false s = Ok ((res, acc), s') /\
    length res = 2%nat.
Proof.
  intros W g s Hg.
  destruct (mc_step_total (swalk soft) g (swalk_dens soft) (swalk_mh soft) (swalk_proposing soft) [0; 1]
    (Some [mkStep (mkPA [0; 1] [Fin 0; Fin 0] 2 (Fin 0)) [0; 1]%nat]) [0; 1]%nat [0; 1]%nat
    (Some [mkStep (mkPA [1; 1] [Fin 0; Fin 0] 2 (Fin 0)) [0; 1]%nat]) [CVal 0; CVal 0] [CNone; CVal 1] [0; 1]%nat 1 2) with (s := s) as ([res acc] & s' & E & L1 & L2); cbn; auto; try lia.
  - split; auto. eexists. split; [reflexivity|]. split; repeat constructor.
  - split; auto. eexists. split; [reflexivity|]. split; repeat constructor.
  - eexists. eexists. split; [reflexivity|]. reflexivity.
  - exists res, acc, s'. auto.
Qed.

Example C28_detailed_balance_example : Forall logish [Fin (-1); Fin 0; NInf; Fin (-3); Fin 2; Fin 0; Fin 0; NInf].
Proof. repeat constructor. Qed.

Print Assumptions C28_mh_move.
Print Assumptions C28_acceptance_probability.
Print Assumptions C28_detailed_balance.
Print Assumptions C28_reduced_move.
Print Assumptions C28_reduced_needs_information.
Print Assumptions C28_mh_smoothers_total.
