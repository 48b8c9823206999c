(** Properties of whole smoothing runs (smoother.py, filter.py:1003-1049): C23, C29,
    C30, C31, C58. *)
From Coquelicot Require Import Coquelicot.
From Coq Require Import String Bool Reals ZArith Lra Lia List Arith Permutation.
From Verif Require Import Base XR SampleModel SampleSpec SampleProofs PAModel WeightSpec WeightProofs
  FilterModel TrajModel FilterSpec FilterProofs TrajProofs FilterTotal ExampleModel Prop_Weights Prop_Cond SmoothModel SmoothSpec
  SmoothProofs SmoothBsi SmoothRs Perms SmoothLaw SmoothRsas SmoothMcmc SmoothExample Prop_Bsi SmoothPath.
Import ListNotations.
Open Scope R_scope.

(** A two step filter trajectory of two particles each: particle 1 of the second step
    descends from particle 0 of the first. *)
Definition ex_traj : list (tstep R) :=
  [mkStep (mkPA [0; 1] [Fin 0; Fin (-1)] 2 (Fin 0)) [0; 1]%nat; mkStep (mkPA [0; 0] [Fin (-2); Fin 0] 2 (Fin 0)) [0; 0]%nat].
Definition ex_pt : ptraj R R R := mkPT 2 (FPF 1) [CVal 0; CNone] [CVal 0; CVal 1] [0; 1]%nat 2 2 ex_traj.

Lemma ex_traj_wf : Forall (step_wf 2) ex_traj.
Proof. repeat constructor. Qed.

Lemma swalk_copy {W} d : copy_smooth (W := W) (swalk d).
Proof. intros p ptr anc fut find u y t k s. exists p, s. split; reflexivity. Qed.

Lemma ancestor_inv {W P U Y V} (sm : smodel W P U Y V) (g : rng W) junk fuel (pt : ptraj P U Y) m o (s : W) st s' :
  s_post sm = None -> smooth sm g junk fuel pt m "ancestor" o s = Ok (st, s') ->
  exists tr, perform_ancestors_int sm g (pt_traj pt) (pt_u pt) (pt_y pt) (pt_t pt) m s = Ok (tr, s') /\
    st = mkST tr (pt_u pt) (pt_y pt) (pt_t pt) m.
Proof.
  intros Hp H. unfold smooth in H. cbn [String.eqb Ascii.eqb Bool.eqb orb] in H. rewrite Hp in H. cbn [hook] in H.
  unfold bind at 1 2 in H. destruct (perform_ancestors_int sm g _ _ _ _ m s) as [[tr s1]|e] eqn:E; [|discriminate].
  cbn in H. injection H as <- <-. eauto.
Qed.

(** ** C23 *)
(** Every trajectory returned by the 'ancestor' smoother is a recorded path of the
    filter; the filter's inputs, measurements and times are kept. *)
Theorem C23_ancestor_histories : forall (W P U Y V : Type) (sm : smodel W P U Y V) (g : rng W) (junk : nat -> nat) (fuel : nat)
  (pt : ptraj P U Y) (m : nat) (o : option soptions) (s : W) (st : straj P U Y) (s' : W),
  rng_ok g -> copying sm -> s_post sm = None ->
  smooth sm g junk fuel pt m "ancestor" o s = Ok (st, s') ->
  sm_u st = pt_u pt /\ sm_y st = pt_y pt /\ sm_t st = pt_t pt /\ sm_M st = m /\
  length (sm_traj st) = length (pt_traj pt) /\ smooth_wf m (sm_traj st) /\
  forall j, (j < m)%nat -> exists path, lineage (pt_traj pt) path /\ visits (pt_traj pt) path (sm_traj st) j.
Proof.
  intros W P U Y V sm g junk fuel pt m o s st s' Hg Hc Hp H.
  apply ancestor_inv in H; auto. destruct H as (tr & H & ->). cbn [sm_traj sm_u sm_y sm_t sm_M].
  unfold perform_ancestors_int in H. minv H.
  destruct (sampleM_range _ _ _ _ _ _ Hg Hm) as [Li _].
  destruct (calculate_ancestors_sel sm Hc _ _ _ _ _ _ _ _ H) as (inds & S1 & S2 & _ & S4). rewrite Li in S4.
  repeat (split; [auto; try apply S1|]).
  intros j Hj. exists (path_of inds j). split; [eapply linked_lineage; eauto|eapply selects_visits; eauto].
Qed.

(** The end points of the trajectories are systematic samples of the last step's
    weights (whose law is C02/C03). *)
Theorem C23_end_points : forall (W P U Y V : Type) (sm : smodel W P U Y V) (g : rng W) (junk : nat -> nat) (fuel : nat)
  (pt : ptraj P U Y) (m : nat) (o : option soptions) (s : W) (st : straj P U Y) (s' : W) (pt0 : list (tstep P)) (last : tstep P),
  rng_ok g -> copying sm -> s_post sm = None -> pt_traj pt = pt0 ++ [last] -> live (lw (st_pa last)) ->
  smooth sm g junk fuel pt m "ancestor" o s = Ok (st, s') ->
  exists ind st1, np_sample (map Fin (map lin (lw (st_pa last)))) m (fst (rand g s)) = Ok ind /\
    nth_error (sm_traj st) (length pt0) = Some st1 /\ take (part (st_pa last)) ind = Ok (part (st_pa st1)).
Proof.
  intros W P U Y V sm g junk fuel pt m o s st s' pt0 last Hg Hc Hp Htr Hlv H.
  apply ancestor_inv in H; auto. destruct H as (tr & H & ->). cbn [sm_traj].
  unfold perform_ancestors_int in H. minv H. rewrite Htr, idx_last_app in Hl. injection Hl as <-.
  destruct (sample_norm g _ _ _ _ _ _ Hlv Hl0 Hm) as (r & Hr & Hs).
  destruct (calculate_ancestors_sel sm Hc _ _ _ _ _ _ _ _ H) as (inds & (S1 & S1' & S1'') & S2 & S3 & S4).
  rewrite Htr in *. rewrite app_length in *. cbn [length] in *. replace (length pt0 + 1 - 1)%nat with (length pt0) in S3 by lia.
  destruct (nth_lt tr (length pt0)) as [st1 Hst1]; [lia|].
  exists a, st1. rewrite Hr. split; auto. split; auto.
  apply (S1'' (length pt0) last a st1); auto. rewrite nth_error_app2, Nat.sub_diag by lia. reflexivity.
Qed.

(** On every well formed filter trajectory it succeeds, whatever the weights and the
    draws. *)
Theorem C23_ancestor_total : forall (W P U Y V : Type) (sm : smodel W P U Y V) (g : rng W) (junk : nat -> nat) (fuel : nat)
  (pt : ptraj P U Y) (N m : nat) (o : option soptions) (s : W),
  rng_ok g -> copy_smooth sm -> s_post sm = None -> (0 < N)%nat -> (0 < m)%nat -> pt_traj pt <> [] -> Forall (step_wf N) (pt_traj pt) ->
  exists st s', smooth sm g junk fuel pt m "ancestor" o s = Ok (st, s').
Proof.
  intros W P U Y V sm g junk fuel pt N m o s Hg Hc Hp HN Hm Hne Hwf.
  unfold smooth. cbn [String.eqb Ascii.eqb Bool.eqb orb]. rewrite Hp. cbn [hook].
  destruct (perform_ancestors_total sm g Hg Hc N m (pt_traj pt) (pt_u pt) (pt_y pt) (pt_t pt) Hne HN Hm Hwf s) as (a & s' & E & _).
  unfold bind at 1 2. rewrite E. cbn. unfold ret. eauto.
Qed.

Example C23_example : forall (W : Type) (g : rng W) (s : W), rng_ok g ->
  exists st s', smooth (swalk soft) g (fun _ => 0%nat) 0 ex_pt 3 "ancestor" None s = Ok (st, s') /\
    length (sm_traj st) = 2%nat /\
    forall j, (j < 3)%nat -> exists path, lineage ex_traj path /\ visits ex_traj path (sm_traj st) j.
Proof.
  intros W g s Hg.
  destruct (C23_ancestor_total W R R R (list R) (swalk soft) g (fun _ => 0%nat) 0 ex_pt 2 3 None s Hg (swalk_copy soft) eq_refl) as (st & s' & E);
    [lia|lia|discriminate|apply ex_traj_wf|].
  exists st, s'. split; auto.
  destruct (C23_ancestor_histories _ _ _ _ _ _ _ _ _ _ _ _ _ _ _ Hg (swalk_copying soft) eq_refl E) as (_ & _ & _ & _ & L & _ & A). auto.
Qed.

(** ** C29 *)
Definition backward_methods : list string := ["full"; "mcmc"; "rs"; "rsas"]%string.

(** Whatever the backward simulator, options, draws and densities: if it returns, the
    result has one step per filter step, [m] equally weighted particles per step, each of
    them one of the filter's particles at that step, and the filter's u, y, t. *)
Theorem C29_backward_particles : forall (W P U Y V : Type) (sm : smodel W P U Y V) (g : rng W) (junk : nat -> nat) (fuel : nat)
  (pt : ptraj P U Y) (m : nat) (method : string) (o : option soptions) (s : W) (st : straj P U Y) (s' : W),
  rng_ok g -> copying sm -> s_post sm = None -> In method backward_methods ->
  smooth sm g junk fuel pt m method o s = Ok (st, s') ->
  sm_u st = pt_u pt /\ sm_y st = pt_y pt /\ sm_t st = pt_t pt /\ sm_M st = m /\
  length (sm_traj st) = length (pt_traj pt) /\ smooth_wf m (sm_traj st) /\
  forall j, (j < m)%nat -> exists path, visits (pt_traj pt) path (sm_traj st) j.
Proof.
  intros W P U Y V sm g junk fuel pt m method o s st s' Hg Hc Hp Hmeth H.
  assert (K : exists kind tr s1, perform_bsi sm g junk fuel kind o (pt_traj pt) (pt_u pt) (pt_y pt) (pt_t pt) m s = Ok (tr, s1) /\
            st = mkST tr (pt_u pt) (pt_y pt) (pt_t pt) m).
  { unfold smooth in H. rewrite Hp in H.
    destruct Hmeth as [<-|[<-|[<-|[<-|[]]]]]; cbn [String.eqb Ascii.eqb Bool.eqb orb hook] in H; unfold bind at 1 in H;
      match type of H with match ?x with _ => _ end = _ => destruct x as [[tr s1]|e] eqn:E; [|discriminate] end;
      cbn in H; injection H as <- <-; eauto. }
  destruct K as (kind & tr & s1 & E & ->). cbn [sm_traj sm_u sm_y sm_t sm_M].
  destruct (perform_bsi_sel sm g junk fuel Hg Hc _ _ _ _ _ _ _ _ _ _ E) as (inds & S1 & S2).
  repeat (split; [auto; try apply S1|]).
  intros j Hj. exists (path_of inds j). eapply selects_visits; eauto.
Qed.

(** Contract: the bound on the transition density can be computed for every step with
    recorded input and time. *)
Definition bound_total {W P U Y V} (sm : smodel W P U Y V) : Prop :=
  forall p past pind (u : list (cell U)) (y : list (cell Y)) t k, (k < length u)%nat -> (k < length t)%nat ->
    runs (s_xmax sm p past pind u y t k) (fun _ => True).

Lemma maxpdf_total {W P U Y V} (sm : smodel W P U Y V) (pt : ptraj P U Y) lj : bound_total sm ->
  (forall k, (S k < length (pt_traj pt))%nat -> (k < length (pt_u pt))%nat /\ (k < length (pt_t pt))%nat) ->
  forall n k, (n + k < length (pt_traj pt))%nat -> runs (maxpdf_coeffs sm n k pt lj) (fun l => length l = S n).
Proof.
  intros Hb Hut. induction n as [|n IH]; intros k Hk; cbn [maxpdf_coeffs]; [apply runs_ret; auto|].
  destruct (idx_lt (pt_traj pt) k ltac:(lia)) as [st Est]. eapply runs_lift_bind; [exact Est|].
  destruct (Hut k ltac:(lia)). eapply runs_bind; [apply Hb; auto|]. intros c _.
  eapply runs_bind; [apply IH; lia|]. intros l Ll. apply runs_ret. simpl. auto.
Qed.

(** With the default options every backward simulator succeeds on every smoothable
    filter result (for the adaptive one: with enough rounds, a number that depends only on
    the number of particles and trajectories). *)
Theorem C29_backward_total : forall (N m : nat), (0 < N)%nat -> (0 < m)%nat -> exists F, forall fuel, (F <= fuel)%nat ->
  forall (W P U Y V : Type) (sm : smodel W P U Y V) (g : rng W) (junk : nat -> nat) (ld : cell U -> nat -> P -> P -> xr)
    (pt : ptraj P U Y) (method : string) (lj : xr) (s : W),
  rng_ok g -> copy_smooth sm -> markov_density sm ld -> bound_total sm -> s_post sm = None ->
  In method backward_methods -> smoothable ld N pt ->
  exists st s', perform_smoothing sm g junk fuel pt m method None lj s = Ok (st, s').
Proof.
  intros N m HN Hm. destruct (C26_rsas_terminates 1 1 1 1 N m) as [F HF]; try lra; auto.
  exists F. intros fuel HFuel W P U Y V sm g junk ld pt method lj s Hg Hcp Hmk Hb Hp Hmeth Hsm.
  assert (Hne : pt_traj pt <> []) by apply Hsm.
  assert (Hut : forall k, (S k < length (pt_traj pt))%nat -> (k < length (pt_u pt))%nat /\ (k < length (pt_t pt))%nat).
  { intros k Hk. destruct Hsm as (_ & _ & _ & A). destruct (nth_lt (pt_traj pt) k ltac:(lia)) as [a Ha]. destruct (nth_lt _ _ Hk) as [b Hb'].
    destruct (A _ _ _ Ha Hb') as (uk & tk & Hu & Ht & _). split; apply nth_error_Some; congruence. }
  assert (HT : (0 < length (pt_traj pt))%nat) by (destruct (pt_traj pt); [congruence|simpl; lia]).
  assert (Finish : forall kind o s1, opts_ok sm g junk fuel ld N m kind (Some o) (length (pt_traj pt)) ->
    smooth sm g junk fuel pt m method (Some o) s1 =
      (do tr <- perform_bsi sm g junk fuel kind (Some o) (pt_traj pt) (pt_u pt) (pt_y pt) (pt_t pt) m ; ret (mkST tr (pt_u pt) (pt_y pt) (pt_t pt) m)) s1 ->
    exists st s', smooth sm g junk fuel pt m method (Some o) s1 = Ok (st, s')).
  { intros kind o s1 Ho Es. rewrite Es. destruct (perform_bsi_total sm g junk fuel Hg Hcp ld Hmk N m HN Hm kind (Some o) pt Hsm Ho s1) as (tr & s' & E & _).
    unfold bind. rewrite E. cbn. unfold ret. eauto. }
  unfold perform_smoothing, default_options.
  destruct Hmeth as [<-|[<-|[<-|[<-|[]]]]]; cbn [String.eqb Ascii.eqb Bool.eqb orb].
  - unfold bind at 1. cbn [ret]. apply (Finish BFull no_options s); [exact I|]. unfold smooth. rewrite Hp. reflexivity.
  - unfold bind at 1. cbn [ret]. apply (Finish BMcmc _ s); [exists 30%Z; reflexivity|]. unfold smooth. rewrite Hp. reflexivity.
  - destruct (pt_traj pt) as [|st0 rest] eqn:Etr; [congruence|].
    destruct (maxpdf_total sm pt lj Hb ltac:(rewrite Etr; exact Hut) (length (pt_traj pt) - 1) 0 ltac:(rewrite Etr; simpl; lia) s) as (c & s1 & Ec & Lc).
    rewrite Etr in Ec, Lc. unfold bind at 1 2. rewrite Ec. cbn [idx nth_error]. unfold bind at 1, lift. cbn [idx nth_error].
    cbn [ret]. apply (Finish BRs _ s1).
    + split; [eexists; reflexivity|]. exists c. split; [reflexivity|]. lia.
    + unfold smooth. rewrite Hp, Etr. reflexivity.
  - destruct (pt_traj pt) as [|st0 rest] eqn:Etr; [congruence|].
    destruct (maxpdf_total sm pt lj Hb ltac:(rewrite Etr; exact Hut) (length (pt_traj pt) - 1) 0 ltac:(rewrite Etr; simpl; lia) s) as (c & s1 & Ec & Lc).
    rewrite Etr in Ec, Lc. unfold bind at 1 2. rewrite Ec. cbn [ret]. apply (Finish BRsas _ s1).
    + do 5 eexists. do 5 (split; [reflexivity|]). split; [cbn; lra|]. split; [|exists c; split; [reflexivity|lia]].
      intros fuel' Hf' pa ptr pind fut d xs find u y t k maxpdf s2 B1 B2 B3 B4. cbn [py_val].
      apply (HF fuel' ltac:(lia) W P U Y V sm g junk ld u y t k pa ptr pind fut d xs find maxpdf 1 s2); auto. lra.
    + unfold smooth. rewrite Hp, Etr. reflexivity.
Qed.

Lemma ex_smoothable : smoothable (fun (_ : cell R) (_ : nat) => soft) 2 ex_pt.
Proof.
  split; [discriminate|]. split; [apply ex_traj_wf|].
  split. { apply Forall_cons; [|apply Forall_cons; [|constructor]]; (split; [repeat constructor|exists 0; cbn; auto]). }
  intros k st st' Hk Hk'. destruct k as [|[|[|k]]]; cbn in Hk, Hk'; try discriminate.
  injection Hk as <-. injection Hk' as <-. exists (CVal 0), 0%nat. split; auto. split; auto.
  intros x Hx. assert (x = 0) by (cbn in Hx; intuition auto). subst.
  pose proof (soft_reachable 0 [0%nat] ltac:(repeat constructor)) as A. inversion A as [|? ? (x' & E & Us) _]; subst.
  cbn in E. injection E as <-. exact Us.
Qed.

Lemma swalk_bound {W} d : bound_total (W := W) (swalk d).
Proof.
  intros p past pind u y t k Hu Ht. cbn. unfold def_xmax_full. destruct (idx_lt u k Hu) as [a Ea]. eapply runs_lift_bind; [exact Ea|].
  destruct (idx_lt t k Ht) as [b Eb]. eapply runs_lift_bind; [exact Eb|]. apply runs_ret. auto.
Qed.

Example C29_example : exists F, forall (W : Type) (g : rng W) (s : W) (method : string), rng_ok g -> In method backward_methods ->
  exists st s', perform_smoothing (swalk soft) g (fun _ => 0%nat) F ex_pt 3 method None NaN s = Ok (st, s').
Proof.
  destruct (C29_backward_total 2 3) as [F HF]; try lia. exists F. intros W g s method Hg Hin.
  apply (HF F (le_n F) W R R R (list R) (swalk soft) g (fun _ => 0%nat) (fun _ _ => soft) ex_pt method NaN s); auto.
  - apply swalk_copy. - apply swalk_markov. - apply swalk_bound. - apply ex_smoothable.
Qed.

(** ** C30 *)
Definition smoother_names : list string := ["full"; "mcmc"; "rs"; "rsas"; "ancestor"; "mhips"; "mhips_reduced"; "mhbp"]%string.

(** A method name is rejected with ValueError (for every input) exactly when it is not
    one of the eight documented names; letter case matters. *)
Theorem C30_method_names : forall (W P U Y V : Type) (sm : smodel W P U Y V) (g : rng W) (junk : nat -> nat) (fuel : nat) (method : string) (s0 : W),
  (forall (pt : ptraj P U Y) m o s, smooth sm g junk fuel pt m method o s = Err ValueError) <-> ~ In method smoother_names.
Proof.
  intros W P U Y V sm g junk fuel method s0. split.
  - intros H Hin. specialize (H (mkPT 0 (FPF 0) [] [] [] 0 0 []) 0%nat None s0).
    destruct Hin as [<-|[<-|[<-|[<-|[<-|[<-|[<-|[<-|[]]]]]]]]]; cbn in H; discriminate.
  - intros Hn pt m o s. unfold smooth.
    assert (K : forall name, In name smoother_names -> String.eqb method name = false).
    { intros name Hin. apply String.eqb_neq. intros ->. auto. }
    rewrite !K by (cbn; tauto). reflexivity.
Qed.

(** Options: the value the user passed wins, otherwise the default. *)
Definition user_or {A} (user : option soptions) (f : soptions -> option A) (dflt : option A) : option A :=
  match user with Some o => match f o with Some v => Some v | None => dflt end | None => dflt end.

(** [perform_smoothing] runs the smoother with R = 30 for 'mcmc', 'mhips', 'mhbp',
    unless the user gives another R ... *)
Theorem C30_default_R30 : forall (W P U Y V : Type) (sm : smodel W P U Y V) (g : rng W) (junk : nat -> nat) (fuel : nat) (pt : ptraj P U Y) m method user lj s,
  In method ["mcmc"; "mhips"; "mhbp"]%string ->
  exists o, perform_smoothing sm g junk fuel pt m method user lj s = smooth sm g junk fuel pt m method (Some o) s /\
    o_R o = user_or user o_R (Some (PyInt 30)).
Proof.
  intros W P U Y V sm g junk fuel pt m method user lj s Hin. unfold perform_smoothing, default_options.
  destruct Hin as [<-|[<-|[<-|[]]]]; (eexists; split; [reflexivity|]); destruct user as [[[r|] ? ? ? ? ? ?]|]; reflexivity.
Qed.

(** ... but R = 10 for 'mhips_reduced' (it is missing from the list of defaults, so the
    smoother's own fallback applies). *)
Theorem C30_mhips_reduced_R10 : forall (W P U Y V : Type) (sm : smodel W P U Y V) (g : rng W) (junk : nat -> nat) (fuel : nat) (pt : ptraj P U Y) m lj s,
  perform_smoothing sm g junk fuel pt m "mhips_reduced" None lj s =
  smooth sm g junk fuel pt m "mhips_reduced" (Some (mkOpt (Some (PyInt 10)) None None None None None None)) s.
Proof. reflexivity. Qed.

(** 'rs' and 'rsas': the bound of step [k] is the model's bound for the particles of
    step [k]; one bound for each of the steps 0..T-2 that the smoother reads.
    [mx p k]: the bound the model computes for particles [p] at step [k]. *)
Theorem C30_default_bounds : forall (W P U Y V : Type) (sm : smodel W P U Y V) (g : rng W) (junk : nat -> nat) (fuel : nat) (pt : ptraj P U Y) m method user lj s
    (mx : list P -> nat -> xr),
  In method ["rs"; "rsas"]%string -> pt_traj pt <> [] ->
  (forall p k, s_xmax sm p (firstn k (pt_traj pt)) (match nth_error (pt_traj pt) k with Some st => st_anc st | None => [] end) (pt_u pt) (pt_y pt) (pt_t pt) k s = Ok (mx p k, s)) ->
  exists o c, perform_smoothing sm g junk fuel pt m method user lj s = smooth sm g junk fuel pt m method (Some o) s /\
    o_maxpdf o = user_or user o_maxpdf (Some c) /\
    (forall k st, nth_error (pt_traj pt) k = Some st -> (S k < length (pt_traj pt))%nat -> nth_error c k = Some (mx (part (st_pa st)) k)) /\
    (forall st0, method = "rs"%string -> nth_error (pt_traj pt) 0 = Some st0 ->
       o_R o = user_or user o_R (Some (PyFloat (1 / 10 * INR (length (lw (st_pa st0))))))) /\
    (method = "rsas"%string -> o_x1 o = user_or user o_x1 (Some (PyFloat 1)) /\ o_P1 o = user_or user o_P1 (Some (PyFloat 1)) /\
       o_sv o = user_or user o_sv (Some (PyFloat 1)) /\ o_sw o = user_or user o_sw (Some (PyFloat 1)) /\ o_ratio o = user_or user o_ratio (Some (PyFloat 1))).
Proof.
  intros W P U Y V sm g junk fuel pt m method user lj s mx Hin Hne Hmx.
  assert (C : forall n k, (n + k < length (pt_traj pt))%nat -> exists c, maxpdf_coeffs sm n k pt lj s = Ok (c, s) /\
     forall i st, (i < n)%nat -> nth_error (pt_traj pt) (k + i) = Some st -> nth_error c i = Some (mx (part (st_pa st)) (k + i)%nat)).
  { induction n as [|n IH]; intros k Hk; cbn [maxpdf_coeffs].
    - exists [lj]. split; [reflexivity|]. intros; lia.
    - destruct (idx_lt (pt_traj pt) k ltac:(lia)) as [st Est]. rewrite (lift_bind_eq _ _ _ _ Est). apply idx_ok in Est.
      specialize (Hmx (part (st_pa st)) k). rewrite Est in Hmx. rewrite (bind_eq _ _ _ _ _ Hmx).
      destruct (IH (k + 1)%nat ltac:(lia)) as (c & Ec & Hc). rewrite (bind_eq _ _ _ _ _ Ec).
      eexists. split; [reflexivity|]. intros [|i] st' Hi Hst; cbn.
      + rewrite Nat.add_0_r in *. congruence.
      + replace (k + S i)%nat with (k + 1 + i)%nat in * by lia. apply Hc; [lia|auto]. }
  assert (HT : (0 < length (pt_traj pt))%nat) by (destruct (pt_traj pt); [congruence|simpl; lia]).
  destruct (C (length (pt_traj pt) - 1)%nat 0%nat ltac:(lia)) as (c & Ec & Hc).
  unfold perform_smoothing, default_options.
  assert (Ec' : (match pt_traj pt with [] => ret [] | tr => maxpdf_coeffs sm (length tr - 1) 0 pt lj end) s = Ok (c, s)).
  { destruct (pt_traj pt) eqn:E; [congruence|]. exact Ec. }
  destruct (nth_lt (pt_traj pt) 0 HT) as [st0 Hst0]. assert (E0 := proj2 (idx_ok _ _ _) Hst0).
  assert (Tenth : 0.1 = 1 / 10) by lra.
  destruct Hin as [<-|[<-|[]]]; cbn [String.eqb Ascii.eqb Bool.eqb orb];
    match goal with |- context [opt_update _ _] => idtac end.
  - eexists. exists c. split.
    { unfold bind at 1 2. rewrite Ec'. unfold bind at 1, lift at 1. rewrite E0. cbn [ret]. reflexivity. }
    split; [destruct user as [[? [r|] ? ? ? ? ?]|]; reflexivity|].
    split; [intros k st Hk Hs; apply (Hc k st ltac:(lia) Hk)|].
    split; [|discriminate]. intros st0' _ H0. rewrite Hst0 in H0. injection H0 as <-. rewrite <- Tenth. destruct user as [[[r|] ? ? ? ? ? ?]|]; reflexivity.
  - eexists. exists c. split.
    { unfold bind at 1 2. rewrite Ec'. cbn [ret]. reflexivity. }
    split; [destruct user as [[? [r|] ? ? ? ? ?]|]; reflexivity|].
    split; [intros k st Hk Hs; apply (Hc k st ltac:(lia) Hk)|].
    split; [discriminate|]. intros _. destruct user as [[? ? [?|] [?|] [?|] [?|] [?|]]|]; repeat split; reflexivity.
Qed.

Example C30_default_bounds_example : forall (W : Type) (g : rng W) (s : W),
  exists o c, perform_smoothing (swalk soft) g (fun _ => 0%nat) 9 ex_pt 3 "rs" None NaN s = smooth (swalk soft) g (fun _ => 0%nat) 9 ex_pt 3 "rs" (Some o) s /\
    o_maxpdf o = Some c /\ nth_error c 0 = Some (Fin 0).
Proof.
  intros W g s. eexists. exists [Fin 0; NaN]. split; [reflexivity|]. split; reflexivity.
Qed.

(** ** C31 *)
(** Smoothing a filter result of a single step with the Metropolis-Hastings smoothers
    raises, for every model without hooks, every number of trajectories and every
    draw. *)
Theorem C31_single_step_mhips : forall (W P U Y V : Type) (sm : smodel W P U Y V) (g : rng W) (junk : nat -> nat) (fuel : nat) (pt : ptraj P U Y)
    (st : tstep P) (N m : nat) (o : soptions) (method : string) (R_ : Z) (s : W),
  rng_ok g -> copy_smooth sm -> s_pre sm = None -> pt_traj pt = [st] -> step_wf N st -> (0 < N)%nat -> (0 < m)%nat -> In method ["mhips"; "mhips_reduced"]%string ->
  o_R o = Some (PyInt R_) -> (0 < R_)%Z ->
  smooth sm g junk fuel pt m method (Some o) s = Err IndexError.
Proof.
  intros W P U Y V sm g junk fuel pt st N m o method R_ s Hg Hcp Hpre Htr Hwf HN Hm Hin HR HR0.
  destruct (perform_ancestors_total sm g Hg Hcp N m (pt_traj pt) (pt_u pt) (pt_y pt) (pt_t pt)) with (s := s) as (a & s1 & E & _); auto.
  { rewrite Htr. discriminate. } { rewrite Htr. auto. }
  assert (La : length a = 1%nat).
  { unfold perform_ancestors_int in E. minv E. destruct (calculate_ancestors_sel sm (copy_smooth_copying sm Hcp) _ _ _ _ _ _ _ _ E) as (inds & (S1 & _) & _). rewrite S1, Htr. reflexivity. }
  assert (K : (do a <- perform_ancestors_int sm g (pt_traj pt) (pt_u pt) (pt_y pt) (pt_t pt) m ;
       do r <- lift (get_R10 (Some o)) ; do n <- lift (py_range r) ;
       mhips_passes sm g n (String.eqb method "mhips_reduced") a (pt_u pt) (pt_y pt) (pt_t pt) m) s = Err IndexError).
  { rewrite (bind_eq _ _ _ _ _ E). unfold get_R10. rewrite HR. cbn [lift]. unfold bind at 1, lift. unfold bind at 1, lift. cbn [py_range].
    destruct (Z.to_nat R_) as [|n] eqn:En; [lia|]. cbn [mhips_passes]. rewrite Hpre. cbn [hook]. unfold bind at 1. cbn [ret].
    destruct a as [|st1 [|? ?]]; try discriminate. unfold perform_mhips_pass. cbn. reflexivity. }
  unfold smooth. destruct Hin as [<-|[<-|[]]]; cbn [String.eqb Ascii.eqb Bool.eqb orb]; cbn [String.eqb Ascii.eqb Bool.eqb orb] in K; unfold bind at 1; rewrite K; reflexivity.
Qed.

Theorem C31_single_step_mhbp : forall (W P U Y V : Type) (sm : smodel W P U Y V) (g : rng W) (junk : nat -> nat) (fuel : nat) (pt : ptraj P U Y)
    (st : tstep P) (N m : nat) (o : soptions) (R_ : Z) (s : W),
  rng_ok g -> pt_traj pt = [st] -> step_wf N st -> (0 < N)%nat ->
  o_R o = Some (PyInt R_) ->
  smooth sm g junk fuel pt m "mhbp" (Some o) s = Err UnboundLocalError.
Proof.
  intros W P U Y V sm g junk fuel pt st N m o R_ s Hg Htr Hwf HN HR.
  destruct (start_total g Hg N m (pt_traj pt)) as (last & w & El & Wl & Ew & Hs); auto.
  { rewrite Htr. discriminate. } { rewrite Htr. auto. }
  unfold smooth. cbn [String.eqb Ascii.eqb Bool.eqb orb]. unfold get_R10. rewrite HR. unfold bind at 1. unfold bind at 1, lift at 1.
  unfold bind at 1, lift at 1. cbn [py_range]. unfold bind at 1. unfold perform_mhbp.
  rewrite (lift_bind_eq _ _ _ _ El), (lift_bind_eq _ _ _ _ Ew). destruct (Hs s) as (ind & s1 & Es & Li & Fi). rewrite (bind_eq _ _ _ _ _ Es).
  rewrite Htr in *. cbn [length mhbp_loop]. rewrite (lift_bind_eq _ _ _ st) by reflexivity. cbn in El. injection El as <-.
  destruct Wl as (W1 & _). destruct (take_ok (part (st_pa st)) ind) as [p1 E2]; [rewrite W1; auto|]. rewrite (lift_bind_eq _ _ _ _ E2).
  unfold bind at 1. cbn [ret]. destruct (Z.to_nat R_) as [|n]; reflexivity.
Qed.

Definition one_pt : ptraj R R R := mkPT 2 (FPF 1) [CVal 0] [CVal 0] [0]%nat 2 1 [mkStep (mkPA [0; 1] [Fin 0; Fin (-1)] 2 (Fin 0)) [0; 1]%nat].

Example C31_example : forall (W : Type) (g : rng W) (s : W), rng_ok g ->
  perform_smoothing (swalk soft) g (fun _ => 0%nat) 0 one_pt 3 "mhips" None NaN s = Err IndexError /\
  perform_smoothing (swalk soft) g (fun _ => 0%nat) 0 one_pt 3 "mhips_reduced" None NaN s = Err IndexError /\
  perform_smoothing (swalk soft) g (fun _ => 0%nat) 0 one_pt 3 "mhbp" None NaN s = Err UnboundLocalError.
Proof.
  intros W g s Hg. split; [|split].
  - eapply (C31_single_step_mhips W R R R (list R) (swalk soft) g (fun _ => 0%nat) 0%nat one_pt _ 2 3 _ "mhips" 30%Z s);
      auto; try apply swalk_copy; try lia; try reflexivity; [repeat constructor|cbn; auto].
  - eapply (C31_single_step_mhips W R R R (list R) (swalk soft) g (fun _ => 0%nat) 0%nat one_pt _ 2 3 (mkOpt (Some (PyInt 10)) None None None None None None) "mhips_reduced" 10%Z s);
      auto; try apply swalk_copy; try lia; try reflexivity; [repeat constructor|cbn; auto].
  - eapply (C31_single_step_mhbp W R R R (list R) (swalk soft) g (fun _ => 0%nat) 0%nat one_pt (mkStep (mkPA [0; 1] [Fin 0; Fin (-1)] 2 (Fin 0)) [0; 1]%nat) 2 3 (mkOpt (Some (PyInt 30)) None None None None None None) 30%Z s);
      auto; try lia; try reflexivity; repeat constructor.
Qed.

(** ** C58 *)
(** The same model without a [post_smoothing] hook. *)
Definition without_hook {W P U Y V} (sm : smodel W P U Y V) : smodel W P U Y V :=
  mkSModel (s_f sm) (s_xnext sm) (s_xmax sm) (s_sample sm) (s_cpred sm) (s_cinit sm) (s_propose sm) (s_logprop sm) (s_x0 sm) None (s_pre sm).

(** The result is that of the hook-free model with the hook applied once ... *)
Theorem C58_hook_once : forall (W P U Y V : Type) (sm : smodel W P U Y V) (g : rng W) (junk : nat -> nat) (fuel : nat) (pt : ptraj P U Y) (m : nat)
    (method : string) (o : option soptions) (h : list (tstep P) -> list (cell U) -> list (cell Y) -> list nat -> nat -> M W (list (tstep P))) (s : W),
  s_post sm = Some h -> In method ["full"; "mcmc"; "rs"; "rsas"; "mhips"; "mhips_reduced"]%string ->
  smooth sm g junk fuel pt m method o s =
  (do st <- smooth (without_hook sm) g junk fuel pt m method o ;
   do tr <- h (sm_traj st) (sm_u st) (sm_y st) (sm_t st) (sm_M st) ;
   ret (mkST tr (sm_u st) (sm_y st) (sm_t st) (sm_M st))) s.
Proof.
  intros W P U Y V sm g junk fuel pt m method o h s Hh Hin. unfold smooth. cbn [s_post without_hook hook]. rewrite Hh. cbn [hook].
  assert (K : forall (A : M W (list (tstep P))) u y t m', 
    (do traj <- A; do traj0 <- h traj u y t m'; ret (mkST traj0 u y t m')) s =
    (do st <- do traj <- A; do traj0 <- ret traj; ret (mkST traj0 u y t m'); do tr <- h (sm_traj st) (sm_u st) (sm_y st) (sm_t st) (sm_M st); ret (mkST tr (sm_u st) (sm_y st) (sm_t st) (sm_M st))) s).
  { intros A u y t m'. unfold bind, ret. destruct (A s) as [[a s1]|]; reflexivity. }
  destruct Hin as [<-|[<-|[<-|[<-|[<-|[<-|[]]]]]]]; cbn [String.eqb Ascii.eqb Bool.eqb orb]; apply K.
Qed.

(** ... but twice in a row for 'ancestor' and 'mhbp'. *)
Theorem C58_hook_twice : forall (W P U Y V : Type) (sm : smodel W P U Y V) (g : rng W) (junk : nat -> nat) (fuel : nat) (pt : ptraj P U Y) (m : nat)
    (method : string) (o : option soptions) (h : list (tstep P) -> list (cell U) -> list (cell Y) -> list nat -> nat -> M W (list (tstep P))) (s : W),
  s_post sm = Some h -> In method ["ancestor"; "mhbp"]%string ->
  smooth sm g junk fuel pt m method o s =
  (do st <- smooth (without_hook sm) g junk fuel pt m method o ;
   do tr <- h (sm_traj st) (sm_u st) (sm_y st) (sm_t st) (sm_M st) ;
   do tr2 <- h tr (sm_u st) (sm_y st) (sm_t st) (sm_M st) ;
   ret (mkST tr2 (sm_u st) (sm_y st) (sm_t st) (sm_M st))) s.
Proof.
  intros W P U Y V sm g junk fuel pt m method o h s Hh Hin. unfold smooth. cbn [s_post without_hook hook]. rewrite Hh. cbn [hook].
  destruct Hin as [<-|[<-|[]]]; cbn [String.eqb Ascii.eqb Bool.eqb orb].
  - change (perform_ancestors_int (without_hook sm)) with (perform_ancestors_int sm). unfold bind, ret.
    destruct (perform_ancestors_int sm g (pt_traj pt) (pt_u pt) (pt_y pt) (pt_t pt) m s) as [[a s1]|]; reflexivity.
  - change (perform_mhbp (without_hook sm)) with (perform_mhbp sm). unfold bind, lift, ret.
    destruct (get_R10 o) as [r|]; [|reflexivity]. destruct (py_range r) as [n|]; [|reflexivity].
    destruct (perform_mhbp sm g n false (pt_traj pt) (pt_u pt) (pt_y pt) (pt_t pt) m s) as [[a s1]|]; reflexivity.
Qed.

(** A hook that repeats the trajectory: the result of 'full' is twice, that of 'ancestor'
    four times as long as the filter's. *)
Definition hooked {W} : smodel W R R R (list R) :=
  let sm := swalk (W := W) soft in
  mkSModel (s_f sm) (s_xnext sm) (s_xmax sm) (s_sample sm) (s_cpred sm) (s_cinit sm) (s_propose sm) (s_logprop sm) (s_x0 sm)
    (Some (fun tr _ _ _ _ => ret (tr ++ tr))) (s_pre sm).

Example C58_example : forall (W : Type) (g : rng W) (s : W), rng_ok g ->
  (exists st s', perform_smoothing hooked g (fun _ => 0%nat) 0 ex_pt 3 "full" None NaN s = Ok (st, s') /\ length (sm_traj st) = 4%nat) /\
  (exists st s', perform_smoothing hooked g (fun _ => 0%nat) 0 ex_pt 3 "ancestor" None NaN s = Ok (st, s') /\ length (sm_traj st) = 8%nat).
Proof.
  intros W g s Hg. split.
  - change (perform_smoothing hooked g (fun _ => 0%nat) 0 ex_pt 3 "full" None NaN s) with (smooth hooked g (fun _ => 0%nat) 0 ex_pt 3 "full" (Some no_options) s).
    rewrite (C58_hook_once _ _ _ _ _ hooked g _ _ ex_pt 3 "full" _ _ s eq_refl) by (cbn; auto).
    change (without_hook hooked) with (swalk (W := W) soft).
    destruct (perform_bsi_total (swalk soft) g (fun _ => 0%nat) 0 Hg (swalk_copy soft) _ (swalk_markov soft) 2 3 ltac:(lia) ltac:(lia) BFull (Some no_options) ex_pt ex_smoothable I s) as (tr & s' & E & _).
    assert (Es : smooth (swalk soft) g (fun _ => 0%nat) 0 ex_pt 3 "full" (Some no_options) s = Ok (mkST tr (pt_u ex_pt) (pt_y ex_pt) (pt_t ex_pt) 3, s')).
    { unfold smooth. cbn [String.eqb Ascii.eqb Bool.eqb]. unfold bind at 1. rewrite E. reflexivity. }
    destruct (C29_backward_particles _ _ _ _ _ _ _ _ _ _ _ "full" _ _ _ _ Hg (swalk_copying soft) eq_refl ltac:(cbn; auto) Es) as (_ & _ & _ & _ & L & _).
    unfold bind at 1. rewrite Es. cbn. unfold bind, ret. do 2 eexists. split; [reflexivity|]. cbn. rewrite app_length. cbn in L. lia.
  - change (perform_smoothing hooked g (fun _ => 0%nat) 0 ex_pt 3 "ancestor" None NaN s) with (smooth hooked g (fun _ => 0%nat) 0 ex_pt 3 "ancestor" (Some no_options) s).
    rewrite (C58_hook_twice _ _ _ _ _ hooked g _ _ ex_pt 3 "ancestor" _ _ s eq_refl) by (cbn; auto).
    change (without_hook hooked) with (swalk (W := W) soft).
    destruct (C23_ancestor_total W R R R (list R) (swalk soft) g (fun _ => 0%nat) 0 ex_pt 2 3 (Some no_options) s Hg (swalk_copy soft) eq_refl) as (st & s' & Es);
      [lia|lia|discriminate|apply ex_traj_wf|].
    destruct (C23_ancestor_histories _ _ _ _ _ _ _ _ _ _ _ _ _ _ _ Hg (swalk_copying soft) eq_refl Es) as (_ & _ & _ & _ & L & _).
    unfold bind at 1. rewrite Es. cbn. unfold bind, ret. do 2 eexists. split; [reflexivity|]. cbn. rewrite !app_length. cbn in L. lia.
Qed.

Print Assumptions C23_ancestor_histories.
Print Assumptions C23_end_points.
Print Assumptions C23_ancestor_total.
Print Assumptions C29_backward_particles.
Print Assumptions C29_backward_total.
Print Assumptions C30_method_names.
Print Assumptions C30_default_bounds.
Print Assumptions C31_single_step_mhips.
Print Assumptions C31_single_step_mhbp.
Print Assumptions C58_hook_once.
Print Assumptions C58_hook_twice.
