(** Properties of the calls the smoothers make to the user's model: C58 (hooks before
    passes), C70; and of Simulator.simulate's smoothing part (C14). *)
From Coq Require Import String Bool ZArith Reals List Arith Lia Lra.
From Verif Require Import Base XR SampleSpec SampleModel PAModel WeightSpec WeightProofs FilterModel TrajModel
  FilterSpec SmoothModel SmoothSpec SmoothProofs SmoothRs SmoothPath ProtoSpec ProtoProofs ProtoMh ExampleModel SmoothExample SmoothBsi Prop_Smooth MhProofs Prop_Mh TrajProofs FilterTotal Prop_Weights Prop_Traj.
Import ListNotations.
Open Scope R_scope.

(** ** C70 *)
Lemma smooth_ext {W P U Y V} (sm sm' : smodel W P U Y V) g junk fuel (pt : ptraj P U Y) m method o s :
  rng_ok g ->
  same_smoother_calls (length (pt_traj pt)) m (pt_u pt) (pt_y pt) (pt_t pt) sm sm' ->
  smooth sm g junk fuel pt m method o s = smooth sm' g junk fuel pt m method o s.
Proof.
  intros Hg H. pose proof H as (Hxn & _ & Hsa & _ & _ & _ & _ & _ & _ & _ & _ & _ & _ & Hpost & _ & Hkeep & _).
  assert (Hb : forall kind s, perform_bsi sm g junk fuel kind o (pt_traj pt) (pt_u pt) (pt_y pt) (pt_t pt) m s =
                            perform_bsi sm' g junk fuel kind o (pt_traj pt) (pt_u pt) (pt_y pt) (pt_t pt) m s).
  { intros kind s0. apply perform_bsi_ext; auto. }
  assert (Ha : forall s, perform_ancestors_int sm g (pt_traj pt) (pt_u pt) (pt_y pt) (pt_t pt) m s =
                            perform_ancestors_int sm' g (pt_traj pt) (pt_u pt) (pt_y pt) (pt_t pt) m s).
  { intros s0. apply perform_ancestors_ext; auto. }
  assert (Hh : forall tr s, length tr = length (pt_traj pt) ->
     hook (s_post sm) tr (pt_u pt) (pt_y pt) (pt_t pt) m s = hook (s_post sm') tr (pt_u pt) (pt_y pt) (pt_t pt) m s).
  { intros tr s0 L. eapply hook_ext; eauto. }
  assert (Hk : forall tr s r s', length tr = length (pt_traj pt) ->
     hook (s_post sm) tr (pt_u pt) (pt_y pt) (pt_t pt) m s = Ok (r, s') -> length r = length (pt_traj pt)).
  { intros tr s0 r s' L E. unfold hook in E. unfold hook_keeps_length in Hkeep. destruct (s_post sm); [eauto|minv E; auto]. }
  unfold smooth.
  assert (D : forall (x x' : M W (list (tstep P))) s, x s = x' s ->
    (forall r s', x s = Ok (r, s') -> length r = length (pt_traj pt)) ->
    (do traj <- x ; do traj <- hook (s_post sm) traj (pt_u pt) (pt_y pt) (pt_t pt) m ; ret (mkST traj (pt_u pt) (pt_y pt) (pt_t pt) m)) s =
    (do traj <- x' ; do traj <- hook (s_post sm') traj (pt_u pt) (pt_y pt) (pt_t pt) m ; ret (mkST traj (pt_u pt) (pt_y pt) (pt_t pt) m)) s).
  { intros x x' s0 E L. apply bind_ext; [auto|]. intros tr s1 E1. apply bind_ext; [|reflexivity]. apply Hh. eauto. }
  apply D; clear D;
  repeat match goal with |- context [if ?b then _ else _] => destruct b end; try (intros r s' E; discriminate E);
    try apply Hb; try (intros r s' E; eapply perform_bsi_steps; eassumption); try reflexivity.
  - apply bind_ext; [apply Ha|]. intros a s1 Ea. apply Hh. eapply perform_ancestors_steps; eauto.
  - apply bind_ext; [apply Ha|]. intros a s1 Ea. apply perform_ancestors_steps in Ea. same_bind. intros r s2 _.
    same_bind. intros n s3 _. eapply passes_ext; eauto.
  - same_bind. intros r s1 _. same_bind. intros n s2 _. apply bind_ext; [eapply perform_mhbp_ext; eauto|].
    intros a s3 Ea. apply Hh. unfold perform_mhbp in Ea. do 3 (apply bind_ok in Ea; destruct Ea as (? & ? & _ & Ea)).
    eapply mhbp_loop_steps in Ea. simpl in Ea. lia.
  - intros r s' E. minv E. eapply Hk; [|eassumption]. eapply perform_ancestors_steps; eauto.
  - intros r s' E. minv E. eapply passes_steps; [exact H| |eassumption]. eapply perform_ancestors_steps; eauto.
  - intros r s' E. minv E. eapply Hk; [|eassumption].
    match goal with X : perform_mhbp _ _ _ _ _ _ _ _ _ _ = Ok _ |- _ => rename X into Ea end.
    unfold perform_mhbp in Ea. do 3 (apply bind_ok in Ea; destruct Ea as (? & ? & _ & Ea)).
    eapply mhbp_loop_steps in Ea. simpl in Ea. lia.
Qed.

Lemma maxpdf_ext {W P U Y V} (sm sm' : smodel W P U Y V) (pt : ptraj P U Y) lj :
  (forall st k s, nth_error (pt_traj pt) k = Some st -> (k + 1 < length (pt_traj pt))%nat ->
     s_xmax sm (part (st_pa st)) (firstn k (pt_traj pt)) (st_anc st) (pt_u pt) (pt_y pt) (pt_t pt) k s =
     s_xmax sm' (part (st_pa st)) (firstn k (pt_traj pt)) (st_anc st) (pt_u pt) (pt_y pt) (pt_t pt) k s) ->
  forall n k s, (k + n + 1 <= length (pt_traj pt))%nat -> maxpdf_coeffs sm n k pt lj s = maxpdf_coeffs sm' n k pt lj s.
Proof.
  intros H. induction n as [|n IH]; intros k s Hk; cbn [maxpdf_coeffs]; [reflexivity|].
  same_lift st Ek. apply idx_ok in Ek. apply bind_ext; [apply H; auto; lia|]. intros c s1 _.
  apply bind_ext; [apply IH; lia|reflexivity].
Qed.

Lemma default_options_ext {W P U Y V} (sm sm' : smodel W P U Y V) (pt : ptraj P U Y) method lj s :
  (forall st k s, nth_error (pt_traj pt) k = Some st -> (k + 1 < length (pt_traj pt))%nat ->
     s_xmax sm (part (st_pa st)) (firstn k (pt_traj pt)) (st_anc st) (pt_u pt) (pt_y pt) (pt_t pt) k s =
     s_xmax sm' (part (st_pa st)) (firstn k (pt_traj pt)) (st_anc st) (pt_u pt) (pt_y pt) (pt_t pt) k s) ->
  default_options sm pt method lj s = default_options sm' pt method lj s.
Proof.
  intros H. unfold default_options. destruct (_ || _)%bool; [|reflexivity]. apply bind_ext; [|reflexivity].
  destruct (pt_traj pt) as [|st tr] eqn:E; [reflexivity|]. rewrite <- E in *. apply maxpdf_ext; auto. rewrite E. simpl. lia.
Qed.

Theorem C70_smoother_calls : forall (W P U Y V : Type) (sm sm' : smodel W P U Y V) (g : rng W) (junk : nat -> nat) (fuel : nat)
    (pt : ptraj P U Y) (m : nat) (method : string) (so : option soptions) (lj : xr) (s : W),
  rng_ok g ->
  same_smoother_calls (length (pt_traj pt)) m (pt_u pt) (pt_y pt) (pt_t pt) sm sm' ->
  perform_smoothing sm g junk fuel pt m method so lj s = perform_smoothing sm' g junk fuel pt m method so lj s.
Proof.
  intros W P U Y V sm sm' g junk fuel pt m method so lj s Hg H. unfold perform_smoothing.
  apply bind_ext; [|intros; apply smooth_ext; auto].
  apply default_options_ext. intros st k s1 Hk HT. apply H. split; [apply firstn_length_le; lia|auto].
Qed.

Theorem C70_backward_calls : forall (W P U Y V : Type) (sm sm' : smodel W P U Y V) (g : rng W) (junk : nat -> nat) (fuel : nat)
    (pt : ptraj P U Y) (N m : nat) (method : string) (so : option soptions) (lj : xr) (s : W),
  rng_ok g -> In method ["full"; "mcmc"; "rs"; "rsas"; "ancestor"]%string ->
  Forall (step_wf N) (pt_traj pt) ->
  same_backward_calls m (pt_traj pt) (pt_u pt) (pt_y pt) (pt_t pt) sm sm' ->
  perform_smoothing sm g junk fuel pt m method so lj s = perform_smoothing sm' g junk fuel pt m method so lj s.
Proof.
  intros W P U Y V sm sm' g junk fuel pt N m method so lj s Hg Hin Hwf (Hxn & Hsa & Hxm & Hpost & Hkeep).
  unfold perform_smoothing. apply bind_ext; [apply default_options_ext; auto|]. intros d s1 _.
  assert (Hxn' : forall p pind fut find k s, of_step (pt_traj pt) k p pind -> at_step (length (pt_traj pt)) k (firstn k (pt_traj pt)) fut ->
    fut <> [] -> (Forall (fun st => length (part (st_pa st)) = length (lw (st_pa st))) (pt_traj pt) -> length find = length p) ->
    Forall (fun j => (j < m)%nat) find ->
    s_xnext sm p (firstn k (pt_traj pt)) pind fut find (pt_u pt) (pt_y pt) (pt_t pt) k s =
    s_xnext sm' p (firstn k (pt_traj pt)) pind fut find (pt_u pt) (pt_y pt) (pt_t pt) k s).
  { intros p pind fut find k s0 H1 H2 H3 H4 H5. apply Hxn; auto. apply H4. eapply Forall_impl; [|exact Hwf].
    intros st (A & B & _). congruence. }
  assert (Hb : forall kind o s, perform_bsi sm g junk fuel kind o (pt_traj pt) (pt_u pt) (pt_y pt) (pt_t pt) m s =
                            perform_bsi sm' g junk fuel kind o (pt_traj pt) (pt_u pt) (pt_y pt) (pt_t pt) m s).
  { intros kind o s0. apply perform_bsi_ext; auto. }
  assert (Ha : forall s, perform_ancestors_int sm g (pt_traj pt) (pt_u pt) (pt_y pt) (pt_t pt) m s =
                            perform_ancestors_int sm' g (pt_traj pt) (pt_u pt) (pt_y pt) (pt_t pt) m s).
  { intros s0. apply perform_ancestors_ext; auto. }
  assert (Hh : forall tr s, length tr = length (pt_traj pt) ->
     hook (s_post sm) tr (pt_u pt) (pt_y pt) (pt_t pt) m s = hook (s_post sm') tr (pt_u pt) (pt_y pt) (pt_t pt) m s).
  { intros tr s0 L. eapply hook_ext; eauto. }
  assert (Hk : forall tr s r s', length tr = length (pt_traj pt) ->
     hook (s_post sm) tr (pt_u pt) (pt_y pt) (pt_t pt) m s = Ok (r, s') -> length r = length (pt_traj pt)).
  { intros tr s0 r s' L E. unfold hook in E. unfold hook_keeps_length in Hkeep. destruct (s_post sm); [eauto|minv E; auto]. }
  assert (D : forall (x x' : M W (list (tstep P))) s, x s = x' s ->
    (forall r s', x s = Ok (r, s') -> length r = length (pt_traj pt)) ->
    (do traj <- x ; do traj <- hook (s_post sm) traj (pt_u pt) (pt_y pt) (pt_t pt) m ; ret (mkST traj (pt_u pt) (pt_y pt) (pt_t pt) m)) s =
    (do traj <- x' ; do traj <- hook (s_post sm') traj (pt_u pt) (pt_y pt) (pt_t pt) m ; ret (mkST traj (pt_u pt) (pt_y pt) (pt_t pt) m)) s).
  { intros x x' s0 E L. apply bind_ext; [auto|]. intros tr s2 E1. apply bind_ext; [|reflexivity]. apply Hh. eauto. }
  unfold smooth. apply D; clear D;
  destruct Hin as [<-|[<-|[<-|[<-|[<-|[]]]]]]; cbn [String.eqb Ascii.eqb Bool.eqb orb];
    try apply Hb; try (intros r s' E; eapply perform_bsi_steps; eassumption).
  - apply bind_ext; [apply Ha|]. intros a s2 Ea. apply Hh. eapply perform_ancestors_steps; eauto.
  - intros r s' E. minv E. eapply Hk; [|eassumption]. eapply perform_ancestors_steps; eauto.
Qed.

(** A model that insists on this protocol: it raises on any other call. *)
Definition check {W A} (b : bool) (x : M W A) : M W A := if b then x else raise UserError.
Definition picky {W} (T : nat) : smodel W R R R (list R) :=
  let sm := swalk (W := W) soft in let f := s_f sm in
  let ats := fun (past fut : list (tstep R)) k => (Nat.eqb (length past) k && Nat.eqb (k + 1 + length fut) T)%bool in
  let atm := fun (past : list (tstep R)) k => (Nat.eqb (length past) k && Nat.ltb (k + 1) T)%bool in
  mkSModel
    (mkModel (m_create f) (m_copy f) (m_copy_all f)
       (fun past pind u t => check (Nat.ltb 0 (length past) && Nat.ltb (length past) T)%bool (m_noise f past pind u t))
       (fun p past u y t pind v => check (Nat.ltb 0 (length past) && Nat.ltb (length past) T)%bool (m_update f p past u y t pind v))
       (fun past pind p u y t => check (Nat.ltb (length past) T) (m_measure f past pind p u y t))
       (fun p past pind fp find u y t k => check (atm past k && Nat.eqb (length find) (length fp))%bool (m_xnext1 f p past pind fp find u y t k))
       (m_stage1 f) (m_qsample f) (m_logp_q f) (m_logp_xnext f) (m_meas1 f) (m_propose_y f))
    (fun p past pind fut find u y t k => check (ats past fut k && Nat.ltb 0 (length fut))%bool (s_xnext sm p past pind fut find u y t k))
    (fun p past pind u y t k => check (atm past k) (s_xmax sm p past pind u y t k))
    (fun p past pind fut find u y t k => check (ats past fut k) (s_sample sm p past pind fut find u y t k))
    (fun p past pind fp find u y t k => check (atm past k && Nat.eqb (length find) (length pind))%bool (s_cpred sm p past pind fp find u y t k))
    (s_cinit sm)
    (fun past pind fut find u y t k => check (ats past fut k) (s_propose sm past pind fut find u y t k))
    (fun p past pind fut find u y t k => check (ats past fut k) (s_logprop sm p past pind fut find u y t k))
    (s_x0 sm) None None.

Lemma check_true {W A} b (x : M W A) s : b = true -> x s = check b x s.
Proof. intros ->. reflexivity. Qed.

Lemma picky_same {W} T m u y t : same_smoother_calls T m u y t (swalk (W := W) soft) (picky T).
Proof.
  unfold same_smoother_calls, picky, at_step, at_move. cbn [s_f s_xnext s_xmax s_sample s_cpred s_cinit s_propose s_logprop s_x0 s_post s_pre
    m_create m_noise m_update m_measure m_xnext1].
  repeat apply conj; intros; try exact I; try reflexivity; apply check_true;
    rewrite ?andb_true_iff, ?Nat.eqb_eq, ?Nat.ltb_lt, ?seq_length; try lia.
  split; [exact H|]. destruct fut; [congruence|cbn; apply Nat.lt_0_succ].
Qed.

(** The smoothers never upset that model. *)
Example C70_example : forall (W : Type) (g : rng W) (s : W) (method : string), rng_ok g -> In method ["mhips"; "mhbp"]%string ->
  exists st s', perform_smoothing (picky 2) g (fun _ => 0%nat) 0 ex_pt 3 method None NaN s = Ok (st, s') /\ length (sm_traj st) = 2%nat.
Proof.
  intros W g s method Hg Hin. rewrite <- (C70_smoother_calls _ _ _ _ _ (swalk soft)); auto; [|apply picky_same].
  apply C28_example; auto.
Qed.
Example C70_backward_example : forall (W : Type) (g : rng W) (s : W), rng_ok g ->
  same_backward_calls 3 (pt_traj ex_pt) (pt_u ex_pt) (pt_y ex_pt) (pt_t ex_pt) (swalk (W := W) soft) (picky 2) /\
  Forall (step_wf 2) (pt_traj ex_pt) /\
  exists st s', smooth (picky 2) g (fun _ => 0%nat) 0 ex_pt 3 "ancestor" None s = Ok (st, s').
Proof.
  intros W g s Hg. split; [|split; [apply ex_traj_wf|]].
  - pose proof (picky_same (W := W) 2 3 (pt_u ex_pt) (pt_y ex_pt) (pt_t ex_pt)) as (H1 & H2 & H3 & _).
    split; [|split; [|split; [|split; exact I]]]; intros.
    + apply H1; auto.
    + apply H3; auto.
    + apply H2. change (length (pt_traj ex_pt)) with 2%nat in *. split; [apply firstn_length_le; change (length (pt_traj ex_pt)) with 2%nat; lia|lia].
  - destruct (C23_ancestor_total W R R R (list R) (swalk soft) g (fun _ => 0%nat) 0 ex_pt 2 3 None s Hg (swalk_copy soft) eq_refl) as (st & s' & E);
      [lia|lia|discriminate|apply ex_traj_wf|].
    exists st, s'. rewrite <- E. symmetry. apply smooth_ext; [auto|apply picky_same].
Qed.

(** ** C58: the hook before each pass *)
Section Counting.
Context {W P U Y V : Type}.
Variable c : W -> nat.
Variable g : rng W.
Variable sm : smodel W P U Y V.
Hypothesis H : only_hooks_count c g sm.

Lemma leaves_bind {A B} (x : M W A) (f : A -> M W B) : leaves c x -> (forall a, leaves c (f a)) -> leaves c (bind x f).
Proof.
  intros Hx Hf s b s' E. apply bind_ok in E. destruct E as (a & s1 & E1 & E2). rewrite (Hf _ _ _ _ E2). eauto.
Qed.
Lemma leaves_ret {A} (a : A) : leaves c (ret a).
Proof. intros s b s' E. apply ret_ok in E. injection E as <- <-. reflexivity. Qed.
Lemma leaves_lift {A} (x : res A) : leaves c (lift x).
Proof. intros s b s' E. apply lift_ok in E. destruct E as (a & _ & E). injection E as -> ->. reflexivity. Qed.
Lemma leaves_raise {A} e : leaves c (raise (A := A) e).
Proof. intros s b s' E. discriminate. Qed.
Lemma leaves_draw : leaves c (draw g).
Proof. intros s b s' E. unfold draw in E. destruct H as [Hr _]. specialize (Hr s). destruct (rand g s); cbn in *. congruence. Qed.
Lemma leaves_sampleM w n : leaves c (sampleM g w n).
Proof. unfold sampleM. apply leaves_bind; [apply leaves_lift|intros]. apply leaves_bind; [apply leaves_draw|intros; apply leaves_lift]. Qed.
Lemma leaves_draws n : leaves c (draws g n).
Proof.
  induction n; cbn; [apply leaves_ret|]. apply leaves_bind; [apply leaves_draw|intros].
  apply leaves_bind; [auto|intros; apply leaves_ret].
Qed.
Lemma leaves_permute {A} (x : list A) : leaves c (permute g x).
Proof.
  unfold permute. apply leaves_bind; [|intros; apply leaves_lift]. intros s b s' E.
  destruct H as (_ & Hp & _). specialize (Hp (length x) s). destruct (permutation g (length x) s); cbn in *. congruence.
Qed.
Ltac lv := repeat first [apply leaves_ret | apply leaves_lift | apply leaves_raise | apply leaves_sampleM | apply leaves_draws
  | apply leaves_permute | apply H | assumption | apply leaves_bind; [|intros] 
  | match goal with |- leaves _ (match ?x with _ => _ end) => destruct x end].

Lemma leaves_ancestors_loop n : forall tr u y t f a fut, leaves c (ancestors_loop sm n tr u y t f a fut).
Proof. induction n; intros; cbn [ancestors_loop]; lv; auto. Qed.
Lemma leaves_ancestors tr u y t m : leaves c (perform_ancestors_int sm g tr u y t m).
Proof. unfold perform_ancestors_int, calculate_ancestors. lv; apply leaves_ancestors_loop. Qed.
Lemma leaves_bsi_full pa ptr pind fut find u y t k : leaves c (bsi_full sm g pa ptr pind fut find u y t k).
Proof. induction find; cbn [bsi_full]; lv; auto; unfold bsi_one; lv. Qed.
Lemma leaves_rs_round pa ptr pind fut u y t k mp w td r : leaves c (rs_round sm g pa ptr pind fut u y t k mp w td r).
Proof. unfold rs_round, log_draws. lv. Qed.
Lemma leaves_rs_loop n pa ptr pind fut u y t k mp w : forall td r, leaves c (rs_loop sm g n pa ptr pind fut u y t k mp w td r).
Proof.
  induction n; intros; cbn [rs_loop].
  - apply leaves_bind; [apply leaves_bsi_full|intros; lv].
  - apply leaves_bind; [apply leaves_rs_round|]. intros [[r' td'] ak]. destruct td'; [lv|auto].
Qed.
Lemma leaves_rsas_loop n pa ptr pind fut u y t k mp sv sw st w : forall pk Pk td r,
  leaves c (rsas_loop sm g n pa ptr pind fut u y t k mp sv sw st w pk Pk td r).
Proof.
  induction n; intros; cbn [rsas_loop]; [lv|].
  apply leaves_bind; [apply leaves_rs_round|]. intros [[r' td'] ak]. destruct td'; [lv|].
  apply leaves_bind; [lv|]. intros [pk' Pk']. destruct (Rltb pk' st); [|auto].
  apply leaves_bind; [apply leaves_bsi_full|intros; lv].
Qed.
Lemma leaves_mcmc_loop n pa ptr pind fut f u y t k w : forall ind pc, leaves c (mcmc_loop sm g n pa ptr pind fut f u y t k w ind pc).
Proof.
  induction n; intros; cbn [mcmc_loop]; [lv|]. apply leaves_bind; [|auto]. unfold mcmc_round, log_draws. lv.
Qed.
Lemma leaves_select junk fuel kind o st k tr fut f u y t a : leaves c (bsi_select sm g junk fuel kind o st k tr fut f u y t a).
Proof.
  destruct kind; cbn [bsi_select]; lv; try apply leaves_bsi_full.
  - unfold bsi_mcmc. lv; apply leaves_mcmc_loop.
  - unfold bsi_rs. lv; apply leaves_rs_loop.
  - unfold bsi_rsas. lv; apply leaves_rsas_loop.
Qed.
Lemma leaves_bsi_loop junk fuel kind o m n : forall tr u y t a fut, leaves c (bsi_loop sm g junk fuel kind o m n tr u y t a fut).
Proof.
  induction n; intros; cbn [bsi_loop]; [lv|]. apply leaves_bind; [lv|intros]. apply leaves_bind; [apply leaves_select|intros]. lv; auto.
Qed.
Lemma leaves_bsi junk fuel kind o tr u y t m : leaves c (perform_bsi sm g junk fuel kind o tr u y t m).
Proof. unfold perform_bsi. lv; apply leaves_bsi_loop. Qed.
Lemma leaves_mc_step p ptr pp pc fut f u y t k red : leaves c (mc_step sm g p ptr pp pc fut f u y t k red).
Proof.
  unfold mc_step. apply leaves_bind; [unfold mc_current; lv|intros cur].
  apply leaves_bind; [unfold mc_propose; lv|intros xp].
  apply leaves_bind; [unfold mc_prior_terms; lv|intros [[[qp qc] a] b]].
  apply leaves_bind; [unfold mc_meas_terms; lv|intros [[[xy cy] yp] yc]].
  apply leaves_bind; [unfold mc_next_terms; lv|intros [np nc]]. unfold log_draws. lv.
Qed.
Lemma leaves_mhbp_inner n m w ptr fut u y t k red : forall pn pa an, leaves c (mhbp_inner sm g n m w ptr fut u y t k red pn pa an).
Proof.
  induction n; intros; cbn [mhbp_inner]; [lv|]. apply leaves_bind; [lv|intros]. apply leaves_bind; [lv|intros]. apply leaves_bind; [lv|intros].
  apply leaves_bind; [apply leaves_mc_step|intros]. lv; auto.
Qed.
Lemma leaves_mhbp_loop n m R_ red tr u y t : forall ci pa an fut, leaves c (mhbp_loop sm g n m R_ red tr u y t ci pa an fut).
Proof.
  induction n; intros; cbn [mhbp_loop]; [lv|]. apply leaves_bind; [lv|intros]. apply leaves_bind; [lv|intros].
  apply leaves_bind; [destruct n; lv|intros [[w ptr] an']]. apply leaves_bind; [apply leaves_mhbp_inner|intros [[pn' pa'] an'']]. lv; auto.
Qed.
Lemma leaves_mhbp R_ red tr u y t m : leaves c (perform_mhbp sm g R_ red tr u y t m).
Proof. unfold perform_mhbp. lv; apply leaves_mhbp_loop. Qed.
Lemma leaves_mhips_loop n m red tr u y t : forall fut, leaves c (mhips_loop sm g n m red tr u y t fut).
Proof.
  induction n; intros; cbn [mhips_loop]; [lv|]. apply leaves_bind; [lv|intros]. apply leaves_bind; [apply leaves_mc_step|intros]. lv; auto.
Qed.
Lemma leaves_pass red tr u y t m : leaves c (perform_mhips_pass sm g red tr u y t m).
Proof.
  unfold perform_mhips_pass. apply leaves_bind; [lv|intros]. apply leaves_bind; [apply leaves_mc_step|intros].
  apply leaves_bind; [lv|intros]. apply leaves_bind; [lv|intros]. apply leaves_bind; [apply leaves_mhips_loop|intros].
  apply leaves_bind; [lv|intros]. apply leaves_bind; [apply leaves_mc_step|intros]. lv.
Qed.
Lemma passes_count d n red u y t m : hook_adds c d (s_pre sm) -> forall tr s r s',
  mhips_passes sm g n red tr u y t m s = Ok (r, s') -> c s' = (c s + n * d)%nat.
Proof.
  intros (f & Hf & Hd). induction n; intros tr s r s' E; cbn [mhips_passes] in E.
  - minv E. lia.
  - rewrite Hf in E. cbn [hook] in E. apply bind_ok in E. destruct E as (tr1 & s1 & E1 & E). apply Hd in E1.
    apply bind_ok in E. destruct E as (tr2 & s2 & E2 & E). apply leaves_pass in E2. apply IHn in E. lia.
Qed.
End Counting.

(** With a counter that only the hooks change - the hook before a pass by [d], the hook
    after smoothing by [e] - the counter tells how often each was called: the former R
    times for the Metropolis-Hastings methods with R passes and never for the others, the
    latter once, or twice for 'ancestor' and 'mhbp'. *)
Theorem C58_hook_counts : forall (W P U Y V : Type) (sm : smodel W P U Y V) (g : rng W) (junk : nat -> nat) (fuel : nat)
    (pt : ptraj P U Y) (m : nat) (method : string) (o : soptions) (c : W -> nat) (d e : nat) (s s' : W) (st : straj P U Y),
  only_hooks_count c g sm -> hook_adds c d (s_pre sm) -> hook_adds c e (s_post sm) ->
  smooth sm g junk fuel pt m method (Some o) s = Ok (st, s') ->
  (In method ["full"; "mcmc"; "rs"; "rsas"]%string -> c s' = (c s + e)%nat) /\
  (In method ["ancestor"; "mhbp"]%string -> c s' = (c s + 2 * e)%nat) /\
  (In method ["mhips"; "mhips_reduced"]%string -> forall r, o_R o = Some (PyInt r) -> c s' = (c s + Z.to_nat r * d + e)%nat) /\
  (In method ["mhips"; "mhips_reduced"]%string -> o_R o = None -> c s' = (c s + 10 * d + e)%nat).
Proof.
  intros W P U Y V sm g junk fuel pt m method o c d e s s' st Hc Hd (f & Hf & He) E.
  unfold smooth in E. rewrite Hf in E. cbn [hook] in E.
  apply bind_ok in E. destruct E as (tr & s1 & E1 & E). apply bind_ok in E. destruct E as (tr2 & s2 & E2 & E).
  apply He in E2. apply ret_ok in E. injection E as _ ->.
  repeat split; intros Hin; try intros r Hr; try intros Hr.
  - destruct Hin as [<-|[<-|[<-|[<-|[]]]]]; cbn [String.eqb Ascii.eqb Bool.eqb orb] in E1;
      apply (leaves_bsi c g sm Hc) in E1; lia.
  - destruct Hin as [<-|[<-|[]]]; cbn [String.eqb Ascii.eqb Bool.eqb orb] in E1.
    + apply bind_ok in E1. destruct E1 as (a & s3 & Ea & E1). apply (leaves_ancestors c g sm Hc) in Ea. apply He in E1. lia.
    + minv E1. apply He in E1. match goal with X : perform_mhbp _ _ _ _ _ _ _ _ _ _ = _ |- _ => apply (leaves_mhbp c g sm Hc) in X end. lia.
  - destruct Hin as [<-|[<-|[]]]; cbn [String.eqb Ascii.eqb Bool.eqb orb] in E1;
    apply bind_ok in E1; destruct E1 as (a & s3 & Ea & E1); apply (leaves_ancestors c g sm Hc) in Ea;
    unfold get_R10 in E1; rewrite Hr in E1; apply bind_ok in E1; destruct E1 as (b & s4 & Eb & E1);
    apply lift_ok in Eb; destruct Eb as (b' & Eb & Ep); injection Eb as <-; injection Ep as -> ->;
    apply bind_ok in E1; destruct E1 as (n & s5 & Eb & E1);
    apply lift_ok in Eb; destruct Eb as (b' & Eb & Ep); injection Eb as <-; injection Ep as -> ->;
    apply (passes_count c g sm Hc d) in E1; auto; lia.
  - destruct Hin as [<-|[<-|[]]]; cbn [String.eqb Ascii.eqb Bool.eqb orb] in E1;
    apply bind_ok in E1; destruct E1 as (a & s3 & Ea & E1); apply (leaves_ancestors c g sm Hc) in Ea;
    unfold get_R10 in E1; rewrite Hr in E1; apply bind_ok in E1; destruct E1 as (b & s4 & Eb & E1);
    apply lift_ok in Eb; destruct Eb as (b' & Eb & Ep); injection Eb as <-; injection Ep as -> ->;
    apply bind_ok in E1; destruct E1 as (n & s5 & Eb & E1);
    apply lift_ok in Eb; destruct Eb as (b' & Eb & Ep); injection Eb as <-; injection Ep as -> ->;
    apply (passes_count c g sm Hc d) in E1; auto; change (Z.to_nat 10) with 10%nat in E1; lia.
Qed.

(** ** C14: the smoothing part of simulate *)
(** The trajectories of [simulate]: none if no smoother was asked for or num_traj is 0;
    otherwise num_traj trajectories, over exactly the steps, inputs, measurements and
    time stamps of the filter result that simulate() also returns. *)
Theorem C14_simulate_smooths : forall (W P U Y V : Type) (sm : smodel W P U Y V) (g : rng W) (junk : nat -> nat) (fuel : nat)
    us ys num_part num_traj filter fo resv meas_first smoother so lj (s s' : W) (pt : ptraj P U Y) st n,
  simulate sm g junk fuel us ys num_part num_traj filter fo resv meas_first smoother so lj s = Ok ((pt, st, n), s') ->
  (exists s1, simulate_filter (s_f sm) g us ys num_part filter fo resv meas_first s = Ok ((pt, n), s1) /\
     (st = None <-> (smoother = None \/ num_traj = 0%nat)) /\
     (st = None -> s' = s1) /\
     (forall r, st = Some r -> exists name, smoother = Some name /\
        perform_smoothing sm g junk fuel pt num_traj name so lj s1 = Ok (r, s'))) /\
  (forall r, st = Some r -> sm_M r = num_traj /\ sm_u r = pt_u pt /\ sm_y r = pt_y pt /\ sm_t r = pt_t pt).
Proof.
  intros W P U Y V sm g junk fuel us ys num_part num_traj filter fo resv meas_first smoother so lj s s' pt st n E.
  unfold simulate in E. apply bind_ok in E. destruct E as ([pt' n'] & s1 & E1 & E). cbn [fst snd] in E.
  destruct smoother as [name|].
  - destruct (Nat.ltb 0 num_traj) eqn:L.
    + apply bind_ok in E. destruct E as (r & s2 & E2 & E). minv E. apply Nat.ltb_lt in L. split.
      * exists s1. split; [auto|]. split; [split; [discriminate|intros [?|?]; [discriminate|lia]]|]. split; [discriminate|].
        intros r' Er. injection Er as <-. eauto.
      * intros r' Er. injection Er as <-. unfold perform_smoothing in E2. apply bind_ok in E2. destruct E2 as (dd & s3 & _ & E2).
        unfold smooth in E2. apply bind_ok in E2. destruct E2 as (tr & s4 & _ & E2).
        apply bind_ok in E2. destruct E2 as (tr2 & s5 & _ & E2). minv E2. auto.
    + minv E. apply Nat.ltb_ge in L. split; [|discriminate]. exists s1. split; [auto|].
      split; [split; auto; intros _; right; lia|]. split; [auto|discriminate].
  - minv E. split; [|discriminate]. exists s1. split; [auto|]. split; [split; auto|]. split; [auto|discriminate].
Qed.

(** A counting model: the world is the counter; the pre-pass hook adds 1, the final hook 100. *)
Definition half_rng : rng nat := mkRng (fun s => (/ 2, s)) (fun n s => (seq 0 n, s)).
Definition ticking : smodel nat R R R (list R) :=
  let sm := swalk soft in
  mkSModel (s_f sm) (s_xnext sm) (s_xmax sm) (s_sample sm) (s_cpred sm) (s_cinit sm) (s_propose sm) (s_logprop sm) (s_x0 sm)
    (Some (fun tr _ _ _ _ s => Ok (tr, s + 100)%nat)) (Some (fun tr _ _ _ _ s => Ok (tr, s + 1)%nat)).
Example C58_counts_example :
  only_hooks_count (fun s => s) half_rng ticking /\ hook_adds (fun s => s) 1 (s_pre ticking) /\ hook_adds (fun s => s) 100 (s_post ticking) /\
  exists st, smooth ticking half_rng (fun _ => 0%nat) 0 ex_pt 3 "ancestor" (Some no_options) 0%nat = Ok (st, 200%nat).
Proof.
  assert (Ho : only_hooks_count (fun s => s) half_rng ticking).
  { unfold only_hooks_count, ticking, swalk, smooth_of_basic, full_of_basic, gwalk.
    cbn [s_f s_xnext s_xmax s_sample s_cpred s_cinit s_propose s_logprop s_x0 s_post s_pre m_create m_noise m_update m_measure m_xnext1
      b_create b_noise b_update b_measure b_xnext].
    repeat apply conj; intros; try reflexivity;
    unfold def_xnext_full, def_xmax_full, def_sample, def_cpred, def_cinit, def_noise, def_update, def_measure, def_xnext1;
    cbn [b_create b_noise b_update b_measure b_xnext];
    repeat first [apply leaves_ret | apply leaves_lift | apply leaves_bind; [|intros]]. }
  assert (Hpre : hook_adds (fun s => s) 1 (s_pre ticking)).
  { eexists. split; [reflexivity|]. intros tr u y t m s tr' s' E. injection E as _ <-. reflexivity. }
  assert (Hpost : hook_adds (fun s => s) 100 (s_post ticking)).
  { eexists. split; [reflexivity|]. intros tr u y t m s tr' s' E. injection E as _ <-. reflexivity. }
  split; [auto|]. split; [auto|]. split; [auto|].
  assert (Hg : rng_ok half_rng).
  { split; cbn; [intros; split; [left; apply Rinv_0_lt_compat, Rlt_0_2|rewrite <- Rinv_1; apply Rinv_lt_contravar; [rewrite Rmult_1_l; apply Rlt_0_2|apply Rlt_plus_1 || (replace 2 with (1 + 1) by ring; apply Rlt_plus_1)]]|intros; reflexivity]. }
  assert (E : exists st s', smooth ticking half_rng (fun _ => 0%nat) 0 ex_pt 3 "ancestor" (Some no_options) 0%nat = Ok (st, s')).
  { rewrite (C58_hook_twice _ _ _ _ _ ticking half_rng _ _ ex_pt 3 "ancestor" _ _ 0%nat eq_refl) by (cbn; auto).
    destruct (C23_ancestor_total nat R R R (list R) (without_hook ticking) half_rng (fun _ => 0%nat) 0 ex_pt 2 3 (Some no_options) 0%nat Hg) as (st & s' & Es);
      [exact (swalk_copy soft)|reflexivity|lia|lia|discriminate|apply ex_traj_wf|].
    unfold bind at 1. rewrite Es. unfold bind, ret. eauto. }
  destruct E as (st & s' & E). exists st. rewrite E.
  destruct (C58_hook_counts _ _ _ _ _ _ _ _ _ _ _ _ _ _ _ _ _ _ _ Ho Hpre Hpost E) as (_ & H2 & _).
  rewrite H2 by (cbn; auto). reflexivity.
Qed.

(** Simulating and smoothing three measurements of the random walk. *)
Definition walk_sm : smodel unit R R R (list R) :=
  let sm := swalk soft in
  mkSModel walk_full (s_xnext sm) (s_xmax sm) (s_sample sm) (s_cpred sm) (s_cinit sm) (s_propose sm) (s_logprop sm) (s_x0 sm) None None.
Example C14_smooths_example : exists pt r cnt,
  simulate walk_sm (const_rng (1/2)) (fun _ => 0%nat) 0 None [Some 1; None; Some 2] 2 4 "PF" FONone (1/2) false
    (Some "ancestor"%string) None NaN tt = Ok ((pt, Some r, cnt), tt) /\ sm_M r = 4%nat.
Proof.
  assert (Hg : rng_ok (const_rng (1/2))) by (apply const_rng_ok; unfold unit_draw; lra).
  destruct (C14_never_raises _ _ _ _ _ walk_full (const_rng (1/2)) None [Some 1; None; Some 2] 2 "PF" FONone (1/2) false (FPF (1/2)) tt)
    as (s & cnt & w' & E); auto; try lia; try exact I; try congruence; [apply walk_total; lia|].
  destruct (C14_simulate _ _ _ _ _ _ _ _ _ _ _ _ _ _ _ _ _ E) as [L _]; [discriminate|].
  pose proof E as E0. unfold simulate_filter in E0. apply bind_ok in E0. destruct E0 as (s0 & w1 & Hi & E0).
  apply lift_ok in Hi. destruct Hi as (s0' & Hi & Ei). injection Ei as <- <-.
  apply sim_loop_run in E0; [|lia]. destruct E0 as (l & fl & Hrun & _). apply run_flags_run in Hrun. destruct Hrun as [Hrun _].
  assert (Wf : traj_wf 2 (pt_traj s)).
  { eapply C15_steps_well_formed; [exact Hg| |lia|exact Hi|exact Hrun]. apply walk_shape. }
  destruct (C23_ancestor_total unit R R R (list R) walk_sm (const_rng (1/2)) (fun _ => 0%nat) 0 s 2 4 (Some no_options) w' Hg) as (st & s' & Es);
    [exact (swalk_copy soft)|reflexivity|lia|lia|destruct (pt_traj s); [discriminate|congruence]|apply Wf|].
  assert (Esim : simulate walk_sm (const_rng (1/2)) (fun _ => 0%nat) 0 None [Some 1; None; Some 2] 2 4 "PF" FONone (1/2) false
    (Some "ancestor"%string) None NaN tt = Ok ((s, Some st, cnt), s')).
  { unfold simulate. unfold bind at 1. cbn [s_f walk_sm]. rewrite E. cbn [Nat.ltb Nat.leb fst snd].
    change (perform_smoothing walk_sm (const_rng (1/2)) (fun _ => 0%nat) 0 s 4 "ancestor" None NaN) with
      (smooth walk_sm (const_rng (1/2)) (fun _ => 0%nat) 0 s 4 "ancestor" (Some no_options)).
    unfold bind at 1. rewrite Es. reflexivity. }
  exists s, st, cnt. destruct s', w1. split; [exact Esim|].
  eapply C14_simulate_smooths in Esim. destruct Esim as [_ Esim]. apply (Esim st eq_refl).
Qed.

Print Assumptions C70_smoother_calls.
Print Assumptions C70_backward_calls.
Print Assumptions C58_hook_counts.
Print Assumptions C14_simulate_smooths.
