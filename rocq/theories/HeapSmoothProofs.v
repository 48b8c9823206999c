(** The frame of every smoother.  Nothing here models code. *)
From Coq Require Import String Bool Reals List Arith Lia.
From Verif Require Import Base XR SampleModel PAModel FilterModel TrajModel SmoothModel HeapModel HeapSpec HeapProofs HeapTraj HeapSmooth HeapSmoothSpec.
Import ListNotations.
Local Open Scope monad_scope.

Section SLogic.
Context {W P U Y V : Type}.
Notation hst := (hst W P).
Notation HM := (@HM W P).
Variable sm : hsmodel W P U Y V.
Variable g : rng W.
Variable junk : nat -> nat.
Variable fuel : nat.
Hypothesis F : sframe_ok sm.
Variable s0 : hst.
Notation owns := (owns s0 all_loc all_loc all_loc).
Notation safe := (safe s0 all_loc all_loc all_loc []).

Ltac inn := simpl; tauto.
Ltac incls := first [apply incl_refl | apply incl_nil_l | assumption | (apply incl_cons; [inn|incls]) | apply incl_tl; incls | (intros ?x Hx; simpl in *; tauto)].
Ltac callback :=
  first [ apply safe_new_part; first [apply (fo_create _ (so_f sm F))]
        | apply safe_new_w; first [apply (so_xnext sm F) | apply (fo_xnext1 _ (so_f sm F))]
        | apply safe_keeps; first [apply (so_xmax sm F) | apply (so_cpred sm F) | apply (so_cinit sm F)
            | apply (so_propose sm F) | apply (so_logprop sm F) | apply (so_x0 sm F) | apply (fo_noise _ (so_f sm F))]
        | eapply safe_keeps_but_w; [|first [apply (fo_measure _ (so_f sm F))]]; inn
        | eapply safe_keeps_but; [|first [apply (fo_update _ (so_f sm F)) | apply (so_sample sm F)]]; inn ].
Ltac prim0 :=
  first [ apply safe_lift | apply sp_on_world | apply sp_new_part | apply sp_new_w | apply sp_new_idx
        | apply sp_get_part | apply sp_get_w | apply sp_get_idx | apply sp_get_pa
        | (apply sp_put_part; inn) | (apply sp_put_w; inn) | (apply sp_put_idx; inn) | apply sp_part_of | apply sp_w_of
        | apply sp_pa_init | callback ].
Ltac fin := apply safe_ret; let s := fresh in let O := fresh in intros s O; eapply owns_weak; [..|exact O]; incls.
Ltac forget x := eapply safe_post; [|x]; let a := fresh in let s := fresh in let O := fresh in
  intros a s O; eapply owns_weak; [..|exact O]; incls.
Ltac bnd p := lazymatch goal with |- HeapProofs.safe _ _ _ _ _ _ (ebind _ _) _ => idtac end; eapply safe_bind; [p | let a := fresh "a" in intro a; cbv beta].

Lemma ss_take_part L LP LW LI x i : safe (owns L LP LW LI) (h_take_part x i) (fun l => owns L (l :: LP) LW LI).
Proof. unfold h_take_part. repeat bnd prim0. prim0. Qed.
Lemma ss_take_idx L LP LW LI x i : safe (owns L LP LW LI) (h_take_idx x i) (fun l => owns L LP LW (l :: LI)).
Proof. unfold h_take_idx. repeat bnd prim0. prim0. Qed.
Lemma ss_mask_set_part L LP LW LI x m z : In x LP -> safe (owns L LP LW LI) (h_mask_set_part x m z) (fun _ => owns L LP LW LI).
Proof. intros. unfold h_mask_set_part. repeat bnd prim0. prim0. Qed.
Lemma ss_mask_set_w L LP LW LI x m z : In x LW -> safe (owns L LP LW LI) (h_mask_set_w x m z) (fun _ => owns L LP LW LI).
Proof. intros. unfold h_mask_set_w. repeat bnd prim0. prim0. Qed.
Lemma ss_mask_set_idx L LP LW LI x m z : In x LI -> safe (owns L LP LW LI) (h_mask_set_idx x m z) (fun _ => owns L LP LW LI).
Proof. intros. unfold h_mask_set_idx. repeat bnd prim0. prim0. Qed.
Lemma ss_scatter L LP LW LI x i v : In x LI -> safe (owns L LP LW LI) (h_scatter x i v) (fun _ => owns L LP LW LI).
Proof. intros. unfold h_scatter. repeat bnd prim0. prim0. Qed.
Lemma ss_norm_weights L LP LW LI w : safe (owns L LP LW LI) (h_norm_weights w) (fun _ => owns L LP LW LI).
Proof. unfold h_norm_weights. repeat bnd prim0. fin. Qed.
Lemma ss_pa_weights L LP LW LI w : safe (owns L LP LW LI) (h_pa_weights w) (fun _ => owns L LP LW LI).
Proof. unfold h_pa_weights. bnd prim0. apply ss_norm_weights. Qed.
Ltac prim1 := first [ prim0 | apply ss_take_part | apply ss_take_idx | (apply ss_mask_set_part; inn) | (apply ss_mask_set_w; inn)
  | (apply ss_mask_set_idx; inn) | (apply ss_scatter; inn) | apply ss_pa_weights ].

Lemma ss_bsi_one L LP LW LI pa ptr pind fut fi u y t k : safe (owns L LP LW LI) (h_bsi_one sm g pa ptr pind fut fi u y t k) (fun _ => owns L LP LW LI).
Proof. unfold h_bsi_one. repeat bnd prim1. forget prim1. Qed.
Lemma ss_bsi_full_loop n : forall j res L LP LW LI pa ptr pind fut find u y t k, In res LI ->
  safe (owns L LP LW LI) (h_bsi_full_loop sm g n j res pa ptr pind fut find u y t k) (fun _ => owns L LP LW LI).
Proof.
  induction n; intros; simpl; [fin|]. bnd prim1. bnd prim1. bnd ltac:(apply ss_bsi_one). repeat bnd prim1. apply IHn; assumption.
Qed.
Lemma ss_bsi_full L LP LW LI pa ptr pind fut find u y t k :
  safe (owns L LP LW LI) (h_bsi_full sm g junk pa ptr pind fut find u y t k) (fun r => owns L LP LW (r :: LI)).
Proof. unfold h_bsi_full. repeat bnd prim1. bnd ltac:(apply ss_bsi_full_loop; inn). fin. Qed.
Lemma ss_rs_round L LP LW LI pa ptr pind fut u y t k mp w todo res : In res LI ->
  safe (owns L LP LW LI) (h_rs_round sm g pa ptr pind fut u y t k mp w todo res) (fun ta => owns L LP LW (fst ta :: LI)).
Proof. intros. unfold h_rs_round. repeat bnd prim1. fin. Qed.
Lemma ss_fallback L LP LW LI pa ptr pind fut u y t k todo res : In res LI ->
  safe (owns L LP LW LI) (h_fallback sm g junk pa ptr pind fut u y t k todo res) (fun r => owns L LP LW (r :: LI)).
Proof. intros. unfold h_fallback. bnd ltac:(apply ss_bsi_full). repeat bnd prim1. fin. Qed.
Lemma ss_rs_loop n : forall L LP LW LI pa ptr pind fut u y t k mp w todo res, In res LI ->
  safe (owns L LP LW LI) (h_rs_loop sm g junk n pa ptr pind fut u y t k mp w todo res) (fun r => owns L LP LW (r :: LI)).
Proof.
  induction n; intros; simpl; [apply ss_fallback; assumption|]. bnd ltac:(apply ss_rs_round; inn). bnd prim1. destruct a0; [fin|].
  forget ltac:(apply IHn; inn).
Qed.
Lemma ss_bsi_rs L LP LW LI pa ptr pind fut find u y t k mp n :
  safe (owns L LP LW LI) (h_bsi_rs sm g junk pa ptr pind fut find u y t k mp n) (fun r => owns L LP LW (r :: LI)).
Proof. unfold h_bsi_rs. repeat bnd prim1. forget ltac:(apply ss_rs_loop; inn). Qed.
Lemma ss_rsas_loop n : forall L LP LW LI pa ptr pind fut u y t k mp sv sw st w pk Pk todo res, In res LI ->
  safe (owns L LP LW LI) (h_rsas_loop sm g junk n pa ptr pind fut u y t k mp sv sw st w pk Pk todo res) (fun r => owns L LP LW (r :: LI)).
Proof.
  induction n; intros; simpl; [apply safe_raise|]. bnd prim1. bnd ltac:(apply ss_rs_round; inn). bnd prim1. destruct a1; [fin|].
  bnd prim1. apply safe_if; [forget ltac:(apply ss_fallback; inn)|forget ltac:(apply IHn; inn)].
Qed.
Lemma ss_bsi_rsas L LP LW LI pa ptr pind fut find u y t k mp x1 P1 sv sw ra :
  safe (owns L LP LW LI) (h_bsi_rsas sm g junk fuel pa ptr pind fut find u y t k mp x1 P1 sv sw ra) (fun r => owns L LP LW (r :: LI)).
Proof. unfold h_bsi_rsas. repeat bnd prim1. forget ltac:(apply ss_rsas_loop; inn). Qed.
Lemma ss_mcmc_round L LP LW LI pa ptr pind fut find u y t k w ind pc : In ind LI -> In pc LW ->
  safe (owns L LP LW LI) (h_mcmc_round sm g pa ptr pind fut find u y t k w ind pc) (fun _ => owns L LP LW LI).
Proof. intros. unfold h_mcmc_round. repeat bnd prim1. forget prim1. Qed.
Lemma ss_mcmc_loop n : forall L LP LW LI pa ptr pind fut find u y t k w ind pc, In ind LI -> In pc LW ->
  safe (owns L LP LW LI) (h_mcmc_loop sm g n pa ptr pind fut find u y t k w ind pc) (fun _ => owns L LP LW LI).
Proof. induction n; intros; simpl; [fin|]. bnd ltac:(apply ss_mcmc_round; inn). apply IHn; assumption. Qed.
Lemma ss_bsi_mcmc L LP LW LI pa ptr pind fut find u y t k n anc : In anc LI ->
  safe (owns L LP LW LI) (h_bsi_mcmc sm g pa ptr pind fut find u y t k n anc) (fun r => owns L LP LW (r :: LI)).
Proof. intros. unfold h_bsi_mcmc. repeat bnd prim1. bnd ltac:(apply ss_mcmc_loop; inn). fin. Qed.

Lemma ss_mc_current L LP LW LI p ptr pc u y t k : safe (owns L LP LW LI) (h_mc_current sm p ptr pc u y t k) (fun _ => owns L LP LW LI).
Proof. unfold h_mc_current. destruct ptr; repeat bnd prim1; forget prim1. Qed.
Lemma ss_mc_propose L LP LW LI r ptr pp fut find u y t k : safe (owns L LP LW LI) (h_mc_propose sm r ptr pp fut find u y t k) (fun _ => owns L LP LW LI).
Proof.
  unfold h_mc_propose. destruct r; [|prim1]. destruct ptr; [repeat bnd prim1; fin|]. destruct fut; [|apply safe_raise].
  repeat bnd prim1. forget prim1.
Qed.
Lemma ss_mc_prior L LP LW LI r x c ptr pp pc fut find u y t k :
  safe (owns L LP LW LI) (h_mc_prior_terms sm r x c ptr pp pc fut find u y t k) (fun _ => owns L LP LW LI).
Proof. unfold h_mc_prior_terms. destruct r; [fin|]. bnd prim1. bnd prim1. destruct ptr; repeat bnd prim1; fin. Qed.
Lemma ss_mc_meas L LP LW LI x c ptr pp pc u y t k : In x LP -> In c LP ->
  safe (owns L LP LW LI) (h_mc_meas_terms sm x c ptr pp pc u y t k) (fun _ => owns L LP LW LI).
Proof. intros. unfold h_mc_meas_terms. bnd prim1. apply safe_if; [fin|]. repeat bnd prim1. fin. Qed.
Lemma ss_mc_next L LP LW LI x c ptr pp pc fut find u y t k :
  safe (owns L LP LW LI) (h_mc_next_terms sm x c ptr pp pc fut find u y t k) (fun _ => owns L LP LW LI).
Proof. unfold h_mc_next_terms. destruct fut; [|fin]. repeat bnd prim1. fin. Qed.
Lemma ss_term L LP LW LI x : safe (owns L LP LW LI) (h_term x) (fun _ => owns L LP LW LI).
Proof. destruct x; simpl; [bnd prim1; fin|fin]. Qed.
Lemma ss_mc_step L LP LW LI p ptr pp pc fut find u y t k r :
  safe (owns L LP LW LI) (h_mc_step sm g p ptr pp pc fut find u y t k r) (fun x => owns L (fst x :: LP) LW LI).
Proof.
  unfold h_mc_step. bnd ltac:(apply ss_mc_current). bnd ltac:(apply ss_mc_propose). bnd ltac:(apply ss_mc_prior).
  destruct a1 as [[[qp qc] lp] lc]. repeat bnd prim1.
  bnd ltac:(apply ss_mc_meas; inn). bnd ltac:(apply ss_mc_next). do 8 bnd ltac:(apply ss_term). repeat bnd prim1.
  match goal with |- HeapProofs.safe _ _ _ _ _ _ (match ?z with _ => _ end) _ => destruct z; [|apply safe_raise] end.
  repeat bnd prim1. fin.
Qed.

(** The steps of a smoothed trajectory are made of new objects and arrays. *)
Definition traj_new (tr : list hstep) : hst -> Prop := owns (map hs_pa tr) [] [] (map hs_anc tr).
Lemma ss_ancestors_loop n : forall L LP LW LI tr u y t find anc fut, incl (map hs_pa fut) L -> incl (map hs_anc fut) LI -> In find LI ->
  safe (owns L LP LW LI) (h_ancestors_loop sm n tr u y t find anc fut) traj_new.
Proof. induction n; intros; simpl; [fin|]. repeat bnd prim1. apply IHn; simpl; try incls. inn. Qed.
Lemma ss_calculate_ancestors L LP LW LI tr u y t ind : safe (owns L LP LW LI) (h_calculate_ancestors sm tr u y t ind) traj_new.
Proof. unfold h_calculate_ancestors. repeat bnd prim1. apply ss_ancestors_loop; simpl; try incls. inn. Qed.
Lemma ss_ancestors L LP LW LI tr u y t m : safe (owns L LP LW LI) (h_perform_ancestors_int sm g tr u y t m) traj_new.
Proof. unfold h_perform_ancestors_int. repeat bnd prim1. apply ss_calculate_ancestors. Qed.
Lemma ss_bsi_select L LP LW LI kind o st k tr fut find u y t anc : In anc LI ->
  safe (owns L LP LW LI) (h_bsi_select sm g junk fuel kind o st k tr fut find u y t anc) (fun r => owns L LP LW (r :: LI)).
Proof.
  intros. unfold h_bsi_select. destruct kind; repeat bnd prim1.
  - apply ss_bsi_full.
  - apply ss_bsi_mcmc; assumption.
  - apply ss_bsi_rs.
  - apply ss_bsi_rsas.
Qed.
Lemma ss_bsi_loop n : forall L LP LW LI kind o m tr u y t find anc fut, In anc LI -> incl (map hs_pa fut) L -> incl (map hs_anc fut) LI ->
  safe (owns L LP LW LI) (h_bsi_loop sm g junk fuel kind o m n tr u y t find anc fut) traj_new.
Proof.
  induction n; intros; simpl; [fin|]. bnd prim1. bnd ltac:(apply ss_bsi_select; assumption). repeat bnd prim1.
  apply IHn; simpl; try incls. inn.
Qed.
Lemma ss_perform_bsi L LP LW LI kind o tr u y t m :
  safe (owns L LP LW LI) (h_perform_bsi sm g junk fuel kind o tr u y t m) traj_new.
Proof. unfold h_perform_bsi. repeat bnd prim1. apply ss_bsi_loop; simpl; try incls. inn. Qed.

Lemma ss_mhbp_inner n : forall L LP LW LI m w ptr fut find u y t k r pn panc anc, (forall a, anc = Some a -> In a LI) -> In pn LP ->
  safe (owns L LP LW LI) (h_mhbp_inner sm g n m w ptr fut find u y t k r pn panc anc) (fun x => owns L (fst x :: LP) LW LI).
Proof.
  induction n; intros L LP LW LI m w ptr fut find u y t k r pn panc anc Ha Hn; simpl; [fin|].
  eapply safe_bind with (R := fun _ => owns L LP LW LI); [destruct w; [repeat bnd prim1; fin|fin]|intro pa'; cbv beta].
  bnd prim1. destruct anc as [av|]; [|intros s K HI; simpl; auto]. specialize (Ha av eq_refl).
  apply safe_bind with (R := fun x s => owns L LP LW LI s /\ x = av); [intros s K HI; simpl; auto|].
  intros x. intros s K [HI ->]. revert s K HI. change (safe (owns L LP LW LI) 
    (edo r0 <- h_mc_step sm g pn ptr a av fut find u y t k r ; edo _ <- h_mask_set_idx av (snd r0) a ;
     h_mhbp_inner sm g n m w ptr fut find u y t k r (fst r0) pa' (Some av)) (fun x => owns L (fst x :: LP) LW LI)).
  bnd ltac:(apply ss_mc_step). bnd prim1.
  eapply safe_post; [|apply IHn; [intros ? [= <-]; assumption|inn]].
  intros z s O; eapply owns_weak; [..|exact O]; try apply incl_refl.
  intros q [<-|Hq]; simpl; auto.
Qed.
Lemma ss_mhbp_loop n : forall L LP LW LI m R_ r tr u y t find cind panc anc fut, (forall a, anc = Some a -> In a LI) ->
  incl (map hs_pa fut) L -> incl (map hs_anc fut) LI ->
  safe (owns L LP LW LI) (h_mhbp_loop sm g n m R_ r tr u y t find cind panc anc fut) traj_new.
Proof.
  induction n; intros L LP LW LI m R_ r tr u y t find cind panc anc fut Ha Hp Hx; simpl; [fin|]. repeat bnd prim1.
  eapply safe_bind with (R := fun x s => exists LI', incl LI LI' /\ owns L (a1 :: LP) LW LI' s /\ forall b, snd x = Some b -> In b LI').
  - destruct n.
    + apply safe_ret. intros s O. exists LI. split; [apply incl_refl|]. auto.
    + repeat bnd prim1. apply safe_ret. intros s O. exists (a2 :: LI). split; [incls|]. split; [exact O|]. simpl. intros b [= <-]. auto.
  - intros [[w ptr] anc']. intros s K (LI' & Hi & HO & Hb). simpl in Hb. revert s K HO.
    match goal with |- forall s, _ -> _ -> _ /\ match fst (?X s) with _ => _ end => change (safe (owns L (a1 :: LP) LW LI') X traj_new) end.
    bnd ltac:(apply ss_mhbp_inner; [assumption|inn]). destruct a2 as [pn panc'].
    bnd prim1. repeat bnd prim1. assert (incl (map hs_anc fut) LI') by (eapply incl_tran; eassumption).
    apply IHn; [intros b Hb'; simpl; right; auto| |]; simpl; incls.
Qed.
Lemma ss_perform_mhbp L LP LW LI R_ r tr u y t m : safe (owns L LP LW LI) (h_perform_mhbp sm g R_ r tr u y t m) traj_new.
Proof. unfold h_perform_mhbp. repeat bnd prim1. apply ss_mhbp_loop; simpl; try incls. discriminate. Qed.
Lemma ss_mhips_loop n : forall L LP LW LI r tr u y t pind fut, In pind LI -> incl (map hs_pa fut) L -> incl (map hs_anc fut) LI ->
  safe (owns L LP LW LI) (h_mhips_loop sm g n r tr u y t pind fut) (fun tr' => owns (map hs_pa tr') [] [] (pind :: map hs_anc tr')).
Proof.
  induction n; intros; [fin|]. cbn [h_mhips_loop]. bnd prim1. bnd prim1. bnd ltac:(apply ss_mc_step). repeat bnd prim1.
  apply IHn; simpl; try incls. inn.
Qed.
Lemma ss_mhips_pass L LP LW LI r tr u y t m : safe (owns L LP LW LI) (h_perform_mhips_pass sm g r tr u y t m) traj_new.
Proof.
  unfold h_perform_mhips_pass. do 3 bnd prim1. bnd ltac:(apply ss_mc_step). do 4 bnd prim1.
  bnd ltac:(apply ss_mhips_loop; simpl; [inn|incls|incls]).
  repeat bnd prim1. bnd ltac:(apply ss_mc_step). repeat bnd prim1. apply safe_ret. intros s O. unfold traj_new. simpl.
  eapply owns_weak; [..|exact O]; incls.
Qed.

(** Frame only: any hooks that do not write. *)
Lemma safe_T {A} L LP LW LI (x : HM A) Q : safe (owns L LP LW LI) x Q -> safe (owns L LP LW LI) x (fun _ => owns [] [] [] []).
Proof. intros H. eapply safe_post; [|exact H]. intros a s _. repeat split; constructor. Qed.
Lemma ss_hook L LP LW LI (h : option (list hstep -> list (cell U) -> list (cell Y) -> list nat -> nat -> HM (list hstep))) tr u y t m : (forall f, h = Some f -> forall tr u y t m, no_write (f tr u y t m)) ->
  safe (owns L LP LW LI) (h_hook h tr u y t m) (fun _ => owns [] [] [] []).
Proof. intros H. destruct h; simpl; [|fin]. eapply safe_T. apply safe_keeps. apply (H _ eq_refl). Qed.
Ltac hk := apply ss_hook; first [apply (so_post sm F) | apply (so_pre sm F)].
Lemma ss_mhips_passes n : forall L LP LW LI r tr u y t m,
  safe (owns L LP LW LI) (h_mhips_passes sm g n r tr u y t m) (fun _ => owns [] [] [] []).
Proof. induction n; intros; simpl; [fin|]. bnd hk. bnd ltac:(apply ss_mhips_pass). apply IHn. Qed.
Lemma ss_smooth L LP LW LI pt m meth o : safe (owns L LP LW LI) (h_smooth sm g junk fuel pt m meth o) (fun _ => owns [] [] [] []).
Proof.
  unfold h_smooth. eapply safe_bind with (R := fun _ => owns [] [] [] []); [|intro; hk].
  do 4 (apply safe_if; [eapply safe_T; apply ss_perform_bsi|]).
  apply safe_if; [bnd ltac:(apply ss_ancestors); hk|].
  apply safe_if; [bnd ltac:(apply ss_ancestors); unfold traj_new; repeat bnd prim1; apply ss_mhips_passes|].
  apply safe_if; [repeat bnd prim1; bnd ltac:(apply ss_perform_mhbp); hk|]. apply safe_raise.
Qed.
Lemma ss_maxpdf n : forall L LP LW LI k pt j, safe (owns L LP LW LI) (h_maxpdf_coeffs sm n k pt j) (fun _ => owns L LP LW LI).
Proof. induction n; intros; simpl; [fin|]. repeat bnd prim1. bnd ltac:(apply IHn). fin. Qed.
Lemma ss_default L LP LW LI pt meth j : safe (owns L LP LW LI) (h_default_options sm pt meth j) (fun _ => owns L LP LW LI).
Proof.
  unfold h_default_options. apply safe_if; [|apply safe_if; fin].
  eapply safe_bind with (R := fun _ => owns L LP LW LI); [destruct (hp_traj pt); [fin|apply ss_maxpdf]|intro c; cbv beta].
  apply safe_if; [repeat bnd prim1; fin|fin].
Qed.
Lemma ss_perform_smoothing L LP LW LI pt m meth so j :
  safe (owns L LP LW LI) (h_perform_smoothing sm g junk fuel pt m meth so j) (fun _ => owns [] [] [] []).
Proof. unfold h_perform_smoothing. bnd ltac:(apply ss_default). apply ss_smooth. Qed.

(** With hooks that return new steps, so is the whole result. *)
Hypothesis Fpost : forall f, hs_post sm = Some f -> hook_new f.
Hypothesis Fpre : forall f, hs_pre sm = Some f -> hook_new f.
Lemma ss_hook_new (h : option (list hstep -> list (cell U) -> list (cell Y) -> list nat -> nat -> HM (list hstep))) tr u y t m :
  (forall f, h = Some f -> forall tr u y t m, no_write (f tr u y t m)) -> (forall f, h = Some f -> hook_new f) ->
  safe (traj_new tr) (h_hook h tr u y t m) traj_new.
Proof.
  intros H N. destruct h as [f|]; simpl; [|apply safe_ret; auto]. specialize (H f eq_refl tr u y t m). specialize (N f eq_refl tr u y t m).
  unfold traj_new at 1. intros s K O. destruct (safe_keeps s0 all_loc all_loc all_loc [] _ _ _ _ _ H s K O) as [K1 O1]. split; auto.
  destruct (f tr u y t m s) as [[tr'|e] s'] eqn:E; simpl in *; auto. specialize (N s tr' s' E).
  destruct K as [(Kp & Kw & Kx & Ka) _]. destruct O1 as (A & _ & _ & D). rewrite Forall_forall in N, A, D.
  destruct K1 as [(K1p & K1w & K1x & K1a) _].
  repeat split; try constructor; apply Forall_forall; intros i Hi; apply in_map_iff in Hi; destruct Hi as (st & <- & Hst);
    destruct (N st Hst) as [[Hp|Hp] [Hx|Hx]]; auto.
  1,2: destruct Hp as (L1 & a & Ea & L2 & L3); split;
    [intros ?; destruct Ka; lia|]; exists a; split; auto; split; (split; [|lia]); intros ?; destruct Kp, Kw; lia.
  1,2: red in Hx |- *; destruct Kx; lia.
Qed.
Ltac hkn := apply ss_hook_new; [first [apply (so_post sm F) | apply (so_pre sm F)] | first [exact Fpost | exact Fpre]].
Lemma ss_mhips_passes_new n : forall r tr u y t m, safe (traj_new tr) (h_mhips_passes sm g n r tr u y t m) traj_new.
Proof.
  induction n; intros; simpl; [apply safe_ret; auto|]. eapply safe_bind; [hkn|intro; cbv beta].
  eapply safe_bind; [apply ss_mhips_pass|intro; cbv beta]. apply IHn.
Qed.
Lemma ss_smooth_new L LP LW LI pt m meth o : safe (owns L LP LW LI) (h_smooth sm g junk fuel pt m meth o) traj_new.
Proof.
  unfold h_smooth. eapply safe_bind with (R := traj_new); [|intro; hkn].
  do 4 (apply safe_if; [apply ss_perform_bsi|]).
  apply safe_if; [bnd ltac:(apply ss_ancestors); hkn|].
  apply safe_if; [bnd ltac:(apply ss_ancestors)|].
  { do 2 (eapply safe_bind; [apply safe_lift|intro; cbv beta]). apply ss_mhips_passes_new. }
  apply safe_if; [repeat bnd prim1; bnd ltac:(apply ss_perform_mhbp); hkn|]. apply safe_raise.
Qed.
Lemma ss_perform_smoothing_new L LP LW LI pt m meth so j :
  safe (owns L LP LW LI) (h_perform_smoothing sm g junk fuel pt m meth so j) traj_new.
Proof. unfold h_perform_smoothing. bnd ltac:(apply ss_default). apply ss_smooth_new. Qed.
End SLogic.

Lemma smoothing_no_write {W P U Y V} (sm : hsmodel W P U Y V) (g : rng W) junk fuel pt m meth so j : sframe_ok sm ->
  no_write (h_perform_smoothing sm g junk fuel pt m meth so j).
Proof.
  intros F s. apply (run_safe s _ _ (ss_perform_smoothing sm g junk fuel F s [] [] [] [] pt m meth so j)).
Qed.
Lemma smoothing_new {W P U Y V} (sm : hsmodel W P U Y V) (g : rng W) junk fuel pt m meth so j : sframe_ok sm ->
  (forall f, hs_post sm = Some f -> hook_new f) -> (forall f, hs_pre sm = Some f -> hook_new f) ->
  forall s tr s', h_perform_smoothing sm g junk fuel pt m meth so j s = (Ok tr, s') -> Forall (unshared s s') tr.
Proof.
  intros F H1 H2 s tr s' E.
  destruct (run_safe s _ _ (ss_perform_smoothing_new sm g junk fuel F s H1 H2 [] [] [] [] pt m meth so j)) as [_ Q].
  rewrite E in Q. simpl in Q. destruct Q as (A & _ & _ & D). apply Forall_forall. intros st Hst. rewrite Forall_forall in A, D.
  destruct (A (hs_pa st) (in_map _ _ _ Hst)) as (Fa & a & Ea & [Fp Lp] & [Fw Lw]). split; [|exact (D (hs_anc st) (in_map _ _ _ Hst))].
  split; [destruct (le_lt_dec (length (h_pa s)) (hs_pa st)) as [?|Hlt]; auto; exfalso; exact (Fa Hlt I)|].
  exists a. split; auto. split; split; auto.
  - destruct (le_lt_dec (length (h_part s)) (ha_part a)) as [?|Hlt]; auto. exfalso; exact (Fp Hlt I).
  - destruct (le_lt_dec (length (h_w s)) (ha_w a)) as [?|Hlt]; auto. exfalso; exact (Fw Hlt I).
Qed.
