(** Whole smoothing passes: structure of the result, totality. *)
From Coquelicot Require Import Coquelicot.
From Coq Require Import String Bool Reals Lra Lia List Arith Permutation.
From Verif Require Import Base XR SampleModel SampleSpec SampleProofs PAModel WeightSpec WeightProofs
  FilterModel TrajModel FilterSpec FilterProofs TrajProofs FilterTotal Prop_Weights Prop_Cond SmoothModel SmoothSpec SmoothProofs SmoothBsi
  SmoothRs Perms SmoothLaw SmoothRsas SmoothMcmc SmoothExample Prop_Bsi.
Import ListNotations.
Open Scope R_scope.

Section Paths.
Context {P : Type}.
Implicit Types tr out : list (tstep P).

(** The path of the [j]-th trajectory through index lists. *)
Definition path_of (inds : list (list nat)) (j k : nat) : nat := nth j (nth k inds []) 0%nat.

Lemma nth_error_nth_def {A} (l : list A) i a d : nth_error l i = Some a -> nth i l d = a.
Proof. revert i; induction l as [|b l IH]; intros [|i] H; simpl in *; try discriminate; [congruence|auto]. Qed.

Lemma selects_visits m tr inds out j : selects tr inds out -> smooth_wf m out -> (j < m)%nat ->
  visits tr (path_of inds j) out j.
Proof.
  intros (L1 & L2 & H) Hwf Hj. split; auto. intros k st st' Hk Hk'.
  destruct (nth_lt inds k) as [ind Hi].
  { rewrite L2. apply nth_error_Some. congruence. }
  specialize (H k st ind st' Hk Hi Hk'). destruct (Hwf k st' Hk') as [Lp _].
  pose proof (take_length _ _ _ H) as Lt.
  destruct (nth_lt (part (st_pa st')) j) as [x Hx]; [lia|]. exists x. split; auto.
  destruct (nth_lt ind j) as [i Hij]; [lia|].
  unfold path_of. rewrite (nth_error_nth_def _ _ _ [] Hi), (nth_error_nth_def _ _ _ 0%nat Hij).
  rewrite (take_nth _ _ _ H _ _ Hij) in Hx. auto.
Qed.

Lemma linked_lineage m tr inds out j : selects tr inds out -> linked tr inds -> smooth_wf m out -> (j < m)%nat ->
  lineage tr (path_of inds j).
Proof.
  intros (L1 & L2 & H) Hl Hwf Hj k st Hk.
  assert (Kl : (S k < length tr)%nat) by (apply nth_error_Some; congruence).
  destruct (nth_lt inds (S k)) as [ind Hi]; [lia|]. destruct (nth_lt inds k) as [ind' Hi']; [lia|].
  pose proof (Hl k st ind ind' Hk Hi Hi') as T.
  destruct (nth_lt out (S k)) as [st' Hs']; [lia|].
  specialize (H _ _ _ _ Hk Hi Hs'). destruct (Hwf _ _ Hs') as [Lp _].
  pose proof (take_length _ _ _ H). pose proof (take_length _ _ _ T).
  destruct (nth_lt ind j) as [i Hij]; [lia|]. destruct (nth_lt ind' j) as [i' Hij']; [lia|].
  unfold path_of. rewrite (nth_error_nth_def _ _ _ [] Hi), (nth_error_nth_def _ _ _ 0%nat Hij).
  rewrite (nth_error_nth_def _ _ _ [] Hi'), (nth_error_nth_def _ _ _ 0%nat Hij').
  rewrite <- (take_nth _ _ _ T _ _ Hij). auto.
Qed.
End Paths.

Section Loops.
Context {W P U Y V : Type}.
Variable sm : smodel W P U Y V.
Variable g : rng W.
Variable junk : nat -> nat.
Variable fuel : nat.
Hypothesis Hg : rng_ok g.
Hypothesis Hc : copying sm.

(** Every backward simulator returns one index per trajectory. *)
Lemma bsi_full_length : forall find pa ptr pind fut u y t k s l s',
  bsi_full sm g pa ptr pind fut find u y t k s = Ok (l, s') -> length l = length find.
Proof.
  induction find as [|f find IH]; intros pa ptr pind fut u y t k s l s' H; cbn [bsi_full] in H; minv H; auto.
  simpl. erewrite IH by eauto. auto.
Qed.

Lemma rs_round_length pa ptr pind fut u y t k mp w todo result s r td ak s' :
  rs_round sm g pa ptr pind fut u y t k mp w todo result s = Ok ((r, td, ak), s') -> length r = length result.
Proof. unfold rs_round. intros H. minv H. eapply scatter_length; eauto. Qed.

Lemma rs_loop_length n : forall pa ptr pind fut u y t k mp w todo result s l s',
  rs_loop sm g n pa ptr pind fut u y t k mp w todo result s = Ok (l, s') -> length l = length result.
Proof.
  induction n as [|n IH]; intros pa ptr pind fut u y t k mp w todo result s l s' H; cbn [rs_loop] in H; minv H.
  - inversion H; subst. eapply scatter_length; eauto.
  - destruct a as [[r td] ak]. apply rs_round_length in Hm. destruct td; minv H; [auto|]. erewrite IH by eauto. auto.
Qed.

Lemma rsas_loop_length n : forall pa ptr pind fut u y t k mp sv sw stop w pk Pk todo result s l s',
  rsas_loop sm g n pa ptr pind fut u y t k mp sv sw stop w pk Pk todo result s = Ok (l, s') -> length l = length result.
Proof.
  induction n as [|n IH]; intros pa ptr pind fut u y t k mp sv sw stop w pk Pk todo result s l s' H; cbn [rsas_loop] in H; minv H.
  destruct a as [[r td] ak]. apply rs_round_length in Hm. destruct td as [|j td]; minv H; [auto|].
  destruct b as [pk' Pk']. destruct (Rltb pk' stop); minv H.
  - inversion H; subst. erewrite scatter_length by eauto. auto.
  - erewrite IH by eauto. auto.
Qed.

Lemma mcmc_loop_length n : forall pa ptr pind fut find u y t k w ind pc s l s',
  mcmc_loop sm g n pa ptr pind fut find u y t k w ind pc s = Ok (l, s') -> length l = length ind.
Proof.
  induction n as [|n IH]; intros pa ptr pind fut find u y t k w ind pc s l s' H; cbn [mcmc_loop] in H; minv H; auto.
  erewrite IH by eauto. unfold mcmc_round in Hm. minv Hm. cbn [fst]. apply mask_set_spec in Hl3. tauto.
Qed.

Lemma bsi_select_length kind o st k tr fut find u y t anc s l s' : length anc = length find ->
  bsi_select sm g junk fuel kind o st k tr fut find u y t anc s = Ok (l, s') -> length l = length find.
Proof.
  intros La H. destruct kind; cbn [bsi_select] in H; minv H.
  - eapply bsi_full_length; eauto.
  - unfold bsi_mcmc in H. minv H. erewrite mcmc_loop_length by eauto. auto.
  - unfold bsi_rs in H. minv H. erewrite rs_loop_length by eauto. rewrite map_length, seq_length. auto.
  - unfold bsi_rsas in H. minv H. erewrite rsas_loop_length by eauto. rewrite map_length, seq_length. auto.
Qed.

(** What any backward pass guarantees, whatever the selection. *)
Lemma bsi_loop_sel kind o m n : forall tr u y t anc future w out w',
  bsi_loop sm g junk fuel kind o m n tr u y t anc future w = Ok (out, w') -> (n <= length tr)%nat ->
  length anc = m ->
  forall inds, selects (skipn n tr) inds future -> smooth_wf m future ->
  exists inds', selects tr (inds' ++ inds) out /\ length inds' = n /\ smooth_wf m out.
Proof.
  induction n as [|k IH]; intros tr u y t anc future w out w' H Hn La inds Hs Hwf.
  - simpl in H. apply ret_ok in H. inversion H; subst. exists []. simpl in *. auto.
  - cbn [bsi_loop] in H. minv H. apply idx_ok in Hl.
    pose proof (Hc _ _ _ _ _ _ _ _ _ _ _ _ Hm0) as ->.
    pose proof (pa_init_uniform _ _ Hl2) as [Ep Ew].
    apply bsi_select_length in Hm; [|rewrite seq_length; auto]. rewrite seq_length in Hm.
    pose proof (take_length _ _ _ Hl0) as La'. pose proof (take_length _ _ _ Hl1) as Lp.
    specialize (IH _ _ _ _ _ _ _ _ _ H ltac:(lia) ltac:(lia) (a :: inds)).
    rewrite (skipn_nth_cons _ _ _ Hl) in IH.
    destruct IH as (inds' & S1 & S2 & S3).
    + apply (selects_cons tr); auto. cbn [st_pa]. rewrite Ep. auto.
    + intros [|j] st Hst; simpl in Hst.
      * injection Hst as <-. cbn [st_pa]. rewrite Ew, Ep, Lp, Hm. auto.
      * eapply Hwf; eauto.
    + exists (inds' ++ [a]). rewrite <- app_assoc. simpl. rewrite app_length. simpl.
      repeat split; auto; try apply S1; try lia; try (eapply S3; eauto).
Qed.

Lemma perform_bsi_sel kind o tr u y t m w out w' :
  perform_bsi sm g junk fuel kind o tr u y t m w = Ok (out, w') ->
  exists inds, selects tr inds out /\ smooth_wf m out.
Proof.
  unfold perform_bsi. intros H. minv H.
  pose proof (Hc _ _ _ _ _ _ _ _ _ _ _ _ Hm0) as ->.
  destruct (pa_init_uniform _ _ Hl3) as [Ep Ew].
  pose proof (take_length _ _ _ Hl1) as La. pose proof (take_length _ _ _ Hl2) as Lp.
  destruct (sampleM_range _ _ _ _ _ _ Hg Hm) as [Li _].
  destruct (skipn_last _ _ Hl) as [Es Lt]. pose proof (idx_last_nth _ _ Hl) as Hn.
  destruct (bsi_loop_sel _ _ _ _ _ _ _ _ _ _ _ _ _ H ltac:(lia) ltac:(lia) [a]) as (inds' & S1 & S2 & S3).
  - rewrite Es. split; [reflexivity|]. split; [reflexivity|].
    intros [|k] st i st' H1 H2 H3; simpl in *; [|destruct k; discriminate].
    injection H1 as <-; injection H2 as <-; injection H3 as <-. cbn [st_pa]. rewrite Ep. auto.
  - intros [|k] st Hst; simpl in Hst; [|destruct k; discriminate].
    injection Hst as <-. cbn [st_pa]. rewrite Ew, Ep, Lp, Li. auto.
  - exists (inds' ++ [a]). auto.
Qed.
End Loops.

Section Total.
Context {W P U Y V : Type}.
Variable sm : smodel W P U Y V.
Variable g : rng W.
Variable junk : nat -> nat.
Variable fuel : nat.
Hypothesis Hg : rng_ok g.
Hypothesis Hcp : copy_smooth sm.

Lemma copy_smooth_copying : copying sm.
Proof.
  intros p ptr anc fut find u y t k s r s' H. destruct (Hcp p ptr anc fut find u y t k s) as (r' & s'' & E & ->). congruence.
Qed.

Lemma pa_init_runs (p : list P) m : (0 < m)%nat -> length p = m -> exists pa, pa_init p None = Ok pa /\ part pa = p.
Proof. intros Hm L. unfold pa_init. destruct p; [simpl in L; lia|]. eexists. split; reflexivity. Qed.

Lemma ancestors_loop_total n N m tr u y t find : (0 < m)%nat -> Forall (step_wf N) tr -> forall anc fut,
  (n <= length tr)%nat -> length anc = m -> Forall (fun i => (i < N)%nat) anc ->
  runs (ancestors_loop sm n tr u y t find anc fut) (fun _ => True).
Proof.
  intros Hm Hwf. induction n as [|k IH]; intros anc fut Hn La Fa; [apply runs_ret; auto|].
  cbn [ancestors_loop]. destruct (idx_lt tr k ltac:(lia)) as [st Est]. eapply runs_lift_bind; [exact Est|].
  apply idx_ok in Est. rewrite Forall_forall in Hwf. destruct (Hwf st (nth_error_In _ _ Est)) as (W1 & W2 & W3 & W4 & W5).
  rewrite <- Forall_forall in Hwf.
  destruct (take_ok (st_anc st) anc) as [a1 E1]; [rewrite W4; auto|]. eapply runs_lift_bind; [exact E1|].
  destruct (take_ok (part (st_pa st)) anc) as [p1 E2]; [rewrite W1; auto|]. eapply runs_lift_bind; [exact E2|].
  eapply runs_bind; [apply Hcp|]. intros p' ->.
  destruct (pa_init_runs p1 m Hm) as (pa & E3 & _); [erewrite take_length by eauto; auto|]. eapply runs_lift_bind; [exact E3|].
  apply IH; [lia|erewrite take_length by eauto; auto|]. eapply take_Forall; [exact E1|auto].
Qed.

Lemma idx_last_ex {A} (l : list A) : l <> [] -> exists a, idx_last l = Ok a.
Proof. intros H. destruct (exists_last H) as (l' & a & ->). exists a. apply idx_last_app. Qed.

Lemma start_total N m (tr : list (tstep P)) : tr <> [] -> (0 < N)%nat -> Forall (step_wf N) tr ->
  exists last w, idx_last tr = Ok last /\ step_wf N last /\ norm_weights (lw (st_pa last)) = Ok w /\
    runs (sampleM g w m) (fun l => length l = m /\ Forall (fun i => (i < N)%nat) l).
Proof.
  intros Hne HN Hwf. destruct (idx_last_ex tr Hne) as [last El]. exists last.
  assert (Wl : step_wf N last). { rewrite Forall_forall in Hwf. apply Hwf. apply idx_last_nth in El. eapply nth_error_In; eauto. }
  destruct Wl as (W1 & W2 & W3 & W4 & W5). destruct (norm_weights_ok (lw (st_pa last))) as (w & Ew & Lw).
  { intros E. rewrite E in W2. simpl in W2. lia. }
  exists w. split; auto. split; [repeat split; auto|]. split; auto.
  assert (Hw : w <> []) by (intros ->; simpl in Lw; lia).
  eapply runs_weaken; [apply (runs_sampleM g Hg w m Hw)|]. rewrite Lw, W2. auto.
Qed.

Lemma perform_ancestors_total N m tr u y t : tr <> [] -> (0 < N)%nat -> (0 < m)%nat -> Forall (step_wf N) tr ->
  runs (perform_ancestors_int sm g tr u y t m) (fun _ => True).
Proof.
  intros Hne HN Hm Hwf. destruct (start_total N m tr Hne HN Hwf) as (last & w & El & (W1 & W2 & W3 & W4 & W5) & Ew & Hs).
  unfold perform_ancestors_int. eapply runs_lift_bind; [exact El|]. eapply runs_lift_bind; [exact Ew|].
  eapply runs_bind; [exact Hs|]. intros ind [Li Fi]. unfold calculate_ancestors. eapply runs_lift_bind; [exact El|].
  destruct (take_ok (st_anc last) ind) as [a1 E1]; [rewrite W4; auto|]. eapply runs_lift_bind; [exact E1|].
  destruct (take_ok (part (st_pa last)) ind) as [p1 E2]; [rewrite W1; auto|]. eapply runs_lift_bind; [exact E2|].
  eapply runs_bind; [apply Hcp|]. intros p' ->.
  destruct (pa_init_runs p1 m Hm) as (pa & E3 & _); [erewrite take_length by eauto; auto|]. eapply runs_lift_bind; [exact E3|].
  apply (ancestors_loop_total _ N m); auto; [lia|erewrite take_length by eauto; auto|]. eapply take_Forall; [exact E1|auto].
Qed.

Variable ld : cell U -> nat -> P -> P -> xr.
Hypothesis Hmk : markov_density sm ld.
Variables N m : nat.
Hypothesis HN : (0 < N)%nat.
Hypothesis Hm : (0 < m)%nat.

(** Options sufficient for a backward simulator on [T] steps. *)
Definition opts_ok (kind : bsi_kind) (o : option soptions) (T : nat) : Prop :=
  match kind with
  | BFull => True
  | BMcmc => exists z, get_opt o o_R = Ok (PyInt z)
  | BRs => (exists r, get_opt o o_R = Ok r) /\ exists mp, get_opt o o_maxpdf = Ok mp /\ (T - 1 <= length mp)%nat
  | BRsas => exists x1 P1 sv sw ratio, get_opt o o_x1 = Ok x1 /\ get_opt o o_P1 = Ok P1 /\ get_opt o o_sv = Ok sv /\
      get_opt o o_sw = Ok sw /\ get_opt o o_ratio = Ok ratio /\
      0 <= py_val P1 /\
      (forall fuel', (fuel <= fuel')%nat ->
        forall (pa : papprox P) ptr pind fut d xs find u y t k maxpdf s,
        backward_step ld u t k pa pind fut d xs -> all_reachable d pa xs (seq 0 (length find)) ->
        length (part pa) = N -> (length find <= m)%nat ->
        exists l s', bsi_rsas sm g junk fuel' pa ptr pind fut find u y t k maxpdf (py_val x1) (py_val P1) (py_val sv) (py_val sw) (py_val ratio) s = Ok (l, s') /\ indices pa (length find) l) /\
      exists mp, get_opt o o_maxpdf = Ok mp /\ (T - 1 <= length mp)%nat
  end.

Lemma bsi_select_total kind o T st k tr fut f0 u y t anc uk tk :
  opts_ok kind o T -> (k < T - 1)%nat -> step_wf N st -> live (lw (st_pa st)) -> nth_error fut 0 = Some f0 ->
  length (part (st_pa f0)) = m -> nth_error u k = Some uk -> nth_error t k = Some tk ->
  (forall x', In x' (part (st_pa f0)) -> usable (ld uk tk) (st_pa st) x') ->
  length anc = m -> Forall (fun i => (i < N)%nat) anc ->
  runs (bsi_select sm g junk fuel kind o st k tr fut (seq 0 m) u y t anc) (fun l => length l = m /\ Forall (fun i => (i < N)%nat) l).
Proof.
  intros Ho Hk (W1 & W2 & W3 & W4 & W5) Hlive Hf0 Lf Hu Ht Hus La Fa s.
  assert (HB : backward_step ld u t k (st_pa st) (st_anc st) fut (ld uk tk) (part (st_pa f0))).
  { split; [exists uk, tk; auto|]. split; [exists f0; auto|]. split; [congruence|]. split; [congruence|auto]. }
  assert (HR : all_reachable (ld uk tk) (st_pa st) (part (st_pa f0)) (seq 0 m)).
  { apply Forall_forall. intros j Hj. apply in_seq in Hj. destruct (nth_lt (part (st_pa f0)) j) as [x Hx]; [lia|].
    exists x. split; auto. apply Hus. eapply nth_error_In; eauto. }
  assert (LS : length (seq 0 m) = m) by apply seq_length.
  destruct kind; cbn [bsi_select opts_ok] in *.
  - destruct (C24_bsi_full_valid _ _ _ _ _ sm g ld u y t k (st_pa st) (firstn k tr) (st_anc st) fut _ _ (seq 0 m) s Hg Hmk HB HR) as (l & s' & E & I1 & I2).
    exists l, s'. split; auto. rewrite LS, ?W1 in *. auto.
  - destruct Ho as [z Hz]. rewrite (lift_bind_eq _ _ _ _ Hz). rewrite (lift_bind_eq (py_range (PyInt z)) _ _ (Z.to_nat z) eq_refl).
    destruct (C27_bsi_mcmc_valid _ _ _ _ _ sm g ld u y t k (st_pa st) (firstn k tr) (st_anc st) fut _ _ (seq 0 m) anc (Z.to_nat z) s Hg Hmk HB) as (l & s' & E & I1 & I2).
    { apply Forall_forall. intros j Hj. apply in_seq in Hj. lia. }
    { split; [congruence|]. rewrite W1. auto. }
    exists l, s'. split; auto. rewrite LS, ?W1 in *. auto.
  - destruct Ho as ((r & Hr) & mp & Hmp & Lmp). rewrite (lift_bind_eq _ _ _ _ Hmp).
    destruct (idx_lt mp k ltac:(lia)) as [mk Emk]. rewrite (lift_bind_eq _ _ _ _ Emk). rewrite (lift_bind_eq _ _ _ _ Hr).
    destruct (C25_bsi_rs_total _ _ _ _ _ sm g junk ld u y t k (st_pa st) (firstn k tr) (st_anc st) fut _ _ (seq 0 m) mk (py_int r) s Hg Hmk HB) as (l & s' & E & (I1 & I2) & _).
    { rewrite LS. exact HR. }
    exists l, s'. split; auto. rewrite LS, ?W1 in *. auto.
  - destruct Ho as (x1 & P1 & sv & sw & ratio & H1 & H2 & H3 & H4 & H5 & H6 & H7 & mp & Hmp & Lmp).
    rewrite (lift_bind_eq _ _ _ _ Hmp). destruct (idx_lt mp k ltac:(lia)) as [mk Emk]. rewrite (lift_bind_eq _ _ _ _ Emk).
    rewrite (lift_bind_eq _ _ _ _ H1), (lift_bind_eq _ _ _ _ H2), (lift_bind_eq _ _ _ _ H3), (lift_bind_eq _ _ _ _ H4), (lift_bind_eq _ _ _ _ H5).
    destruct (H7 fuel (le_n _) (st_pa st) (firstn k tr) (st_anc st) fut _ _ (seq 0 m) u y t k mk s HB) as (l & s' & E & I1 & I2); auto.
    { rewrite LS. exact HR. } { lia. }
    exists l, s'. split; auto. rewrite LS, ?W1 in *. auto.
Qed.

Lemma bsi_loop_total kind o pt : smoothable ld N pt -> opts_ok kind o (length (pt_traj pt)) ->
  forall n anc fut f0 st1, (n < length (pt_traj pt))%nat -> length anc = m -> Forall (fun i => (i < N)%nat) anc ->
  nth_error fut 0 = Some f0 -> nth_error (pt_traj pt) n = Some st1 -> length (part (st_pa f0)) = m ->
  (forall x, In x (part (st_pa f0)) -> In x (part (st_pa st1))) ->
  runs (bsi_loop sm g junk fuel kind o m n (pt_traj pt) (pt_u pt) (pt_y pt) (pt_t pt) anc fut) (fun _ => True).
Proof.
  intros (Hne & Hwf & Hlv & Hus) Ho. induction n as [|k IH]; intros anc fut f0 st1 Hn La Fa Hf0 Hst1 Lf Hin; [apply runs_ret; auto|].
  cbn [bsi_loop]. destruct (idx_lt (pt_traj pt) k ltac:(lia)) as [st Est]. eapply runs_lift_bind; [exact Est|]. apply idx_ok in Est.
  assert (Wst : step_wf N st) by (rewrite Forall_forall in Hwf; apply Hwf; eapply nth_error_In; eauto).
  assert (Lst : live (lw (st_pa st))) by (rewrite Forall_forall in Hlv; apply Hlv; eapply nth_error_In; eauto).
  destruct (Hus k st st1 Est Hst1) as (uk & tk & Hu & Ht & Hreach).
  eapply runs_bind.
  { apply (bsi_select_total kind o (length (pt_traj pt)) st k (pt_traj pt) fut f0 (pt_u pt) (pt_y pt) (pt_t pt) anc uk tk); auto. lia. }
  intros ind [Li Fi]. destruct Wst as (W1 & W2 & W3 & W4 & W5).
  destruct (take_ok (st_anc st) ind) as [a1 E1]; [rewrite W4; auto|]. eapply runs_lift_bind; [exact E1|].
  destruct (take_ok (part (st_pa st)) ind) as [p1 E2]; [rewrite W1; auto|]. eapply runs_lift_bind; [exact E2|].
  eapply runs_bind; [apply Hcp|]. intros p' ->.
  destruct (pa_init_runs p1 m Hm) as (pa & E3 & Ep); [erewrite take_length by eauto; auto|]. eapply runs_lift_bind; [exact E3|].
  eapply (IH a1 _ (mkStep pa (seq 0 m)) st); auto; try reflexivity; try exact Est.
  - lia.
  - erewrite take_length by eauto; auto.
  - eapply take_Forall; [exact E1|auto].
  - cbn [st_pa]. rewrite Ep. erewrite take_length by eauto; auto.
  - cbn [st_pa]. rewrite Ep. intros x Hx. assert (F : Forall (fun z => In z (part (st_pa st))) p1).
    { eapply take_Forall; [exact E2|]. apply Forall_forall. auto. }
    rewrite Forall_forall in F. auto.
Qed.

Lemma perform_bsi_total kind o pt : smoothable ld N pt -> opts_ok kind o (length (pt_traj pt)) ->
  runs (perform_bsi sm g junk fuel kind o (pt_traj pt) (pt_u pt) (pt_y pt) (pt_t pt) m) (fun _ => True).
Proof.
  intros Hsm Ho. destruct Hsm as (Hne & Hwf & Hlv & Hus).
  destruct (start_total N m _ Hne HN Hwf) as (last & w & El & (W1 & W2 & W3 & W4 & W5) & Ew & Hs).
  unfold perform_bsi. eapply runs_lift_bind; [exact El|]. eapply runs_lift_bind; [exact Ew|].
  eapply runs_bind; [exact Hs|]. intros ind [Li Fi].
  destruct (take_ok (st_anc last) ind) as [a1 E1]; [rewrite W4; auto|]. eapply runs_lift_bind; [exact E1|].
  destruct (take_ok (part (st_pa last)) ind) as [p1 E2]; [rewrite W1; auto|]. eapply runs_lift_bind; [exact E2|].
  eapply runs_bind; [apply Hcp|]. intros p' ->.
  destruct (pa_init_runs p1 m Hm) as (pa & E3 & Ep); [erewrite take_length by eauto; auto|]. eapply runs_lift_bind; [exact E3|].
  assert (Ob : bsi_options kind o = Ok tt).
  { destruct kind; cbn [bsi_options opts_ok] in *; auto.
    - destruct Ho as ((r & ->) & _). reflexivity.
    - destruct Ho as (x1 & P1 & sv & sw & ratio & -> & -> & -> & -> & -> & _). reflexivity. }
  eapply runs_lift_bind; [exact Ob|].
  assert (Lt : (0 < length (pt_traj pt))%nat) by (destruct (pt_traj pt); [congruence|simpl; lia]).
  eapply (bsi_loop_total kind o pt); auto; try (split; [exact Hne|split; [exact Hwf|split; [exact Hlv|exact Hus]]]).
  - lia.
  - erewrite take_length by eauto; auto.
  - eapply take_Forall; [exact E1|auto].
  - reflexivity.
  - apply idx_last_nth. exact El.
  - cbn [st_pa]. rewrite Ep. erewrite take_length by eauto; auto.
  - cbn [st_pa]. rewrite Ep. intros x Hx. assert (F : Forall (fun z => In z (part (st_pa last))) p1).
    { eapply take_Forall; [exact E2|]. apply Forall_forall. auto. }
    rewrite Forall_forall in F. auto.
Qed.
End Total.
