(** Proofs for C82, part 3: the drawn trajectory, and the iteration with two particles. *)
From Coquelicot Require Import Coquelicot.
From Coq Require Import ZArith String Reals Lra Lia List Arith.
From Verif Require Import Base XR SampleModel SampleSpec SampleProofs PAModel WeightSpec WeightProofs
  FilterModel TrajModel FilterSpec FilterProofs TrajProofs FilterTotal Prop_Sample Prop_Weights FilterSem Prop_Law Prop_Filter Prop_Cond
  SmoothModel SmoothSpec SmoothProofs SmoothBsi SmoothRs SmoothLaw SmoothPath Prop_Smooth EvidenceSpec Evidence FfbsiSpec Ffbsi GibbsSpec Gibbs GibbsRun.
Import ListNotations.
Open Scope R_scope.

(** ** What the 'ancestor' smoother returns for given end points *)
Section Smoother.
Context {P U Y V : Type}.
Variable sm : smodel (list R) P U Y V.
Variables (junk : nat -> nat) (fuel : nat).
Hypothesis Hcp : plain_copy sm.
Hypothesis Hpost : s_post sm = None.

Lemma smooth_call (s : ptraj P U Y) (N m : nat) so lj pre last r ind l :
  pt_traj s = pre ++ [last] -> Forall (step_wf N) (pt_traj s) -> (0 < N)%nat -> (0 < m)%nat -> live (lw (st_pa last)) -> 0 < r < 1 ->
  np_sample (map Fin (map lin (lw (st_pa last)))) m r = Ok ind ->
  exists st w', perform_smoothing sm tape junk fuel s m "ancestor" so lj (r :: l) = Ok (st, w') /\
    forall j i, nth_error ind j = Some i -> trajectory (sm_traj st) j = path (pt_traj s) i.
Proof.
  intros Htr Hwf HN Hm Hlv Hr Hs.
  assert (Hcs : copy_smooth sm) by (intros p ptr anc fut find u y t k w; exists p, w; split; [apply Hcp|reflexivity]).
  assert (Hne : pt_traj s <> []) by (rewrite Htr; destruct pre; discriminate).
  set (o := match so with None => no_options | Some q => opt_update no_options q end).
  destruct (C23_ancestor_total _ _ _ _ _ sm tape junk fuel s N m (Some o) (r :: l) tape_ok Hcs Hpost HN Hm Hne Hwf) as (st & w' & E).
  exists st, w'. split.
  { unfold perform_smoothing, default_options. cbn [String.eqb Ascii.eqb Bool.eqb orb]. unfold bind at 1, ret at 1. exact E. }
  apply ancestor_inv in E; auto. destruct E as (tr & E & ->). cbn [sm_traj].
  unfold perform_ancestors_int in E. rewrite Htr in E at 1. rewrite idx_last_app in E. unfold bind at 1, lift at 1 in E.
  apply bind_ok in E. destruct E as (wn & s1 & E1 & E). apply lift_ok in E1. destruct E1 as (wn' & Ew & E1). inversion E1; subst wn' s1; clear E1.
  unfold bind at 1 in E. rewrite (sampleM_norm_eq _ _ _ _ _ Hlv Ew) in E. cbn [rand tape] in E. rewrite unit_of_in in E by exact Hr. rewrite Hs in E. cbn [rbind] in E.
  destruct (calculate_ancestors_sel sm (copy_smooth_copying sm Hcs) _ _ _ _ _ _ _ _ E) as (inds & S1 & S2 & S3 & S4).
  intros j i Hj. assert (Lj : (j < length ind)%nat) by (apply nth_error_Some; congruence).
  rewrite (visits_path (pt_traj s) tr (path_of inds j) j); auto.
  - f_equal. unfold path_of. rewrite (nth_error_nth _ _ _ S3). apply nth_error_nth. exact Hj.
  - eapply linked_lineage; eauto.
  - eapply selects_visits; eauto.
Qed.
End Smoother.

(** ** A choice between two particles *)
Definition pick (w : list R) (r : R) : nat := match np_sample (map Fin w) 1 r with Ok (i :: _) => i | _ => 0%nat end.

Lemma ok2 p q : 0 < p -> 0 < q -> weights_ok [p; q].
Proof.
  intros Hp Hq. unfold weights_ok. split; [repeat constructor; lra|]. unfold rsum. simpl. lra.
Qed.
Lemma choose2 p q (F : nat -> R) : 0 < p -> 0 < q -> is_RInt (fun r => F (pick [p; q] r)) 0 1 ((p * F 0%nat + q * F 1%nat) / (p + q)).
Proof.
  intros Hp Hq. pose proof (ok2 p q Hp Hq) as Hw.
  pose proof (sample_average [p; q] 1 F Hw ltac:(lia)) as H. cbn [length seq map nth] in H. unfold rsum in H at 2. simpl fold_right in H.
  eapply is_RInt_ext01; [|replace ((p * F 0%nat + q * F 1%nat) / (p + q)) with (INR 1 * (p / rsum [p; q] * F 0%nat + (q / rsum [p; q] * F 1%nat + 0))); [exact H|]].
  - intros r Hr. unfold pick. destruct (sample_valid [p; q] 1 r Hw ltac:(unfold unit_draw; lra)) as (l & El & Ll & _). cbn [map] in *. rewrite El.
    destruct l as [|i [|]]; simpl in Ll; try discriminate. unfold rsum. simpl. ring.
  - unfold rsum. simpl. field. lra.
Qed.

(** ** Two particles *)
Section Two.
Context {P U Y V V' : Type}.
Variables (m : ssm P U Y V) (ld : P -> cell U -> nat -> P -> R) (noise : (V -> R) -> R).
Hypothesis Hn : average noise.
Variables (xa xb : P) (dv : V) (anc : bool) (ref : list P).
Notation x0 := [xa; xb].
Variable sm : smodel (list R) P U Y V'.
Variables (junk : nat -> nat) (fuel : nat) (so : option soptions) (lj : xr) (phi : list P -> R).
Hypothesis Hcp : plain_copy sm.
Hypothesis Hpost : s_post sm = None.

Definition rel2 (s : ptraj P U Y) (k : nat) (a b : slot) : Prop :=
  gready x0 anc ref s /\ exists pre old kk, gstart x0 ref s pre old /\ length pre = k /\ part (st_pa old) = [sx a; sx b] /\ 0 < kk /\
    map lin (lw (st_pa old)) = [kk * sg a; kk * sg b] /\ path (pre ++ [old]) 0 = full a [] /\ path (pre ++ [old]) 1 = full b [].

Definition sl (a b : slot (P := P)) (i : nat) : slot := match i with O => a | _ => b end.

Lemma skipn_cons {A} k (l : list A) x r : skipn k l = x :: r -> nth_error l k = Some x /\ skipn (k + 1) l = r.
Proof. revert l. induction k as [|k IH]; intros [|a l] H; simpl in *; try discriminate; [inversion H; auto|]. apply IH. exact H. Qed.

Lemma run2 : forall (ops : list (@op U Y)) s k a b refs, rel2 s k a b -> 0 < sg a -> 0 < sg b -> (ops = [] -> pt_traj s <> []) ->
  (k < length ref)%nat -> refs = skipn (k + 1) ref -> length refs = forwards ops ->
  continue m ld noise dv sm junk fuel so lj x0 ops s phi (kern m ld noise anc phi k ops refs a b).
Proof.
  induction ops as [|[u y|y] ops IH]; intros s k a b refs (Hrd & pre & old & kk & Hst & Lk & Hp & Hkk & Hw & Pa & Pb) Ha Hb Hne Hk Hrefs Lr.
  - cbn [continue kern]. destruct Hst as [Htr|(E & _)]; [|exfalso; apply (Hne eq_refl E)].
    set (W := map lin (lw (st_pa old))) in *.
    assert (Hl : live (lw (st_pa old))).
    { apply finw_live; [apply (gr_last _ _ _ _ Hrd _ _ Htr)|]. intros E. unfold W in Hw. rewrite E in Hw. discriminate. }
    exists (fun r => phi (full (sl a b (pick W r)) [])). split.
    + intros r Hr. destruct (sample_valid W 1 r (weights_ok_lin _ Hl) ltac:(unfold unit_draw; lra)) as (ind & Es & Li & Fi & _).
      destruct (smooth_call sm junk fuel Hcp Hpost s 2 1 so lj pre old r ind [] Htr) as (st & w' & Hsm & Htj); auto; try lia.
      { apply (gr_wf _ _ _ _ Hrd). }
      exists st, w'. split; [exact Hsm|]. unfold pick. rewrite Es. destruct ind as [|i [|]]; simpl in Li; try discriminate.
      rewrite (Htj 0%nat i eq_refl), Htr. inversion Fi; subst. rewrite Hw in H1. simpl in H1. f_equal.
      destruct i as [|[|i]]; [symmetry; exact Pa|symmetry; exact Pb|lia].
    + pose proof (choose2 (kk * sg a) (kk * sg b) (fun i => phi (full (sl a b i) [])) ltac:(apply Rmult_lt_0_compat; auto) ltac:(apply Rmult_lt_0_compat; auto)) as Q.
      rewrite Hw. cbv beta in Q. cbn [sl] in Q. unfold mix.
      replace ((sg a * phi (full a []) + sg b * phi (full b [])) / (sg a + sg b)) with
        ((kk * sg a * phi (full a []) + kk * sg b * phi (full b [])) / (kk * sg a + kk * sg b)); [exact Q|].
      field. split; [lra|]. assert (0 < kk * sg a) by (apply Rmult_lt_0_compat; auto). assert (0 < kk * sg b) by (apply Rmult_lt_0_compat; auto). lra.
  - cbn [continue kern]. cbn [forwards] in Lr. destruct refs as [|x' refs']; [simpl in Lr; lia|].
    symmetry in Hrefs. destruct (skipn_cons _ _ _ _ Hrefs) as [Hx Hrefs'].
    set (W := [kk * sg a; kk * sg b]). set (C := [exp (ld (sx a) (cell_of u) k x') * (kk * sg a); exp (ld (sx b) (cell_of u) k x') * (kk * sg b)]).
    pose (J := fun r2 => if anc then pick C r2 else 1%nat).
    pose (fin := fun i j v => let x := move m (sx (sl a b i)) (cell_of u) k v in
      kern m ld noise anc phi (k + 1) ops refs' (adv (sl a b i) x (lik m x y (k + 1))) (adv (sl a b j) x' (lik m x' y (k + 1)))).
    exists (fun draws vs => fin (pick W (nth 0 draws 0)) (J (nth 1 draws 0)) (nth 0 vs dv)). split.
    + intros r1 r2 vs Hr1 Hr2 Lv. cbn [nth]. subst k.
      destruct (fwd_call m ld x0 dv ltac:(simpl; lia) anc ref s pre old u y x' r1 r2 vs Hrd Hst Hx Hr1 Hr2) as (s' & w' & new & Hf & Hrd' & Ht & Hc).
      exists s', true, w'. split; [exact Hf|]. unfold fin. cbv zeta.
      destruct Hc as (anc0 & c & from & Hs1 & Hs2 & Han & Hfrom & Hpn & q & Hq & Hwn). cbn [length] in *.
      replace (2 - 1)%nat with 1%nat in * by reflexivity. rewrite Hw in Hs1.
      destruct (np_sample_range _ _ r1 _ ltac:(unfold unit_draw; lra) Hs1) as [L0 F0]. destruct anc0 as [|i [|]]; simpl in L0; try discriminate.
      inversion F0 as [|? ? Hi _]; subst. cbn [map length] in Hi. clear F0.
      assert (EC : cwts ld old (cell_of u) (length pre) x' = C).
      { unfold cwts. rewrite Hp. destruct (lw (st_pa old)) as [|l1 [|l2 [|]]]; simpl in Hw; try discriminate. inversion Hw as [[E1 E2]].
        cbn [combine map fst snd]. rewrite E1, E2. reflexivity. }
      assert (Ei : pick W r1 = i) by (unfold pick, W; rewrite Hs1; reflexivity).
      assert (Ej : J r2 = c /\ (c < 2)%nat).
      { unfold J. destruct anc; [|subst c; split; [reflexivity|lia]]. rewrite EC in Hs2. split; [unfold pick; rewrite Hs2; reflexivity|].
        destruct (np_sample_range _ _ r2 _ ltac:(unfold unit_draw; lra) Hs2) as [_ F1]. inversion F1; subst. simpl in *. lia. }
      destruct Ej as [Ej Hc2]. rewrite Ei, Ej.
      assert (Efrom : forall n, (n < 2)%nat -> nth_error (part (st_pa old)) n = Some (sx (sl a b n))).
      { intros n Hn2. rewrite Hp. destruct n as [|[|n]]; [reflexivity|reflexivity|lia]. }
      assert (Ef : from = [sx (sl a b i); sx (sl a b c)]).
      { pose proof (take_length _ _ _ Hfrom) as Lf. destruct from as [|f1 [|f2 [|]]]; simpl in Lf; try discriminate.
        pose proof (take_nth _ _ _ Hfrom 0%nat i eq_refl) as T1. pose proof (take_nth _ _ _ Hfrom 1%nat c eq_refl) as T2. simpl in T1, T2.
        rewrite (Efrom _ Hi) in T1. rewrite (Efrom _ Hc2) in T2. congruence. }
      subst from. cbn [length seq combine map fst snd removelast app] in Hpn.
      set (x := move m (sx (sl a b i)) (cell_of u) (length pre) (nth 0 vs dv)) in *.
      rewrite Hpn in Hwn. cbn [map] in Hwn.
      assert (Epath : forall n, (n < 2)%nat -> path (pre ++ [old]) n = full (sl a b n) []).
      { intros [|[|n]] Hn2; [exact Pa|exact Pb|lia]. }
      apply IH; auto using lik_pos.
      * split; [exact Hrd'|]. exists (pre ++ [old]), new, q. split; [left; exact Ht|]. split; [rewrite app_length; reflexivity|].
        split; [exact Hpn|]. split; [exact Hq|]. split; [exact Hwn|]. rewrite (path_snoc (pre ++ [old]) new 0), (path_snoc (pre ++ [old]) new 1), Han, Hpn. cbn [app nth nth_error].
        rewrite (Epath _ Hi), (Epath _ Hc2). unfold full, adv. cbn [sp sx]. rewrite <- !app_assoc. split; reflexivity.
      * cbn [adv sg]. apply lik_pos.
      * cbn [adv sg]. apply lik_pos.
      * intros _. rewrite Ht. intros E. destruct (pre ++ [old]); discriminate.
      * assert (length pre + 1 < length ref)%nat by (apply nth_error_Some; congruence). lia.
    + assert (In2 : forall draws, iid noise (length x0) (fun vs => fin (pick W (nth 0 draws 0)) (J (nth 1 draws 0)) (nth 0 vs dv)) =
          noise (fin (pick W (nth 0 draws 0)) (J (nth 1 draws 0)))).
      { intros draws. cbn [length iid]. apply (av_ext noise Hn). intros v. cbn [nth]. apply (av_const noise Hn). }
      eapply expect_ext; [intros l _ _; symmetry; apply In2|].
      pose (inner := fun i => keep ld anc (cell_of u) k x' a b (fun j => noise (fun v => let x := move m (sx (sl a b i)) (cell_of u) k v in
        kern m ld noise anc phi (k + 1) ops refs' (adv (sl a b i) x (lik m x y (k + 1))) (adv j x' (lik m x' y (k + 1)))))).
      assert (Qa : 0 < kk * sg a) by (apply Rmult_lt_0_compat; auto). assert (Qb : 0 < kk * sg b) by (apply Rmult_lt_0_compat; auto).
      change (exists h, (forall r, 0 < r < 1 -> expect 1 (fun l => noise (fin (pick W r) (J (nth 0 l 0)))) (h r)) /\ is_RInt h 0 1
        (mix sg a b (fun i => keep ld anc (cell_of u) k x' a b (fun j => noise (fun v => let x := move m (sx i) (cell_of u) k v in
          kern m ld noise anc phi (k + 1) ops refs' (adv i x (lik m x y (k + 1))) (adv j x' (lik m x' y (k + 1)))))))).
      exists (fun r => inner (pick W r)). split.
      * intros r Hr. cbn [expect]. exists (fun r2 => noise (fin (pick W r) (J r2))). split; [intros r2 _; reflexivity|].
        generalize (pick W r). intros i. unfold inner, keep, J. destruct anc.
        -- pose proof (exp_pos (ld (sx a) (cell_of u) k x')) as Ea. pose proof (exp_pos (ld (sx b) (cell_of u) k x')) as Eb.
           set (ea := exp (ld (sx a) (cell_of u) k x')) in *. set (eb := exp (ld (sx b) (cell_of u) k x')) in *.
           pose proof (choose2 (ea * (kk * sg a)) (eb * (kk * sg b)) (fun j => noise (fin i j)) ltac:(apply Rmult_lt_0_compat; auto) ltac:(apply Rmult_lt_0_compat; auto)) as Q.
           cbv beta in Q. fold C in Q. unfold mix. fold ea eb.
           match goal with |- is_RInt _ 0 1 ?z => replace z with ((ea * (kk * sg a) * noise (fin i 0%nat) + eb * (kk * sg b) * noise (fin i 1%nat)) / (ea * (kk * sg a) + eb * (kk * sg b))); [exact Q|] end.
           change ((ea * (kk * sg a) * noise (fin i 0%nat) + eb * (kk * sg b) * noise (fin i 1%nat)) / (ea * (kk * sg a) + eb * (kk * sg b)) =
             (sg a * ea * noise (fin i 0%nat) + sg b * eb * noise (fin i 1%nat)) / (sg a * ea + sg b * eb)).
           clearbody ea eb. generalize (noise (fin i 0%nat)) (noise (fin i 1%nat)). intros n0 n1.
           assert (0 < sg a * ea) by (apply Rmult_lt_0_compat; auto). assert (0 < sg b * eb) by (apply Rmult_lt_0_compat; auto).
           assert (0 < ea * (kk * sg a)) by (apply Rmult_lt_0_compat; auto). assert (0 < eb * (kk * sg b)) by (apply Rmult_lt_0_compat; auto).
           field. lra.
        -- change (is_RInt (fun _ : R => noise (fin i 1%nat)) 0 1 (noise (fin i 1%nat))).
           pose proof (is_RInt_const 0 1 (noise (fin i 1%nat))) as Q. unfold scal in Q; simpl in Q; unfold mult in Q; simpl in Q.
           rewrite Rminus_0_r, Rmult_1_l in Q. exact Q.
      * pose proof (choose2 (kk * sg a) (kk * sg b) inner Qa Qb) as Q. fold W in Q. unfold mix.
        change (is_RInt (fun r => inner (pick W r)) 0 1 ((sg a * inner 0%nat + sg b * inner 1%nat) / (sg a + sg b))).
        replace ((sg a * inner 0%nat + sg b * inner 1%nat) / (sg a + sg b)) with
          ((kk * sg a * inner 0%nat + kk * sg b * inner 1%nat) / (kk * sg a + kk * sg b)) by (field; lra). exact Q.
  - cbn [continue kern]. cbn [forwards] in Lr. subst k.
    destruct (meas_call m ld x0 dv ltac:(simpl; lia) anc ref s pre old y ([], []) Hrd Hst Hk) as (s' & pa & Hm & Hrd' & Ht & Ep & c & Hc & Ew).
    exists s', ([], []). split; [exact Hm|].
    destruct (lw (st_pa old)) as [|l1 [|l2 [|]]]; simpl in Hw; try discriminate. inversion Hw as [[E1 E2]]. rewrite Hp in Ew. cbn [combine map fst snd] in Ew.
    apply IH; auto.
    + split; [exact Hrd'|]. exists pre, (mkStep pa (st_anc old)), (c * kk). split; [left; exact Ht|]. split; [reflexivity|]. cbn [st_pa rew sx sg].
      split; [congruence|]. split; [apply Rmult_lt_0_compat; auto|]. split.
      * rewrite Ew, E1, E2. f_equal; [ring|]. f_equal. ring.
      * unfold full in *. cbn [rew sp sx]. rewrite !path_snoc. cbn [st_anc st_pa]. rewrite Ep, <- !path_snoc. auto.
    + cbn [rew sg]. apply Rmult_lt_0_compat; auto. apply exp_pos.
    + cbn [rew sg]. apply Rmult_lt_0_compat; auto. apply exp_pos.
    + intros _. rewrite Ht. destruct pre; discriminate.
Qed.
End Two.

(** ** The value of an iteration is determined *)
Section Unique.
Context {P U Y V V' : Type}.
Variables (m : ssm P U Y V) (ld : P -> cell U -> nat -> P -> R) (noise : (V -> R) -> R) (start : (P -> R) -> R).
Hypothesis Hn : average noise.
Hypothesis Hs : average start.
Variable dv : V.
Variable sm : smodel (list R) P U Y V'.
Variables (junk : nat -> nat) (fuel : nat) (so : option soptions) (lj : xr) (phi : list P -> R).

Lemma iid_ext_len {A} (E : (A -> R) -> R) : average E -> forall n F G, (forall l, length l = n -> F l = G l) -> iid E n F = iid E n G.
Proof.
  intros HE. induction n as [|n IH]; intros F G H; cbn [iid]; [apply H; reflexivity|]. apply (av_ext E HE). intros a. apply IH. intros l L. apply H. simpl. lia.
Qed.

Lemma RInt_fun (h h' : R -> R) v v' : (forall r, 0 < r < 1 -> h r = h' r) -> is_RInt h 0 1 v -> is_RInt h' 0 1 v' -> v = v'.
Proof.
  intros H I1 I2. pose proof (is_RInt_ext01 h h' v H I1) as I.
  rewrite <- (is_RInt_unique (V := R_CompleteNormedModule) _ _ _ _ I). exact (is_RInt_unique (V := R_CompleteNormedModule) _ _ _ _ I2).
Qed.

Lemma expect_fun n : forall f f' v v', (forall l, length l = n -> Forall (fun r => 0 < r < 1) l -> f l = f' l) -> expect n f v -> expect n f' v' -> v = v'.
Proof.
  induction n as [|n IH]; intros f f' v v' H; cbn [expect].
  - intros -> ->. apply H; [reflexivity|constructor].
  - intros (h & H1 & I1) (h' & H2 & I2). refine (RInt_fun _ _ _ _ _ I1 I2). intros r Hr. apply (IH (fun l => f (r :: l)) (fun l => f' (r :: l))); auto.
    intros l L F. apply H; [simpl; lia|]. constructor; auto.
Qed.

Lemma continue_unique x0 : forall ops s v v', continue m ld noise dv sm junk fuel so lj x0 ops s phi v ->
  continue m ld noise dv sm junk fuel so lj x0 ops s phi v' -> v = v'.
Proof.
  induction ops as [|[u y|y] ops IH]; intros s v v'; cbn [continue].
  - intros (c & H1 & I1) (c' & H2 & I2). refine (RInt_fun _ _ _ _ _ I1 I2). intros r Hr. destruct (H1 r Hr) as (st & w & E1 & ->). destruct (H2 r Hr) as (st' & w2 & E2 & ->). congruence.
  - intros (c & H1 & I1) (c' & H2 & I2). eapply expect_fun; [|exact I1|exact I2].
    intros [|r1 [|r2 [|]]] L F; simpl in L; try discriminate. apply iid_ext_len; [exact Hn|]. intros vs Lv.
    inversion F as [|? ? Hr1 F1]; subst. inversion F1 as [|? ? Hr2 _]; subst.
    destruct (H1 r1 r2 vs Hr1 Hr2 Lv) as (s1 & f1 & w1 & E1 & C1). destruct (H2 r1 r2 vs Hr1 Hr2 Lv) as (s2 & f2 & w2 & E2 & C2).
    rewrite E1 in E2. inversion E2; subst. eapply IH; eauto.
  - intros (s1 & w1 & E1 & C1) (s2 & w2 & E2 & C2). rewrite E1 in E2. inversion E2; subst. eapply IH; eauto.
Qed.

Lemma iteration_unique filter n thr T ops ref v v' :
  iteration m ld noise start dv sm junk fuel so lj filter n thr T ops ref phi v ->
  iteration m ld noise start dv sm junk fuel so lj filter n thr T ops ref phi v' -> v = v'.
Proof.
  intros (c & H & ->) (c' & H' & ->). apply iid_ext_len; [exact Hs|]. intros x0 L.
  destruct (H x0 L) as (s & E & C). destruct (H' x0 L) as (s' & E' & C'). rewrite E in E'. inversion E'; subst. eapply continue_unique; eauto.
Qed.

(** ** One iteration with two particles *)
Hypothesis Hcp : plain_copy sm.
Hypothesis Hpost : s_post sm = None.

Lemma iteration2 (anc : bool) thr T ops x' refs : T <> Some 0%nat -> ops <> [] -> length refs = forwards ops ->
  iteration m ld noise start dv sm junk fuel so lj (if anc then "cpfas" else "cpf")%string 2 thr T ops (x' :: refs) phi
    (start (fun x => kern m ld noise anc phi 0 ops refs (mkSl x [] 1) (mkSl x' [] 1))).
Proof.
  intros HT Hne L. set (ref := x' :: refs).
  exists (fun x0 => kern m ld noise anc phi 0 ops refs (mkSl (hd x' x0) [] 1) (mkSl x' [] 1)). split.
  - intros x0 L0. destruct x0 as [|xa [|xb [|]]]; simpl in L0; try discriminate.
    assert (Ei : exists s0, pt_init (P := P) (U := U) (Y := Y) 2 thr 0 (if anc then "cpfas" else "cpf")%string (FODict (Some (cond_path ref))) T = Ok s0).
    { unfold pt_init. destruct T as [[|n]|]; [congruence| |]; destruct anc; simpl; eauto. }
    destruct Ei as [s0 Ei]. exists s0. split; [exact Ei|].
    destruct (ready_init [xa; xb] anc ref thr T _ s0 Ei eq_refl) as [Hrd Ht].
    refine (run2 m ld noise Hn xa xb dv anc ref sm junk fuel so lj phi Hcp Hpost ops s0 0 _ _ refs _ _ _ _ _ _ L); try (cbn [sg]; lra); try (simpl; lia); try congruence; [|reflexivity].
    split; [exact Hrd|]. exists [], (first_of [xa; xb] x'), (/ 2). split; [right; split; [exact Ht|]; split; [reflexivity|]; exists x'; auto|].
    split; [reflexivity|]. cbn [first_of st_pa part lw removelast app sx hd sg length repeat map lin]. split; [reflexivity|]. split; [lra|].
    split; [|split; reflexivity]. replace (INR 2) with 2 by (simpl; lra). rewrite exp_Ropp, exp_ln, Rmult_1_r by lra. reflexivity.
  - cbn [iid hd]. apply (av_ext start Hs). intros x. symmetry. apply (av_const start Hs).
Qed.
End Unique.
