(** Proofs for C82, part 4: three particles. *)
From Coquelicot Require Import Coquelicot.
From Coq Require Import ZArith String Reals Lra Lia List Arith.
From Verif Require Import Base XR SampleModel SampleSpec SampleProofs PAModel WeightSpec WeightProofs
  FilterModel TrajModel FilterSpec FilterProofs TrajProofs FilterTotal Prop_Sample Prop_Weights FilterSem Prop_Law Prop_Filter Prop_Cond
  SmoothModel SmoothSpec SmoothProofs SmoothBsi SmoothRs SmoothLaw SmoothPath Prop_Smooth EvidenceSpec Evidence FfbsiSpec Ffbsi GibbsSpec Gibbs GibbsRun GibbsKernel.
Import ListNotations.
Open Scope R_scope.

(** ** Two systematic draws from three equal weights *)
Definition pair_of (r : R) : nat * nat := if Rle_dec r (1/3) then (0, 1)%nat else if Rle_dec r (2/3) then (0, 2)%nat else (1, 2)%nat.

Lemma eq3_ok : weights_ok [1; 1; 1].
Proof. split; [repeat constructor; lra|unfold rsum; simpl; lra]. Qed.

Lemma key_of k r i : (i < 3)%nat -> (i = 0%nat \/ psum [1;1;1] i / 3 < (INR k + r) / 2) -> (INR k + r) / 2 <= psum [1;1;1] (S i) / 3 ->
  searchsorted (map Fin (ncum [1;1;1])) (sample_key 2 r k) = i.
Proof.
  intros Hi H1 H2. unfold sample_key. apply searchsorted_ncum; [apply eq3_ok|exact Hi|]. replace (rsum [1;1;1]) with 3 by (unfold rsum; simpl; ring).
  replace (INR 2) with 2 by (simpl; ring). auto.
Qed.

Lemma draw2of3 r : 0 < r < 1 -> np_sample (map Fin [1;1;1]) 2 r = Ok [fst (pair_of r); snd (pair_of r)].
Proof.
  intros Hr. rewrite np_sample_fin by apply eq3_ok. cbn [seq map]. f_equal.
  assert (P0 : psum [1;1;1] 0 = 0) by reflexivity. assert (P1 : psum [1;1;1] 1 = 1) by (unfold psum, rsum; simpl; ring).
  assert (P2 : psum [1;1;1] 2 = 2) by (unfold psum, rsum; simpl; ring). assert (P3 : psum [1;1;1] 3 = 3) by (unfold psum, rsum; simpl; ring).
  unfold pair_of. destruct (Rle_dec r (1/3)); [|destruct (Rle_dec r (2/3))]; cbn [fst snd]; f_equal; [|f_equal| |f_equal| |f_equal]; 
    apply key_of; try lia; rewrite ?P0, ?P1, ?P2, ?P3; simpl INR; try (left; reflexivity); try (right; lra); lra.
Qed.

Lemma int_pair (F : nat -> nat -> R) : is_RInt (fun r => F (fst (pair_of r)) (snd (pair_of r))) 0 1 ((F 0%nat 1%nat + F 0%nat 2%nat + F 1%nat 2%nat) / 3).
Proof.
  assert (H : forall a b c (f : R -> R), a < b -> (forall r, a < r < b -> f r = c) -> is_RInt f a b ((b - a) * c)).
  { intros a b c f Hab Hf. apply (is_RInt_ext (fun _ => c)).
    - intros r Hr. rewrite Rmin_left, Rmax_right in Hr by lra. symmetry. apply Hf. exact Hr.
    - pose proof (is_RInt_const a b c) as Q. exact Q. }
  set (f := fun r => F (fst (pair_of r)) (snd (pair_of r))).
  assert (I1 : is_RInt f 0 (1/3) ((1/3 - 0) * F 0%nat 1%nat)).
  { apply H; [lra|]. intros r Hr. unfold f, pair_of. destruct (Rle_dec r (1/3)); [reflexivity|lra]. }
  assert (I2 : is_RInt f (1/3) (2/3) ((2/3 - 1/3) * F 0%nat 2%nat)).
  { apply H; [lra|]. intros r Hr. unfold f, pair_of. destruct (Rle_dec r (1/3)); [lra|]. destruct (Rle_dec r (2/3)); [reflexivity|lra]. }
  assert (I3 : is_RInt f (2/3) 1 ((1 - 2/3) * F 1%nat 2%nat)).
  { apply H; [lra|]. intros r Hr. unfold f, pair_of. destruct (Rle_dec r (1/3)); [lra|]. destruct (Rle_dec r (2/3)); [lra|reflexivity]. }
  pose proof (is_RInt_Chasles (V := R_NormedModule) _ _ _ _ _ _ (is_RInt_Chasles (V := R_NormedModule) _ _ _ _ _ _ I1 I2) I3) as I.
  unfold plus in I; simpl in I. replace ((F 0%nat 1%nat + F 0%nat 2%nat + F 1%nat 2%nat) / 3) with
    ((1/3 - 0) * F 0%nat 1%nat + (2/3 - 1/3) * F 0%nat 2%nat + (1 - 2/3) * F 1%nat 2%nat) by field. exact I.
Qed.

Section Three.
Context {P U Y V V' : Type}.
Variables (m : ssm P U Y V) (ld : P -> cell U -> nat -> P -> R) (noise : (V -> R) -> R).
Hypothesis Hn : average noise.
Variables (xa xb xe : P) (dv : V) (anc : bool) (c0 c1 d0 : P).
Notation x0 := [xa; xb; xe].
Notation ref := [c0; c1].
Variable sm : smodel (list R) P U Y V'.
Variables (junk : nat -> nat) (fuel : nat) (so : option soptions) (lj : xr) (h : P -> R).
Hypothesis Hcp : plain_copy sm.
Hypothesis Hpost : s_post sm = None.
Variables (u : option U) (y : option Y).

Definition wmean (x1 x2 x3 : P) : R :=
  (lik m x1 y 1 * h x1 + lik m x2 y 1 * h x2 + lik m x3 y 1 * h x3) / (lik m x1 y 1 + lik m x2 y 1 + lik m x3 y 1).
Definition from (i : nat) : P := nth i [xa; xb; c0] c0.
Definition two_from (i j : nat) : R :=
  noise (fun v => noise (fun v' => wmean (move m (from i) (cell_of u) 0 v) (move m (from j) (cell_of u) 0 v') c1)).

Lemma run3 s0 : gready x0 anc ref s0 -> pt_traj s0 = [] ->
  continue m ld noise dv sm junk fuel so lj x0 [Fwd u y] s0 (fun l => h (last l d0)) ((two_from 0 1 + two_from 0 2 + two_from 1 2) / 3).
Proof.
  intros Hrd Ht0. cbn [continue].
  assert (Hst : gstart x0 ref s0 [] (first_of x0 c0)) by (right; split; [exact Ht0|]; split; [reflexivity|]; exists c0; auto).
  exists (fun draws vs => wmean (move m (from (fst (pair_of (nth 0 draws 0)))) (cell_of u) 0 (nth 0 vs dv))
    (move m (from (snd (pair_of (nth 0 draws 0)))) (cell_of u) 0 (nth 1 vs dv)) c1). split.
  - intros r1 r2 vs Hr1 Hr2 Lv. cbn [nth].
    destruct (fwd_call m ld x0 dv ltac:(simpl; lia) anc ref s0 [] _ u y c1 r1 r2 vs Hrd Hst eq_refl Hr1 Hr2) as (s' & w' & new & Hf & Hrd' & Ht & Hc).
    exists s', true, w'. split; [exact Hf|].
    destruct Hc as (anc0 & c & fr & Hs1 & Hs2 & Han & Hfrom & Hpn & q & Hq & Hwn). cbn [length] in *.
    cbn [first_of st_pa lw part removelast app length repeat map lin] in Hs1, Hfrom, Hs2. replace (3 - 1)%nat with 2%nat in * by reflexivity.
    set (kk := exp (- ln (INR 3))) in *. assert (Hkk : 0 < kk) by apply exp_pos.
    change [Fin kk; Fin kk; Fin kk] with (map Fin [kk; kk; kk]) in Hs1.
    replace [kk; kk; kk] with (map (Rmult kk) [1; 1; 1]) in Hs1 by (cbn [map]; rewrite Rmult_1_r; reflexivity).
    rewrite sample_scale, draw2of3 in Hs1 by (auto using eq3_ok). inversion Hs1; subst anc0; clear Hs1.
    assert (Hij : (fst (pair_of r1) < 3)%nat /\ (snd (pair_of r1) < 3)%nat).
    { unfold pair_of. repeat destruct (Rle_dec _ _); cbn [fst snd]; lia. }
    destruct (pair_of r1) as [i j]. cbn [fst snd app] in *. destruct Hij as [Hi Hj].
    pose proof (take_length _ _ _ Hfrom) as Lf. destruct fr as [|f1 [|f2 [|f3 [|]]]]; simpl in Lf; try discriminate.
    pose proof (take_nth _ _ _ Hfrom 0%nat i eq_refl) as T1. pose proof (take_nth _ _ _ Hfrom 1%nat j eq_refl) as T2. simpl nth_error at 1 in T1. simpl nth_error at 1 in T2.
    assert (Ep : forall n, (n < 3)%nat -> nth_error [xa; xb; c0] n = Some (from n)) by (intros [|[|[|n]]] Hn3; [reflexivity..|lia]).
    rewrite (Ep _ Hi) in T1. rewrite (Ep _ Hj) in T2. inversion T1; inversion T2; subst f1 f2. clear T1 T2.
    cbn [length seq combine map fst snd removelast app nth] in Hpn.
    set (z1 := move m (from i) (cell_of u) 0 (nth 0 vs dv)) in *. set (z2 := move m (from j) (cell_of u) 0 (nth 1 vs dv)) in *.
    rewrite Hpn in Hwn. cbn [map length] in Hwn. replace (0 + 1)%nat with 1%nat in Hwn by reflexivity.
    pose proof (lik_pos m z1 y 1) as L1. pose proof (lik_pos m z2 y 1) as L2. pose proof (lik_pos m c1 y 1) as L3.
    cbn [app] in Ht. change [first_of x0 c0; new] with ([first_of x0 c0] ++ [new]) in Ht.
    assert (Hl : live (lw (st_pa new))).
    { apply finw_live; [apply (gr_last _ _ _ _ Hrd' _ _ Ht)|]. intros E. rewrite E in Hwn. discriminate. }
    assert (Hw : weights_ok (map lin (lw (st_pa new)))) by (apply weights_ok_lin; exact Hl).
    set (F := fun i => h (nth i [z1; z2; c1] c0)).
    exists (fun r => match np_sample (map Fin (map lin (lw (st_pa new)))) 1 r with Ok l => rsum (map F l) | Err _ => 0 end). split.
    + intros r Hr. destruct (sample_valid _ 1 r Hw ltac:(unfold unit_draw; lra)) as (ind & Es & Li & Fi & _).
      destruct (smooth_call sm junk fuel Hcp Hpost s' 3 1 so lj [first_of x0 c0] new r ind [] Ht) as (st & w2 & Hsm & Htj); auto; try lia.
      { apply (gr_wf _ _ _ _ Hrd'). }
      exists st, w2. split; [exact Hsm|]. rewrite Es. destruct ind as [|n [|]]; simpl in Li; try discriminate.
      rewrite (Htj 0%nat n eq_refl), Ht, path_snoc, Hpn. inversion Fi; subst. rewrite Hwn in H1. cbn [length] in H1.
      assert (En : nth_error [z1; z2; c1] n = Some (nth n [z1; z2; c1] c0)) by (apply nth_error_nth'; exact H1). rewrite En, last_last.
      unfold rsum, F. cbn [map fold_right]. ring.
    + pose proof (sample_average _ 1 F Hw ltac:(lia)) as Q. rewrite Hwn in Q |- *.
      unfold wmean.
      match goal with |- is_RInt _ 0 1 ?z => match type of Q with is_RInt _ 0 1 ?z' => replace z with z'; [exact Q|] end end.
      unfold F, rsum. cbn [length seq map nth fold_right]. simpl INR. 
      revert L1 L2 L3. generalize (lik m z1 y 1) (lik m z2 y 1) (lik m c1 y 1) (h z1) (h z2) (h c1). intros a1 a2 a3 h1 h2 h3 L1 L2 L3.
      assert (0 < q * a1) by (apply Rmult_lt_0_compat; auto). assert (0 < q * a2) by (apply Rmult_lt_0_compat; auto).
      assert (0 < q * a3) by (apply Rmult_lt_0_compat; auto). field. split; lra.
  - assert (In3 : forall draws, iid noise (length x0) (fun vs => wmean (move m (from (fst (pair_of (nth 0 draws 0)))) (cell_of u) 0 (nth 0 vs dv))
      (move m (from (snd (pair_of (nth 0 draws 0)))) (cell_of u) 0 (nth 1 vs dv)) c1) =
      two_from (fst (pair_of (nth 0 draws 0))) (snd (pair_of (nth 0 draws 0)))).
    { intros draws. cbn [length iid]. unfold two_from. apply (av_ext noise Hn). intros v. apply (av_ext noise Hn). intros v'. cbn [nth]. apply (av_const noise Hn). }
    eapply expect_ext; [intros l _ _; symmetry; apply In3|].
    change (exists hh, (forall r, 0 < r < 1 -> expect 1 (fun l => two_from (fst (pair_of r)) (snd (pair_of r))) (hh r)) /\
       is_RInt hh 0 1 ((two_from 0 1 + two_from 0 2 + two_from 1 2) / 3)).
    exists (fun r => two_from (fst (pair_of r)) (snd (pair_of r))). split; [intros r _; apply (expect_const 1)|]. apply (int_pair two_from).
Qed.
End Three.
