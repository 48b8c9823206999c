(** C77: the gradient test (paramest/gradienttest.py). *)
From Coquelicot Require Import Coquelicot.
From Coq Require Import Bool Reals Lra Lia List Arith FunctionalExtensionality.
From Verif Require Import Base ObjModel GradTestModel Prop_Obj.
Import ListNotations.
Open Scope R_scope.
#[local] Set Bullet Behavior "Strict Subproofs".

(** ** Specification *)
(** [theta] with component [k] replaced by [v]. *)
Definition with_param (theta : list R) (k : nat) (v : R) : list R :=
  map (fun ix => if Nat.eqb (fst ix) k then v else snd ix) (combine (seq 0 (length theta)) theta).

Section Spec.
Context {P U Y T : Type}.
Variables (lxn : list R -> P -> P -> U -> T -> R) (ly : list R -> P -> Y -> T -> R) (lx0 : list R -> P -> T -> R).
Variables (trajs : list (list P)) (s : straj P U Y T).
(** The three curves: each a mean over the smoothed trajectories. *)
Definition curve_y (th : list R) : R := mean (map (fun tr => path_y (ly th) tr (st_y s) (st_t s)) trajs).
Definition curve_xn (th : list R) : R := mean (map (fun tr => path_xnext (lxn th) tr (st_u s) (st_t s)) trajs).
Definition curve_x0 (th : list R) : R := mean (map (fun tr => path_x0 (lx0 th) tr (st_t s)) trajs).

(** The model returns with the sum of the log densities over the particles a list of derivatives, one for each parameter. *)
Definition claims_grad (np : nat) (pm : list R -> pmodel P U Y T) : Prop :=
  (forall th a b u t, length th = np -> length a = length b -> exists g, pm_xnext_vg (pm th) a b u t = Ok (rsum (map (fun xx => lxn th (fst xx) (snd xx) u t) (combine a b)), g) /\ length g = np) /\
  (forall th a y t, length th = np -> exists g, pm_y_vg (pm th) a y t = Ok (rsum (map (fun x => ly th x y t) a), g) /\ length g = np) /\
  (forall th a t, length th = np -> exists g, pm_x0_vg (pm th) a t = Ok (map (fun x => lx0 th x t) a, g) /\ length g = np).
End Spec.

(** ** Proofs *)
Lemma with_param_upd th k v : (k < length th)%nat -> upd th k v = Ok (with_param th k v).
Proof.
  unfold with_param. intros H.
  assert (G : forall l a i, (i < length l)%nat -> upd l i v = Ok (map (fun ix : nat * R => if Nat.eqb (fst ix) (a + i) then v else snd ix) (combine (seq a (length l)) l))).
  { induction l as [|x l IH]; intros a i Hi; [cbn in Hi; lia|]. cbn [length seq combine map fst snd]. destruct i as [|i]; cbn [upd].
    - replace (a + 0)%nat with a by lia. rewrite Nat.eqb_refl. f_equal. f_equal. clear. assert (Q : forall b, (a < b)%nat -> map (fun ix : nat * R => if Nat.eqb (fst ix) a then v else snd ix) (combine (seq b (length l)) l) = l).
      { induction l as [|y l IH]; intros b Hb; cbn; auto. destruct (Nat.eqb_spec b a); [lia|]. f_equal. apply IH. lia. }
      symmetry. apply Q. lia.
    - rewrite (IH (S a) i) by (cbn in Hi; lia). cbn [rbind]. destruct (Nat.eqb_spec a (a + S i)); [lia|]. f_equal. f_equal. apply map_ext. intros ix. replace (S a + i)%nat with (a + S i)%nat by lia. reflexivity. }
  apply (G th 0%nat k H).
Qed.
Lemma combine_nth_seq (th : list R) : forall a, map snd (combine (seq a (length th)) th) = th.
Proof. induction th as [|x th IH]; intros a; cbn; auto. f_equal. apply IH. Qed.
Lemma with_param_length th k v : length (with_param th k v) = length th.
Proof. unfold with_param. rewrite map_length, combine_length, seq_length. lia. Qed.
Lemma map_combine_seq {A B} (f : nat * A -> A) (g : nat * A -> B) (l : list A) : forall a,
  map g (combine (seq a (length (map f (combine (seq a (length l)) l)))) (map f (combine (seq a (length l)) l)))
  = map (fun ix => g (fst ix, f ix)) (combine (seq a (length l)) l).
Proof. induction l as [|x l IH]; intros a; cbn; auto. f_equal. apply IH. Qed.
Lemma with_param_twice th k v w : with_param (with_param th k v) k w = with_param th k w.
Proof.
  unfold with_param at 1 2. rewrite map_combine_seq. unfold with_param. apply map_ext. intros [i x]. cbn. destruct (Nat.eqb i k); auto.
Qed.
Lemma bumpat_with_param th k v h : bumpat (with_param th k v) k h = with_param th k (v + h).
Proof.
  unfold bumpat, with_param. rewrite map_combine_seq. apply map_ext. intros [i x]. cbn. destruct (Nat.eqb i k); auto.
Qed.

Section Proofs.
Context {P U Y T : Type}.
Variables (lxn : list R -> P -> P -> U -> T -> R) (ly : list R -> P -> Y -> T -> R) (lx0 : list R -> P -> T -> R).
Variables (pm : list R -> pmodel P U Y T) (trajs : list (list P)) (s : straj P U Y T).
Hypothesis HE : forall theta, evaluates (lxn theta) (ly theta) (lx0 theta) (pm theta).
Hypothesis HS : stacked trajs (st_sest s).
Hypothesis H0 : nth_error (st_sest s) 0 = Some (st_part0 s).
Hypothesis HN : trajs <> [].
Hypothesis HU : (length (st_sest s) - 1 <= length (st_u s))%nat.
Hypothesis HY : (length (st_sest s) <= length (st_y s))%nat.
Hypothesis HT : (length (st_sest s) <= length (st_t s))%nat.

Lemma sest_ne : st_sest s <> [].
Proof. intros E. rewrite E in H0. discriminate. Qed.

Lemma t0_ok : exists t0, idx (st_t s) 0 = Ok t0.
Proof using H0 HT. destruct (st_t s) as [|t0 ts] eqn:E; [|exists t0; reflexivity]. exfalso. apply sest_ne. apply length_zero_iff_nil. cbn in HT. clear HU HY. lia. Qed.

Lemma x0_value th t0 : idx (st_t s) 0 = Ok t0 -> exists l, pm_x0 (pm th) (st_part0 s) t0 = Ok l /\ rmean l = Ok (curve_x0 lx0 trajs s th).
Proof using HE HS H0 HN HT.
  intros Et. exists (map (fun x => lx0 th x t0) (st_part0 s)). split; [apply (proj2 (proj2 (HE th)))|].
  pose proof (proj2 HS 0%nat _ H0) as HR. rewrite (row0_map (fun x => lx0 th x t0) 0 _ _ HR).
  unfold curve_x0, path_x0, rmean, mean. destruct (st_t s) as [|t ts]; [discriminate|]. cbn in Et. injection Et as ->.
  destruct trajs as [|tr l]; [congruence|]. cbn [map]. reflexivity.
Qed.

Lemma row_plain th np : exists r, gt_row (pm th) np false s = Ok r /\ gr_y r = curve_y ly trajs s th /\ gr_xn r = curve_xn lxn trajs s th /\ gr_x0 r = curve_x0 lx0 trajs s th /\ gr_grad r = None.
Proof.
  destruct t0_ok as [t0 Et]. destruct (x0_value th t0 Et) as (l & El & Em). eexists. split.
  - unfold gt_row. rewrite (C53_y_mean _ _ _ _ _ _ _ _ (HE th) HS sest_ne HN HY HT). cbn [rbind].
    rewrite (C53_xnext_mean _ _ _ _ _ _ _ _ (HE th) HS sest_ne HN HU) by lia. cbn [rbind]. rewrite Et. cbn [rbind]. rewrite El. cbn [rbind]. rewrite Em. reflexivity.
  - repeat split.
Qed.

Lemma vadd_total a b : length a = length b -> exists c, vadd a b = Ok c /\ length c = length a.
Proof.
  revert b. induction a as [|x a IH]; intros [|y b] H; try discriminate; [exists []; auto|]. injection H as H. destruct (IH _ H) as (c & E & L).
  cbn. rewrite E. cbn. eexists. split; [reflexivity|]. cbn. congruence.
Qed.
Lemma for_sum_vg_of np is (f : nat -> res R) fv : (forall i v, In i is -> f i = Ok v -> exists g, fv i = Ok (v, g) /\ length g = np) ->
  forall a ga r, for_sum is f a = Ok r -> length ga = np -> exists G, for_sum_vg is fv (a, ga) = Ok (r, G) /\ length G = np.
Proof.
  induction is as [|i is IH]; intros H a ga r Hr Hg; cbn in Hr.
  - injection Hr as <-. exists ga. auto.
  - destruct (f i) as [v|] eqn:E; [|discriminate]. cbn in Hr. destruct (H i v (or_introl eq_refl) E) as (g & Eg & Lg).
    destruct (vadd_total ga g) as (c & Ec & Lc); [congruence|]. cbn. rewrite Eg. cbn. rewrite Ec. cbn. apply IH; auto; [|congruence].
    intros j w Hj. apply H. right. exact Hj.
Qed.

Section Grad.
Variable np : nat.
Hypothesis HG : claims_grad lxn ly lx0 np pm.

Lemma over_inv v m r : over v m = Ok r -> exists k, m = S k /\ r = v / INR m.
Proof. destruct m; cbn; [discriminate|]. intros H. injection H as <-. eauto. Qed.

Lemma y_vg th : length th = np -> exists G, eval_logp_y_val_grad_fulltraj (pm th) np s = Ok (curve_y ly trajs s th, G) /\ length G = np.
Proof.
  intros Hl. pose proof (C53_y_mean _ _ _ _ _ _ _ _ (HE th) HS sest_ne HN HY HT) as E. unfold eval_logp_y_fulltraj in E.
  match type of E with (dor s <- for_sum ?is ?f 0 ; _) = _ => destruct (for_sum is f 0) as [v|] eqn:Ev; [|discriminate];
    destruct (for_sum_vg_of np is f (fun i => dor y <- idx (st_y s) i ; match y with None => Ok (0, repeat 0 np)
                       | Some y => dor a <- idx (st_sest s) i ; dor t <- idx (st_t s) i ; pm_y_vg (pm th) a y t end)) with (a := 0) (ga := repeat 0 np) (r := v) as (G & EG & LG) end; auto using repeat_length.
  - intros i w _ Hw. destruct (idx (st_y s) i) as [[y|]|]; [| |discriminate]; cbn [rbind] in *.
    + destruct (idx (st_sest s) i) as [a|]; [|discriminate]. cbn [rbind] in *. destruct (idx (st_t s) i) as [t|]; [|discriminate]. cbn [rbind] in *.
      rewrite (proj1 (proj2 (HE th))) in Hw. cbn [rbind] in Hw. injection Hw as <-. destruct (proj1 (proj2 HG) th a y t Hl) as (g & Eg & Lg). eauto.
    + injection Hw as <-. eexists. split; [reflexivity|]. apply repeat_length.
  - cbn [rbind] in E. destruct (over_inv _ _ _ E) as (k & Ek & Er). unfold eval_logp_y_val_grad_fulltraj. rewrite EG. cbn [rbind]. rewrite Ek in *. cbn [over_vg fst snd].
    eexists. split; [f_equal; f_equal|]; [symmetry; exact Er|]. rewrite map_length. exact LG.
Qed.
Lemma xn_vg th : length th = np -> exists G, eval_logp_xnext_val_grad_fulltraj (pm th) np s = Ok (curve_xn lxn trajs s th, G) /\ length G = np.
Proof.
  intros Hl. assert (HT' : (length (st_sest s) - 1 <= length (st_t s))%nat) by lia.
  pose proof (C53_xnext_mean _ _ _ _ _ _ _ _ (HE th) HS sest_ne HN HU HT') as E. unfold eval_logp_xnext_fulltraj in E.
  match type of E with (dor s <- for_sum ?is ?f 0 ; _) = _ => destruct (for_sum is f 0) as [v|] eqn:Ev; [|discriminate];
    destruct (for_sum_vg_of np is f (fun i => dor a <- idx (st_sest s) i ; dor b <- idx (st_sest s) (S i) ; dor u <- idx (st_u s) i ; dor t <- idx (st_t s) i ;
                       pm_xnext_vg (pm th) a b u t)) with (a := 0) (ga := repeat 0 np) (r := v) as (G & EG & LG) end; auto using repeat_length.
  - intros i w _ Hw. destruct (idx (st_sest s) i) as [a|] eqn:Ea; [|discriminate]. cbn [rbind] in *. destruct (idx (st_sest s) (S i)) as [b|] eqn:Eb; [|discriminate]. cbn [rbind] in *.
    destruct (idx (st_u s) i) as [u|]; [|discriminate]. cbn [rbind] in *. destruct (idx (st_t s) i) as [t|]; [|discriminate]. cbn [rbind] in *.
    assert (L : length a = length b). { apply idx_ok in Ea, Eb. rewrite (row_length _ _ _ _ HS Ea), (row_length _ _ _ _ HS Eb). reflexivity. }
    rewrite (proj1 (HE th)) in Hw by exact L. cbn [rbind] in Hw. injection Hw as <-. destruct (proj1 HG th a b u t Hl L) as (g & Eg & Lg). eauto.
  - cbn [rbind] in E. destruct (over_inv _ _ _ E) as (k & Ek & Er). unfold eval_logp_xnext_val_grad_fulltraj. rewrite EG. cbn [rbind]. rewrite Ek in *. cbn [over_vg fst snd].
    eexists. split; [f_equal; f_equal|]; [symmetry; exact Er|]. rewrite map_length. exact LG.
Qed.

Lemma row_grad th : (0 < np)%nat -> length th = np -> exists gy gx g0 t0,
  gt_row (pm th) np true s = Ok (mkGR (curve_y ly trajs s th) (curve_xn lxn trajs s th) (curve_x0 lx0 trajs s th) (Some (gy, gx, repeat (mean g0) np))) /\
  eval_logp_y_val_grad_fulltraj (pm th) np s = Ok (curve_y ly trajs s th, gy) /\ length gy = np /\
  eval_logp_xnext_val_grad_fulltraj (pm th) np s = Ok (curve_xn lxn trajs s th, gx) /\ length gx = np /\
  idx (st_t s) 0 = Ok t0 /\ pm_x0_vg (pm th) (st_part0 s) t0 = Ok (map (fun x => lx0 th x t0) (st_part0 s), g0) /\ length g0 = np.
Proof.
  intros Hnp Hl. destruct t0_ok as [t0 Et]. destruct (x0_value th t0 Et) as (l & El & Em). destruct (y_vg th Hl) as (gy & Ey & Ly). destruct (xn_vg th Hl) as (gx & Ex & Lx).
  destruct (proj2 (proj2 HG) th (st_part0 s) t0 Hl) as (g0 & E0 & L0). exists gy, gx, g0, t0. repeat split; auto.
  unfold gt_row. rewrite (C53_y_mean _ _ _ _ _ _ _ _ (HE th) HS sest_ne HN HY HT). cbn [rbind].
  rewrite (C53_xnext_mean _ _ _ _ _ _ _ _ (HE th) HS sest_ne HN HU) by lia. cbn [rbind]. rewrite Et. cbn [rbind]. rewrite El. cbn [rbind]. rewrite Em. cbn [rbind].
  rewrite Ey, Ex, E0. cbn [rbind fst snd]. pose proof (proj2 (proj2 (HE th)) (st_part0 s) t0) as El'. rewrite El in El'. injection El' as El'. rewrite <- El', Em. cbn [rbind]. destruct g0 as [|g g0]; [cbn in L0; lia|]. cbn [rmean rbind].
  unfold row_fits. rewrite Ly, Lx, Nat.eqb_refl. cbn [rbind]. reflexivity.
Qed.
End Grad.
End Proofs.

(** ** Theorems *)
(** C77: without analytic gradients the test succeeds, and each plot shows, over the parameter values asked for, the mean over the
    smoothed trajectories of that term, with the parameters of the estimator except the tested one.  (The estimator is left with the last value
    tested, not with the parameters it had.) *)
Theorem C77_curves : forall P U Y T lxn ly lx0 (pm : list R -> pmodel P U Y T) sim trajs s th plots pid vals num nums,
  sim (Some th) num nums = Ok s -> (pid < length th)%nat -> vals <> [] ->
  (forall theta, evaluates (lxn theta) (ly theta) (lx0 theta) (pm theta)) ->
  stacked trajs (st_sest s) -> nth_error (st_sest s) 0 = Some (st_part0 s) -> trajs <> [] ->
  (length (st_sest s) - 1 <= length (st_u s))%nat -> (length (st_sest s) <= length (st_y s))%nat -> (length (st_sest s) <= length (st_t s))%nat ->
  gt_test sim pm (Some th) plots pid vals num nums false =
  Ok (Some (with_param th pid (last vals 0)), s,
      Some (mkGP vals (map (fun v => curve_y ly trajs s (with_param th pid v)) vals) None,
            mkGP vals (map (fun v => curve_xn lxn trajs s (with_param th pid v)) vals) None,
            mkGP vals (map (fun v => curve_x0 lx0 trajs s (with_param th pid v)) vals) None)).
Proof.
  intros P U Y T lxn ly lx0 pm sim trajs s th plots pid vals num nums Hsim Hp Hv HE HS H0 HN HU HY HT.
  assert (L : forall np vals th, (pid < length th)%nat -> exists rows, gt_loop pm np false s pid vals th = Ok (match vals with [] => th | _ => with_param th pid (last vals 0) end, rows) /\
     map gr_y rows = map (fun v => curve_y ly trajs s (with_param th pid v)) vals /\ map gr_xn rows = map (fun v => curve_xn lxn trajs s (with_param th pid v)) vals /\
     map gr_x0 rows = map (fun v => curve_x0 lx0 trajs s (with_param th pid v)) vals).
  { clear vals Hv th Hsim Hp. intros np. induction vals as [|v vals IH]; intros th Hp; [exists []; repeat split|].
    cbn [gt_loop]. rewrite with_param_upd by auto. cbn [rbind].
    destruct (row_plain lxn ly lx0 pm trajs s HE HS H0 HN HU HY HT (with_param th pid v) np) as (r & Er & A & B & C & _). rewrite Er. cbn [rbind].
    destruct (IH (with_param th pid v)) as (rows & E & D1 & D2 & D3); [rewrite with_param_length; auto|]. rewrite E. cbn [rbind fst snd].
    exists (r :: rows). split; [|cbn [map]; rewrite A, B, C, D1, D2, D3; repeat split; f_equal; apply map_ext; intros w; rewrite with_param_twice; reflexivity].
    f_equal. f_equal. destruct vals as [|w vals]; [reflexivity|]. rewrite with_param_twice. reflexivity. }
  unfold gt_test. rewrite Hsim. cbn [rbind]. destruct (L (length th) vals th Hp) as (rows & E & A & B & C). rewrite E. cbn [rbind fst snd].
  destruct vals as [|v vals]; [congruence|]. unfold gt_plot. cbn [rbind]. rewrite A, B, C. reflexivity.
Qed.

(** C77: with analytic gradients from a model whose gradients are exact, each derivative shown for the measurement and the transition
    term is the slope of its curve at that parameter value; the one shown for the initial term is the mean of the initial term's
    derivatives with respect to all parameters, so it is the slope exactly if the derivative with respect to the tested parameter equals
    that mean. *)
Theorem C77_gradients : forall P U Y T lxn ly lx0 (pm : list R -> pmodel P U Y T) sim trajs s th plots pid vals num nums,
  sim (Some th) num nums = Ok s -> (pid < length th)%nat -> vals <> [] ->
  (forall theta, evaluates (lxn theta) (ly theta) (lx0 theta) (pm theta)) ->
  claims_grad lxn ly lx0 (length th) pm ->
  (forall a b u t, is_grad (length th) (fun theta => pm_xnext_vg (pm theta) a b u t)) ->
  (forall a y t, is_grad (length th) (fun theta => pm_y_vg (pm theta) a y t)) ->
  (forall t, is_grad (length th) (fun theta => x0_term (pm theta) (st_part0 s) t)) ->
  stacked trajs (st_sest s) -> nth_error (st_sest s) 0 = Some (st_part0 s) -> trajs <> [] ->
  (length (st_sest s) - 1 <= length (st_u s))%nat -> (length (st_sest s) <= length (st_y s))%nat -> (length (st_sest s) <= length (st_t s))%nat ->
  exists dy dx d0 t0, gt_test sim pm (Some th) plots pid vals num nums true =
  Ok (Some (with_param th pid (last vals 0)), s,
      Some (mkGP vals (map (fun v => curve_y ly trajs s (with_param th pid v)) vals) (Some dy),
            mkGP vals (map (fun v => curve_xn lxn trajs s (with_param th pid v)) vals) (Some dx),
            mkGP vals (map (fun v => curve_x0 lx0 trajs s (with_param th pid v)) vals) (Some d0))) /\
  length dy = length vals /\ length dx = length vals /\ length d0 = length vals /\ idx (st_t s) 0 = Ok t0 /\
  forall k v, nth_error vals k = Some v ->
    is_derive (fun x => curve_y ly trajs s (with_param th pid x)) v (nth k dy 0) /\
    is_derive (fun x => curve_xn lxn trajs s (with_param th pid x)) v (nth k dx 0) /\
    exists l g0, pm_x0_vg (pm (with_param th pid v)) (st_part0 s) t0 = Ok (l, g0) /\ nth k d0 0 = mean g0 /\
      is_derive (fun x => curve_x0 lx0 trajs s (with_param th pid x)) v (nth pid g0 0) /\
      (is_derive (fun x => curve_x0 lx0 trajs s (with_param th pid x)) v (nth k d0 0) <-> nth pid g0 0 = mean g0).
Proof.
  intros P U Y T lxn ly lx0 pm sim trajs s th plots pid vals num nums Hsim Hp Hv HE HG Dxn Dy D0 HS H0 HN HU HY HT.
  set (np := length th) in *. assert (Hnp : (0 < np)%nat) by lia.
  destruct (t0_ok s H0 HT) as [t0 Et].
  (* slopes *)
  assert (shift : forall (F : list R -> R) (v d : R), is_derive (fun h => F (bumpat (with_param th pid v) pid h)) 0 d -> is_derive (fun x => F (with_param th pid x)) v d).
  { intros F v d H. replace d with (1 * d) by ring. apply is_derive_ext with (f := fun x => F (bumpat (with_param th pid v) pid (x - v))).
    - intros x. rewrite bumpat_with_param. assert (Q : forall r : R, v + (r - v) = r) by (intros r; ring). f_equal. f_equal. apply Q.
    - apply (is_derive_comp (fun h => F (bumpat (with_param th pid v) pid h)) (fun x => x - v) v d 1).
      + assert (Q : v - v = 0) by ring. rewrite Q. exact H.
      + auto_derive; auto; lra. }
  assert (Lw : forall v, length (with_param th pid v) = np) by (intros v; apply with_param_length).
  pose (gy := fun th => match eval_logp_y_val_grad_fulltraj (pm th) np s with Ok v => snd v | _ => [] end).
  pose (gx := fun th => match eval_logp_xnext_val_grad_fulltraj (pm th) np s with Ok v => snd v | _ => [] end).
  pose (g0 := fun th => match pm_x0_vg (pm th) (st_part0 s) t0 with Ok v => snd v | _ => [] end).
  assert (R1 : forall th, length th = np -> gt_row (pm th) np true s = Ok (mkGR (curve_y ly trajs s th) (curve_xn lxn trajs s th) (curve_x0 lx0 trajs s th) (Some (gy th, gx th, repeat (mean (g0 th)) np))) /\
    eval_logp_y_val_grad_fulltraj (pm th) np s = Ok (curve_y ly trajs s th, gy th) /\ length (gy th) = np /\
    eval_logp_xnext_val_grad_fulltraj (pm th) np s = Ok (curve_xn lxn trajs s th, gx th) /\ length (gx th) = np /\
    pm_x0_vg (pm th) (st_part0 s) t0 = Ok (map (fun x => lx0 th x t0) (st_part0 s), g0 th) /\ length (g0 th) = np /\
    x0_term (pm th) (st_part0 s) t0 = Ok (curve_x0 lx0 trajs s th, g0 th)).
  { intros th' Hl. destruct (row_grad lxn ly lx0 pm trajs s HE HS H0 HN HU HY HT np HG th' Hnp Hl) as (a & b & c & t1 & E & Ey & Ly & Ex & Lx & Et' & E0 & L0).
    rewrite Et in Et'. injection Et' as <-. unfold gy, gx, g0. rewrite Ey, Ex, E0. cbn [snd]. repeat split; auto.
    destruct (x0_value lxn ly lx0 pm trajs s HE HS H0 HN HT th' t0 Et) as (l & El & Em). unfold x0_term. rewrite E0. cbn [rbind fst snd].
    rewrite (proj2 (proj2 (HE th'))) in El. injection El as <-. rewrite Em. reflexivity. }
  assert (L : forall vals th1, length th1 = np -> (forall v, with_param th1 pid v = with_param th pid v) -> gt_loop pm np true s pid vals th1 =
     Ok (match vals with [] => th1 | _ => with_param th pid (last vals 0) end,
         map (fun v => let th := with_param th pid v in mkGR (curve_y ly trajs s th) (curve_xn lxn trajs s th) (curve_x0 lx0 trajs s th) (Some (gy th, gx th, repeat (mean (g0 th)) np))) vals)).
  { clear Hv Hsim vals. induction vals as [|v vals IH]; intros th1 Hl Hw; [reflexivity|].
    cbn [gt_loop]. rewrite with_param_upd by lia. cbn [rbind]. rewrite Hw.
    rewrite (proj1 (R1 _ (Lw v))). cbn [rbind]. rewrite (IH _ (Lw v)); [|intros w; apply with_param_twice]. cbn [rbind fst snd map]. f_equal. f_equal. destruct vals; reflexivity. }
  assert (Cl : forall sel (f : R -> list R * list R * list R) vals, (forall v, length (sel (f v)) = np) -> column sel pid (map (fun v => mkGR (curve_y ly trajs s (with_param th pid v)) (curve_xn lxn trajs s (with_param th pid v)) (curve_x0 lx0 trajs s (with_param th pid v)) (Some (f v))) vals) = Ok (map (fun v => nth pid (sel (f v)) 0) vals)).
  { intros sel f l Hl. induction l as [|v l IH]; [reflexivity|]. cbn [map column gr_grad].
    assert (E : idx (sel (f v)) pid = Ok (nth pid (sel (f v)) 0)). { unfold idx. rewrite (nth_error_nth' _ 0) by (rewrite Hl; exact Hp). reflexivity. }
    rewrite E. cbn [rbind]. rewrite IH. reflexivity. }
  exists (map (fun v => nth pid (gy (with_param th pid v)) 0) vals), (map (fun v => nth pid (gx (with_param th pid v)) 0) vals), (map (fun v => mean (g0 (with_param th pid v))) vals), t0.
  split; [|split; [apply map_length|split; [apply map_length|split; [apply map_length|split; [exact Et|]]]]].
  - unfold gt_test. rewrite Hsim. cbn [rbind]. fold np. rewrite (L vals th eq_refl) by auto. cbn [rbind fst snd]. destruct vals as [|v0 vals0] eqn:Evals; [congruence|]. rewrite <- Evals.
    unfold gt_plot. cbn zeta. rewrite (Cl (fun g => fst (fst g)) (fun v => (gy (with_param th pid v), gx (with_param th pid v), repeat (mean (g0 (with_param th pid v))) np))) by (intros v; exact (proj1 (proj2 (proj2 (R1 _ (Lw v)))))).
    cbn [rbind]. rewrite (Cl (fun g => snd (fst g)) (fun v => (gy (with_param th pid v), gx (with_param th pid v), repeat (mean (g0 (with_param th pid v))) np))) by (intros v; exact (proj1 (proj2 (proj2 (proj2 (proj2 (R1 _ (Lw v)))))))).
    cbn [rbind]. rewrite (Cl snd (fun v => (gy (with_param th pid v), gx (with_param th pid v), repeat (mean (g0 (with_param th pid v))) np))) by (intros v; apply repeat_length).
    cbn [rbind fst snd]. rewrite !map_map. cbn [gr_y gr_xn gr_x0].
    assert (Er : map (fun v => nth pid (repeat (mean (g0 (with_param th pid v))) np) 0) vals = map (fun v => mean (g0 (with_param th pid v))) vals).
    { apply map_ext. intros v. rewrite (nth_indep _ 0 (mean (g0 (with_param th pid v)))) by (rewrite repeat_length; exact Hp). apply nth_repeat. }
    rewrite Er. reflexivity.
  - intros k v Hk. assert (Nk : forall f : R -> R, nth k (map f vals) 0 = f v).
    { intros f. apply nth_error_nth with (d := 0). rewrite nth_error_map, Hk. reflexivity. }
    rewrite !Nk. destruct (R1 _ (Lw v)) as (_ & Ey & Ly & Ex & Lx & E0 & L0 & E1).
    assert (S0 : is_derive (fun x => curve_x0 lx0 trajs s (with_param th pid x)) v (nth pid (g0 (with_param th pid v)) 0)).
    { apply shift. exact (proj2 (D0 _ (curve_x0 lx0 trajs s) g0 (fun th Hl => proj2 (proj2 (proj2 (proj2 (proj2 (proj2 (proj2 (R1 th Hl)))))))) _ (Lw v)) _ Hp). }
    split; [|split].
    + apply shift. exact (proj2 (C53_y_gradient np pm s Dy (curve_y ly trajs s) gy (fun th Hl => proj1 (proj2 (R1 th Hl))) _ (Lw v)) _ Hp).
    + apply shift. exact (proj2 (C53_xnext_gradient np pm s Dxn (curve_xn lxn trajs s) gx (fun th Hl => proj1 (proj2 (proj2 (proj2 (R1 th Hl))))) _ (Lw v)) _ Hp).
    + do 2 eexists. split; [exact E0|]. split; [reflexivity|]. split; [exact S0|]. split; intros H.
      * pose proof (is_derive_unique _ _ _ H) as A. pose proof (is_derive_unique _ _ _ S0) as B. congruence.
      * rewrite <- H. exact S0.
Qed.

(** C77: before the first [set_params] the test raises (unless there is nothing to evaluate), and for a parameter that does not
    exist it raises IndexError. *)
Theorem C77_no_params : forall P U Y T sim (pm : list R -> pmodel P U Y T) s plots pid vals num nums analytic,
  sim None num nums = Ok s -> vals <> [] \/ analytic = true ->
  gt_test sim pm None plots pid vals num nums analytic = Err (if analytic then TypeError else IndexError).
Proof.
  intros P U Y T sim pm s plots pid vals num nums analytic Hs Hv. unfold gt_test. rewrite Hs. cbn [rbind].
  destruct analytic; [reflexivity|]. destruct vals; [destruct Hv; congruence|reflexivity].
Qed.
Theorem C77_no_such_param : forall P U Y T sim (pm : list R -> pmodel P U Y T) s th plots pid vals num nums analytic,
  sim (Some th) num nums = Ok s -> vals <> [] -> (length th <= pid)%nat ->
  gt_test sim pm (Some th) plots pid vals num nums analytic = Err IndexError.
Proof.
  intros P U Y T sim pm s th plots pid vals num nums analytic Hs Hv Hp. unfold gt_test. rewrite Hs. cbn [rbind].
  destruct vals as [|v vals]; [congruence|]. cbn [gt_loop].
  assert (E : forall l i, (length l <= i)%nat -> upd l i v = Err IndexError).
  { induction l as [|x l IH]; intros [|i] H; cbn in *; try reflexivity; [lia|]. rewrite IH by lia. reflexivity. }
  rewrite E by exact Hp. reflexivity.
Qed.

(** The hypotheses of C77_gradients are met by a model with two parameters, two trajectories of two steps and gradients in both parameters. *)
Definition gt_demo (th : list R) : pmodel nat unit unit unit :=
  let a := nth 0 th 0 in let b := nth 1 th 0 in
  mkPM (fun p q _ _ => Ok (map (fun xx => a * INR (fst xx)) (combine p q))) (fun p _ _ => Ok (map (fun x => b * INR x) p)) (fun p _ => Ok (map (fun x => a + b) p))
       (fun p q _ _ => Ok (rsum (map (fun xx => a * INR (fst xx)) (combine p q)), [rsum (map (fun xx => INR (fst xx)) (combine p q)); 0]))
       (fun p _ _ => Ok (rsum (map (fun x => b * INR x) p), [0; rsum (map INR p)]))
       (fun p _ => Ok (map (fun x => a + b) p, [1; 1])).
Definition gt_demo_straj : straj nat unit unit unit := mkST [[1;0];[2;3]]%nat [1;0]%nat [tt] [None; Some tt] [tt; tt].
Lemma rsum_scal {A} (c : R) (f : A -> R) l : rsum (map (fun x => c * f x) l) = c * rsum (map f l).
Proof. induction l as [|x l IH]; cbn; [ring|]. unfold rsum in IH. rewrite IH. ring. Qed.
Lemma two_params (F : R -> R -> R) (g : R -> R -> list R) : 
  (forall a b, length (g a b) = 2%nat) ->
  (forall a b, is_derive (fun h => F (a + h) b) 0 (nth 0 (g a b) 0)) -> (forall a b, is_derive (fun h => F a (b + h)) 0 (nth 1 (g a b) 0)) ->
  is_grad 2 (fun th => Ok (F (nth 0 th 0) (nth 1 th 0), g (nth 0 th 0) (nth 1 th 0))).
Proof.
  intros Lg D1 D2 V G H theta Hl.
  assert (EV : forall th, length th = 2%nat -> V th = F (nth 0 th 0) (nth 1 th 0) /\ G th = g (nth 0 th 0) (nth 1 th 0)) by (intros th Hth; specialize (H th Hth); injection H as <- <-; auto).
  rewrite (proj2 (EV _ Hl)). split; [apply Lg|]. destruct theta as [|a [|b [|c l]]]; try discriminate. cbn [nth]. intros k Hk. destruct k as [|[|k]]; [| |lia].
  - apply is_derive_ext with (f := fun h => F (a + h) b); [|apply D1]. intros h. rewrite (proj1 (EV _ (eq_trans (bumpat_length _ _ _) Hl))). reflexivity.
  - apply is_derive_ext with (f := fun h => F a (b + h)); [|apply D2]. intros h. rewrite (proj1 (EV _ (eq_trans (bumpat_length _ _ _) Hl))). reflexivity.
Qed.
Example C77_example : exists lxn ly lx0 trajs,
  (forall theta, evaluates (lxn theta) (ly theta) (lx0 theta) (gt_demo theta)) /\ claims_grad lxn ly lx0 2 gt_demo /\
  (forall a b u t, is_grad 2 (fun theta => pm_xnext_vg (gt_demo theta) a b u t)) /\
  (forall a y t, is_grad 2 (fun theta => pm_y_vg (gt_demo theta) a y t)) /\
  (forall t, is_grad 2 (fun theta => x0_term (gt_demo theta) (st_part0 gt_demo_straj) t)) /\
  stacked trajs (st_sest gt_demo_straj) /\ nth_error (st_sest gt_demo_straj) 0 = Some (st_part0 gt_demo_straj) /\ length trajs = 2%nat.
Proof.
  exists (fun th x _ _ _ => nth 0 th 0 * INR x), (fun th x _ _ => nth 1 th 0 * INR x), (fun th _ _ => nth 0 th 0 + nth 1 th 0), [[1;2];[0;3]]%nat.
  split; [intros th; split; [|split]; reflexivity|].
  split; [split; [|split]; intros; eexists; split; reflexivity|].
  split; [intros p q u t; apply (two_params (fun a _ => rsum (map (fun xx => a * INR (fst xx)) (combine p q))) (fun _ _ => [rsum (map (fun xx => INR (fst xx)) (combine p q)); 0]))|].
  { reflexivity. }
  { intros a b. apply is_derive_ext with (f := fun h => (a + h) * rsum (map (fun xx => INR (fst xx)) (combine p q))); [intros h; symmetry; apply (rsum_scal (a + h) (fun xx => INR (fst xx)))|]. cbn [nth]. auto_derive; auto; ring. }
  { intros a b. cbn [nth]. apply (is_derive_const (V := R_NormedModule)). }
  split; [intros p y t; apply (two_params (fun _ b => rsum (map (fun x => b * INR x) p)) (fun _ _ => [0; rsum (map INR p)]))|].
  { reflexivity. }
  { intros a b. cbn [nth]. apply (is_derive_const (V := R_NormedModule)). }
  { intros a b. apply is_derive_ext with (f := fun h => (b + h) * rsum (map INR p)); [intros h; symmetry; apply (rsum_scal (b + h) INR)|]. cbn [nth]. auto_derive; auto; ring. }
  split.
  { intros t V G H. apply (two_params (fun a b => ((a + b) + ((a + b) + 0)) / INR 2) (fun _ _ => [1; 1])); auto.
    - intros a b. cbn [nth]. auto_derive; auto. cbn. field.
    - intros a b. cbn [nth]. auto_derive; auto. cbn. field. }
  split; [split; [repeat constructor|]; intros [|[|[|i]]] row H; cbn in H; try discriminate; injection H as <-; reflexivity|]. split; reflexivity.
Qed.

Print Assumptions C77_curves.
Print Assumptions C77_gradients.
