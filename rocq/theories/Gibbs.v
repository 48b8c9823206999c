(** Proofs for C82, part 1: the particle Gibbs iteration with two particles as a recursion on two weighted paths, and why it leaves the
    smoothing distribution invariant. *)
From Coquelicot Require Import Coquelicot.
From Coq Require Import ZArith String Reals Lra Lia List Arith.
From Verif Require Import Base XR SampleModel SampleSpec SampleProofs PAModel WeightSpec WeightProofs
  FilterModel TrajModel FilterSpec SmoothModel SmoothSpec EvidenceSpec Evidence FfbsiSpec GibbsSpec.
Import ListNotations.
Open Scope R_scope.

Section Pure.
Context {P U Y V : Type}.
Variables (m : ssm P U Y V) (ld : P -> cell U -> nat -> P -> R) (noise : (V -> R) -> R) (start : (P -> R) -> R).
Hypothesis Hn : average noise.
Hypothesis Hs : average start.
Hypothesis Xnn : exchange noise noise.
Hypothesis Xss : exchange start start.
Hypothesis Xsn : exchange start noise.
Notation wg := (weigh m noise).

Lemma lik_pos x y k : 0 < lik m x y k.
Proof. unfold lik. destruct y; [apply exp_pos|lra]. Qed.

(** ** [weigh] is linear and commutes with averages *)
Lemma weigh_ext : forall ops k x F G, (forall l, F l = G l) -> wg k ops x F = wg k ops x G.
Proof.
  induction ops as [|[u y|y] ops IH]; intros k x F G H; cbn [weigh]; [apply H| |].
  - apply (av_ext noise Hn). intros v. cbv zeta. f_equal. apply IH. intros l. apply H.
  - f_equal. apply IH. exact H.
Qed.
Lemma weigh_lin : forall ops k x c F G, wg k ops x (fun l => c * F l + G l) = c * wg k ops x F + wg k ops x G.
Proof.
  induction ops as [|[u y|y] ops IH]; intros k x c F G; cbn [weigh]; [reflexivity| |].
  - rewrite <- (av_lin noise Hn). apply (av_ext noise Hn). intros v. cbv zeta. rewrite IH. ring.
  - rewrite IH. ring.
Qed.
Lemma weigh_zero ops k x : wg k ops x (fun _ => 0) = 0.
Proof.
  pose proof (weigh_lin ops k x (-1) (fun _ => 0) (fun _ => 0)) as H.
  assert (E : wg k ops x (fun _ => -1 * 0 + 0) = wg k ops x (fun _ => 0)) by (apply weigh_ext; intros; ring). lra.
Qed.
Lemma weigh_scale ops k x c F : wg k ops x (fun l => c * F l) = c * wg k ops x F.
Proof.
  pose proof (weigh_lin ops k x c F (fun _ => 0)) as H. rewrite weigh_zero, Rplus_0_r in H. rewrite <- H. apply weigh_ext. intros; ring.
Qed.
Lemma weigh_add ops k x F G : wg k ops x (fun l => F l + G l) = wg k ops x F + wg k ops x G.
Proof. pose proof (weigh_lin ops k x 1 F G) as H. rewrite Rmult_1_l in H. rewrite <- H. apply weigh_ext. intros; ring. Qed.

Lemma weigh_swap {A} (E : (A -> R) -> R) : average E -> exchange E noise ->
  forall ops k x (F : list P -> A -> R), wg k ops x (fun l => E (F l)) = E (fun a => wg k ops x (fun l => F l a)).
Proof.
  intros HE HX. induction ops as [|[u y|y] ops IH]; intros k x F; cbn [weigh].
  - apply (av_ext E HE). reflexivity.
  - transitivity (noise (fun v => E (fun a => let x' := move m x (cell_of u) k v in lik m x' y (k + 1) * wg (k + 1) ops x' (fun l => F (x' :: l) a)))).
    + apply (av_ext noise Hn). intros v. cbv zeta. rewrite IH, <- (av_scale E HE). reflexivity.
    + symmetry. apply (HX (fun a v => let x' := move m x (cell_of u) k v in lik m x' y (k + 1) * wg (k + 1) ops x' (fun l => F (x' :: l) a))).
  - rewrite IH, <- (av_scale E HE). reflexivity.
Qed.

(** ** Two weighted paths *)
Record slot := mkSl { sx : P; sp : list P; sg : R }.      (* current state, earlier states, weight *)
Definition adv (s : slot) (x : P) (w : R) : slot := mkSl x (sp s ++ [sx s]) w.
Definition rew (s : slot) (w : R) : slot := mkSl (sx s) (sp s) (sg s * w).
Definition full (s : slot) (l : list P) : list P := sp s ++ sx s :: l.

(** Choice between the two slots with probabilities proportional to [w]. *)
Definition mix (w : slot -> R) (a b : slot) (f : slot -> R) : R := (w a * f a + w b * f b) / (w a + w b).

(** The ancestor of the conditioned particle: itself (CPF), or weight times transition density (CPFAS). *)
Definition keep (anc : bool) u k x' (a b : slot) (f : slot -> R) : R :=
  if anc then mix (fun s => sg s * exp (ld (sx s) u k x')) a b f else f b.

(** Mean of phi over the drawn trajectory, [b] being the conditioned slot and [refs] its remaining states. *)
Fixpoint kern (anc : bool) (phi : list P -> R) (k : nat) (ops : list (@op U Y)) (refs : list P) (a b : slot) : R :=
  match ops with
  | [] => mix sg a b (fun s => phi (full s []))
  | Meas y :: ops' => kern anc phi k ops' refs (rew a (exp (ll m (sx a) (cell_of y) k))) (rew b (exp (ll m (sx b) (cell_of y) k)))
  | Fwd u y :: ops' =>
      match refs with
      | [] => 0
      | x' :: refs' =>
          mix sg a b (fun i => keep anc (cell_of u) k x' a b (fun j =>
            noise (fun v => let x := move m (sx i) (cell_of u) k v in
              kern anc phi (k + 1) ops' refs' (adv i x (lik m x y (k + 1))) (adv j x' (lik m x' y (k + 1))))))
      end
  end.

Section Sym.
Variables (anc : bool) (phi : list P -> R).
Variable nu : (P -> R) -> R.
Hypothesis Hnu : anc = true -> density_wrt m ld noise nu.
Hypothesis nu_ext : anc = true -> forall F G, (forall x, F x = G x) -> nu F = nu G.
Hypothesis nu_lin : anc = true -> forall c F G, nu (fun x => c * F x + G x) = c * nu F + nu G.

(** The conditioned slot's path drawn from the smoothing distribution given its past. *)
Definition G k ops (a b : slot) : R := sg b * wg k ops (sx b) (fun refs => kern anc phi k ops refs a b).

Lemma mix_sym w a b f : mix w a b f = mix w b a f.
Proof. unfold mix. rewrite (Rplus_comm (w a * f a)), (Rplus_comm (w a)). reflexivity. Qed.

(** Both slots propagated. *)
Definition H k u y ops (i j : slot) : R :=
  noise (fun v' => noise (fun v => let x := move m (sx i) (cell_of u) k v in let x' := move m (sx j) (cell_of u) k v' in
    G (k + 1) ops (adv i x (lik m x y (k + 1))) (adv j x' (lik m x' y (k + 1))))).

(** One propagated conditioned state [x'], weighted paths afterwards; the free slot comes from [i], the conditioned from [j]. *)
Definition K k u y ops (i j : slot) x' : R :=
  lik m x' y (k + 1) * wg (k + 1) ops x' (fun refs => noise (fun v => let x := move m (sx i) (cell_of u) k v in
     kern anc phi (k + 1) ops refs (adv i x (lik m x y (k + 1))) (adv j x' (lik m x' y (k + 1))))).

Lemma K_H k u y ops i j : noise (fun v' => K k u y ops i j (move m (sx j) (cell_of u) k v')) = H k u y ops i j.
Proof.
  unfold H. apply (av_ext noise Hn). intros v'. unfold K. rewrite (weigh_swap noise Hn Xnn), <- (av_scale noise Hn).
  apply (av_ext noise Hn). intros v. cbv zeta. unfold G. cbn [sx sg adv]. reflexivity.
Qed.

Lemma weigh_mix w a b ops k x (f : list P -> slot -> R) :
  wg k ops x (fun l => mix w a b (f l)) = mix w a b (fun s => wg k ops x (fun l => f l s)).
Proof.
  unfold mix. transitivity (wg k ops x (fun l => (w a / (w a + w b)) * f l a + (w b / (w a + w b)) * f l b)).
  - apply weigh_ext. intros l. unfold Rdiv. ring.
  - rewrite weigh_lin, weigh_scale. unfold Rdiv. ring.
Qed.
Lemma weigh_keep u k0 x' a b ops k x (f : list P -> slot -> R) :
  wg k ops x (fun l => keep anc u k0 x' a b (f l)) = keep anc u k0 x' a b (fun s => wg k ops x (fun l => f l s)).
Proof. unfold keep. destruct anc; [apply weigh_mix|reflexivity]. Qed.

Lemma mix_ext w a b f f' : f a = f' a -> f b = f' b -> mix w a b f = mix w a b f'.
Proof. intros E1 E2. unfold mix. rewrite E1, E2. reflexivity. Qed.
Lemma keep_scale c u k0 x' a b f : c * keep anc u k0 x' a b f = keep anc u k0 x' a b (fun s => c * f s).
Proof. unfold keep, mix, Rdiv. destruct anc; ring. Qed.

(** One forward call, conditioned state [x']. *)
Lemma G_fwd k u y ops a b :
  G k (Fwd u y :: ops) a b =
  sg b * noise (fun v' => let x' := move m (sx b) (cell_of u) k v' in mix sg a b (fun i => keep anc (cell_of u) k x' a b (fun j => K k u y ops i j x'))).
Proof.
  unfold G. cbn [weigh kern]. f_equal. apply (av_ext noise Hn). intros v'. cbv zeta. rewrite weigh_mix. unfold mix at 1 2.
  rewrite !weigh_keep. unfold K. rewrite <- !keep_scale. unfold Rdiv. ring.
Qed.

Lemma G_pair k u y ops a b : 0 < sg a -> 0 < sg b ->
  G k (Fwd u y :: ops) a b + G k (Fwd u y :: ops) b a =
  (sg a * sg a * H k u y ops a a + sg a * sg b * (H k u y ops a b + H k u y ops b a) + sg b * sg b * H k u y ops b b) / (sg a + sg b).
Proof.
  intros Pa Pb. rewrite !G_fwd. cbv zeta. unfold keep. destruct anc eqn:Ea.
  - (* ancestor sampling *)
    specialize (Hnu eq_refl). specialize (nu_ext eq_refl). specialize (nu_lin eq_refl).
    assert (nu_zero : nu (fun _ => 0) = 0).
    { pose proof (nu_lin (-1) (fun _ => 0) (fun _ => 0)) as Q. assert (E : nu (fun _ => -1 * 0 + 0) = nu (fun _ => 0)) by (apply nu_ext; intros; ring). lra. }
    assert (nu_scale : forall c F, nu (fun x => c * F x) = c * nu F).
    { intros c F. pose proof (nu_lin c F (fun _ => 0)) as Q. rewrite nu_zero, Rplus_0_r in Q. rewrite <- Q. apply nu_ext. intros; ring. }
    set (e := fun (s : slot) x' => exp (ld (sx s) (cell_of u) k x')).
    assert (He : forall s x', 0 < e s x') by (intros; apply exp_pos).
    assert (HH : forall i j, H k u y ops i j = nu (fun x' => e j x' * K k u y ops i j x')) by (intros i j; rewrite <- K_H; apply Hnu).
    rewrite (Hnu (sx b) (cell_of u) k (fun x' => mix sg a b (fun i => mix (fun s => sg s * exp (ld (sx s) (cell_of u) k x')) a b (fun j => K k u y ops i j x')))).
    rewrite (Hnu (sx a) (cell_of u) k (fun x' => mix sg b a (fun i => mix (fun s => sg s * exp (ld (sx s) (cell_of u) k x')) b a (fun j => K k u y ops i j x')))).
    rewrite <- !nu_scale, !HH.
    pose (S := sg a + sg b).
    transitivity (nu (fun x' => 1 * (sg b * (e b x' * mix sg a b (fun i => mix (fun s => sg s * e s x') a b (fun j => K k u y ops i j x')))) +
                                     sg a * (e a x' * mix sg b a (fun i => mix (fun s => sg s * e s x') b a (fun j => K k u y ops i j x'))))).
    { rewrite (nu_lin 1). unfold e. ring. }
    transitivity (nu (fun x' => (sg a * sg a / S) * (e a x' * K k u y ops a a x') + ((sg a * sg b / S) * (e b x' * K k u y ops a b x') +
       ((sg a * sg b / S) * (e a x' * K k u y ops b a x') + (sg b * sg b / S) * (e b x' * K k u y ops b b x'))))).
    { apply nu_ext. intros x'. unfold mix, S. pose proof (He a x'). pose proof (He b x'). field.
      assert (0 < sg a * e a x') by (apply Rmult_lt_0_compat; auto). assert (0 < sg b * e b x') by (apply Rmult_lt_0_compat; auto). lra. }
    rewrite !nu_lin, nu_scale. unfold S. field. lra.
  - assert (Q : forall j, noise (fun v' => mix sg a b (fun i => K k u y ops i j (move m (sx j) (cell_of u) k v'))) =
      (sg a * H k u y ops a j + sg b * H k u y ops b j) / (sg a + sg b)).
    { intros j. unfold mix.
      transitivity (noise (fun v' => (sg a / (sg a + sg b)) * K k u y ops a j (move m (sx j) (cell_of u) k v') +
        (sg b / (sg a + sg b)) * K k u y ops b j (move m (sx j) (cell_of u) k v'))).
      - apply (av_ext noise Hn). intros v'. unfold Rdiv. ring.
      - rewrite (av_lin noise Hn), (av_scale noise Hn), !K_H. unfold Rdiv. ring. }
    rewrite (Q b). rewrite (av_ext noise Hn _ (fun v' => mix sg a b (fun i => K k u y ops i a (move m (sx a) (cell_of u) k v')))).
    2:{ intros v'. apply mix_sym. }
    rewrite (Q a). field. lra.
Qed.

(** Symmetrised, the iteration preserves the smoothing mass. *)
Lemma kern_sym : forall ops k a b, 0 < sg a -> 0 < sg b ->
  G k ops a b + G k ops b a =
  sg a * wg k ops (sx a) (fun l => phi (full a l)) + sg b * wg k ops (sx b) (fun l => phi (full b l)).
Proof.
  induction ops as [|[u y|y] ops IH]; intros k a b Pa Pb.
  - unfold G. cbn [weigh kern]. unfold mix. field. lra.
  - rewrite (G_pair k u y ops a b Pa Pb).
    set (L := fun i => wg k (Fwd u y :: ops) (sx i) (fun l => phi (full i l))).
    assert (HL : forall i j, H k u y ops i j + H k u y ops j i = L i + L j).
    { intros i j.
      assert (E : H k u y ops j i = noise (fun v' => noise (fun v => let x := move m (sx i) (cell_of u) k v in let x' := move m (sx j) (cell_of u) k v' in
         G (k + 1) ops (adv j x' (lik m x' y (k + 1))) (adv i x (lik m x y (k + 1)))))).
      { unfold H. apply (Xnn (fun v v' => let x := move m (sx i) (cell_of u) k v in let x' := move m (sx j) (cell_of u) k v' in
         G (k + 1) ops (adv j x' (lik m x' y (k + 1))) (adv i x (lik m x y (k + 1))))). }
      rewrite E. clear E.
      unfold H. rewrite <- (av_add noise Hn).
      transitivity (noise (fun v' => L i + lik m (move m (sx j) (cell_of u) k v') y (k + 1) *
         wg (k + 1) ops (move m (sx j) (cell_of u) k v') (fun l => phi (full j (move m (sx j) (cell_of u) k v' :: l))))).
      - apply (av_ext noise Hn). intros v'. rewrite <- (av_add noise Hn). cbv zeta.
        transitivity (noise (fun v => 1 * (lik m (move m (sx i) (cell_of u) k v) y (k + 1) *
           wg (k + 1) ops (move m (sx i) (cell_of u) k v) (fun l => phi (full i (move m (sx i) (cell_of u) k v :: l)))) +
           lik m (move m (sx j) (cell_of u) k v') y (k + 1) *
         wg (k + 1) ops (move m (sx j) (cell_of u) k v') (fun l => phi (full j (move m (sx j) (cell_of u) k v' :: l))))).
        + apply (av_ext noise Hn). intros v. rewrite IH by (cbn [adv sg]; apply lik_pos). cbn [adv sg sx]. rewrite Rmult_1_l.
          f_equal; f_equal; apply weigh_ext; intros l; f_equal; unfold full, adv; cbn [sp sx]; rewrite <- app_assoc; reflexivity.
        + rewrite (av_lin noise Hn 1), (av_const noise Hn). unfold L. cbn [weigh]. cbv zeta. ring.
      - rewrite (av_add noise Hn), (av_const noise Hn). unfold L at 2. cbn [weigh]. reflexivity. }
    pose proof (HL a a) as Haa. pose proof (HL b b) as Hbb. pose proof (HL a b) as Hab. fold (L a). fold (L b).
    rewrite Hab. replace (H k u y ops a a) with (L a) by lra. replace (H k u y ops b b) with (L b) by lra. field. lra.
  - unfold G in *. cbn [weigh kern]. pose proof (exp_pos (ll m (sx a) (cell_of y) k)) as Ea. pose proof (exp_pos (ll m (sx b) (cell_of y) k)) as Eb.
    set (a' := rew a _). set (b' := rew b _).
    specialize (IH k a' b'). cbn [a' b' rew sg sx] in IH. fold a' b' in IH.
    rewrite <- !Rmult_assoc. rewrite IH by (apply Rmult_lt_0_compat; auto). unfold full. cbn [a' b' rew sp sx]. reflexivity.
Qed.

(** The whole iteration. *)
Lemma kern_invariant ops :
  start (fun x' => wg 0 ops x' (fun refs => start (fun x => kern anc phi 0 ops refs (mkSl x [] 1) (mkSl x' [] 1)))) = smoothing_mass m noise start ops phi.
Proof.
  unfold smoothing_mass. set (F := fun x' x => G 0 ops (mkSl x [] 1) (mkSl x' [] 1)).
  assert (E : start (fun x' => wg 0 ops x' (fun refs => start (fun x => kern anc phi 0 ops refs (mkSl x [] 1) (mkSl x' [] 1)))) =
    start (fun x' => start (fun x => F x' x))).
  { apply (av_ext start Hs). intros x'. rewrite (weigh_swap start Hs Xsn). apply (av_ext start Hs). intros x. unfold F, G. cbn [sg sx]. ring. }
  rewrite E.
  assert (E2 : start (fun x' => start (fun x => F x' x)) + start (fun x' => start (fun x => F x' x)) =
     2 * start (fun x => wg 0 ops x (fun l => phi (x :: l)))).
  { rewrite (Xss F) at 2. rewrite <- (av_add start Hs).
    transitivity (start (fun x' => wg 0 ops x' (fun l => phi (x' :: l)) + start (fun x => wg 0 ops x (fun l => phi (x :: l))))).
    - apply (av_ext start Hs). intros x'. rewrite <- (av_add start Hs).
      transitivity (start (fun x => 1 * wg 0 ops x (fun l => phi (x :: l)) + wg 0 ops x' (fun l => phi (x' :: l)))).
      + apply (av_ext start Hs). intros x. unfold F. rewrite kern_sym by (cbn [sg]; lra). cbn [sg sx]. unfold full. cbn [sp sx app]. ring.
      + rewrite (av_lin start Hs 1), (av_const start Hs). ring.
    - rewrite (av_add start Hs), (av_const start Hs). ring. }
  lra.
Qed.
End Sym.
End Pure.
