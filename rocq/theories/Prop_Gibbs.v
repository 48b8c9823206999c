(** C82: the conditional particle filters as the Markov kernel of a particle Gibbs sampler (filter.py:507-648 [CPF], [CPFAS]; 891-934
    [forward]; 936-988 [measure]; smoother.py:270-319 ['ancestor']). *)
From Coquelicot Require Import Coquelicot.
From Coq Require Import ZArith String Reals Lra Lia List Arith.
From Verif Require Import Base XR SampleModel SampleSpec SampleProofs PAModel WeightSpec WeightProofs
  FilterModel TrajModel FilterSpec SmoothModel SmoothSpec SmoothBsi EvidenceSpec Evidence FfbsiSpec GibbsSpec Gibbs GibbsRun GibbsKernel GibbsThree.
Import ListNotations.
Open Scope R_scope.

Section C82.
Context {P U Y V V' : Type}.

(** With two particles the iteration leaves the smoothing distribution invariant: if the trajectory conditioned on follows it, so does the
    trajectory drawn (here weighted by the likelihood of the measurements, i.e. before normalisation).  Every iteration runs without an
    error, for every model whose random numbers may be averaged in any order (Fubini), every sequence of calls, every test function. *)
Theorem C82_two_particles_cpf : forall (m : ssm P U Y V) ld noise start dv (sm : smodel (list R) P U Y V') junk fuel so lj thr T ops phi,
  average noise -> average start -> exchange noise noise -> exchange start start -> exchange start noise ->
  plain_copy sm -> s_post sm = None -> T <> Some 0%nat -> ops <> [] ->
  exists K, (forall ref, length ref = (forwards ops + 1)%nat ->
               iteration m ld noise start dv sm junk fuel so lj "cpf" 2 thr T ops ref phi (K ref)) /\
            smoothing_mass m noise start ops K = smoothing_mass m noise start ops phi.
Proof.
  intros m ld noise start dv sm junk fuel so lj thr T ops phi Hn Hs Xnn Xss Xsn Hcp Hpost HT Hne.
  exists (fun ref => match ref with [] => 0 | x' :: refs => start (fun x => kern m ld noise false phi 0 ops refs (mkSl x [] 1) (mkSl x' [] 1)) end). split.
  - intros [|x' refs] L; cbn [length] in L; [lia|].
    apply (iteration2 m ld noise start Hn Hs dv sm junk fuel so lj phi Hcp Hpost false); auto; lia.
  - unfold smoothing_mass at 1.
    apply (kern_invariant m ld noise start Hn Hs Xnn Xss Xsn false phi (fun _ => 0)); discriminate.
Qed.

(** With ancestor sampling, if moreover the transition density handed to the library is the density of the dynamics. *)
Theorem C82_two_particles_cpfas : forall (m : ssm P U Y V) ld noise start nu dv (sm : smodel (list R) P U Y V') junk fuel so lj thr T ops phi,
  average noise -> average start -> exchange noise noise -> exchange start start -> exchange start noise ->
  density_wrt m ld noise nu -> (forall F G, (forall x, F x = G x) -> nu F = nu G) -> (forall c F G, nu (fun x => c * F x + G x) = c * nu F + nu G) ->
  plain_copy sm -> s_post sm = None -> T <> Some 0%nat -> ops <> [] ->
  exists K, (forall ref, length ref = (forwards ops + 1)%nat ->
               iteration m ld noise start dv sm junk fuel so lj "cpfas" 2 thr T ops ref phi (K ref)) /\
            smoothing_mass m noise start ops K = smoothing_mass m noise start ops phi.
Proof.
  intros m ld noise start nu dv sm junk fuel so lj thr T ops phi Hn Hs Xnn Xss Xsn Hnu Enu Lnu Hcp Hpost HT Hne.
  exists (fun ref => match ref with [] => 0 | x' :: refs => start (fun x => kern m ld noise true phi 0 ops refs (mkSl x [] 1) (mkSl x' [] 1)) end). split.
  - intros [|x' refs] L; cbn [length] in L; [lia|].
    apply (iteration2 m ld noise start Hn Hs dv sm junk fuel so lj phi Hcp Hpost true); auto; lia.
  - unfold smoothing_mass at 1.
    apply (kern_invariant m ld noise start Hn Hs Xnn Xss Xsn true phi nu); auto.
Qed.

(** The mean over one iteration is unique, so the [K] above is the kernel. *)
Theorem C82_iteration_unique : forall (m : ssm P U Y V) ld noise start dv (sm : smodel (list R) P U Y V') junk fuel so lj filter n thr T ops ref phi v v',
  average noise -> average start ->
  iteration m ld noise start dv sm junk fuel so lj filter n thr T ops ref phi v ->
  iteration m ld noise start dv sm junk fuel so lj filter n thr T ops ref phi v' -> v = v'.
Proof. intros m ld noise start dv sm junk fuel so lj filter n thr T ops ref phi v v' Hn Hs H1 H2.
  exact (iteration_unique m ld noise start Hn Hs dv sm junk fuel so lj phi filter n thr T ops ref v v' H1 H2).
Qed.
End C82.

(** ** A two state chain: start 0 or 1 with probability one half, flips with probability 1/4, likelihood 1 (false) or 2 (true) *)
Definition flip_ssm : ssm bool unit unit bool := mkSSM (fun x _ _ v => xorb x v) (fun x _ _ => if x then ln 2 else 0).
Definition flip_ld (x : bool) (u : cell unit) (k : nat) (x' : bool) : R := ln (if xorb x x' then 1/4 else 3/4).
Definition flip (f : bool -> R) : R := 3/4 * f false + 1/4 * f true.
Definition fair (f : bool -> R) : R := (f false + f true) / 2.
Definition count2 (f : bool -> R) : R := f false + f true.
Definition no_model {W} : bmodel W bool unit unit unit :=
  mkBasic (fun _ => raise ValueError) (fun _ _ _ => raise ValueError) (fun _ _ _ _ => raise ValueError) (fun _ _ _ => raise ValueError)
    (fun _ _ _ _ => raise ValueError) (fun _ _ _ _ => raise ValueError) (fun _ _ _ _ => raise ValueError) (fun _ _ _ _ _ => raise ValueError)
    (fun _ _ _ => raise ValueError).
(** Only [sample_smooth] matters for the 'ancestor' smoother. *)
Definition flip_sm : smodel (list R) bool unit unit unit :=
  smooth_of_basic no_model (fun _ _ _ => raise ValueError) (fun _ _ _ _ _ _ _ _ => raise ValueError) (fun _ _ _ _ _ _ _ _ _ => raise ValueError)
    (fun _ _ => raise ValueError).

Lemma flip_average : average flip.
Proof. constructor; intros; unfold flip; [rewrite !H; reflexivity|lra|lra]. Qed.
Lemma fair_average : average fair.
Proof. constructor; intros; unfold fair; [rewrite !H; reflexivity|lra|lra]. Qed.
Lemma flip_density : density_wrt flip_ssm flip_ld flip count2.
Proof.
  intros x u k f. unfold flip, count2, flip_ld, flip_ssm. cbn [move]. destruct x; cbn [xorb]; rewrite !exp_ln by lra; ring.
Qed.
Lemma flip_plain : plain_copy flip_sm.
Proof. intros p ptr anc fut find u y t k s. reflexivity. Qed.

Example C82_instance : exists K,
  (forall ref, length ref = 3%nat ->
     iteration flip_ssm flip_ld flip fair false flip_sm (fun _ => 0%nat) 0 None NaN "cpfas" 2 2 None
       [Meas (Some tt); Fwd None None; Fwd None (Some tt)] ref (fun l => if hd false l then 1 else 0) (K ref)) /\
  smoothing_mass flip_ssm flip fair [Meas (Some tt); Fwd None None; Fwd None (Some tt)] K = 13/8.
Proof.
  destruct (C82_two_particles_cpfas flip_ssm flip_ld flip fair count2 false flip_sm (fun _ => 0%nat) 0 None NaN 2 None
     [Meas (Some tt); Fwd None None; Fwd None (Some tt)] (fun l => if hd false l then 1 else 0)) as (K & HK & EK);
    try (intros F; unfold flip, fair; lra); auto using flip_average, fair_average, flip_density, flip_plain; try discriminate; try reflexivity;
    try (intros; unfold count2; rewrite ?H; lra).
  exists K. split; [intros ref L; apply HK; rewrite L; reflexivity|]. rewrite EK.
  unfold smoothing_mass, fair, flip, flip_ssm. cbn [weigh move ll lik cell_of hd xorb]. cbv zeta. unfold flip, lik. cbn [xorb ll cell_of].
  rewrite !exp_ln, !exp_0 by lra. lra.
Qed.

Example C82_instance_cpf : exists K,
  (forall ref, length ref = 3%nat ->
     iteration flip_ssm flip_ld flip fair false flip_sm (fun _ => 0%nat) 0 None NaN "cpf" 2 2 None
       [Meas (Some tt); Fwd None None; Fwd None (Some tt)] ref (fun l => if hd false l then 1 else 0) (K ref)) /\
  smoothing_mass flip_ssm flip fair [Meas (Some tt); Fwd None None; Fwd None (Some tt)] K = 13/8.
Proof.
  destruct (C82_two_particles_cpf flip_ssm flip_ld flip fair false flip_sm (fun _ => 0%nat) 0 None NaN 2 None
     [Meas (Some tt); Fwd None None; Fwd None (Some tt)] (fun l => if hd false l then 1 else 0)) as (K & HK & EK);
    try (intros F; unfold flip, fair; lra); auto using flip_average, fair_average, flip_plain; try discriminate; try reflexivity.
  exists K. split; [intros ref L; apply HK; rewrite L; reflexivity|]. rewrite EK.
  unfold smoothing_mass, fair, flip, flip_ssm. cbn [weigh move ll lik cell_of hd xorb]. cbv zeta. unfold flip, lik. cbn [xorb ll cell_of].
  rewrite !exp_ln, !exp_0 by lra. lra.
Qed.

(** ** Three particles *)
(** The value of one iteration for the chain above, one forward call with a measurement, and the indicator of "the last state is 0". *)
Definition last_zero (l : list bool) : R := if last l false then 0 else 1.
Definition K3 (ref : list bool) : R :=
  match ref with
  | [false; false] => 37/60 | [false; true] => 4/15 | [true; false] => 29/60 | [true; true] => 11/60 | _ => 0
  end.

Lemma flip_wmean x1 x2 x3 : wmean flip_ssm (fun x : bool => if x then 0 else 1) (Some tt) x1 x2 x3 =
  (if x1 then if x2 then if x3 then 0 else 1/5 else if x3 then 1/5 else 1/2 else if x2 then if x3 then 1/5 else 1/2 else if x3 then 1/2 else 1).
Proof.
  unfold wmean, lik, flip_ssm. cbn [ll]. destruct x1, x2, x3; cbn [cell_of]; rewrite ?exp_ln, ?exp_0 by lra; field.
Qed.

Lemma flip_iteration3 filter ref : In filter ["cpf"; "cpfas"]%string -> length ref = 2%nat ->
  iteration flip_ssm flip_ld flip fair false flip_sm (fun _ => 0%nat) 0 None NaN filter 3 3 None [Fwd None (Some tt)] ref last_zero (K3 ref).
Proof.
  intros Hf L. destruct ref as [|c0 [|c1 [|]]]; simpl in L; try discriminate.
  assert (Ha : exists anc : bool, filter = (if anc then "cpfas" else "cpf")%string) by (destruct Hf as [<-|[<-|[]]]; [exists false|exists true]; reflexivity).
  destruct Ha as [anc ->].
  set (h := fun x : bool => if x then 0 else 1).
  exists (fun x0 => let q := two_from flip_ssm flip (nth 0 x0 false) (nth 1 x0 false) c0 c1 h None (Some tt) in (q 0%nat 1%nat + q 0%nat 2%nat + q 1%nat 2%nat) / 3). split.
  - intros x0 L0. destruct x0 as [|a [|b [|e [|]]]]; simpl in L0; try discriminate. cbn [nth].
    assert (Ei : exists s0, pt_init (P := bool) (U := unit) (Y := unit) 3 3 0 (if anc then "cpfas" else "cpf")%string (FODict (Some (cond_path [c0; c1]))) None = Ok s0)
      by (unfold pt_init; destruct anc; simpl; eauto).
    destruct Ei as [s0 Ei]. exists s0. split; [exact Ei|].
    destruct (ready_init [a; b; e] anc [c0; c1] 3 None _ s0 Ei eq_refl) as [Hrd Ht].
    exact (run3 flip_ssm flip_ld flip flip_average a b e false anc c0 c1 false flip_sm (fun _ => 0%nat) 0 None NaN h flip_plain eq_refl None (Some tt) s0 Hrd Ht).
  - cbn [iid nth]. cbv zeta. unfold two_from, flip, fair. rewrite !flip_wmean. cbn [from nth move flip_ssm cell_of xorb].
    destruct c0, c1; cbn [xorb]; unfold K3; lra.
Qed.

(** With three particles neither filter has the property: here the smoothing mass of [last_zero] is 1/2, but 119/240 after one iteration.
    (The N-1 free particles are resampled systematically, i.e. not independently of each other.) *)
Theorem C82_three_particles_refuted : forall filter, In filter ["cpf"; "cpfas"]%string ->
  ~ (forall (P U Y V V' : Type) (m : ssm P U Y V) ld noise start nu dv (sm : smodel (list R) P U Y V') junk fuel so lj thr T ops phi K,
       average noise -> average start -> exchange noise noise -> exchange start start -> exchange start noise ->
       density_wrt m ld noise nu -> (forall F G, (forall x, F x = G x) -> nu F = nu G) -> (forall c F G, nu (fun x => c * F x + G x) = c * nu F + nu G) ->
       plain_copy sm -> s_post sm = None -> T <> Some 0%nat -> ops <> [] ->
       (forall ref, length ref = (forwards ops + 1)%nat -> iteration m ld noise start dv sm junk fuel so lj filter 3 thr T ops ref phi (K ref)) ->
       smoothing_mass m noise start ops K = smoothing_mass m noise start ops phi).
Proof.
  intros filter Hf H.
  specialize (H bool unit unit bool unit flip_ssm flip_ld flip fair count2 false flip_sm (fun _ => 0%nat) 0%nat None NaN 3 None [Fwd None (Some tt)] last_zero K3).
  assert (Q : smoothing_mass flip_ssm flip fair [Fwd None (Some tt)] K3 = smoothing_mass flip_ssm flip fair [Fwd None (Some tt)] last_zero).
  { apply H; try (intros F; unfold flip, fair; lra); auto using flip_average, fair_average, flip_density, flip_plain; try discriminate;
      try (intros; unfold count2; rewrite ?H0; lra). intros ref L. apply flip_iteration3; auto. }
  revert Q. unfold smoothing_mass, fair. cbn [weigh]. unfold flip, flip_ssm, lik. cbn [move ll cell_of xorb K3 last_zero last].
  unfold last_zero. cbn [last]. rewrite !exp_ln, !exp_0 by lra. lra.
Qed.

Print Assumptions C82_two_particles_cpf.
Print Assumptions C82_two_particles_cpfas.
Print Assumptions C82_iteration_unique.
Print Assumptions C82_three_particles_refuted.
