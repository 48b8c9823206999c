(** Properties of the utilities: C54, C55. *)
From Coquelicot Require Import Coquelicot.
From Coq Require Import Bool Reals Lra Lia List Arith String.
From Verif Require Import Base UtilModel.
Import ListNotations.
Open Scope R_scope.

(** ** C54 *)

(** Density of the uniform distribution on [lo,hi]. *)
Definition uniform_density (lo hi x : R) : R :=
  if Rle_dec lo x then if Rle_dec x hi then 1 / (hi - lo) else 0 else 0.

Lemma rlt_true a b : rlt a b = true <-> a < b.
Proof. unfold rlt. destruct (Rlt_dec a b); split; auto; discriminate. Qed.
Lemma rlt_false a b : rlt a b = false <-> b <= a.
Proof. unfold rlt. destruct (Rlt_dec a b); split; intros; try discriminate; auto; lra. Qed.

Ltac rcase := repeat match goal with |- context[rlt ?x ?y] => let E := fresh "E" in destruct (rlt x y) eqn:E; [apply rlt_true in E|apply rlt_false in E] end.

(** Length of the overlap of [a1,b1] and [p-b2,p-a2], scaled. *)
Definition overlap (a1 b1 a2 b2 p : R) : R := Rmax 0 (Rmin b1 (p - a2) - Rmax a1 (p - b2)).


Lemma overlap_val a1 b1 a2 b2 p : a1 <= b1 -> a2 <= b2 ->
  overlap a1 b1 a2 b2 p =
    if rlt p (a1 + a2) then 0
    else if rlt p (Rmin (a1 + b2) (b1 + a2)) then p - a1 - a2
    else if rlt p (Rmax (a1 + b2) (b1 + a2)) then Rmin (b1 - a1) (b2 - a2)
    else if rlt p (b1 + b2) then b1 + b2 - p else 0.
Proof.
  intros H1 H2. unfold overlap.
  rcase; unfold Rmin, Rmax in *; repeat match goal with H : context[Rle_dec ?x ?y] |- _ => destruct (Rle_dec x y) | |- context[Rle_dec ?x ?y] => destruct (Rle_dec x y) end; lra.
Qed.

Lemma unifsum_overlap a1 b1 a2 b2 p : a1 < b1 -> a2 < b2 ->
  exists s, unifsum_init (a1, b1) (a2, b2) = Ok s /\ unifsum_call s p = Ok (overlap a1 b1 a2 b2 p / ((b1 - a1) * (b2 - a2))).
Proof.
  intros H1 H2. rewrite (overlap_val a1 b1 a2 b2 p) by lra. unfold unifsum_init. cbn [fst snd].
  replace (rlt a1 b1) with true by (symmetry; apply rlt_true; auto). replace (rlt a2 b2) with true by (symmetry; apply rlt_true; auto).
  destruct (Rlt_dec (b1 - a1) (b2 - a2)) as [E|E].
  - replace (rlt (b1 - a1) (b2 - a2)) with true by (symmetry; apply rlt_true; auto).
    replace (rlt (b2 - a2) (b1 - a1)) with false by (symmetry; apply rlt_false; lra).
    destruct (Req_EM_T _ 0) as [E0|_]; [lra|]. eexists. split; [reflexivity|].
    unfold unifsum_call; cbn [us_c us_wmin us_wdiff us_l us_h us_t].
    destruct (Req_EM_T _ 0) as [E0|_]; [lra|].
    rewrite (Rmin_right (a1 + b2)), (Rmax_left (a1 + b2)), (Rmin_left (b1 - a1)) by lra.
    rcase; try lra; f_equal; field; lra.
  - replace (rlt (b1 - a1) (b2 - a2)) with false by (symmetry; apply rlt_false; lra).
    set (wd := if rlt (b2 - a2) (b1 - a1) then _ else _).
    assert (Hw : wd = b1 - a1 - (b2 - a2)). { unfold wd. rcase; lra. }
    clearbody wd. subst wd.
    destruct (Req_EM_T _ 0) as [E0|_]; [lra|]. eexists. split; [reflexivity|].
    unfold unifsum_call; cbn [us_c us_wmin us_wdiff us_l us_h us_t].
    destruct (Req_EM_T _ 0) as [E0|_]; [lra|].
    rewrite (Rmin_left (a1 + b2)), (Rmax_right (a1 + b2)), (Rmin_right (b1 - a1)) by lra.
    rcase; try lra; f_equal; field; lra.
Qed.

Lemma is_RInt_window (lo hi c A B : R) : A <= lo -> lo <= hi -> hi <= B ->
  is_RInt (fun x => if Rle_dec lo x then if Rle_dec x hi then c else 0 else 0) A B (c * (hi - lo)).
Proof.
  intros H1 H2 H3.
  assert (Z : forall u v, u <= v -> (v <= lo \/ hi <= u) -> is_RInt (fun x => if Rle_dec lo x then if Rle_dec x hi then c else 0 else 0) u v 0).
  { intros u v Huv Ho. apply is_RInt_ext with (f := fun _ => 0).
    - rewrite Rmin_left, Rmax_right by lra. intros x Hx. destruct (Rle_dec lo x); auto. destruct (Rle_dec x hi); auto. lra.
    - pose proof (is_RInt_const (V := R_NormedModule) u v 0) as HI. change (scal (v - u) 0) with ((v - u) * 0) in HI; rewrite Rmult_0_r in HI; auto. }
  replace (c * (hi - lo)) with (0 + (c * (hi - lo) + 0)) by ring.
  apply (is_RInt_Chasles (V := R_NormedModule) _ A lo B); [apply Z; lra|]. apply (is_RInt_Chasles (V := R_NormedModule) _ lo hi B); [|apply Z; lra].
  apply is_RInt_ext with (f := fun _ => c).
  - rewrite Rmin_left, Rmax_right by lra. intros x Hx. destruct (Rle_dec lo x); [|lra]. destruct (Rle_dec x hi); [|lra]. auto.
  - pose proof (is_RInt_const (V := R_NormedModule) lo hi c) as HI. change (scal (hi - lo) c) with ((hi - lo) * c) in HI; rewrite (Rmult_comm c); auto.
Qed.

Lemma convolution_overlap a1 b1 a2 b2 p A B : a1 < b1 -> a2 < b2 -> A <= a1 -> b1 <= B ->
  is_RInt (fun x => uniform_density a1 b1 x * uniform_density a2 b2 (p - x)) A B (overlap a1 b1 a2 b2 p / ((b1 - a1) * (b2 - a2))).
Proof.
  intros H1 H2 HA HB. set (lo := Rmax a1 (p - b2)). set (hi := Rmin b1 (p - a2)). set (c := 1 / ((b1 - a1) * (b2 - a2))).
  assert (E : forall x, (if Rle_dec lo x then if Rle_dec x hi then c else 0 else 0) = uniform_density a1 b1 x * uniform_density a2 b2 (p - x)).
  { intros x. unfold uniform_density, c, lo, hi, Rmax, Rmin.
    destruct (Rle_dec a1 (p - b2)), (Rle_dec b1 (p - a2)), (Rle_dec a1 x), (Rle_dec x b1), (Rle_dec a2 (p - x)), (Rle_dec (p - x) b2);
    repeat match goal with |- context[Rle_dec ?u ?v] => destruct (Rle_dec u v) end; try lra; try (field; lra). }
  apply is_RInt_ext with (1 := fun x _ => E x).
  assert (L1 : a1 <= lo) by apply Rmax_l. assert (L2 : hi <= b1) by apply Rmin_l.
  unfold overlap. fold lo hi. destruct (Rle_dec lo hi) as [Hl|Hl].
  - rewrite Rmax_right by lra. replace ((hi - lo) / ((b1 - a1) * (b2 - a2))) with (c * (hi - lo)) by (unfold c; field; lra).
    apply is_RInt_window; lra.
  - rewrite Rmax_left by lra. apply is_RInt_ext with (f := fun _ => 0).
    + intros x _. destruct (Rle_dec lo x); auto. destruct (Rle_dec x hi); auto. lra.
    + pose proof (is_RInt_const (V := R_NormedModule) A B 0) as HI. change (scal (B - A) 0) with ((B - A) * 0) in HI. replace (0 / ((b1 - a1) * (b2 - a2))) with ((B - A) * 0) by (field; lra). auto.
Qed.

(** Integral of a function that is linear between [u] and [v]. *)
Lemma is_RInt_linear (f : R -> R) u v k m : u <= v -> (forall x, u < x < v -> f x = k * x + m) -> is_RInt f u v (k * (v * v - u * u) / 2 + m * (v - u)).
Proof.
  intros H Hf. apply is_RInt_ext with (f := fun x => k * x + m).
  { rewrite Rmin_left, Rmax_right by lra. intros x Hx. symmetry. auto. }
  pose proof (is_RInt_derive (V := R_CompleteNormedModule) (fun x => k * x * x / 2 + m * x) (fun x => k * x + m) u v) as HI.
  replace (k * (v * v - u * u) / 2 + m * (v - u)) with (minus (k * v * v / 2 + m * v) (k * u * u / 2 + m * u)).
  - apply HI.
    + intros x _. auto_derive; auto. field.
    + intros x _. apply (continuous_plus (V := R_NormedModule)); [apply (continuous_mult (K := R_AbsRing)); [apply continuous_const|apply continuous_id]|apply continuous_const].
  - unfold minus, plus, opp; cbn. field.
Qed.

Lemma overlap_integral a1 b1 a2 b2 A B : a1 < b1 -> a2 < b2 -> A <= a1 + a2 -> b1 + b2 <= B ->
  is_RInt (overlap a1 b1 a2 b2) A B ((b1 - a1) * (b2 - a2)).
Proof.
  intros H1 H2 HA HB. set (m := Rmin (a1 + b2) (b1 + a2)). set (M := Rmax (a1 + b2) (b1 + a2)). set (w := Rmin (b1 - a1) (b2 - a2)).
  assert (Hm : a1 + a2 < m) by (unfold m, Rmin; destruct (Rle_dec _ _); lra).
  assert (HM : M < b1 + b2) by (unfold M, Rmax; destruct (Rle_dec _ _); lra).
  assert (HmM : m <= M) by (unfold m, M, Rmin, Rmax; destruct (Rle_dec _ _); lra).
  assert (V : forall p, overlap a1 b1 a2 b2 p =
    if rlt p (a1 + a2) then 0 else if rlt p m then p - a1 - a2 else if rlt p M then w else if rlt p (b1 + b2) then b1 + b2 - p else 0)
   by (intros p; apply overlap_val; lra).
  assert (P1 : is_RInt (overlap a1 b1 a2 b2) A (a1 + a2) (0 * ((a1 + a2) * (a1 + a2) - A * A) / 2 + 0 * ((a1 + a2) - A))).
  { apply is_RInt_linear; [lra|]. intros x Hx. rewrite V. rcase; lra. }
  assert (P2 : is_RInt (overlap a1 b1 a2 b2) (a1 + a2) m (1 * (m * m - (a1 + a2) * (a1 + a2)) / 2 + (- (a1 + a2)) * (m - (a1 + a2)))).
  { apply is_RInt_linear; [lra|]. intros x Hx. rewrite V. rcase; lra. }
  assert (P3 : is_RInt (overlap a1 b1 a2 b2) m M (0 * (M * M - m * m) / 2 + w * (M - m))).
  { apply is_RInt_linear; [lra|]. intros x Hx. rewrite V. rcase; lra. }
  assert (P4 : is_RInt (overlap a1 b1 a2 b2) M (b1 + b2) (- 1 * ((b1 + b2) * (b1 + b2) - M * M) / 2 + (b1 + b2) * ((b1 + b2) - M))).
  { apply is_RInt_linear; [lra|]. intros x Hx. rewrite V. rcase; lra. }
  assert (P5 : is_RInt (overlap a1 b1 a2 b2) (b1 + b2) B (0 * (B * B - (b1 + b2) * (b1 + b2)) / 2 + 0 * (B - (b1 + b2)))).
  { apply is_RInt_linear; [lra|]. intros x Hx. rewrite V. rcase; lra. }
  pose proof (is_RInt_Chasles _ _ _ _ _ _ P1 (is_RInt_Chasles _ _ _ _ _ _ P2 (is_RInt_Chasles _ _ _ _ _ _ P3 (is_RInt_Chasles _ _ _ _ _ _ P4 P5)))) as HI.
  match type of HI with is_RInt _ _ _ ?v => replace ((b1 - a1) * (b2 - a2)) with v; auto end.
  unfold plus; cbn. unfold m, M, w, Rmin, Rmax. destruct (Rle_dec (a1 + b2) (b1 + a2)), (Rle_dec (b1 - a1) (b2 - a2)); try lra; try field.
  replace b1 with (b2 - a2 + a1) by lra. field.
Qed.

(** The limits of each interval may be given in either order. *)
Lemma unifsum_swap a b : unifsum_init (snd a, fst a) b = unifsum_init a b /\ unifsum_init a (snd b, fst b) = unifsum_init a b.
Proof.
  split; unfold unifsum_init; cbn [fst snd].
  - destruct (Rtotal_order (fst a) (snd a)) as [H|[H|H]].
    + replace (rlt (fst a) (snd a)) with true by (symmetry; apply rlt_true; auto). replace (rlt (snd a) (fst a)) with false by (symmetry; apply rlt_false; lra). reflexivity.
    + rewrite H. reflexivity.
    + replace (rlt (fst a) (snd a)) with false by (symmetry; apply rlt_false; lra). replace (rlt (snd a) (fst a)) with true by (symmetry; apply rlt_true; lra). reflexivity.
  - destruct (Rtotal_order (fst b) (snd b)) as [H|[H|H]].
    + replace (rlt (fst b) (snd b)) with true by (symmetry; apply rlt_true; auto). replace (rlt (snd b) (fst b)) with false by (symmetry; apply rlt_false; lra). reflexivity.
    + rewrite H. reflexivity.
    + replace (rlt (fst b) (snd b)) with false by (symmetry; apply rlt_false; lra). replace (rlt (snd b) (fst b)) with true by (symmetry; apply rlt_true; lra). reflexivity.
Qed.

(** C54: for intervals with distinct end points given in any order, the object can be created and
    called at every point, and its value is the convolution of the two uniform densities. *)
Theorem C54_convolution : forall a b p A B,
  fst a <> snd a -> fst b <> snd b -> A <= Rmin (fst a) (snd a) -> Rmax (fst a) (snd a) <= B ->
  exists s v, unifsum_init a b = Ok s /\ unifsum_call s p = Ok v /\
    is_RInt (fun x => uniform_density (Rmin (fst a) (snd a)) (Rmax (fst a) (snd a)) x * uniform_density (Rmin (fst b) (snd b)) (Rmax (fst b) (snd b)) (p - x)) A B v.
Proof.
  intros a b p A B Ha Hb HA HB.
  set (a1 := Rmin (fst a) (snd a)) in *. set (b1 := Rmax (fst a) (snd a)) in *. set (a2 := Rmin (fst b) (snd b)). set (b2 := Rmax (fst b) (snd b)).
  assert (H1 : a1 < b1) by (unfold a1, b1, Rmin, Rmax; destruct (Rle_dec _ _); lra).
  assert (H2 : a2 < b2) by (unfold a2, b2, Rmin, Rmax; destruct (Rle_dec _ _); lra).
  destruct (unifsum_overlap a1 b1 a2 b2 p H1 H2) as (s & Hs & Hc).
  exists s. eexists. split; [|split; [exact Hc|apply convolution_overlap; auto]].
  assert (Ea : a = (a1, b1) \/ a = (b1, a1)). { destruct a as [u v]. unfold a1, b1, Rmin, Rmax; cbn [fst snd]. destruct (Rle_dec u v); auto. }
  assert (Eb : b = (a2, b2) \/ b = (b2, a2)). { destruct b as [u v]. unfold a2, b2, Rmin, Rmax; cbn [fst snd]. destruct (Rle_dec u v); auto. }
  pose proof (unifsum_swap (a1, b1) (a2, b2)) as [S1 S2]. pose proof (unifsum_swap (b1, a1) (a2, b2)) as [S3 S4]. cbn [fst snd] in *.
  clearbody a1 b1 a2 b2. destruct Ea as [-> | ->], Eb as [-> | ->]; congruence.
Qed.

(** C54: the values are non-negative, vanish outside the sum interval, and integrate to one. *)
Theorem C54_density : forall a1 b1 a2 b2 s, a1 < b1 -> a2 < b2 -> unifsum_init (a1, b1) (a2, b2) = Ok s ->
  exists d : R -> R, (forall p, unifsum_call s p = Ok (d p)) /\ (forall p, 0 <= d p) /\
    (forall p, p <= a1 + a2 \/ b1 + b2 <= p -> d p = 0) /\
    (forall p, a1 + a2 < p < b1 + b2 -> 0 < d p) /\
    (forall A B, A <= a1 + a2 -> b1 + b2 <= B -> is_RInt d A B 1).
Proof.
  intros a1 b1 a2 b2 s H1 H2 Hs. exists (fun p => overlap a1 b1 a2 b2 p / ((b1 - a1) * (b2 - a2))).
  assert (Hp : 0 < (b1 - a1) * (b2 - a2)) by (apply Rmult_lt_0_compat; lra).
  assert (Hi : 0 < / ((b1 - a1) * (b2 - a2))) by (apply Rinv_0_lt_compat; auto).
  split; [|split; [|split; [|split]]].
  - intros p. destruct (unifsum_overlap a1 b1 a2 b2 p H1 H2) as (s' & Hs' & Hc). congruence.
  - intros p. apply Rmult_le_pos; [apply Rmax_l|lra].
  - intros p Hpo. replace (overlap a1 b1 a2 b2 p) with 0; [unfold Rdiv; ring|].
    rewrite overlap_val by lra. unfold Rmin, Rmax. repeat destruct (Rle_dec _ _); rcase; lra.
  - intros p Hpi. apply Rmult_lt_0_compat; auto. rewrite overlap_val by lra. unfold Rmin, Rmax. repeat destruct (Rle_dec _ _); rcase; lra.
  - intros A B HA HB. pose proof (is_RInt_scal _ _ _ (/ ((b1 - a1) * (b2 - a2))) _ (overlap_integral a1 b1 a2 b2 A B H1 H2 HA HB)) as HI.
    replace 1 with (/ ((b1 - a1) * (b2 - a2)) * ((b1 - a1) * (b2 - a2))) by (field; lra).
    eapply is_RInt_ext; [|exact HI]. intros x _. apply Rmult_comm.
Qed.

(** C54: two degenerate intervals are rejected; with one degenerate interval at [m] the value is the
    shifted uniform density of the other one (right end point excluded). *)
Theorem C54_degenerate : forall m n, unifsum_init (m, m) (n, n) = Err ZeroDivisionError.
Proof.
  intros. unfold unifsum_init; cbn [fst snd].
  rcase; destruct (Req_EM_T _ 0); try lra; auto.
Qed.
Theorem C54_one_degenerate : forall lo hi m p, lo < hi ->
  exists s, unifsum_init (lo, hi) (m, m) = Ok s /\ unifsum_call s p = Ok (if rlt (p - m) hi then uniform_density lo hi (p - m) else 0).
Proof.
  intros lo hi m p H. unfold unifsum_init; cbn [fst snd].
  replace (rlt lo hi) with true by (symmetry; apply rlt_true; auto). replace (rlt m m) with false by (symmetry; apply rlt_false; lra).
  replace (rlt (hi - lo) (m - m)) with false by (symmetry; apply rlt_false; lra). replace (rlt (m - m) (hi - lo)) with true by (symmetry; apply rlt_true; lra).
  destruct (Req_EM_T _ 0) as [E|_]; [lra|]. eexists; split; [reflexivity|].
  unfold unifsum_call, uniform_density; cbn [us_c us_wmin us_wdiff us_l us_h us_t].
  rcase; try lra; destruct (Rle_dec lo (p - m)); try lra; try destruct (Rle_dec (p - m) hi); try lra; f_equal; field; lra.
Qed.

Example C54_example : exists s, unifsum_init (0, 1) (2, 0) = Ok s /\ unifsum_call s (1/2) = Ok (1/4) /\ unifsum_call s (3/2) = Ok (1/2) /\ unifsum_call s 5 = Ok 0.
Proof.
  unfold unifsum_init; cbn [fst snd].
  replace (rlt 0 1) with true by (symmetry; apply rlt_true; lra). replace (rlt 2 0) with false by (symmetry; apply rlt_false; lra).
  replace (rlt (1 - 0) (2 - 0)) with true by (symmetry; apply rlt_true; lra). replace (rlt (2 - 0) (1 - 0)) with false by (symmetry; apply rlt_false; lra).
  destruct (Req_EM_T _ 0) as [E|_]; [lra|]. eexists; split; [reflexivity|].
  unfold unifsum_call; cbn [us_c us_wmin us_wdiff us_l us_h us_t].
  destruct (Req_EM_T _ 0) as [E|_]; [lra|]. repeat split; rcase; try lra; f_equal; field.
Qed.

(** ** C55 *)
Section Instrument.
Context {P Tr A W Z : Type}.
Notation call := (call P Tr A).

Inductive anycall : Type := AnyCall : forall T : Type, call T -> anycall.
Arguments AnyCall {T}.

(** The calls a program makes to the model, in order. *)
Fixpoint calls_made (m : object P Tr A W) (c : client P Tr A Z) (w : W) : list anycall :=
  match c with
  | Done _ => []
  | Use _ c k => AnyCall c :: match m _ c w with Ok (r, w') => calls_made m (k r) w' | Err _ => [] end
  end.

(** Specification: how many particles a call is about, and under which heading it is counted. *)
Inductive kind := KNoise | KUpdate | KMeasure | KXnext | KXnextMax | KPropose | KPdfSmooth | KFirstStage | KX0.
Definition kind_eqb (a b : kind) : bool :=
  match a, b with
  | KNoise, KNoise | KUpdate, KUpdate | KMeasure, KMeasure | KXnext, KXnext | KXnextMax, KXnextMax
  | KPropose, KPropose | KPdfSmooth, KPdfSmooth | KFirstStage, KFirstStage | KX0, KX0 => true
  | _, _ => false
  end.
Definition counted_as (a : anycall) : option (kind * nat) :=
  match a with AnyCall _ c =>
    match c with
    | CNoise _ anc _ => Some (KNoise, List.length anc)
    | CUpdate part _ _ _ _ => Some (KUpdate, List.length part)
    | CMeasure part _ _ _ => Some (KMeasure, List.length part)
    | CXnext part next _ => Some (KXnext, Nat.max (List.length part) (List.length next))
    | CXnextFull part _ _ _ find _ => Some (KXnext, Nat.max (List.length part) (List.length find))
    | CXnextSingle part _ _ _ find _ => Some (KXnext, Nat.max (List.length part) (List.length find))
    | CXnextMaxFull part _ _ _ => Some (KXnextMax, List.length part)
    | CPropose (Some _) anc _ _ _ => Some (KPropose, List.length anc)
    | CPropose None _ _ find _ => Some (KPropose, List.length find)
    | CLogpProposal part _ _ _ _ _ => Some (KPdfSmooth, List.length part)
    | CEval1st part _ => Some (KFirstStage, List.length part)
    | CLogpX0 part _ => Some (KX0, List.length part)
    | _ => None
    end
  end.
(** Total over a list of calls for one heading. *)
Definition total_count (k : kind) (l : list anycall) : nat :=
  list_sum (map (fun a => match counted_as a with Some (k', n) => if kind_eqb k k' then n else 0%nat | None => 0%nat end) l).
(** The counter that belongs to each heading. *)
Definition counter (k : kind) (o : opcount) : nat :=
  match k with
  | KNoise => cnt_sample o | KUpdate => cnt_update o | KMeasure => cnt_measure o | KXnext => cnt_pdfxn o
  | KXnextMax => cnt_pdfxnmax o | KPropose => cnt_propsmooth o | KPdfSmooth => cnt_pdfsmooth o
  | KFirstStage => cnt_eval1st o | KX0 => cnt_eval_logp_x0 o
  end.
(** Calls the wrapper has a method for. *)
Definition has_method (a : anycall) : Prop :=
  match a with AnyCall _ c => match c with CProposeFromY _ _ | CQsample _ _ | CLogpQ _ _ _ | CMeasure3 _ _ => False | _ => True end end.

Lemma instrument_call (m : object P Tr A W) T (c : call T) w oc : has_method (AnyCall c) ->
  match m T c w with
  | Ok (r, w') => exists oc', instrument m T c (w, oc) = Ok (r, (w', oc')) /\ cnt_pdfxn_full oc' = cnt_pdfxn_full oc /\
                  forall k, counter k oc' = (counter k oc + match counted_as (AnyCall c) with Some (k', n) => if kind_eqb k k' then n else 0 | None => 0 end)%nat
  | Err e => instrument m T c (w, oc) = Err e
  end.
Proof.
  intros H. destruct c; cbn in H; try tauto; unfold instrument, counted; cbn [fst snd];
  match goal with |- context[m ?t ?c w] => destruct (m t c w) as [[r w']|e] end; auto;
  eexists; (split; [reflexivity|]); (split; [cbn; lia|]); intros k; destruct k; cbn;
  try (destruct ptraj; cbn); lia.
Qed.

(** C55: for every model, every program using it and every start state, if only methods the wrapper has
    are called, the wrapped model gives the same result, exception and model state, and every counter
    has grown by the number of particles in the calls of its kind. *)
Theorem C55_transparent_and_counts : forall (m : object P Tr A W) (c : client P Tr A Z) w oc,
  Forall has_method (calls_made m c w) ->
  match run m c w with
  | Ok (z, w') => exists oc', run (instrument m) c (w, oc) = Ok (z, (w', oc')) /\
       cnt_pdfxn_full oc' = cnt_pdfxn_full oc /\
       forall k, counter k oc' = (counter k oc + total_count k (calls_made m c w))%nat
  | Err e => run (instrument m) c (w, oc) = Err e
  end.
Proof.
  intros m c. induction c as [z|T c k IH]; intros w oc HF.
  - cbn. exists oc. repeat split. intros k. unfold total_count. cbn. lia.
  - cbn [calls_made run] in *. inversion HF as [|? ? Hh HF']; subst. pose proof (instrument_call m T c w oc Hh) as HI.
    unfold bind. destruct (m T c w) as [[r w']|e].
    + destruct HI as (oc' & E & F & HC). rewrite E. specialize (IH r w' oc' HF'). destruct (run m (k r) w') as [[z w2]|e].
      * destruct IH as (oc2 & E2 & F2 & HC2). exists oc2. split; auto. split; [congruence|]. intros kk. rewrite HC2, HC. unfold total_count. cbn [map]. match goal with |- context[list_sum (?x :: ?l)] => change (list_sum (x :: l)) with (x + list_sum l)%nat end. lia.
      * auto.
    + rewrite HI. reflexivity.
Qed.

(** C55, refuted part: the rest of the library also calls these methods, which the wrapper does not
    have, so a wrapped model fails where the model itself works. *)
Theorem C55_missing_methods_refuted : forall (m : object P Tr A W) T (c : call T) k w oc, ~ has_method (AnyCall c) ->
  run (instrument m) (Use Z c k) (w, oc) = Err AttributeError.
Proof. intros m T c k w oc H. destruct c; cbn in H; try tauto; reflexivity. Qed.
End Instrument.

(** C55: addition of counters is componentwise, hence associative and commutative with neutral element. *)
Theorem C55_addition : forall x y,
  (forall k, counter k (oc_add x y) = (counter k x + counter k y)%nat) /\ cnt_pdfxn_full (oc_add x y) = (cnt_pdfxn_full x + cnt_pdfxn_full y)%nat /\
  (forall z, oc_add x (oc_add y z) = oc_add (oc_add x y) z) /\ oc_add x y = oc_add y x /\ oc_add oc0 x = x.
Proof.
  intros x y. split; [intros []; reflexivity|]. split; [reflexivity|].
  split; [intros z; unfold oc_add; cbn; f_equal; lia|]. split; [unfold oc_add; f_equal; lia|destruct x; reflexivity].
Qed.

(** A concrete model with a call counter as its state, and a program that branches on a result. *)
Definition ex_model : object nat unit unit nat := fun T c =>
  match c in UtilModel.call _ _ _ T return M nat T with
  | CCreate n => fun w => Ok (seq w n, S w)
  | CUpdate p _ _ _ _ => fun w => Ok (map S p, S w)
  | CMeasure p _ _ _ => fun w => Ok ((p, map INR p), S w)
  | CQsample p _ => fun w => Ok (p, S w)
  | _ => fun _ => Err ValueError
  end.
Definition ex_client : client nat unit unit nat :=
  Use _ (CCreate 3) (fun p => Use _ (CUpdate p tt tt [0;1;2]%nat tt) (fun q =>
    match q with 1%nat :: _ => Use _ (CMeasure q tt tt [0;1]%nat) (fun r => Done _ (hd 0%nat (fst r))) | _ => Done _ 7%nat end)).
Example C55_example : run ex_model ex_client 0%nat = Ok (1%nat, 3%nat) /\
  Forall has_method (calls_made ex_model ex_client 0%nat) /\
  run (instrument ex_model) ex_client (0%nat, oc0) = Ok (1%nat, (3%nat, mkOC 0 3 3 0 0 0 0 0 0 0)).
Proof. split; [reflexivity|]. split; [|reflexivity]. cbn. repeat constructor. Qed.
Example C55_missing_example : run ex_model (Use _ (CQsample [4%nat] tt) (fun p => Done _ p)) 0%nat = Ok ([4%nat], 1%nat) /\
  run (instrument ex_model) (Use _ (CQsample [4%nat] tt) (fun p => Done _ p)) (0%nat, oc0) = Err AttributeError.
Proof. split; reflexivity. Qed.

Print Assumptions C54_convolution.
Print Assumptions C54_density.
Print Assumptions C55_transparent_and_counts.
