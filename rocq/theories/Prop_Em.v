(** Properties of the parameter estimation drivers (paramest.py): C49-C52. *)
From Coq Require Import Bool Reals ZArith Lra Lia List Arith.
From Verif Require Import Base EmModel EmProofs AlphaProofs.
Import ListNotations.
Open Scope R_scope.

(** ** Specification vocabulary *)

(** The smoothed trajectories of each simulation in a history, in order. *)
Definition sims {Par X} (h : hist Par X) : list (list X) :=
  flat_map (fun e => match e with ESim _ _ s => [s] | _ => [] end) h.
(** The (weights, trajectories) handed to each weighted maximisation, in order. *)
Definition maximised {Par X} (h : hist Par X) : list (list R * list X) :=
  flat_map (fun e => match e with EMaxW t w _ => [(w, t)] | _ => [] end) h.

(** The size in iteration [i]: entry [i] of a list, its last entry repeated. *)
Definition size_at (s : sizes) (i : nat) : nat :=
  match s with Scalar n => n | Sched l => nth (Nat.min i (length l - 1)) l 0%nat end.

Definition nonempty_sizes (s : sizes) : Prop := match s with Scalar _ => True | Sched l => l <> [] end.

Definition given {A} (o : option A) : bool := match o with Some _ => true | None => false end.

(** The calls of an EM run: [rounds] holds what each simulation and each maximisation
    returned. *)
Fixpoint em_trace {Par X} (cbsim cb : bool) (np nt : sizes) (i : nat) (p : Par) (rounds : list (list X * Par)) : hist Par X :=
  match rounds with
  | [] => []
  | (sm, p') :: rest =>
      [ESet p; ESim (size_at np i) (size_at nt i) sm] ++ (if cbsim then [ECbSim] else []) ++
      [EMax p'] ++ (if cb then [ECb p' i] else []) ++ em_trace cbsim cb np nt (S i) p' rest
  end.

(** An environment whose calls never raise and whose simulations return trajectories. *)
Definition total_env {Par X} (v : env Par X) : Prop :=
  (forall h p, exists u, v_set v h p = Ok u) /\
  (forall h a b, exists l, v_sim v h a b = Ok l /\ l <> []) /\
  (forall f, v_cbsim v = Some f -> forall h, exists u, f h = Ok u) /\
  (forall h, exists p, v_max v h = Ok p) /\
  (forall h t w, exists p, v_maxw v h t w = Ok p) /\
  (forall f, v_cb v = Some f -> forall h p i, exists b, f h p i = Ok b).

(** Weight in iteration [k] of a trajectory drawn in iteration [j]: its step size times
    what each later step left of it (divided by the number drawn with it). *)
Fixpoint product (f : nat -> R) (n : nat) : R := match n with O => 1 | S n' => product f n' * f n' end.
Definition coef (agen : nat -> R) (k j : nat) : R :=
  (if Nat.eqb j 0 then 1 else agen j) * product (fun i => 1 - agen (j + 1 + i)%nat) (k - j).
Definition weighted {X} (agen : nat -> R) (k : nat) (bs : list (list X)) : list (R * X) :=
  flat_map (fun jb => map (fun x => (coef agen k (fst jb) / INR (length (snd jb)), x)) (snd jb)) (combine (seq 0 (k + 1)) bs).

(** ** Proofs about single calls *)

Lemma pick_size s i : nonempty_sizes s -> pick s i = Ok (size_at s i).
Proof.
  destruct s as [n|l]; [auto|]. unfold nonempty_sizes, pick, size_at. intros Hne. destruct (Nat.ltb i (length l)) eqn:E.
  - apply Nat.ltb_lt in E. rewrite Nat.min_l by lia. unfold idx. rewrite (nth_error_nth' l 0%nat E). auto.
  - apply Nat.ltb_ge in E. rewrite Nat.min_r by lia. destruct (exists_last Hne) as (l' & a & ->). unfold idx_last.
    rewrite rev_app_distr. cbn [rev app]. rewrite app_length. cbn [length]. rewrite app_nth2 by lia. replace (length l' + 1 - 1 - length l')%nat with 0%nat by lia. auto.
Qed.

Lemma pick_inv s i n : pick s i = Ok n -> n = size_at s i /\ nonempty_sizes s.
Proof.
  intros H. assert (N : nonempty_sizes s). { destruct s as [|[|a l]]; cbn; auto; [discriminate|congruence]. }
  rewrite (pick_size s i N) in H. injection H as <-. auto.
Qed.

Section Calls.
Context {Par X : Type}.
Implicit Types h : hist Par X.

Lemma call_inv {A} (f : hist Par X -> res A) ev h a h' : call f ev h = Ok (a, h') -> f h = Ok a /\ h' = h ++ [ev a].
Proof. unfold call. destruct (f h); intros H; [injection H as <- <-; auto|discriminate]. Qed.

Lemma call_opt_inv {A} (f : option (hist Par X -> res A)) ev h u h' : call_opt f ev h = Ok (u, h') -> h' = h ++ (if given f then [ev] else []).
Proof.
  unfold call_opt. destruct f as [f|]; cbn; intros H; minv H.
  - apply call_inv in Hm. tauto. - rewrite app_nil_r. auto.
Qed.

Lemma given_map {A B} (f : A -> B) o : given (option_map f o) = given o.
Proof. destruct o; auto. Qed.

Lemma last_cons {A} (l : list A) a d : last (a :: l) d = last l a.
Proof. revert a d. induction l as [|b l IH]; intros a d; auto. transitivity (last (b :: l) d); auto. rewrite IH. symmetry. apply IH. Qed.

Lemma em_loop_trace (v : env Par X) np nt n : forall i p h p' h', em_loop v n i np nt p h = Ok (p', h') ->
  exists rounds, length rounds = n /\ h' = h ++ em_trace (given (v_cbsim v)) (given (v_cb v)) np nt i p rounds /\ p' = last (map snd rounds) p.
Proof.
  induction n as [|n IH]; intros i p h p' h' H; cbn [em_loop] in H.
  - minv H. exists []. cbn. rewrite app_nil_r. auto.
  - minv H. apply call_inv in Hm as [_ ->]. apply pick_inv in Hl as [-> _]. apply pick_inv in Hl0 as [-> _].
    apply call_inv in Hm0 as [_ ->]. apply call_opt_inv in Hm1 as ->. apply call_inv in Hm2 as [_ ->]. apply call_opt_inv in Hm3 as ->.
    destruct (IH _ _ _ _ _ H) as (rounds & L & E & El).
    exists ((a0, a2) :: rounds). split; [cbn; lia|]. split.
    + rewrite E, given_map. cbn [em_trace]. rewrite <- !app_assoc. reflexivity.
    + rewrite El. cbn [map snd]. rewrite last_cons. reflexivity.
Qed.

Lemma call_ok {A} (f : hist Par X -> res A) ev h a : f h = Ok a -> call f ev h = Ok (a, h ++ [ev a]).
Proof. intros E. unfold call. rewrite E. auto. Qed.
Lemma call_opt_ok {A} (f : option (hist Par X -> res A)) ev h : (forall g, f = Some g -> exists a, g h = Ok a) ->
  call_opt f ev h = Ok (tt, h ++ (if given f then [ev] else [])).
Proof.
  intros H. unfold call_opt. destruct f as [f|]; cbn; [|rewrite app_nil_r; auto].
  destruct (H f eq_refl) as [a E]. unfold bind. rewrite (call_ok _ _ _ _ E). auto.
Qed.
Lemma bind_run {W A B} (m : M W A) (f : A -> M W B) s a s' : m s = Ok (a, s') -> bind m f s = f a s'.
Proof. intros E. unfold bind. rewrite E. auto. Qed.
Lemma lift_run {W A B} (m : res A) (f : A -> M W B) s a : m = Ok a -> bind (lift m) f s = f a s.
Proof. intros E. unfold bind, lift. rewrite E. auto. Qed.

Lemma em_loop_total (v : env Par X) np nt : total_env v -> nonempty_sizes np -> nonempty_sizes nt ->
  forall n i p h, exists p' h', em_loop v n i np nt p h = Ok (p', h').
Proof.
  intros (V1 & V2 & V3 & V4 & V5 & V6) Nn Nt. induction n as [|n IH]; intros i p h; cbn [em_loop]; [do 2 eexists; reflexivity|].
  destruct (V1 h p) as [u E1]. rewrite (bind_run _ _ _ _ _ (call_ok _ _ _ _ E1)).
  rewrite (lift_run _ _ _ _ (pick_size np i Nn)), (lift_run _ _ _ _ (pick_size nt i Nt)).
  match goal with |- context[bind (call _ (ESim ?a ?b)) _ ?h0] => destruct (V2 h0 a b) as (l & E2 & _) end.
  rewrite (bind_run _ _ _ _ _ (call_ok _ _ _ _ E2)).
  rewrite (bind_run _ _ _ _ _ (call_opt_ok (v_cbsim v) _ _ (fun g Eg => V3 g Eg _))).
  match goal with |- context[bind (call (v_max v) _) _ ?h0] => destruct (V4 h0) as (p1 & E4) end.
  rewrite (bind_run _ _ _ _ _ (call_ok _ _ _ _ E4)).
  erewrite bind_run; [|apply call_opt_ok; intros g Eg; destruct (v_cb v) as [f|] eqn:Ef; [injection Eg as <-; eapply V6; eauto|discriminate]].
  apply IH.
Qed.

(** ** PSAEM *)

(** The updates of weights and trajectories along a sequence of simulations. *)
Fixpoint updates (agen : nat -> R) (eps pct : R) (mt : nat) (i : nat) (st : pstate X) (bs : list (list X)) : res (list (list R * list X)) :=
  match bs with
  | [] => Ok []
  | b :: bs' =>
      dor r <- psaem_update eps pct mt (agen i) st (map (fun _ => 1 / INR (length b)) b) b ;
      dor rs <- updates agen eps pct mt (S i) (Some r) bs' ;
      Ok (r :: rs)
  end.

Lemma sims_app h h' : sims (h ++ h') = sims h ++ sims h'.
Proof. apply flat_map_app. Qed.
Lemma maximised_app h h' : maximised (h ++ h') = maximised h ++ maximised h'.
Proof. apply flat_map_app. Qed.
Lemma sims_opt (b : bool) : sims (Par := Par) (X := X) (if b then [ECbSim] else []) = [].
Proof. destruct b; auto. Qed.
Lemma maximised_opt (b : bool) : maximised (Par := Par) (X := X) (if b then [ECbSim] else []) = [].
Proof. destruct b; auto. Qed.

Lemma stop_test_inv (v : env Par X) mi p i h b h' : stop_test v mi p i h = Ok (b, h') ->
  (exists ev, h' = h ++ ev /\ sims ev = [] /\ maximised ev = []) /\ (v_cb v = None -> b = Nat.leb mi i) /\ (forall f, v_cb v = Some f -> f h p i = Ok b).
Proof.
  unfold stop_test. destruct (v_cb v) as [f|] eqn:Ef; intros H.
  - apply call_inv in H as [E ->]. split; [eexists; split; [reflexivity|auto]|]. split; [discriminate|]. intros g Eg. congruence.
  - minv H. split; [exists []; rewrite app_nil_r; auto|]. split; auto. discriminate.
Qed.

(** One round of the loop, as far as history and state are concerned. *)
Lemma psaem_loop_hist (v : env Par X) agen eps pct mt M_ np mi opts fuel : forall i st p h p' h',
  psaem_loop v fuel agen eps pct mt M_ np mi false opts i st p h = Ok (p', h') ->
  exists hs rs, h' = h ++ hs /\ (0 < length (sims hs))%nat /\ updates agen eps pct mt i st (sims hs) = Ok rs /\ maximised hs = rs /\  (v_cb v = None -> length (sims hs) = Nat.max 1 (mi - i)) /\ opts = true.
Proof.
  induction fuel as [|fuel IH]; intros i st p h p' h' H; cbn [psaem_loop] in H; [discriminate|].
  minv H. apply call_inv in Hm as [_ ->]. apply call_inv in Hm0 as [_ ->]. cbn in Hm1. injection Hm1 as <- <-.
  destruct opts; [|discriminate]. apply call_inv in Hm2 as [_ ->]. apply call_opt_inv in Hm3 as ->.
  apply call_inv in Hm4 as [_ ->]. apply stop_test_inv in Hm5 as ((ev & -> & Ev1 & Ev2) & Hcb & _).
  cbn [fst snd] in Hl. replace (S i - 1)%nat with i in Hl by lia.
  set (pre := [ESet p; ESim np M_ a0; ECond a0] ++ (if given (v_cbsim v) then [ECbSim] else []) ++ [EMaxW (snd b) (fst b) a4] ++ ev).
  assert (S1 : sims pre = [a0]) by (unfold pre; rewrite !sims_app, sims_opt, Ev1; auto).
  assert (M1 : maximised pre = [b]) by (unfold pre; rewrite !maximised_app, maximised_opt, Ev2; destruct b; auto).
  destruct a5.
  - minv H. exists pre, [b]. rewrite S1. split; [unfold pre; rewrite <- !app_assoc; auto|]. split; [cbn; lia|].
    split; [cbn; rewrite Hl; auto|]. split; auto. split; auto. intros E. specialize (Hcb E). symmetry in Hcb. apply Nat.leb_le in Hcb. cbn [length]. lia.
  - destruct (IH _ _ _ _ _ _ H) as (hs & rs & E & Hp & Hu & Hmx & Hn & _).
    exists (pre ++ hs), (b :: rs). rewrite sims_app, maximised_app, S1, M1. split; [rewrite E; unfold pre; rewrite <- !app_assoc; auto|].
    split; [cbn; lia|]. split; [cbn; rewrite Hl; cbn; rewrite Hu; auto|]. split; [cbn; congruence|]. split; auto.
    intros E'. specialize (Hcb E'). symmetry in Hcb. apply Nat.leb_gt in Hcb. cbn [length app]. rewrite (Hn E'). lia.
Qed.

(** The state before update [k]. *)
Definition before (st : pstate X) (rs : list (list R * list X)) (k : nat) : pstate X :=
  match k with O => st | S k' => nth_error rs k' end.

Lemma updates_nth agen eps pct mt : forall bs i st rs, updates agen eps pct mt i st bs = Ok rs ->
  length rs = length bs /\ forall k b, nth_error bs k = Some b -> exists r, nth_error rs k = Some r /\
    psaem_update eps pct mt (agen (i + k)%nat) (before st rs k) (map (fun _ => 1 / INR (length b)) b) b = Ok r.
Proof.
  induction bs as [|b0 bs IH]; intros i st rs H; cbn [updates] in H.
  - injection H as <-. split; auto. intros [|k] b Hb; discriminate.
  - minv H. injection H as <-. destruct (IH _ _ _ Hr0) as [L A]. split; [cbn; lia|].
    intros [|k] b Hb; cbn in Hb.
    + injection Hb as <-. exists a. rewrite Nat.add_0_r. auto.
    + destruct (A k b Hb) as (r & R1 & R2). exists r. split; auto. rewrite Nat.add_succ_comm in R2. rewrite <- R2.
      destruct k; reflexivity.
Qed.

Definition st_ok (st : pstate X) : Prop := forall w t, st = Some (w, t) -> prob w /\ length t = length w.

(** Candidate (weight, trajectory) pairs of an update. *)
Definition candidates (alpha : R) (st : pstate X) (b : list X) : list (R * X) :=
  match st with
  | None => map (fun x => (1 / INR (length b), x)) b
  | Some (w, t) => map (fun p => ((1 - alpha) * fst p, snd p)) (combine w t) ++ map (fun x => (alpha * (1 / INR (length b)), x)) b
  end.

Lemma combine_app {A B} (a a' : list A) (b b' : list B) : length a = length b -> combine (a ++ a') (b ++ b') = combine a b ++ combine a' b'.
Proof. revert b. induction a as [|x a IH]; intros [|y b] L; cbn in *; try lia; auto. f_equal. apply IH. lia. Qed.
Lemma combine_const {A B} (c : A) (b : list B) : combine (map (fun _ => c) b) b = map (fun x => (c, x)) b.
Proof. induction b; cbn; congruence. Qed.

Lemma candidates_eq alpha st b : st_ok st ->
  combine (blend alpha (pw st) (map (fun _ => 1 / INR (length b)) b)) (append_trajs (ptr st) b) = candidates alpha st b.
Proof.
  intros Hs. destruct st as [[w t]|]; cbn; [|apply combine_const]. destruct (Hs w t eq_refl) as [_ L].
  rewrite combine_app by (rewrite map_length; auto). rewrite combine_map_l, map_map. f_equal. apply combine_const.
Qed.

(** One update keeps a probability vector aligned with its trajectories, and discards
    only what it may. *)
Lemma update_spec eps pct mt alpha st b : 0 <= eps -> 0 <= pct <= 100 -> 0 <= alpha <= 1 -> st_ok st -> b <> [] ->
  let c := candidates alpha st b in
  exists th w t, psaem_update eps pct mt alpha st (map (fun _ => 1 / INR (length b)) b) b = Ok (w, t) /\ 0 <= th <= eps /\
    INR (length (filter (fun p => rltb 0 (fst p) && rleb (fst p) th) c)) < pct / 100 * INR (length c - 1) + 1 /\
    length t = length w /\ prob w /\ nonneg (map fst c) /\ total (map fst c) = 1 /\
    combine w t = map (fun p => (fst p / total (map fst (survivors th mt c)), snd p)) (survivors th mt c).
Proof.
  intros He Hp Ha Hs Hb c. destruct (uniform_prob b Hb) as [U1 U2].
  assert (Un : nonneg (map (fun _ => 1 / INR (length b)) b)) by (apply prob_nonneg; split; auto).
  destruct (fun H => blend_ok alpha (pw st) _ Ha H Un U2) as [B1 B2].
  { intros ws E. destruct st as [[w t]|]; cbn in E; [|discriminate]. injection E as <-. destruct (Hs w t eq_refl) as [P _]. split; [apply prob_nonneg; auto|apply P]. }
  assert (L : length (append_trajs (ptr st) b) = length (blend alpha (pw st) (map (fun _ => 1 / INR (length b)) b))).
  { destruct st as [[w t]|]; cbn; [|rewrite map_length; auto]. destruct (Hs w t eq_refl) as [_ L]. rewrite !app_length, !map_length. lia. }
  destruct (discard_spec eps pct mt _ _ He Hp B1 B2 L) as (th & w & t & E & Hth & Hc & Lt & Pw & Ec).
  rewrite (candidates_eq alpha st b Hs) in Ec. fold c in Ec.
  assert (Ef : map fst c = blend alpha (pw st) (map (fun _ => 1 / INR (length b)) b)).
  { unfold c. rewrite <- (candidates_eq alpha st b Hs). clear - L. revert L. generalize (append_trajs (ptr st) b). generalize (blend alpha (pw st) (map (fun _ : X => 1 / INR (length b)) b)).
    induction l as [|x l IH]; intros [|y l'] L; cbn in *; try lia; auto. f_equal. apply IH. lia. }
  exists th, w, t. split; [exact E|]. split; auto. split.
  { rewrite <- Ef in Hc. rewrite map_length in Hc. eapply Rle_lt_trans; [|exact Hc]. apply Req_le. f_equal.
    clear. induction c as [|[x y] c IH]; cbn; auto. destruct (rltb 0 x && rleb x th)%bool; cbn; congruence. }
  split; auto. split; auto. rewrite Ef. split; auto.
Qed.

Lemma updates_wf agen eps pct mt : (forall i, 0 <= agen i <= 1) -> 0 <= eps -> 0 <= pct <= 100 ->
  forall bs i st, st_ok st -> Forall (fun b => b <> []) bs -> exists rs, updates agen eps pct mt i st bs = Ok rs.
Proof.
  intros Ha He Hp. induction bs as [|b bs IH]; intros i st Hs F; cbn [updates]; eauto. inversion F; subst.
  destruct (update_spec eps pct mt (agen i) st b He Hp (Ha i) Hs H1) as (th & w & t & E & _ & _ & L & P & _). rewrite E. cbn [rbind].
  destruct (IH (S i) (Some (w, t))) as [rs Er]; auto. { intros w' t' E'. injection E' as <- <-. auto. }
  rewrite Er. cbn. eauto.
Qed.

Lemma updates_states agen eps pct mt bs i st rs : (forall i, 0 <= agen i <= 1) -> 0 <= eps -> 0 <= pct <= 100 ->
  st_ok st -> Forall (fun b => b <> []) bs -> updates agen eps pct mt i st bs = Ok rs ->
  forall k, (k <= length bs)%nat -> st_ok (before st rs k).
Proof.
  intros Ha He Hp Hs F H. destruct (updates_nth _ _ _ _ _ _ _ _ H) as [L A].
  induction k as [|k IH]; intros Hk; [exact Hs|]. specialize (IH ltac:(lia)). cbn [before]. intros w t E.
  destruct (nth_error bs k) as [b|] eqn:Eb; [|apply nth_error_None in Eb; lia].
  destruct (A k b Eb) as (r & R1 & R2). rewrite R1 in E. injection E as ->.
  assert (Hb : b <> []) by (rewrite Forall_forall in F; apply F; eapply nth_error_In; eauto).
  destruct (update_spec eps pct mt (agen (i + k)%nat) _ b He Hp (Ha _) IH Hb) as (th & w' & t' & E' & _ & _ & L' & P & _).
  rewrite E' in R2. injection R2 as <- <-. auto.
Qed.

(** ** Closed form without discarding *)
Definition positive (p : R * X) : bool := negb (rleb (fst p) 0).

Lemma filter_scale c (l : list (R * X)) : 0 <= c -> Forall (fun p => 0 <= fst p) l ->
  filter positive (map (fun p => (c * fst p, snd p)) (filter positive l)) = filter positive (map (fun p => (c * fst p, snd p)) l).
Proof.
  intros Hc F. induction F as [|[x y] l Hx F IH]; [reflexivity|]. cbn [filter map fst snd]. destruct (positive (x, y)) eqn:E.
  - cbn [filter map fst snd]. destruct (positive (c * x, y)); [f_equal|]; exact IH.
  - unfold positive in E at 1. cbn [fst] in *. apply negb_false_iff, rleb_true in E. replace x with 0 by lra.
    replace (positive (c * 0, y)) with false; [exact IH|]. symmetry. unfold positive. cbn [fst]. apply negb_false_iff, rleb_true. lra.
Qed.

Lemma total_filter (l : list (R * X)) : nonneg (map fst l) -> total (map fst (filter positive l)) = total (map fst l).
Proof.
  induction l as [|[x y] l IH]; intros F; [reflexivity|]. cbn [map fst] in F. inversion F; subst. cbn [filter]. destruct (positive (x, y)) eqn:E.
  - cbn [map fst]. unfold total in *. cbn [fold_right]. rewrite (IH H2). auto.
  - rewrite (IH H2). unfold positive in E. cbn [fst] in E. apply negb_false_iff, rleb_true in E. cbn [map fst]. unfold total. cbn [fold_right]. lra.
Qed.

Lemma update_plain pct alpha st b w t : 0 <= pct <= 100 -> 0 <= alpha <= 1 -> st_ok st -> b <> [] ->
  psaem_update 0 pct 0 alpha st (map (fun _ => 1 / INR (length b)) b) b = Ok (w, t) -> combine w t = filter positive (candidates alpha st b).
Proof.
  intros Hp Ha Hs Hb E. destruct (update_spec 0 pct 0 alpha st b ltac:(lra) Hp Ha Hs Hb) as (th & w' & t' & E' & Hth & _ & _ & _ & Nn & T1 & C).
  rewrite E in E'. injection E' as <- <-. assert (th = 0) by lra. subst th. rewrite C.
  assert (Es : survivors 0 0 (candidates alpha st b) = filter positive (candidates alpha st b)) by reflexivity.
  rewrite Es, total_filter, T1 by auto. rewrite <- (map_id (filter positive _)) at 2. apply map_ext. intros [x y]. cbn. f_equal. field.
Qed.

Lemma coef_step agen k j : (j <= k)%nat -> coef agen (S k) j = (1 - agen (S k)) * coef agen k j.
Proof.
  intros H. unfold coef. replace (S k - j)%nat with (S (k - j)) by lia. cbn [product]. replace (j + 1 + (k - j))%nat with (S k) by lia. ring.
Qed.
Lemma coef_nonneg agen k j : (forall i, 0 <= agen i <= 1) -> 0 <= coef agen k j.
Proof.
  intros Ha. unfold coef. apply Rmult_le_pos; [destruct (Nat.eqb j 0); [lra|apply Ha]|].
  induction (k - j)%nat as [|n IH]; cbn; [lra|]. apply Rmult_le_pos; auto. specialize (Ha (j + 1 + n)%nat). lra.
Qed.

Lemma weighted_step agen k (bs : list (list X)) b : length bs = S k ->
  weighted agen (S k) (bs ++ [b]) = map (fun p => ((1 - agen (S k)) * fst p, snd p)) (weighted agen k bs) ++ map (fun x => (agen (S k) * (1 / INR (length b)), x)) b.
Proof.
  intros L. unfold weighted. replace (seq 0 (S k + 1)) with (seq 0 (S k) ++ [S k]) by (rewrite (seq_app (S k) 1 0); reflexivity).
  rewrite combine_app by (rewrite seq_length; auto). rewrite flat_map_app. f_equal.
  - replace (k + 1)%nat with (S k) by lia.
    assert (G : forall l : list (nat * list X), Forall (fun jb => (fst jb <= k)%nat) l ->
      flat_map (fun jb => map (fun x => (coef agen (S k) (fst jb) / INR (length (snd jb)), x)) (snd jb)) l =
      map (fun p => ((1 - agen (S k)) * fst p, snd p)) (flat_map (fun jb => map (fun x => (coef agen k (fst jb) / INR (length (snd jb)), x)) (snd jb)) l)).
    { induction 1 as [|[j c] l Hj F IH]; cbn; auto. rewrite map_app, IH. f_equal. rewrite map_map. apply map_ext. intros x. cbn. f_equal. cbn in Hj. rewrite coef_step by auto. unfold Rdiv. ring. }
    apply G. apply Forall_forall. intros [j c] I. apply in_combine_l in I. apply in_seq in I. cbn. lia.
  - cbn. rewrite app_nil_r. apply map_ext. intros x. f_equal. unfold coef. replace (S k - S k)%nat with 0%nat by lia. cbn. unfold Rdiv. ring.
Qed.

Lemma updates_closed agen pct bs rs : (forall i, 0 <= agen i <= 1) -> 0 <= pct <= 100 -> Forall (fun b => b <> []) bs ->
  updates agen 0 pct 0 0 None bs = Ok rs -> forall k r, nth_error rs k = Some r ->
  combine (fst r) (snd r) = filter positive (weighted agen k (firstn (S k) bs)).
Proof.
  intros Ha Hp F H. destruct (updates_nth _ _ _ _ _ _ _ _ H) as [L A].
  assert (Hst := updates_states agen 0 pct 0 bs 0 None rs Ha (Rle_refl 0) Hp ltac:(intros w t; discriminate) F H).
  induction k as [|k IH]; intros r Hr.
  - destruct (nth_error bs 0) as [b|] eqn:Eb; [|apply nth_error_None in Eb; assert (0 < length rs)%nat by (apply nth_error_Some; congruence); lia].
    destruct (A 0%nat b Eb) as (r' & R1 & R2). rewrite Hr in R1. injection R1 as <-. destruct r as [w t].
    assert (Hb : b <> []) by (rewrite Forall_forall in F; apply F; eapply nth_error_In; eauto).
    cbn [fst snd]. rewrite (update_plain pct _ _ _ _ _ Hp (Ha _) (Hst 0%nat ltac:(lia)) Hb R2).
    destruct bs as [|b' bs']; [discriminate|]. cbn in Eb. injection Eb as ->. cbn. unfold weighted. cbn. rewrite app_nil_r.
    f_equal. apply map_ext. intros x. f_equal. unfold coef. cbn. field. apply not_0_INR. destruct b; [congruence|discriminate].
  - assert (Hk : (S k < length bs)%nat) by (rewrite <- L; apply nth_error_Some; congruence).
    destruct (nth_error bs (S k)) as [b|] eqn:Eb; [|apply nth_error_None in Eb; lia].
    destruct (A (S k) b Eb) as (r' & R1 & R2). rewrite Hr in R1. injection R1 as <-. destruct r as [w t].
    assert (Hb : b <> []) by (rewrite Forall_forall in F; apply F; eapply nth_error_In; eauto).
    cbn [fst snd]. rewrite (update_plain pct _ _ _ _ _ Hp (Ha _) (Hst (S k) ltac:(lia)) Hb R2). cbn [before].
    destruct (nth_error rs k) as [[w0 t0]|] eqn:E0; [|apply nth_error_None in E0; lia].
    specialize (IH _ eq_refl). cbn [fst snd] in IH. cbn [candidates plus]. rewrite IH.
    assert (Ef : firstn (S (S k)) bs = firstn (S k) bs ++ [b]).
    { clear - Eb. revert bs Eb. generalize (S k). induction n as [|n IH]; intros [|c bs] Eb; cbn in *; try discriminate.
      - injection Eb as ->. auto. - f_equal. apply IH. auto. }
    rewrite Ef, weighted_step by (rewrite firstn_length; lia). rewrite !filter_app. f_equal.
    apply filter_scale; [specialize (Ha (S k)); lra|].
    apply Forall_forall. intros [x y] I. apply in_flat_map in I. destruct I as ([j c] & _ & I). apply in_map_iff in I. destruct I as (z & E & _).
    injection E as <- _. cbn. apply Rmult_le_pos; [apply coef_nonneg; auto|]. destruct c as [|c0 c]; [cbn in *; auto|].
    * cbn. rewrite Rinv_0. lra.
    * left. apply Rinv_0_lt_compat, lt_0_INR. cbn. lia.
Qed.

Lemma psaem_round (v : env Par X) agen eps pct mt M_ np mi fuel i st p h : total_env v ->
  (forall i, 0 <= agen i <= 1) -> 0 <= eps -> 0 <= pct <= 100 -> st_ok st ->
  exists r p' h1, st_ok (Some r) /\
    psaem_loop v (S fuel) agen eps pct mt M_ np mi false true i st p h =
    (do stop <- stop_test v mi p' (S i) ;
     if stop then ret p' else psaem_loop v fuel agen eps pct mt M_ np mi false true (S i) (Some r) p') h1.
Proof.
  intros (V1 & V2 & V3 & V4 & V5 & V6) Ha He Hp Hs. cbn [psaem_loop].
  destruct (V1 h p) as [u E1]. rewrite (bind_run _ _ _ _ _ (call_ok _ _ _ _ E1)).
  match goal with |- context[bind (call _ (ESim ?a ?b)) _ ?h0] => destruct (V2 h0 a b) as (l & E2 & Hne) end.
  rewrite (bind_run _ _ _ _ _ (call_ok _ _ _ _ E2)). unfold new_trajs. rewrite (bind_run _ _ _ _ _ eq_refl).
  erewrite (bind_run (call _ (fun _ => ECond l))) by (apply call_ok; reflexivity).
  rewrite (bind_run _ _ _ _ _ (call_opt_ok (v_cbsim v) _ _ (fun g Eg => V3 g Eg _))).
  cbn [fst snd]. replace (S i - 1)%nat with i by lia.
  destruct (update_spec eps pct mt (agen i) st l He Hp (Ha i) Hs Hne) as (th & w & t & E & _ & _ & L & P & _).
  rewrite (lift_run _ _ _ _ E).
  match goal with |- context[bind (call _ (EMaxW ?a ?b)) _ ?h0] => destruct (V5 h0 a b) as (p1 & E4) end.
  rewrite (bind_run _ _ _ _ _ (call_ok _ _ _ _ E4)).
  exists (w, t), p1. eexists. split; [|reflexivity]. intros w' t' E'. injection E' as <- <-. auto.
Qed.

Lemma psaem_loop_total (v : env Par X) agen eps pct mt M_ np mi : total_env v -> v_cb v = None ->
  (forall i, 0 <= agen i <= 1) -> 0 <= eps -> 0 <= pct <= 100 ->
  forall fuel i st p h, st_ok st -> (Nat.max 1 (mi - i) <= fuel)%nat ->
  exists p' h', psaem_loop v fuel agen eps pct mt M_ np mi false true i st p h = Ok (p', h').
Proof.
  intros V Hcb Ha He Hp. induction fuel as [|fuel IH]; intros i st p h Hs Hf; [lia|].
  destruct (psaem_round v agen eps pct mt M_ np mi fuel i st p h V Ha He Hp Hs) as (r & p1 & h1 & Hr & ->).
  unfold stop_test. rewrite Hcb, (bind_run _ _ _ _ _ eq_refl). destruct (Nat.leb mi (S i)) eqn:E; [do 2 eexists; reflexivity|].
  apply Nat.leb_gt in E. apply IH; auto. lia.
Qed.

Lemma psaem_loop_forever (v : env Par X) agen eps pct mt M_ np mi f : total_env v -> v_cb v = Some f -> (forall h p i, f h p i = Ok false) ->
  (forall i, 0 <= agen i <= 1) -> 0 <= eps -> 0 <= pct <= 100 ->
  forall fuel i st p h, st_ok st -> psaem_loop v fuel agen eps pct mt M_ np mi false true i st p h = Err OutOfFuel.
Proof.
  intros V Hcb Hff Ha He Hp. induction fuel as [|fuel IH]; intros i st p h Hs; [reflexivity|].
  destruct (psaem_round v agen eps pct mt M_ np mi fuel i st p h V Ha He Hp Hs) as (r & p1 & h1 & Hr & ->).
  unfold stop_test. rewrite Hcb. erewrite bind_run by (apply call_ok; apply Hff). apply IH; auto.
Qed.

(** With [raoblackwell] only uninitialised memory is handed on. *)
Definition all_junk (v : env Par X) (t : list X) : Prop := Forall (fun x => exists h n, x = v_junk v h n) t.

Lemma compress_in {A} mask (l r : list A) : compress mask l = Ok r -> forall x, In x r -> In x l.
Proof.
  revert l r. induction mask as [|b mask IH]; intros [|a l] r H x Hx; cbn in H; try discriminate.
  - injection H as <-. auto.
  - minv H. injection H as <-. specialize (IH _ _ Hr x). destruct b; cbn in *; intuition.
Qed.

Lemma discard_in eps pct mt w (t : list X) w' t' : discard eps pct mt w t = Ok (w', t') -> forall x, In x t' -> In x t.
Proof.
  unfold discard. intros H x Hx. minv H. injection H as <- <-. eapply compress_in; [exact Hr1|].
  destruct (_ && _)%bool; auto. eapply in_skipn; exact Hx.
Qed.

Lemma psaem_junk (v : env Par X) agen eps pct mt M_ np mi opts fuel : forall i st p h p' h',
  psaem_loop v fuel agen eps pct mt M_ np mi true opts i st p h = Ok (p', h') ->
  (forall w t, st = Some (w, t) -> all_junk v t) -> Forall (fun r => all_junk v (snd r)) (maximised h) ->
  Forall (fun r => all_junk v (snd r)) (maximised h') /\ (length (maximised h) < length (maximised h'))%nat.
Proof.
  induction fuel as [|fuel IH]; intros i st p h p' h' H Hst Fh; cbn [psaem_loop] in H; [discriminate|].
  minv H. apply call_inv in Hm as [_ ->]. apply call_inv in Hm0 as [_ ->].
  cbn in Hm1. unfold bind in Hm1. destruct (v_lastw v ((h ++ [ESet p]) ++ [ESim np M_ a0])) as [lw|]; cbn in Hm1; [|discriminate]. injection Hm1 as <- <-.
  destruct opts; [|discriminate]. apply call_inv in Hm2 as [_ ->]. apply call_opt_inv in Hm3 as ->.
  apply call_inv in Hm4 as [_ ->]. apply stop_test_inv in Hm5 as ((ev & -> & _ & Ev2) & _ & _).
  set (h1 := (((((h ++ [ESet p]) ++ [ESim np M_ a0]) ++ [ECond a0]) ++ (if given (v_cbsim v) then [ECbSim] else [])) ++ [EMaxW (snd b) (fst b) a4]) ++ ev) in *.
  assert (Jb : all_junk v (snd b)).
  { destruct b as [w t]. unfold psaem_update in Hl. apply Forall_forall. intros x Hx. apply (discard_in _ _ _ _ _ _ _ Hl) in Hx.
    assert (Hj : forall x, In x (map (v_junk v ((h ++ [ESet p]) ++ [ESim np M_ a0])) (seq 0 (length lw))) -> exists h n, x = v_junk v h n).
    { intros z Hz. apply in_map_iff in Hz. destruct Hz as (n & <- & _). eauto. }
    destruct st as [[w0 t0]|]; cbn in Hx; [apply in_app_or in Hx; destruct Hx as [Hx|Hx]|]; auto.
    specialize (Hst w0 t0 eq_refl). unfold all_junk in Hst. rewrite Forall_forall in Hst. auto. }
  assert (M1 : maximised h1 = maximised h ++ [b]).
  { unfold h1. rewrite !maximised_app, maximised_opt, Ev2. cbn. rewrite <- ?app_assoc, ?app_nil_r. cbn. destruct b. auto. }
  assert (F1 : Forall (fun r => all_junk v (snd r)) (maximised h1)) by (rewrite M1; apply Forall_app; auto).
  destruct a5.
  - minv H. split; auto. rewrite M1, app_length. cbn. lia.
  - destruct (IH _ _ _ _ _ _ H) as [A B]; auto. { intros w t E. injection E as ->. auto. }
    split; auto. rewrite M1, app_length in B. cbn in B. lia.
Qed.

(** ** PSAEM2 *)
Definition rel (cap : nat) (st : pstate X) (s2 : p2state X) : Prop :=
  (p2_len s2 + cap <= length (p2_w s2))%nat /\
  match st with
  | None => p2_len s2 = 0%nat /\ p2_tr s2 = None
  | Some (w, t) => firstn (p2_len s2) (p2_w s2) = w /\ length w = p2_len s2 /\
      exists l, p2_tr s2 = Some l /\ firstn (p2_len s2) l = t /\ length t = p2_len s2
  end.

Lemma set_slice1_firstn {A} n (x : A) a : (n < length a)%nat -> firstn (n + 1) (set_slice1 n x a) = firstn n a ++ [x] /\ length (set_slice1 n x a) = length a.
Proof.
  intros H. unfold set_slice1. replace (Nat.ltb n (length a)) with true by (symmetry; apply Nat.ltb_lt; auto). split.
  - rewrite firstn_app, firstn_firstn, firstn_length. replace (n + 1 - Nat.min n (length a))%nat with 1%nat by lia. cbn. f_equal. f_equal. lia.
  - rewrite app_length, firstn_length. cbn. rewrite skipn_length. lia.
Qed.

Lemma compress_length {A} mask (l r : list A) : compress mask l = Ok r -> length r = (length mask - length (filter negb mask))%nat /\ length mask = length l.
Proof.
  revert l r. induction mask as [|b mask IH]; intros [|a l] r H; cbn in H; try discriminate.
  - injection H as <-. auto.
  - minv H. injection H as <-. destruct (IH _ _ Hr) as [E1 E2]. cbn [length]. split; [|lia].
    assert (length (filter negb mask) <= length mask)%nat by (clear; induction mask as [|b m IH]; cbn; [auto|destruct (negb b); cbn; lia]).
    destruct b; cbn [filter negb length]; lia.
Qed.

Lemma renorm_length w w' : renorm w = Ok w' -> length w' = length w.
Proof. unfold renorm. destruct w; [intros H; injection H as <-; auto|]. destruct (Req_EM_T _ _); [discriminate|]. intros H. injection H as <-. cbn; rewrite map_length; auto. Qed.

Lemma keep_mask_length eps pct w k : keep_mask eps pct w = Ok k -> length k = length w.
Proof. unfold keep_mask. intros H. minv H. injection H as <-. apply map_length. Qed.

(** The candidates of PSAEM2. *)
Lemma p2_core eps pct alpha (s2 : p2state X) cap x : (p2_len s2 + S cap <= length (p2_w s2))%nat ->
  (forall l, p2_tr s2 = Some l -> (p2_len s2 <= length l)%nat) -> (p2_tr s2 = None -> p2_len s2 = 0%nat) ->
  let w := map (Rmult (1 - alpha)) (firstn (p2_len s2) (p2_w s2)) ++ [alpha] in
  let t := match p2_tr s2 with Some l => firstn (p2_len s2) l | None => [] end ++ [x] in
  match discard eps pct 0 w t with
  | Ok r => exists s2', psaem2_update eps pct alpha s2 [x] = Ok s2' /\ rel cap (Some r) s2'
  | Err e => psaem2_update eps pct alpha s2 [x] = Err e
  end.
Proof.
  intros Hcap Htr Hn w t. unfold psaem2_update, discard. set (n := p2_len s2) in *.
  set (w1 := map (Rmult (1 - alpha)) (firstn n (p2_w s2)) ++ skipn n (p2_w s2)).
  assert (L1 : length w1 = length (p2_w s2)) by (unfold w1; rewrite app_length, map_length, firstn_length, skipn_length; lia).
  destruct (set_slice1_firstn n alpha w1 ltac:(lia)) as [E1 E2]. set (w2 := set_slice1 n alpha w1) in *.
  assert (Ew : firstn (n + 1) w2 = w).
  { rewrite E1. unfold w1, w. f_equal. rewrite firstn_app, map_length, firstn_length. replace (n - Nat.min n (length (p2_w s2)))%nat with 0%nat by lia.
    rewrite firstn_O, app_nil_r. rewrite firstn_map, firstn_firstn. f_equal. f_equal. lia. }
  set (tr1 := match p2_tr s2 with None => [x] | Some l => firstn n l ++ [x] end).
  assert (Et : tr1 = t) by (unfold tr1, t; destruct (p2_tr s2); auto).
  assert (Lt : length tr1 = (n + 1)%nat).
  { rewrite Et. unfold t. rewrite app_length. cbn [length]. f_equal. destruct (p2_tr s2) as [l|]; [rewrite firstn_length; specialize (Htr l eq_refl); lia|cbn; rewrite Hn; auto]. }
  rewrite Ew. assert (Lw : length w = (n + 1)%nat) by (unfold w; rewrite app_length, map_length, firstn_length; cbn; lia).
  destruct (keep_mask eps pct w) as [keep|e] eqn:Ek; cbn [rbind]; [|reflexivity].
  pose proof (keep_mask_length _ _ _ _ Ek) as Lk.
  destruct (compress keep w) as [wk|e] eqn:Ec; cbn [rbind]; [|reflexivity]. destruct (compress_length _ _ _ Ec) as [Lc _].
  assert (Hz : (length (filter negb keep) <= n + 1)%nat).
  { rewrite <- Lw, <- Lk. clear. induction keep as [|b m IH]; cbn; [auto|destruct (negb b); cbn; lia]. }
  set (n2 := (n + 1 - length (filter negb keep))%nat).
  assert (Lwk : length wk = n2) by (unfold n2; lia).
  replace (firstn (n + 1) tr1) with t by (rewrite <- Et, <- Lt, firstn_all; auto).
  destruct (compress keep t) as [tk|e] eqn:Ect; cbn [rbind].
  2: { unfold set_prefix. rewrite Lwk, Nat.min_l by lia. rewrite Nat.eqb_refl. reflexivity. }
  destruct (compress_length _ _ _ Ect) as [Lct _]. assert (Ltk : length tk = n2) by (unfold n2; lia).
  unfold set_prefix. rewrite Lwk, Ltk, !Nat.min_l, !Nat.eqb_refl by (try lia; rewrite ?Lt; unfold n2; lia). cbn [rbind andb Nat.ltb Nat.leb].
  replace (firstn n2 (wk ++ skipn n2 w2)) with wk by (rewrite firstn_app, Lwk, Nat.sub_diag, firstn_O, app_nil_r, <- Lwk, firstn_all; auto).
  destruct (renorm wk) as [wn|e] eqn:Er; cbn [rbind]; [|reflexivity].
  eexists. split; [reflexivity|]. pose proof (renorm_length _ _ Er) as Ln. split; cbn [p2_len p2_w p2_tr].
  - rewrite app_length, skipn_length, app_length, skipn_length. unfold n2 in *. lia.
  - assert (Ln2 : length wn = n2) by congruence. split; [rewrite firstn_app, Ln2, Nat.sub_diag, firstn_O, app_nil_r, <- Ln2, firstn_all; auto|]. split; [auto|].
    exists (tk ++ skipn n2 tr1). split; auto. split; auto. rewrite firstn_app, Ltk, Nat.sub_diag, firstn_O, app_nil_r, <- Ltk, firstn_all; auto.
Qed.

Lemma discard_single eps pct mt a (x : X) : 0 <= eps -> 0 <= pct <= 100 -> 0 < a -> discard eps pct mt [a] [x] = Ok ([1], [x]).
Proof.
  intros He Hp Ha. unfold discard, keep_mask, percentile. destruct (Rle_dec 0 pct) as [_|]; [|lra]. destruct (Rle_dec pct 100) as [_|]; [|lra].
  cbn [length Nat.sub INR]. replace (pct / 100 * 0) with 0 by ring.
  assert (Ef : nat_floor 0 = 0%nat). { destruct (nat_floor_spec 0 (Rle_refl 0)) as [A _]. destruct (nat_floor 0) as [|n]; auto. exfalso. rewrite S_INR in A. pose proof (pos_INR n). lra. }
  rewrite Ef. cbn. replace (a + (0 - 0) * (a - a)) with a by ring.
  replace (rltb a a) with false by (symmetry; apply rltb_false; lra). cbn.
  replace (rleb a (Rmin eps 0)) with false. 2: { symmetry. apply rleb_false. pose proof (Rmin_r eps 0). lra. }
  assert (En : renorm [a] = Ok [1]).
  { unfold renorm, total. cbn [fold_right map]. destruct (Req_EM_T (a + 0) 0) as [E|_]; [lra|]. do 2 f_equal. field. lra. }
  destruct mt as [|[|mt]]; cbn -[renorm total]; rewrite En; reflexivity.
Qed.

Lemma p2_update eps pct alpha (st : pstate X) s2 cap x : 0 <= eps -> 0 <= pct <= 100 -> (st = None -> 0 < alpha) -> rel (S cap) st s2 ->
  match psaem_update eps pct 0 alpha st [1 / INR 1] [x] with
  | Ok r => exists s2', psaem2_update eps pct alpha s2 [x] = Ok s2' /\ rel cap (Some r) s2'
  | Err e => psaem2_update eps pct alpha s2 [x] = Err e
  end.
Proof.
  intros He Hp Ha [Hc Hr]. destruct st as [[w t]|].
  - destruct Hr as (E1 & L1 & l & E2 & E3 & L3). pose proof (p2_core eps pct alpha s2 cap x Hc) as K. cbv zeta in K.
    rewrite E2, E1, E3 in K. unfold psaem_update. cbn [pw ptr option_map fst snd blend append_trajs map INR].
    replace (alpha * (1 / 1)) with alpha by field. apply K.
    + intros l' E. injection E as <-. rewrite <- E3, firstn_length in L3. lia. + discriminate.
  - destruct Hr as [E1 E2]. pose proof (p2_core eps pct alpha s2 cap x Hc) as K. cbv zeta in K. rewrite E1, E2 in K. cbn [firstn map app] in K.
    rewrite (discard_single eps pct 0 alpha x He Hp (Ha eq_refl)) in K. unfold psaem_update. cbn [pw ptr option_map blend append_trajs].
    rewrite discard_single by (auto; cbn; lra). apply K; [discriminate|auto].
Qed.

Lemma psaem2_loop_hist (v : env Par X) agen eps pct np opts : 0 <= eps -> 0 <= pct <= 100 -> 0 < agen 0%nat ->
  (forall h l, v_sim v h np 1 = Ok l -> length l = 1%nat) ->
  forall n i st s2 p h p' h', (i = 0%nat \/ st <> None) -> rel n st s2 -> psaem2_loop v n i agen eps pct np opts s2 p h = Ok (p', h') ->
  exists hs rs, h' = h ++ hs /\ length (sims hs) = n /\ updates agen eps pct 0 i st (sims hs) = Ok rs /\ maximised hs = rs.
Proof.
  intros He Hp Ha0 Hone. induction n as [|n IH]; intros i st s2 p h p' h' Hi Hrel H; cbn [psaem2_loop] in H.
  - minv H. exists [], []. rewrite app_nil_r. auto.
  - minv H. apply call_inv in Hm as [_ ->]. apply call_inv in Hm0 as [Es ->]. destruct opts; [|discriminate].
    apply call_inv in Hm1 as [_ ->]. apply call_opt_inv in Hm2 as ->. apply call_inv in Hm3 as [_ ->]. apply call_opt_inv in Hm4 as ->.
    rewrite given_map in H. pose proof (Hone _ _ Es) as L. destruct a0 as [|x [|]]; try discriminate.
    assert (K := p2_update eps pct (agen i) st s2 n x He Hp ltac:(intros ->; destruct Hi as [->|]; [auto|congruence]) Hrel).
    destruct (psaem_update eps pct 0 (agen i) st [1 / INR 1] [x]) as [r|e] eqn:Eu; [|congruence].
    destruct K as (s2' & E2 & Hrel'). rewrite E2 in Hl. injection Hl as <-.
    destruct r as [w t]. destruct Hrel' as (Hc & Ew & Lw & l & El & Et & Lt). rewrite El in *. rewrite Ew, Et in *.
    destruct (IH (S i) (Some (w, t)) s2' _ _ _ _ ltac:(right; discriminate) ltac:(split; [exact Hc|]; split; [exact Ew|]; split; [exact Lw|]; exists l; auto) H) as (hs & rs & E & Ls & Hu & Hmx).
    exists ([ESet p; ESim np 1 [x]; ECond [x]] ++ (if given (v_cbsim v) then [ECbSim] else []) ++ [EMaxW t w a3] ++ (if given (v_cb v) then [ECb a3 (i + 1)] else []) ++ hs), ((w, t) :: rs).
    split; [rewrite E; rewrite <- !app_assoc; reflexivity|].
    assert (Z : forall b : bool, sims (if b then [ECb a3 (i + 1)] else []) = @nil (list X) /\ maximised (if b then [ECb a3 (i + 1)] else []) = @nil (list R * list X)) by (intros []; auto).
    rewrite !sims_app, !maximised_app, sims_opt, maximised_opt, (proj1 (Z _)), (proj2 (Z _)). cbn [sims maximised flat_map app].
    split; [cbn; congruence|]. split; [|cbn; congruence]. cbn [updates map length]. rewrite Eu. cbn [rbind]. fold (sims hs). rewrite Hu. reflexivity.
Qed.
End Calls.

(** ** C49 *)

(** The default step sizes lie in (0,1], are 1 during the first 102 iterations and
    strictly decreasing afterwards; their sum diverges and the sum of their squares is
    bounded (the Robbins-Monro conditions stochastic approximation needs). *)
Theorem C49_step_sizes :
  (forall it, 0 < alpha_gen it <= 1) /\
  (forall it, (it <= 101)%nat -> alpha_gen it = 1) /\
  (forall i j, (101 <= i < j)%nat -> alpha_gen j < alpha_gen i) /\
  (forall B, exists n, B < partial_sum alpha_gen n) /\
  (exists B, forall n, partial_sum (fun k => Rsqr (alpha_gen k)) n <= B).
Proof.
  split; [apply alpha_range|]. split.
  - intros it H. destruct (Nat.eq_dec it 101) as [->|]; [|apply alpha_gen_early; lia].
    change 101%nat with (100 + 1)%nat. rewrite alpha_gen_late by lia. cbn [INR]. apply rpower_one.
  - split; [apply alpha_decreasing|]. split; [apply alpha_sum_diverges|]. exists 152. apply alpha_squares_bounded.
Qed.

(** ** Examples: an environment that returns two (or one) new trajectories per
    simulation. *)
Definition ex_env (per : nat) (cb : option (hist nat nat -> nat -> nat -> res bool)) : env nat nat :=
  mkEnv (fun _ _ => Ok tt) (fun h _ _ => Ok (map (fun k => (length h + k)%nat) (seq 0 (S per)))) (Some (fun _ => Ok tt))
    (fun h => Ok (length h)) (fun h _ _ => Ok (length h)) cb (fun _ => Ok [0; 1]) (fun _ n => n).

Lemma ex_env_total per cb : (forall f, cb = Some f -> forall h p i, exists b, f h p i = Ok b) -> total_env (ex_env per cb).
Proof.
  intros H. unfold total_env. cbn. repeat split; eauto.
  - intros h a b. eexists. split; [reflexivity|]. discriminate.
  - intros f E. injection E as <-. eauto.
Qed.

Lemma half_ok (i : nat) : 0 <= 1 / 2 <= 1. Proof. lra. Qed.

Example C49_example : alpha_gen 102 < alpha_gen 101 /\ alpha_gen 101 = 1.
Proof. destruct C49_step_sizes as (_ & B & C & _). split; [apply C; lia|apply B; lia]. Qed.

(** ** C50 *)

(** Simulations that return trajectories. *)
Lemma sims_nonempty {Par X} (v : env Par X) agen eps pct mt M_ np mi opts : (forall h' l, v_sim v h' np M_ = Ok l -> l <> []) ->
  forall fuel i st p h p' h', psaem_loop v fuel agen eps pct mt M_ np mi false opts i st p h = Ok (p', h') ->
  Forall (fun b : list X => b <> []) (sims h) -> Forall (fun b : list X => b <> []) (sims h').
Proof.
  intros Hne. induction fuel as [|fuel IH]; intros i st p h p' h' H F; cbn [psaem_loop] in H; [discriminate|].
  minv H. apply call_inv in Hm as [_ ->]. apply call_inv in Hm0 as [E0 ->]. cbn in Hm1. injection Hm1 as <- <-.
  destruct opts; [|discriminate]. apply call_inv in Hm2 as [_ ->]. apply call_opt_inv in Hm3 as ->.
  apply call_inv in Hm4 as [_ ->]. apply stop_test_inv in Hm5 as ((ev & -> & Ev1 & Ev2) & _ & _).
  match type of H with _ ?h1 = _ => assert (F1 : Forall (fun b : list X => b <> []) (sims h1)) end.
  { rewrite !sims_app, (sims_opt (Par := Par) (X := X)), Ev1. cbn. rewrite !app_nil_r. apply Forall_app. split; auto. constructor; auto. eapply Hne; eauto. }
  destruct a5; [minv H; auto|]. eapply IH; eauto.
Qed.

(** Whenever a PSAEM run ends, every maximisation was given one weight per trajectory,
    all positive and summing to one; and every trajectory is one of those simulated so
    far. *)
Theorem C50_psaem_probability : forall (Par X : Type) (v : env Par X) (fuel : nat) (agen : nat -> R) (eps pct : R)
    (max_traj M_ num_part max_iter : nat) (opts : bool) (p0 p : Par) (h : hist Par X),
  (forall i, 0 <= agen i <= 1) -> 0 <= eps -> 0 <= pct <= 100 ->
  (forall h' l, v_sim v h' num_part M_ = Ok l -> l <> []) ->
  psaem_maximize v fuel agen eps pct max_traj M_ num_part max_iter false opts p0 [] = Ok (p, h) ->
  length (maximised h) = length (sims h) /\
  forall k w t, nth_error (maximised h) k = Some (w, t) ->
    length w = length t /\ Forall (fun x => 0 < x) w /\ total w = 1 /\
    Forall (fun x => exists j b, (j <= k)%nat /\ nth_error (sims h) j = Some b /\ In x b) t.
Proof.
  intros Par X v fuel agen eps pct mt M_ np mi opts p0 p h Ha He Hp Hne H.
  destruct (psaem_loop_hist v agen eps pct mt M_ np mi opts fuel _ _ _ _ _ _ H) as (hs & rs & E & _ & Hu & Hm & _).
  cbn in E. subst hs. assert (F := sims_nonempty v agen eps pct mt M_ np mi opts Hne fuel _ _ _ _ _ _ H (Forall_nil _)).
  rewrite Hm. destruct (updates_nth _ _ _ _ _ _ _ _ Hu) as [L A]. split; auto.
  assert (Hst := updates_states agen eps pct mt (sims h) 0 None rs Ha He Hp ltac:(intros ? ? E; discriminate E) F Hu).
  intros k w t Hk. assert (Hlt : (k < length (sims h))%nat) by (rewrite <- L; apply nth_error_Some; congruence).
  destruct (Hst (S k) ltac:(lia) w t Hk) as [[P1 P2] P3]. split; auto. split; auto. split; auto.
  revert w t Hk P1 P2 P3. induction k as [|k IH]; intros w t Hk P1 P2 P3.
  - destruct (nth_error (sims h) 0) as [b|] eqn:Eb; [|apply nth_error_None in Eb; lia].
    destruct (A 0%nat b Eb) as (r & R1 & R2). rewrite Hk in R1. injection R1 as <-. unfold psaem_update in R2.
    apply Forall_forall. intros x Hx. apply (discard_in _ _ _ _ _ _ _ R2) in Hx. exists 0%nat, b. auto.
  - destruct (nth_error (sims h) (S k)) as [b|] eqn:Eb; [|apply nth_error_None in Eb; lia].
    destruct (A (S k) b Eb) as (r & R1 & R2). rewrite Hk in R1. injection R1 as <-. unfold psaem_update in R2.
    apply Forall_forall. intros x Hx. apply (discard_in _ _ _ _ _ _ _ R2) in Hx. cbn [before ptr] in Hx.
    destruct (nth_error rs k) as [[w0 t0]|] eqn:E0; cbn in Hx.
    + destruct (Hst (S k) ltac:(lia) w0 t0 E0) as [[Q1 Q2] Q3]. specialize (IH ltac:(lia) w0 t0 eq_refl Q1 Q2 Q3).
      apply in_app_or in Hx. destruct Hx as [Hx|Hx]; [|exists (S k), b; auto].
      rewrite Forall_forall in IH. destruct (IH x Hx) as (j & c & Hj & Hc). exists j, c. split; auto.
    + exists (S k), b. auto.
Qed.

(** Without discarding (discard_eps = 0, no limit), the weight of each trajectory is the
    step size of the iteration that drew it, times (1 - step size) for each later
    iteration, divided by the number drawn together; trajectories whose weight has become
    zero are dropped, nothing else is. *)
Theorem C50_psaem_weights : forall (Par X : Type) (v : env Par X) (fuel : nat) (agen : nat -> R) (pct : R)
    (M_ num_part max_iter : nat) (opts : bool) (p0 p : Par) (h : hist Par X),
  (forall i, 0 <= agen i <= 1) -> 0 <= pct <= 100 ->
  (forall h' l, v_sim v h' num_part M_ = Ok l -> l <> []) ->
  psaem_maximize v fuel agen 0 pct 0 M_ num_part max_iter false opts p0 [] = Ok (p, h) ->
  forall k w t, nth_error (maximised h) k = Some (w, t) ->
    combine w t = filter (fun p => negb (rleb (fst p) 0)) (weighted agen k (firstn (S k) (sims h))).
Proof.
  intros Par X v fuel agen pct M_ np mi opts p0 p h Ha Hp Hne H k w t Hk.
  assert (F := sims_nonempty v agen 0 pct 0 M_ np mi opts Hne fuel _ _ _ _ _ _ H (Forall_nil _)).
  destruct (psaem_loop_hist v agen 0 pct 0 M_ np mi opts fuel _ _ _ _ _ _ H) as (hs & rs & E & _ & Hu & Hm & _).
  cbn in E. subst hs. rewrite Hm in Hk. apply (updates_closed agen pct (sims h) rs Ha Hp F Hu k (w, t) Hk).
Qed.

Example C50_example : exists p h, psaem_maximize (ex_env 1 None) 3 (fun _ => 1 / 2) 0 0 0 2 5 3 false true 7%nat [] = Ok (p, h) /\ length (sims h) = 3%nat.
Proof.
  destruct (psaem_loop_total (ex_env 1 None) (fun _ => 1 / 2) 0 0 0 2 5 3 (ex_env_total 1 None ltac:(intros ? E; discriminate E)) eq_refl half_ok
    ltac:(lra) ltac:(lra) 3 0 None 7%nat [] ltac:(intros ? ? E; discriminate E) ltac:(cbn; lia)) as (p & h & E).
  exists p, h. split; auto. destruct (psaem_loop_hist _ _ _ _ _ _ _ _ _ _ _ _ _ _ _ _ E) as (hs & rs & -> & _ & _ & _ & Hn & _). apply Hn. auto.
Qed.

(** The weights in the third iteration of two new trajectories each, at step size 1/2. *)
Example C50_weights_example : weighted (fun _ => 1 / 2) 2 [[10; 11]; [20; 21]; [30; 31]]%nat =
  [(1 / 8, 10%nat); (1 / 8, 11%nat); (1 / 8, 20%nat); (1 / 8, 21%nat); (1 / 4, 30%nat); (1 / 4, 31%nat)].
Proof.
  unfold weighted, coef. cbn.
  replace (1 * (1 * (1 - 1 / 2) * (1 - 1 / 2)) / (1 + 1)) with (1 / 8) by field.
  replace (1 / 2 * (1 * (1 - 1 / 2)) / (1 + 1)) with (1 / 8) by field.
  replace (1 / 2 * 1 / (1 + 1)) with (1 / 4) by field. reflexivity.
Qed.

(** PSAEM2, which keeps weights and trajectories in preallocated arrays, hands exactly
    the same weighted trajectories to each maximisation as PSAEM (with M = 1 and no
    limit) does for the same simulated trajectories. *)
Theorem C60_psaem2_equals_psaem : forall (Par X : Type) (v : env Par X) (agen : nat -> R) (eps pct : R) (num_part max_iter : nat)
    (opts : bool) (junk : list R) (p0 p : Par) (h : hist Par X),
  0 <= eps -> 0 <= pct <= 100 -> 0 < agen 0%nat -> (0 < num_part)%nat -> (max_iter * num_part <= length junk)%nat ->
  (forall h' l, v_sim v h' num_part 1 = Ok l -> length l = 1%nat) ->
  psaem2_maximize v agen eps pct num_part max_iter opts junk p0 [] = Ok (p, h) ->
  length (sims h) = max_iter /\ updates agen eps pct 0 0 None (sims h) = Ok (maximised h) /\
  (forall Par' (v' : env Par' X) fuel np' mi' p0' p' h', psaem_maximize v' fuel agen eps pct 0 1 np' mi' false true p0' [] = Ok (p', h') ->
     sims h' = sims h -> maximised h' = maximised h).
Proof.
  intros Par X v agen eps pct np mi opts junk p0 p h He Hp Ha Hnp Hj Hone H.
  destruct (psaem2_loop_hist v agen eps pct np opts He Hp Ha Hone mi 0 None (mkP2 (firstn (mi * np) junk) None 0) p0 [] p h) as (hs & rs & E & L & Hu & Hm); auto.
  { split; cbn; auto. rewrite firstn_length. nia. }
  cbn in E. subst hs. rewrite Hm. split; auto. split; auto.
  intros Par' v' fuel np' mi' p0' p' h' H' Es.
  destruct (psaem_loop_hist v' agen eps pct 0 1 np' mi' true fuel _ _ _ _ _ _ H') as (hs & rs' & E & _ & Hu' & Hm' & _).
  cbn in E. subst hs. rewrite Es, Hu in Hu'. injection Hu' as <-. auto.
Qed.

(** With [raoblackwell=True] none of the trajectories given to the maximisation comes
    from the simulation: all of them are uninitialised memory. *)
Theorem C61_raoblackwell_refuted : forall (Par X : Type) (v : env Par X) (fuel : nat) (agen : nat -> R) (eps pct : R)
    (max_traj M_ num_part max_iter : nat) (opts : bool) (p0 p : Par) (h : hist Par X),
  psaem_maximize v fuel agen eps pct max_traj M_ num_part max_iter true opts p0 [] = Ok (p, h) ->
  maximised h <> [] /\ Forall (fun r => Forall (fun x => exists h' n, x = v_junk v h' n) (snd r)) (maximised h).
Proof.
  intros Par X v fuel agen eps pct mt M_ np mi opts p0 p h H.
  destruct (psaem_junk v agen eps pct mt M_ np mi opts fuel _ _ _ _ _ _ H) as [F L]; [intros ? ? E; discriminate E|constructor|].
  split; [intros E; rewrite E in L; cbn in L; lia|exact F].
Qed.

(** ** C51 *)

(** The candidates of iteration [k]: the previous trajectories with their weights scaled
    down, then the new ones. *)
Definition candidates_at {Par X} (agen : nat -> R) (h : hist Par X) (k : nat) : list (R * X) :=
  match k with
  | O => map (fun x => (1 / INR (length (nth 0 (sims h) [])), x)) (nth 0 (sims h) [])
  | S k' =>
      let (w, t) := nth k' (maximised h) ([], []) in
      map (fun p => ((1 - agen k) * fst p, snd p)) (combine w t) ++
      map (fun x => (agen k * (1 / INR (length (nth k (sims h) []))), x)) (nth k (sims h) [])
  end.

(** In every iteration discarding keeps, in order, the candidates above a threshold that
    is at most discard_eps (and of those the last max_traj), each with its own weight
    divided by a common positive number; some trajectory is always kept, and fewer than
    discard_percentile% of the candidates, rounded up, are discarded with a positive
    weight. *)
Theorem C51_discard : forall (Par X : Type) (v : env Par X) (fuel : nat) (agen : nat -> R) (eps pct : R)
    (max_traj M_ num_part max_iter : nat) (opts : bool) (p0 p : Par) (h : hist Par X),
  (forall i, 0 <= agen i <= 1) -> 0 <= eps -> 0 <= pct <= 100 ->
  (forall h' l, v_sim v h' num_part M_ = Ok l -> l <> []) ->
  psaem_maximize v fuel agen eps pct max_traj M_ num_part max_iter false opts p0 [] = Ok (p, h) ->
  forall k w t, nth_error (maximised h) k = Some (w, t) ->
  exists threshold scale (keep : list (R * X)), 0 <= threshold <= eps /\ 0 < scale /\
    let c := candidates_at agen h k in
    let above := filter (fun p => negb (rleb (fst p) threshold)) c in
    keep = (if (Nat.ltb 0 max_traj && Nat.ltb max_traj (length above))%bool then last_n max_traj above else above) /\
    keep <> [] /\ ((0 < max_traj)%nat -> (length keep <= max_traj)%nat) /\
    t = map snd keep /\ w = map (fun p => fst p / scale) keep /\ total w = 1 /\
    INR (length (filter (fun p => rltb 0 (fst p) && rleb (fst p) threshold) c)) < pct / 100 * INR (length c - 1) + 1.
Proof.
  intros Par X v fuel agen eps pct mt M_ np mi opts p0 p h Ha He Hp Hne H k w t Hk.
  assert (F := sims_nonempty v agen eps pct mt M_ np mi opts Hne fuel _ _ _ _ _ _ H (Forall_nil _)).
  destruct (psaem_loop_hist v agen eps pct mt M_ np mi opts fuel _ _ _ _ _ _ H) as (hs & rs & E & _ & Hu & Hm & _).
  cbn in E. subst hs. rewrite Hm in Hk. destruct (updates_nth _ _ _ _ _ _ _ _ Hu) as [L A].
  assert (Hst := updates_states agen eps pct mt (sims h) 0 None rs Ha He Hp ltac:(intros ? ? E; discriminate E) F Hu).
  assert (Hlt : (k < length (sims h))%nat) by (rewrite <- L; apply nth_error_Some; congruence).
  destruct (nth_error (sims h) k) as [b|] eqn:Eb; [|apply nth_error_None in Eb; lia].
  destruct (A k b Eb) as (r & R1 & R2). rewrite Hk in R1. injection R1 as <-.
  assert (Hb : b <> []) by (rewrite Forall_forall in F; apply F; eapply nth_error_In; eauto).
  destruct (update_spec eps pct mt (agen (0 + k)%nat) _ b He Hp (Ha _) (Hst k ltac:(lia)) Hb) as (th & w' & t' & E' & Hth & Hc & L' & [P1 P2] & _ & _ & Ec).
  rewrite E' in R2. injection R2 as -> ->. cbn [plus] in *.
  assert (Eq : candidates (agen k) (before None rs k) b = candidates_at agen h k).
  { unfold candidates_at. destruct k as [|k]; cbn [before candidates].
    - rewrite (nth_error_nth _ _ [] Eb). reflexivity.
    - destruct (nth_error rs k) as [[w0 t0]|] eqn:E0; [|apply nth_error_None in E0; lia].
      rewrite Hm, (nth_error_nth _ _ ([], []) E0), (nth_error_nth _ _ [] Eb). reflexivity. }
  rewrite Eq in *. set (keep := survivors th mt (candidates_at agen h k)) in *.
  assert (Ew : map fst (combine w t) = w /\ map snd (combine w t) = t).
  { clear - L'. revert t L'. induction w as [|a w IH]; intros [|x t] L'; cbn in *; try lia; auto. destruct (IH t) as [-> ->]; auto. }
  destruct Ew as [Ew1 Ew2]. rewrite Ec in Ew1, Ew2. rewrite map_map in Ew1, Ew2. cbn [fst snd] in *.
  assert (Hkn : keep <> []). { intros E0. rewrite E0 in Ew1. cbn in Ew1. subst w. cbn in P2. lra. }
  exists th, (total (map fst keep)), keep. split; auto. split.
  { apply total_pos; [destruct keep; [congruence|discriminate]|]. apply Forall_map, Forall_forall. intros q Hq. apply survivors_in in Hq. lra. }
  split; [reflexivity|]. split; auto. split; [apply survivors_length|]. split; auto.
Qed.

Example C51_example : exists p h, psaem_maximize (ex_env 1 None) 3 (fun _ => 1 / 2) (1 / 5) 50 3 2 5 3 false true 7%nat [] = Ok (p, h) /\
  (forall h' l, v_sim (ex_env 1 None) h' 5 2 = Ok l -> l <> []).
Proof.
  destruct (psaem_loop_total (ex_env 1 None) (fun _ => 1 / 2) (1 / 5) 50 3 2 5 3 (ex_env_total 1 None ltac:(intros ? E; discriminate E)) eq_refl half_ok
    ltac:(lra) ltac:(lra) 3 0 None 7%nat [] ltac:(intros ? ? E; discriminate E) ltac:(cbn; lia)) as (p & h & E).
  exists p, h. split; auto. intros h' l El. cbn in El. injection El as <-. discriminate.
Qed.

(** ** C52 *)

(** A finished EM run made exactly max_iter rounds of calls, in this order: set the
    parameters, simulate with the sizes of that round, callback_sim, maximise, callback;
    each round starts from the parameters the previous one returned and the last ones are
    the result.  The tolerance plays no role. *)
Theorem C52_em_calls : forall (Par X : Type) (v : env Par X) (p0 p : Par) (num_part num_traj : sizes) (max_iter : nat) (tol : R) (h : hist Par X),
  em_maximize v p0 num_part num_traj max_iter tol [] = Ok (p, h) ->
  exists rounds : list (list X * Par), length rounds = max_iter /\
    h = em_trace (given (v_cbsim v)) (given (v_cb v)) num_part num_traj 0 p0 rounds /\ p = last (map snd rounds) p0 /\
    length (sims h) = max_iter /\ (forall tol', em_maximize v p0 num_part num_traj max_iter tol' [] = Ok (p, h)).
Proof.
  intros Par X v p0 p np nt mi tol h H. destruct (em_loop_trace v np nt mi 0 p0 [] p h H) as (rounds & L & E & El).
  exists rounds. split; auto. split; auto. split; auto. split; [|auto].
  cbn in E. subst h. rewrite <- L. clear. generalize 0%nat. revert p0. induction rounds as [|[sm p'] r IH]; intros p0 i; auto.
  cbn [em_trace]. rewrite !sims_app, (sims_opt (Par := Par) (X := X)). cbn [length app]. cbn. f_equal. destruct (given (v_cb v)); cbn; apply IH.
Qed.

(** It does finish, whatever tolerance is given, if no call raises and the schedules are
    not empty. *)
Theorem C52_em_total : forall (Par X : Type) (v : env Par X) (p0 : Par) (num_part num_traj : sizes) (max_iter : nat) (tol : R),
  total_env v -> nonempty_sizes num_part -> nonempty_sizes num_traj ->
  exists p h, em_maximize v p0 num_part num_traj max_iter tol [] = Ok (p, h).
Proof. intros. apply em_loop_total; auto. Qed.

Example C52_example : exists p h, em_maximize (ex_env 1 (Some (fun _ _ _ => Ok false))) 7%nat (Sched [100; 200]%nat) (Scalar 10) 4 0 [] = Ok (p, h) /\
  size_at (Sched [100; 200]%nat) 0 = 100%nat /\ size_at (Sched [100; 200]%nat) 1 = 200%nat /\ size_at (Sched [100; 200]%nat) 3 = 200%nat.
Proof.
  destruct (C52_em_total _ _ (ex_env 1 (Some (fun _ _ _ => Ok false))) 7%nat (Sched [100; 200]%nat) (Scalar 10) 4 0) as (p & h & E); cbn; auto; try discriminate.
  - apply ex_env_total. intros f E. injection E as <-. eauto. - exists p, h. auto.
Qed.

(** PSAEM with the default callback makes max_iter iterations (but at least one). *)
Theorem C52_psaem_iterations : forall (Par X : Type) (v : env Par X) (fuel : nat) (agen : nat -> R) (eps pct : R)
    (max_traj M_ num_part max_iter : nat) (p0 : Par),
  total_env v -> v_cb v = None -> (forall i, 0 <= agen i <= 1) -> 0 <= eps -> 0 <= pct <= 100 -> (Nat.max 1 max_iter <= fuel)%nat ->
  exists p h, psaem_maximize v fuel agen eps pct max_traj M_ num_part max_iter false true p0 [] = Ok (p, h) /\ length (sims h) = Nat.max 1 max_iter.
Proof.
  intros Par X v fuel agen eps pct mt M_ np mi p0 V Hcb Ha He Hp Hf.
  destruct (psaem_loop_total v agen eps pct mt M_ np mi V Hcb Ha He Hp fuel 0 None p0 []) as (p & h & E); [intros ? ? E; discriminate E|lia|].
  exists p, h. split; auto. destruct (psaem_loop_hist _ _ _ _ _ _ _ _ _ _ _ _ _ _ _ _ E) as (hs & rs & -> & _ & _ & _ & Hn & _). cbn [app]. rewrite (Hn Hcb). lia.
Qed.

(** A user callback replaces that test: if it never returns a true value, the loop never
    ends, whatever max_iter is. *)
Theorem C52_psaem_callback_never_stops : forall (Par X : Type) (v : env Par X) (f : hist Par X -> Par -> nat -> res bool) (fuel : nat) (agen : nat -> R) (eps pct : R)
    (max_traj M_ num_part max_iter : nat) (p0 : Par),
  total_env v -> v_cb v = Some f -> (forall h p i, f h p i = Ok false) -> (forall i, 0 <= agen i <= 1) -> 0 <= eps -> 0 <= pct <= 100 ->
  psaem_maximize v fuel agen eps pct max_traj M_ num_part max_iter false true p0 [] = Err OutOfFuel.
Proof. intros. eapply psaem_loop_forever; eauto. intros ? ? E; discriminate E. Qed.

Example C52_never_example : psaem_maximize (ex_env 1 (Some (fun _ _ _ => Ok false))) 1000 alpha_gen 0 0 0 1 5 3 false true 7%nat [] = Err OutOfFuel.
Proof.
  eapply C52_psaem_callback_never_stops; [|reflexivity| | | |]; auto; try lra.
  - apply ex_env_total. intros f E. injection E as <-. eauto. - intros i. pose proof (alpha_range i). lra.
Qed.

(** Without a filter_options dictionary (the default) PSAEM and PSAEM2 never finish an
    iteration. *)
Theorem C52_psaem_needs_options : forall (Par X : Type) (v : env Par X) (fuel : nat) (agen : nat -> R) (eps pct : R)
    (max_traj M_ num_part max_iter : nat) (rb : bool) (p0 : Par) (junk : list R),
  (exists e, psaem_maximize v fuel agen eps pct max_traj M_ num_part max_iter rb false p0 [] = Err e) /\
  ((0 < max_iter)%nat -> exists e, psaem2_maximize v agen eps pct num_part max_iter false junk p0 [] = Err e).
Proof.
  intros. split.
  - unfold psaem_maximize. destruct fuel as [|fuel]; cbn [psaem_loop]; [eexists; reflexivity|].
    match goal with |- exists e, ?x = Err e => destruct x as [[? ?]|] eqn:E; [exfalso|eauto] end. minv E; discriminate.
  - intros Hmi. unfold psaem2_maximize. destruct max_iter as [|n]; [lia|]. cbn [psaem2_loop].
    match goal with |- exists e, ?x = Err e => destruct x as [[? ?]|] eqn:E; [exfalso|eauto] end. minv E; discriminate.
Qed.

(** ** C59 *)

(** SAEM never finishes an iteration: with at least one requested, it always raises. *)
Theorem C59_saem_refuted : forall (Par X : Type) (v : env Par X) (num_part num_traj : sizes) (max_iter : nat) (p0 : Par),
  (0 < max_iter)%nat -> exists e, saem_maximize v p0 num_part num_traj max_iter [] = Err e.
Proof.
  intros Par X v np nt mi p0 H. unfold saem_maximize. destruct mi as [|mi]; [lia|].
  match goal with |- exists e, ?x = Err e => destruct x as [[? ?]|] eqn:E; [exfalso|eauto] end. minv E; discriminate.
Qed.

(** Even if every call succeeds, with IndexError. *)
Example C59_example : saem_maximize (ex_env 1 None) 7%nat (Scalar 100) (Scalar 10) 5 [] = Err IndexError.
Proof. reflexivity. Qed.

Example C60_example : exists p h, psaem2_maximize (ex_env 0 None) (fun _ => 1 / 2) 0 0 4 3 true (repeat 0 12) 7%nat [] = Ok (p, h) /\
  (forall h' l, v_sim (ex_env 0 None) h' 4 1 = Ok l -> length l = 1%nat).
Proof.
  cut (exists p h, psaem2_maximize (ex_env 0 None) (fun _ => 1 / 2) 0 0 4 3 true (repeat 0 12) 7%nat [] = Ok (p, h)).
  { intros (p & h & E). exists p, h. split; auto. intros h' l E'. cbn in E'. injection E' as <-. reflexivity. }
  unfold psaem2_maximize.
  assert (G : forall n i st s2 p h, (i = 0%nat \/ st <> None) -> st_ok st -> rel n st s2 -> exists p' h', psaem2_loop (ex_env 0 None) n i (fun _ => 1 / 2) 0 0 4 true s2 p h = Ok (p', h')).
  { induction n as [|n IH]; intros i st s2 p h Hi Hs Hr; cbn [psaem2_loop]; [do 2 eexists; reflexivity|].
    rewrite (bind_run _ _ _ _ _ (call_ok _ _ _ tt eq_refl)). erewrite (bind_run (call _ (ESim 4 1))) by (apply call_ok; reflexivity).
    erewrite (bind_run (call _ (fun _ => ECond _))) by (apply call_ok; reflexivity).
    cbn [ex_env v_cbsim v_cb v_maxw option_map]. erewrite (bind_run (call_opt (Some _) _)) by (apply call_opt_ok; intros g E; injection E as <-; eauto).
    set (x := (length (h ++ [ESet p]) + 0)%nat). change (map (fun k : nat => (length (h ++ [ESet p]) + k)%nat) (seq 0 1)) with [x].
    assert (K := p2_update 0 0 (1 / 2) st s2 n x ltac:(lra) ltac:(lra) ltac:(lra) Hr).
    destruct (update_spec 0 0 0 (1 / 2) st [x] ltac:(lra) ltac:(lra) ltac:(lra) Hs ltac:(discriminate)) as (th & w & t & E & _ & _ & L & P & _).
    change (map (fun _ : nat => 1 / INR (length [x])) [x]) with [1 / INR 1] in E. rewrite E in K. destruct K as (s2' & E2 & Hr').
    rewrite (lift_run _ _ _ _ E2). cbv zeta. erewrite (bind_run (call _ (EMaxW _ _))) by (apply call_ok; reflexivity). rewrite (bind_run _ _ _ _ _ eq_refl).
    apply (IH (S i) (Some (w, t))); auto; [right; discriminate|]. intros w' t' E'. injection E' as <- <-. auto. }
  apply (G 3%nat 0%nat None); auto; [intros ? ? E; discriminate E|]. split; cbn; auto; lia.
Qed.

Print Assumptions C49_step_sizes.
Print Assumptions C50_psaem_probability.
Print Assumptions C50_psaem_weights.
Print Assumptions C60_psaem2_equals_psaem.
Print Assumptions C61_raoblackwell_refuted.
Print Assumptions C51_discard.
Print Assumptions C52_em_calls.
Print Assumptions C52_em_total.
Print Assumptions C52_psaem_iterations.
Print Assumptions C52_psaem_callback_never_stops.
Print Assumptions C52_psaem_needs_options.
Print Assumptions C59_saem_refuted.
