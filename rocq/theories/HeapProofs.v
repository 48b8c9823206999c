(** A small Hoare logic for HeapModel and the frame of every filter.  Nothing here models code. *)
From Coq Require Import Bool Reals List Arith Lia.
From Verif Require Import Base XR SampleModel PAModel FilterModel TrajModel HeapModel HeapSpec.
Import ListNotations.
Local Open Scope monad_scope.

Lemma keepsl_refl {A} pr (l : list A) : keepsl pr l l.
Proof. split; auto. Qed.
Lemma keepsl_trans {A} pr (l l' l'' : list A) : keepsl pr l l' -> keepsl pr l' l'' -> keepsl pr l l''.
Proof. intros [L H] [L' H']; split; [lia|]. intros i Hi Hp. rewrite H' by (auto; lia). auto. Qed.
Lemma keepsl_weak {A} (pr pr' : nat -> Prop) (l l' : list A) : (forall i, (i < length l)%nat -> pr' i -> pr i) -> keepsl pr l l' -> keepsl pr' l l'.
Proof. intros Hw [L H]; split; auto. Qed.
Lemma keepsl_app {A} pr (l x : list A) : keepsl pr l (l ++ x).
Proof. split; [rewrite app_length; lia|]. intros i Hi _. now rewrite nth_error_app1. Qed.
Lemma put_length {A} (l : list A) i x : length (put l i x) = length l.
Proof. revert i; induction l as [|b l IH]; intros [|i]; simpl; auto. Qed.
Lemma put_nth_neq {A} (l : list A) i j x : i <> j -> nth_error (put l i x) j = nth_error l j.
Proof. revert i j; induction l as [|b l IH]; intros [|i] [|j] H; simpl; auto; try congruence. Qed.
Lemma put_nth_eq {A} (l : list A) i x : (i < length l)%nat -> nth_error (put l i x) i = Some x.
Proof. revert i; induction l as [|b l IH]; intros [|i] H; simpl in *; try lia; auto. apply IH; lia. Qed.
Lemma keepsl_put {A} (pr : nat -> Prop) (l : list A) i x : ~ pr i -> keepsl pr l (put l i x).
Proof. intros H; split; [rewrite put_length; lia|]. intros j _ Hp. apply put_nth_neq. intros ->; auto. Qed.

Section Logic.
Context {W P U Y V : Type}.
Notation hst := (hst W P).
Notation hmodel := (hmodel W P U Y V).
Notation HM := (@HM W P).
Variable s0 : hst.
(** protected cells *)
Variables pp pw pa_ : nat -> Prop.
Variable L0 : list nat.

(** Locations that may be written. *)
Definition free (pr : nat -> Prop) {A} (l : list A) (i : nat) : Prop := (i < length l)%nat -> ~ pr i.
Definition fp := free pp (h_part s0).
Definition fw := free pw (h_w s0).
Definition fa := free pa_ (h_pa s0).
(** Arrays that exist and may be written; objects that may be written, with such arrays. *)
Definition okp (s : hst) (i : nat) : Prop := fp i /\ (i < length (h_part s))%nat.
Definition okw (s : hst) (i : nat) : Prop := fw i /\ (i < length (h_w s))%nat.
Definition okx (s : hst) (i : nat) : Prop := (length (h_idx s0) <= i < length (h_idx s))%nat.
Definition own (s : hst) (pa : nat) : Prop := fa pa /\ exists a, nth_error (h_pa s) pa = Some a /\ okp s (ha_part a) /\ okw s (ha_w a).
(** The protected cells are as in [s0], and the objects [L0] may be written (also after an exception). *)
Definition kept0 (s : hst) : Prop :=
  keepsl pp (h_part s0) (h_part s) /\ keepsl pw (h_w s0) (h_w s) /\ extends (h_idx s0) (h_idx s) /\ keepsl pa_ (h_pa s0) (h_pa s).
Definition kept (s : hst) : Prop := kept0 s /\ Forall (own s) L0.
(** The objects [L], particle arrays [LP] and weight arrays [LW] may be written; the index arrays [LI] are new. *)
Definition owns (L LP LW LI : list nat) (s : hst) : Prop := Forall (own s) L /\ Forall (okp s) LP /\ Forall (okw s) LW /\ Forall (okx s) LI.

(** [x], started where the protected cells are as in [s0] and [I] holds, keeps the protected cells (also when it raises) and,
    when it returns, establishes [Q]. *)
Definition safe {A} (I : hst -> Prop) (x : HM A) (Q : A -> hst -> Prop) : Prop :=
  forall s, kept s -> I s -> kept (snd (x s)) /\ match fst (x s) with Ok a => Q a (snd (x s)) | Err _ => True end.

Lemma owns_weak L LP LW LI L' LP' LW' LI' s : incl L' L -> incl LP' LP -> incl LW' LW -> incl LI' LI -> owns L LP LW LI s -> owns L' LP' LW' LI' s.
Proof. intros A B C D (HA & HB & HC & HD). repeat split; eapply incl_Forall; eassumption. Qed.
Lemma safe_ret {A} L LP LW LI (a : A) (Q : A -> hst -> Prop) : (forall s, owns L LP LW LI s -> Q a s) -> safe (owns L LP LW LI) (eret a) Q.
Proof. intros H s K HI; simpl; auto. Qed.
Lemma safe_raise {A} L LP LW LI e (Q : A -> hst -> Prop) : safe (owns L LP LW LI) (eraise e) Q.
Proof. intros s K HI; simpl; auto. Qed.
Lemma safe_lift {A} L LP LW LI (x : res A) : safe (owns L LP LW LI) (elift x) (fun _ => owns L LP LW LI).
Proof. intros s K HI; simpl; split; auto. destruct x; auto. Qed.
Lemma safe_bind {A B} (I : hst -> Prop) (x : HM A) (f : A -> HM B) (R : A -> hst -> Prop) (Q : B -> hst -> Prop) :
  safe I x R -> (forall a, safe (R a) (f a) Q) -> safe I (ebind x f) Q.
Proof.
  intros Hx Hf s K HI. unfold ebind. destruct (Hx s K HI) as [K1 R1]. destruct (x s) as [[a|e] s1]; simpl in *; [|auto].
  exact (Hf a s1 K1 R1).
Qed.
Lemma safe_post {A} L LP LW LI (x : HM A) (Q R : A -> hst -> Prop) : (forall a s, Q a s -> R a s) -> safe (owns L LP LW LI) x Q -> safe (owns L LP LW LI) x R.
Proof. intros H Hx s K HI. destruct (Hx s K HI) as [K1 HQ]. split; auto. destruct (fst (x s)); auto. Qed.
Lemma safe_pre {A} L LP LW LI L' LP' LW' LI' (x : HM A) (Q : A -> hst -> Prop) : incl L' L -> incl LP' LP -> incl LW' LW -> incl LI' LI ->
  safe (owns L' LP' LW' LI') x Q -> safe (owns L LP LW LI) x Q.
Proof. intros A1 A2 A3 A4 Hx s K HI. apply Hx; auto. eapply owns_weak; eassumption. Qed.
Lemma safe_if {A} (b : bool) L LP LW LI (x y : HM A) Q : safe (owns L LP LW LI) x Q -> safe (owns L LP LW LI) y Q -> safe (owns L LP LW LI) (if b then x else y) Q.
Proof. destruct b; auto. Qed.

(** ** Steps that keep the protected cells *)
Lemma owns_later L LP LW LI s s' : extends (h_pa s) (h_pa s') -> (length (h_part s) <= length (h_part s'))%nat ->
  (length (h_w s) <= length (h_w s'))%nat -> (length (h_idx s) <= length (h_idx s'))%nat -> owns L LP LW LI s -> owns L LP LW LI s'.
Proof.
  intros [E H] Lp Lw Li (HA & HB & HC & HD). split; [|split; [|split]].
  - eapply Forall_impl; [|exact HA]. intros pa (F & a & Ha & [G1 G2] & [G3 G4]). split; auto. exists a; split.
    + rewrite H; auto; [|exact I]. apply nth_error_Some; congruence.
    + split; split; auto; lia.
  - eapply Forall_impl; [|exact HB]. intros i [F Hi]; split; auto; lia.
  - eapply Forall_impl; [|exact HC]. intros i [F Hi]; split; auto; lia.
  - eapply Forall_impl; [|exact HD]. intros i Hi; red in Hi |- *; lia.
Qed.
Lemma keepsl_free {A} (pr : nat -> Prop) (l l' l'' : list A) i :
  keepsl pr l l' -> free pr l i -> keepsl (but i) l' l'' -> keepsl pr l l''.
Proof.
  intros [L H] F [L' H']. split; [lia|]. intros j Hj Hp. rewrite H'; auto; [lia|]. intros ->. exact (F Hj Hp).
Qed.
Lemma extends_free {A} (pr : nat -> Prop) (l l' l'' : list A) : keepsl pr l l' -> extends l' l'' -> keepsl pr l l''.
Proof. intros [L H] [L' H']. split; [lia|]. intros j Hj Hp. rewrite H'; auto; [lia|exact I]. Qed.
Lemma own_later L s s' : extends (h_pa s) (h_pa s') -> (length (h_part s) <= length (h_part s'))%nat ->
  (length (h_w s) <= length (h_w s'))%nat -> Forall (own s) L -> Forall (own s') L.
Proof.
  intros [E H] Lp Lw HA.
  eapply Forall_impl; [|exact HA]. intros pa (F & a & Ha & [G1 G2] & [G3 G4]). split; auto. exists a; split.
  - rewrite H; auto; [|exact I]. apply nth_error_Some; congruence.
  - split; split; auto; lia.
Qed.
Lemma kept_all s s' : kept s -> keeps_all s s' -> kept s'.
Proof.
  intros [(A & B & C & D) O] (A' & B' & C' & D'). split; [repeat split; try (eapply extends_free; eassumption)|].
  eapply own_later; [exact D'|apply A'|apply B'|exact O].
Qed.
Lemma kept_but p s s' : fp p -> kept s -> keeps_but p s s' -> kept s'.
Proof.
  intros F [(A & B & C & D) O] (A' & B' & C' & D'). split; [|eapply own_later; [exact D'|apply A'|apply B'|exact O]].
  split; [eapply keepsl_free; eassumption|]. repeat split; try (eapply extends_free; eassumption).
Qed.
Lemma free_new (pr : nat -> Prop) {A} (l l' : list A) i : keepsl pr l l' -> (length l' <= i)%nat -> free pr l i.
Proof. intros [L _] H Hi. lia. Qed.
Lemma in_owns_p L LP LW LI s i : In i LP -> owns L LP LW LI s -> okp s i.
Proof. intros Hi (_ & H & _). rewrite Forall_forall in H. auto. Qed.
Lemma in_owns_w L LP LW LI s i : In i LW -> owns L LP LW LI s -> okw s i.
Proof. intros Hi (_ & _ & H & _). rewrite Forall_forall in H. auto. Qed.
Lemma in_owns_a L LP LW LI s i : In i L -> owns L LP LW LI s -> own s i.
Proof. intros Hi (H & _). rewrite Forall_forall in H. auto. Qed.

(** Callbacks *)
Lemma safe_new_part L LP LW LI (x : HM nat) : returns_new h_part x -> safe (owns L LP LW LI) x (fun l => owns L (l :: LP) LW LI).
Proof.
  intros H s K Hs. destruct (H s) as [Ka F]. split; [eapply kept_all; eassumption|].
  unfold fresh in F. destruct (fst (x s)) as [l|]; auto.
  assert (O : owns L LP LW LI (snd (x s))) by (eapply owns_later; [| | | |exact Hs]; apply Ka).
  destruct O as (A & B & C & D). repeat split; auto. constructor; auto. split; [eapply free_new; [apply K|lia]|lia].
Qed.
Lemma safe_new_w L LP LW LI (x : HM nat) : returns_new h_w x -> safe (owns L LP LW LI) x (fun l => owns L LP (l :: LW) LI).
Proof.
  intros H s K Hs. destruct (H s) as [Ka F]. split; [eapply kept_all; eassumption|].
  unfold fresh in F. destruct (fst (x s)) as [l|]; auto.
  assert (O : owns L LP LW LI (snd (x s))) by (eapply owns_later; [| | | |exact Hs]; apply Ka).
  destruct O as (A & B & C & D). repeat split; auto. constructor; auto. split; [eapply free_new; [apply K|lia]|lia].
Qed.
Lemma safe_keeps {A} L LP LW LI (x : HM A) : (forall s, keeps_all s (snd (x s))) -> safe (owns L LP LW LI) x (fun _ => owns L LP LW LI).
Proof.
  intros H s K Hs. specialize (H s). split; [eapply kept_all; eassumption|]. destruct (fst (x s)); auto.
  eapply owns_later; [| | | |exact Hs]; apply H.
Qed.
Lemma safe_keeps_but {A} L LP LW LI p (x : HM A) : In p LP -> (forall s, keeps_but p s (snd (x s))) -> safe (owns L LP LW LI) x (fun _ => owns L LP LW LI).
Proof.
  intros Hp H s K Hs. specialize (H s). destruct (in_owns_p _ _ _ _ _ _ Hp Hs) as [Fp _].
  split; [eapply kept_but; eassumption|]. destruct (fst (x s)); auto. eapply owns_later; [| | | |exact Hs]; apply H.
Qed.
Lemma safe_keeps_but_w L LP LW LI p (x : HM nat) : In p LP -> (forall s, keeps_but p s (snd (x s)) /\ fresh h_w s (x s)) ->
  safe (owns L LP LW LI) x (fun l => owns L LP (l :: LW) LI).
Proof.
  intros Hp H s K Hs. destruct (H s) as [Kb F]. destruct (in_owns_p _ _ _ _ _ _ Hp Hs) as [Fp _].
  split; [eapply kept_but; eassumption|]. unfold fresh in F. destruct (fst (x s)) as [l|]; auto.
  assert (O : owns L LP LW LI (snd (x s))) by (eapply owns_later; [| | | |exact Hs]; apply Kb).
  destruct O as (A & B & C & D). repeat split; auto. constructor; auto. split; [eapply free_new; [apply K|lia]|lia].
Qed.

(** Primitives *)
Lemma returns_new_part x : returns_new h_part (new_part x : HM nat).
Proof.
  intros s; split; [|unfold fresh; simpl; rewrite app_length; simpl; lia].
  split; [|split; [|split]]; simpl; try apply keepsl_refl; apply keepsl_app.
Qed.
Lemma returns_new_w x : returns_new h_w (new_w x : HM nat).
Proof.
  intros s; split; [|unfold fresh; simpl; rewrite app_length; simpl; lia].
  split; [|split; [|split]]; simpl; try apply keepsl_refl; apply keepsl_app.
Qed.
Lemma sp_new_part L LP LW LI x : safe (owns L LP LW LI) (new_part x) (fun l => owns L (l :: LP) LW LI).
Proof. apply safe_new_part, returns_new_part. Qed.
Lemma sp_new_w L LP LW LI x : safe (owns L LP LW LI) (new_w x) (fun l => owns L LP (l :: LW) LI).
Proof. apply safe_new_w, returns_new_w. Qed.
Lemma sp_new_idx L LP LW LI x : safe (owns L LP LW LI) (new_idx x) (fun l => owns L LP LW (l :: LI)).
Proof.
  intros s K Hs. assert (Ka : keeps_all s (snd (new_idx x s))).
  { split; [|split; [|split]]; simpl; try apply keepsl_refl; apply keepsl_app. }
  split; [eapply kept_all; eassumption|]. simpl.
  assert (O : owns L LP LW LI (set_idxs s (h_idx s ++ [x]))) by (eapply owns_later; [| | | |exact Hs]; apply Ka).
  destruct O as (A & B & C & D). repeat split; auto. constructor; auto. red; simpl. rewrite app_length; simpl.
  destruct K as [(_ & _ & [Lx _] & _) _]. lia.
Qed.
Lemma sp_new_pa L LP LW LI x : In (ha_part x) LP -> In (ha_w x) LW -> safe (owns L LP LW LI) (new_pa x) (fun l => owns (l :: L) LP LW LI).
Proof.
  intros Gp Gw s K HL. simpl. split.
  - apply (kept_all s); auto. split; [|split; [|split]]; simpl; try apply keepsl_refl. apply keepsl_app.
  - assert (O : owns L LP LW LI (set_pas s (h_pa s ++ [x]))) by (eapply owns_later; [| | | |exact HL]; simpl; auto; apply keepsl_app).
    destruct (in_owns_p _ _ _ _ _ _ Gp O). destruct (in_owns_w _ _ _ _ _ _ Gw O). destruct O as (A & B & C & D). split; [|split; auto].
    constructor; auto. split; [eapply free_new; [apply K|lia]|]. exists x; split; [|split; split; auto]. simpl.
    rewrite nth_error_app2, Nat.sub_diag by lia. reflexivity.
Qed.
Lemma sp_get {A} L LP LW LI (x : hst -> res A) : safe (owns L LP LW LI) (fun s => (x s, s)) (fun _ => owns L LP LW LI).
Proof. intros s K HL; simpl; split; auto. destruct (x s); auto. Qed.
Lemma sp_get_part L LP LW LI i : safe (owns L LP LW LI) (get_part i) (fun _ => owns L LP LW LI).
Proof. apply sp_get. Qed.
Lemma sp_get_w L LP LW LI i : safe (owns L LP LW LI) (get_w i) (fun _ => owns L LP LW LI).
Proof. apply sp_get. Qed.
Lemma sp_get_idx L LP LW LI i : safe (owns L LP LW LI) (get_idx i) (fun _ => owns L LP LW LI).
Proof. apply sp_get. Qed.
Lemma sp_get_pa L LP LW LI i : safe (owns L LP LW LI) (get_pa i) (fun _ => owns L LP LW LI).
Proof. apply sp_get. Qed.
(** Reading an object that may be written. *)
Lemma sp_get_pa_own L LP LW LI i : In i L -> safe (owns L LP LW LI) (get_pa i) (fun a => owns L (ha_part a :: LP) (ha_w a :: LW) LI).
Proof.
  intros Hi s K HL; simpl; split; auto. destruct (idx (h_pa s) i) as [a|] eqn:E; auto.
  destruct (in_owns_a _ _ _ _ _ _ Hi HL) as (_ & a' & Ha & G1 & G2). apply idx_ok in E. replace a' with a in * by congruence.
  destruct HL as (A & B & C & D). repeat split; auto.
Qed.
Lemma sp_put_part L LP LW LI i x : In i LP -> safe (owns L LP LW LI) (put_part i x) (fun _ => owns L LP LW LI).
Proof.
  intros Hi. apply (safe_keeps_but L LP LW LI i); auto. intros s. split; [|split; [|split]]; simpl; try apply keepsl_refl.
  apply keepsl_put. unfold but; auto.
Qed.
Lemma sp_put_w L LP LW LI i x : In i LW -> safe (owns L LP LW LI) (put_w i x) (fun _ => owns L LP LW LI).
Proof.
  intros Hi s K HL; simpl. destruct (in_owns_w _ _ _ _ _ _ Hi HL) as [F _]. split.
  - destruct K as [(A & B & C & D) O]. split; [split; [exact A|split; [|split; [exact C|exact D]]]|]; simpl.
    + eapply keepsl_free; [exact B|exact F|]. apply keepsl_put. unfold but; auto.
    + eapply own_later; [| | |exact O]; simpl; auto; [apply keepsl_refl|rewrite put_length; lia].
  - eapply owns_later; [| | | |exact HL]; simpl; auto; [apply keepsl_refl|rewrite put_length; lia].
Qed.
Lemma in_owns_x L LP LW LI s i : In i LI -> owns L LP LW LI s -> okx s i.
Proof. intros Hi (_ & _ & _ & H). rewrite Forall_forall in H. auto. Qed.
Lemma sp_put_idx L LP LW LI i x : In i LI -> safe (owns L LP LW LI) (put_idx i x) (fun _ => owns L LP LW LI).
Proof.
  intros Hi s K HL; simpl. pose proof (in_owns_x _ _ _ _ _ _ Hi HL) as Hx. unfold okx in Hx. split.
  - destruct K as [(A & B & C & D) O]. split; [split; [exact A|split; [exact B|split; [|exact D]]]|]; simpl.
    + eapply keepsl_free with (i := i); [exact C|intros ?; lia|]. apply keepsl_put. unfold but; auto.
    + eapply own_later; [| | |exact O]; simpl; auto. apply keepsl_refl.
  - eapply owns_later; [| | | |exact HL]; simpl; auto; [apply keepsl_refl|rewrite put_length; lia].
Qed.
Lemma sp_put_pa L LP LW LI i x : In i L -> In (ha_part x) LP -> In (ha_w x) LW -> safe (owns L LP LW LI) (put_pa i x) (fun _ => owns L LP LW LI).
Proof.
  intros Hi Gp Gw s K HL; simpl. destruct (in_owns_p _ _ _ _ _ _ Gp HL). destruct (in_owns_w _ _ _ _ _ _ Gw HL).
  destruct (in_owns_a _ _ _ _ _ _ Hi HL) as (F & a & Ha & _ & _).
  assert (Hp : forall L1, Forall (own s) L1 -> Forall (own (set_pas s (put (h_pa s) i x))) L1).
  { intros L1 HA. rewrite Forall_forall in *. intros j Hj. destruct (HA j Hj) as (Fj & b & Hb & G).
    split; auto. simpl. destruct (Nat.eq_dec i j) as [->|N].
    + exists x. split; [|split; split; auto]. apply put_nth_eq. apply nth_error_Some; congruence.
    + exists b. split; auto. rewrite put_nth_neq; auto. }
  split.
  - destruct K as [(A & B & C & D) O]. split; [split; [exact A|split; [exact B|split; [exact C|]]]|]; simpl; auto.
    eapply keepsl_free; [exact D|exact F|]. apply keepsl_put. unfold but; auto.
  - destruct HL as (HA & HB & HC & HD). split; [|split; auto]. auto.
Qed.
Lemma sp_on_world {A} L LP LW LI (x : M W A) : safe (owns L LP LW LI) (on_world x) (fun _ => owns L LP LW LI).
Proof.
  intros s K HL. unfold on_world. destruct (x (h_world s)) as [[a w]|e]; simpl; auto.
Qed.
(** ** The library's functions *)
Variable hm : hmodel.
Variable g : rng W.
Hypothesis F : frame_ok hm.

Ltac inn := simpl; tauto.
Ltac incls := first [apply incl_refl | apply incl_nil_l | apply incl_tl; incls | (intros ?x Hx; simpl in *; tauto)].
Ltac callback :=
  first [ apply safe_new_part; first [apply (fo_create hm F) | apply (fo_copy hm F) | apply (fo_qsample hm F) | apply (fo_propose_y hm F)]
        | apply safe_new_w; first [apply (fo_xnext1 hm F) | apply (fo_stage1 hm F) | apply (fo_logp_q hm F) | apply (fo_logp_xnext hm F)]
        | apply safe_keeps; apply (fo_noise hm F)
        | eapply safe_keeps_but_w; [|first [apply (fo_measure hm F) | apply (fo_meas1 hm F)]]; inn
        | eapply safe_keeps_but; [|apply (fo_update hm F)]; inn ].
Ltac prim0 :=
  first [ apply safe_lift | apply sp_on_world | apply sp_new_part | apply sp_new_w | apply sp_new_idx
        | (apply sp_new_pa; inn) | apply sp_get_part | apply sp_get_w | apply sp_get_idx
        | (apply sp_get_pa_own; inn) | apply sp_get_pa
        | (apply sp_put_part; inn) | (apply sp_put_w; inn) | (apply sp_put_pa; inn) | callback ].
Ltac fin := apply safe_ret; let s := fresh in let O := fresh in intros s O; eapply owns_weak; [..|exact O]; incls.
Ltac forget x := eapply safe_post; [|x]; let a := fresh in let s := fresh in let O := fresh in
  intros a s O; eapply owns_weak; [..|exact O]; incls.
Ltac bnd p := lazymatch goal with |- safe _ (ebind _ _) _ => idtac end; eapply safe_bind; [p | let a := fresh "a" in intro a; cbv beta].

Lemma sp_part_of L LP LW LI pa : safe (owns L LP LW LI) (part_of pa) (fun _ => owns L LP LW LI).
Proof. unfold part_of. eapply safe_bind; [apply sp_get_pa|intro]. apply sp_get_part. Qed.
Lemma sp_w_of L LP LW LI pa : safe (owns L LP LW LI) (w_of pa) (fun _ => owns L LP LW LI).
Proof. unfold w_of. eapply safe_bind; [apply sp_get_pa|intro]. apply sp_get_w. Qed.
Lemma sp_set_part L LP LW LI pa p : In pa L -> In p LP -> safe (owns L LP LW LI) (set_part pa p) (fun _ => owns L LP LW LI).
Proof. intros. unfold set_part. bnd prim0. forget prim0. Qed.
Lemma sp_set_w L LP LW LI pa w : In pa L -> In w LW -> safe (owns L LP LW LI) (set_w pa w) (fun _ => owns L LP LW LI).
Proof. intros. unfold set_w. bnd prim0. forget prim0. Qed.
Lemma sp_add_off L LP LW LI pa m : In pa L -> safe (owns L LP LW LI) (add_off pa m) (fun _ => owns L LP LW LI).
Proof. intros. unfold add_off. bnd prim0. forget prim0. Qed.

Lemma sp_pa_init L LP LW LI p w : safe (owns L LP LW LI) (h_pa_init p w) (fun pa => owns (pa :: L) LP LW LI).
Proof.
  unfold h_pa_init. bnd prim0. bnd prim0.
  eapply safe_bind with (R := fun l => owns L (a0 :: LP) (l :: LW) LI).
  - destruct w; [bnd prim0; prim0|]. destruct a; [apply safe_raise|prim0].
  - intro. forget prim0.
Qed.
Ltac prim1 :=
  first [ prim0 | apply sp_part_of | apply sp_w_of | (apply sp_set_part; inn) | (apply sp_set_w; inn) | (apply sp_add_off; inn)
        | apply sp_pa_init ].

Lemma sp_resample L LP LW LI pa n : In pa L -> safe (owns L LP LW LI) (h_resample hm g pa n) (fun l => owns L LP LW (l :: LI)).
Proof. intros. unfold h_resample. repeat bnd prim1. fin. Qed.
Lemma sp_maybe_resample L LP LW LI thr pa : In pa L -> safe (owns L LP LW LI) (h_maybe_resample hm g thr pa) (fun ra => owns L LP LW (snd ra :: LI)).
Proof.
  intros. unfold h_maybe_resample. bnd prim1. apply safe_if; [|bnd prim1; fin]. bnd prim1. bnd prim1.
  apply safe_if; [|bnd prim1; fin]. eapply safe_bind; [apply sp_resample; inn|intro]. fin.
Qed.
Lemma sp_update L LP LW LI tr anc u y t k pa : In pa L -> safe (owns L LP LW LI) (h_update hm tr anc u y t k pa) (fun _ => owns L LP LW LI).
Proof. intros. unfold h_update. repeat bnd prim1. forget prim1. Qed.
Lemma sp_add_weights L LP LW LI pa nw : In pa L -> In nw LW -> safe (owns L LP LW LI) (h_add_weights pa nw) (fun _ => owns L LP LW LI).
Proof. intros. unfold h_add_weights. repeat bnd prim1. forget prim1. Qed.
Lemma sp_measure L LP LW LI tr anc pa u y t k : In pa L -> safe (owns L LP LW LI) (h_measure hm tr anc pa u y t k) (fun _ => owns L LP LW LI).
Proof. intros. unfold h_measure. repeat bnd prim1. forget ltac:(apply sp_add_weights; inn). Qed.
Lemma sp_cond_ancestor L LP LW LI wt w : safe (owns L LP LW LI) (h_cond_ancestor g wt w) (fun _ => owns L LP LW LI).
Proof. unfold h_cond_ancestor. bnd prim1. prim1. Qed.
Ltac prim :=
  first [ prim1 | (apply sp_resample; inn) | (apply sp_maybe_resample; inn) | (apply sp_update; inn) | (apply sp_add_weights; inn)
        | (apply sp_measure; inn) | apply sp_cond_ancestor ].

Definition fwd_post (r : hfwd) : hst -> Prop := owns [fst (fst r)] [] [] [snd r].
Lemma sp_pf thr tr y u t k : safe (owns [] [] [] []) (h_pf_forward hm g thr tr y u t k) fwd_post.
Proof. unfold h_pf_forward. repeat bnd prim. fin. Qed.
Lemma sp_sir thr tr y u t k : safe (owns [] [] [] []) (h_sir_forward hm g thr tr y u t k) fwd_post.
Proof. unfold h_sir_forward. repeat bnd prim. fin. Qed.
Lemma sp_csiras ct tr y u t k : safe (owns [] [] [] []) (h_csiras_forward hm g ct tr y u t k) fwd_post.
Proof. unfold h_csiras_forward. repeat bnd prim. fin. Qed.
Lemma sp_pfy N thr tr y u t k : safe (owns [] [] [] []) (h_pfy_forward hm g N thr tr y u t k) fwd_post.
Proof. unfold h_pfy_forward. repeat bnd prim. fin. Qed.
Lemma sp_pfy_measure N y t k : safe (owns [] [] [] []) (h_pfy_measure hm N y t k) (fun pa => owns [pa] [] [] []).
Proof. unfold h_pfy_measure. repeat bnd prim. forget prim. Qed.
Lemma sp_cpf_tail L LP LW LI ct tr anc y u t k pa : In pa L -> In anc LI -> safe (owns L LP LW LI) (h_cpf_tail hm ct tr anc y u t k pa) fwd_post.
Proof.
  intros. unfold h_cpf_tail. repeat bnd prim.
  assert (incl [pa] L) by (intros z [<-|[]]; assumption). assert (incl [anc] LI) by (intros z [<-|[]]; assumption).
  apply safe_if.
  - apply safe_ret; intros s O; eapply owns_weak; [..|exact O]; try incls; assumption.
  - bnd prim. apply safe_ret; intros s O; eapply owns_weak; [..|exact O]; try incls; assumption.
Qed.
Lemma sp_cpf ct tr y u t k : safe (owns [] [] [] []) (h_cpf_forward hm g ct tr y u t k) fwd_post.
Proof. unfold h_cpf_forward. repeat bnd prim. apply sp_cpf_tail; inn. Qed.
Lemma sp_cpfas ct tr y u t k : safe (owns [] [] [] []) (h_cpfas_forward hm g ct tr y u t k) fwd_post.
Proof. unfold h_cpfas_forward. repeat bnd prim. apply sp_cpf_tail; inn. Qed.
Lemma sp_cpfyas N ct tr y u t k : safe (owns [] [] [] []) (h_cpfyas_forward hm g N ct tr y u t k) fwd_post.
Proof. unfold h_cpfyas_forward. repeat bnd prim. fin. Qed.
Lemma sp_cpfyas_measure N ct y t k : safe (owns [] [] [] []) (h_cpfyas_measure hm N ct y t k) (fun pa => owns [pa] [] [] []).
Proof. unfold h_cpfyas_measure. repeat bnd prim. forget prim. Qed.
Lemma sp_create f N : safe (owns [] [] [] []) (h_create_initial hm f N) (fun p => owns [] [p] [] []).
Proof.
  unfold h_create_initial. destruct f; try prim; repeat bnd prim; fin.
Qed.
Lemma sp_apf thr tr y u t k : safe (owns [] [] [] []) (h_apf_forward hm g thr tr y u t k) fwd_post.
Proof.
  unfold h_apf_forward. do 4 bnd prim.
  eapply safe_bind with (R := fun _ => owns [a1] [] [] []); [apply safe_if; [fin|repeat bnd prim; fin]|intro l1w; cbv beta].
  bnd prim.
  eapply safe_bind with (R := fun _ => owns [a1] [] [] []); [apply safe_if; [fin|repeat bnd prim; fin]|intro cond; cbv beta].
  eapply safe_bind with (R := fun rs => owns [a1] [] [] [snd (fst rs)]).
  { apply safe_if; [|bnd prim; fin]. bnd prim. destruct l1w; [repeat bnd prim; fin|apply safe_raise]. }
  intro rs; cbv beta. do 2 bnd prim. destruct (snd rs); [|apply safe_raise]. repeat bnd prim. fin.
Qed.
Lemma sp_filter_forward f N tr y u t k : safe (owns [] [] [] []) (h_filter_forward hm g f N tr y u t k) fwd_post.
Proof.
  destruct f; simpl; auto using sp_pf, sp_apf, sp_pfy, sp_sir, sp_cpfyas, sp_cpfas, sp_cpf, sp_csiras.
Qed.
End Logic.
