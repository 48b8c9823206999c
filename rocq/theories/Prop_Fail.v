(** C71: what a call of forward() that raises leaves behind.  The statements are about HeapModel, where the trajectory object and the
    heap survive exceptions. *)
From Coq Require Import Bool Reals Lra List Arith Lia.
From Verif Require Import Base XR SampleModel PAModel FilterModel TrajModel ExampleModel HeapModel HeapSpec HeapProofs HeapTraj HeapOf Prop_Heap.
Import ListNotations.
Open Scope R_scope.

(** The recorded vectors are long enough for the bookkeeping of T. *)
Definition vec_ok {U Y} (o : hptraj U Y) : Prop :=
  (hp_T o <= length (hp_y o) /\ hp_T o <= length (hp_t o) /\ hp_T o <= length (hp_u o) + 1)%nat.
(** The time index has not fallen behind the stored steps. *)
Definition book_ok {U Y} (o : hptraj U Y) : Prop := vec_ok o /\ (length (hp_traj o) <= hp_ind1 o)%nat.

(** The filters that look up the stored step of the current time index. *)
Definition by_index (f : hfilt) : Prop :=
  match f with HPFY _ | HCPFYAS _ | HCPFAS _ | HCPF _ | HCSIRAS _ => True | _ => False end.

Section Fail.
Context {W P U Y V : Type}.
Variable hm : hmodel W P U Y V.
Variable g : rng W.

Notation stt := (hptraj U Y * hst W P)%type.

Lemma eb {S A B} (x : EM S A) (f : A -> EM S B) s : ebind x f s = match x s with (Ok a, s') => f a s' | (Err e, s') => (Err e, s') end.
Proof. reflexivity. Qed.

(** The bookkeeping of a call of [forward] on a started trajectory. *)
Lemma forward_shape u y (o : hptraj U Y) h i : vec_ok o -> hp_traj o <> [] -> hp_ind1 o = S i ->
  exists uv yv tv TT,
    h_forward hm g u y (o, h) =
      (let '(r, h') := h_filter_forward hm g (hp_f o) (hp_N o) (hp_traj o) yv uv tv i h in
       match r with
       | Ok (pa, rs, anc) => (Ok rs, (mkHPT (hp_N o) (hp_f o) uv yv tv TT (i + 2) (hp_traj o ++ [mkHS pa anc]), h'))
       | Err e => (Err e, (mkHPT (hp_N o) (hp_f o) uv yv tv TT (i + 2) (hp_traj o), h'))
       end) /\
    (TT <= length yv /\ TT <= length tv /\ TT <= length uv + 1)%nat /\
    nth_error uv i = Some (cell_of u) /\ nth_error yv (i + 1) = Some (cell_of y) /\
    (forall j c, (j <= i)%nat -> nth_error (hp_y o) j = Some c -> nth_error yv j = Some c) /\
    (forall j c, (j < i)%nat -> nth_error (hp_u o) j = Some c -> nth_error uv j = Some c).
Proof.
  intros (V1 & V2 & V3) Hne Hi. unfold h_forward. rewrite eb. unfold h_first_step at 1. rewrite eb. unfold self at 1. cbn [fst].
  destruct (hp_traj o) as [|s0 tr] eqn:Et; [congruence|]. clear Hne. unfold eret at 1.
  rewrite eb. unfold self at 1. cbn [fst]. rewrite eb, Hi. unfold eret at 1.
  assert (exists u1 y1 t1 T1, 
     (if Nat.leb (hp_T o) (i + 1)
      then with_vecs (resize CZero (i + 1) (hp_u o)) (resize CZero (i + 2) (hp_y o)) (resize 0%nat (i + 2) (hp_t o)) (i + 2)
      else eret tt) (o, h) = (Ok tt, (mkHPT (hp_N o) (hp_f o) u1 y1 t1 T1 (hp_ind1 o) (hp_traj o), h)) /\
     (i < length u1 /\ i + 1 < length y1 /\ i + 1 < length t1 /\ T1 <= length y1 /\ T1 <= length t1 /\ T1 <= length u1 + 1)%nat /\
     (forall j c, (j <= i)%nat -> nth_error (hp_y o) j = Some c -> nth_error y1 j = Some c) /\
     (forall j c, (j < i)%nat -> nth_error (hp_u o) j = Some c -> nth_error u1 j = Some c)) as (u1 & y1 & t1 & T1 & E & L & Ky & Ku).
  { destruct (Nat.leb_spec (hp_T o) (i + 1)).
    - do 4 eexists. split; [reflexivity|]. rewrite !resize_length. split; [lia|]. 
      split; intros j c Hj Hc; rewrite resize_nth;
        assert (j < length (hp_y o) \/ j < length (hp_u o))%nat as Hl by (first [left; apply nth_error_Some; congruence | right; apply nth_error_Some; congruence]).
      + replace (Nat.ltb j (i + 2)) with true by (symmetry; apply Nat.ltb_lt; lia).
        replace (Nat.ltb j (length (hp_y o))) with true by (symmetry; apply Nat.ltb_lt; apply nth_error_Some; congruence). auto.
      + replace (Nat.ltb j (i + 1)) with true by (symmetry; apply Nat.ltb_lt; lia).
        replace (Nat.ltb j (length (hp_u o))) with true by (symmetry; apply Nat.ltb_lt; apply nth_error_Some; congruence). auto.
    - exists (hp_u o), (hp_y o), (hp_t o), (hp_T o). split; [destruct o; reflexivity|]. split; [lia|]. auto. }
  rewrite eb.
  match type of E with _ = ?v => match goal with |- context [let (r, s') := ?x in _] => replace x with v by (exact (eq_sym E)) end end. clear E. rewrite eb. unfold self at 1. cbn [fst hp_u hp_y hp_t hp_T hp_f hp_N hp_traj].
  destruct (upd_ok u1 i (cell_of u)) as [uv Eu]; [lia|]. destruct (upd_ok y1 (i + 1) (cell_of y)) as [yv Ey]; [lia|].
  destruct (upd_ok t1 (i + 1) (i + 1)%nat) as [tv Etv]; [lia|].
  rewrite eb, Eu. unfold elift at 1. rewrite eb. unfold with_vecs at 1. cbn [fst snd hp_u hp_y hp_t hp_T hp_f hp_N hp_traj hp_ind1].
  rewrite eb, Ey. unfold elift at 1. rewrite eb. unfold with_vecs at 1. cbn [fst snd hp_u hp_y hp_t hp_T hp_f hp_N hp_traj hp_ind1].
  rewrite eb, Etv. unfold elift at 1. rewrite eb. unfold with_vecs at 1. cbn [fst snd hp_u hp_y hp_t hp_T hp_f hp_N hp_traj hp_ind1].
  rewrite eb. unfold with_ind1 at 1. cbn [fst snd hp_u hp_y hp_t hp_T hp_f hp_N hp_traj hp_ind1].
  rewrite eb. unfold on_heap at 1. cbn [snd fst]. exists uv, yv, tv, T1. rewrite Et.
  split.
  - destruct (h_filter_forward hm g (hp_f o) (hp_N o) (s0 :: tr) yv uv tv i h) as [[[[pa rs] anc]|e] h'];
      reflexivity.
  - rewrite (upd_length _ _ _ _ Eu), (upd_length _ _ _ _ Ey), (upd_length _ _ _ _ Etv). split; [lia|].
    rewrite (upd_nth _ _ _ _ Eu), Nat.eqb_refl, (upd_nth _ _ _ _ Ey), Nat.eqb_refl. split; [auto|]. split; [auto|]. split; intros j c Hj Hc.
    + rewrite (upd_nth _ _ _ _ Ey). replace (Nat.eqb j (i + 1)) with false by (symmetry; apply Nat.eqb_neq; lia). auto.
    + rewrite (upd_nth _ _ _ _ Eu). replace (Nat.eqb j i) with false by (symmetry; apply Nat.eqb_neq; lia). auto.
Qed.

(** The initial step: the object afterwards. *)
Lemma first_step_shape (o : hptraj U Y) h r o' h' : h_first_step hm (o, h) = (r, (o', h')) ->
  (hp_traj o <> [] /\ o' = o /\ r = Ok tt) \/
  (hp_traj o = [] /\ (exists st, r = Ok tt /\ o' = mkHPT (hp_N o) (hp_f o) (hp_u o) (hp_y o) (hp_t o) (hp_T o) 1 [st]) \/
   hp_traj o = [] /\ (exists e, r = Err e /\ o' = mkHPT (hp_N o) (hp_f o) (hp_u o) (hp_y o) (hp_t o) (hp_T o) 1 [])).
Proof.
  unfold h_first_step. rewrite eb. unfold self at 1. cbn [fst]. destruct (hp_traj o) as [|s0 tr] eqn:Et.
  - rewrite eb. unfold with_ind1 at 1. cbn [fst snd]. rewrite Et. rewrite eb. unfold on_heap at 1. cbn [snd fst].
    destruct (h_create_initial hm (hp_f o) (hp_N o) h) as [[p|e] h1].
    + rewrite eb. unfold on_heap at 1. cbn [snd fst]. destruct (h_pa_init p None h1) as [[pa|e] h2].
      * rewrite eb. unfold on_heap at 1. cbn [snd fst]. unfold new_idx at 1.
        unfold with_traj. cbn [fst snd hp_u hp_y hp_t hp_T hp_f hp_N hp_traj hp_ind1].
        intros E. inversion E; subst. right. left. split; auto. eexists. split; reflexivity.
      * intros E. inversion E; subst. right. right. split; auto. eexists. split; reflexivity.
    + intros E. inversion E; subst. right. right. split; auto. eexists. split; reflexivity.
  - unfold eret. intros E. inversion E; subst. left. split; [congruence|auto].
Qed.

Lemma forward_book u y (o : hptraj U Y) h r o' h' : book_ok o -> h_forward hm g u y (o, h) = (r, (o', h')) ->
  book_ok o' /\ hp_f o' = hp_f o /\
  (hp_traj o <> [] -> (hp_ind1 o' = hp_ind1 o + 1)%nat /\
     match r with Ok _ => exists st, hp_traj o' = hp_traj o ++ [st] | Err _ => hp_traj o' = hp_traj o end).
Proof.
  intros [Hv Hb] E.
  assert (K : forall o1 h1, vec_ok o1 -> hp_traj o1 <> [] -> (length (hp_traj o1) <= hp_ind1 o1)%nat ->
    h_forward hm g u y (o1, h1) = (r, (o', h')) ->
    book_ok o' /\ hp_f o' = hp_f o1 /\ (hp_ind1 o' = hp_ind1 o1 + 1)%nat /\
     match r with Ok _ => exists st, hp_traj o' = hp_traj o1 ++ [st] | Err _ => hp_traj o' = hp_traj o1 end).
  { intros o1 h1 Hv1 Hne Hb1 E1. destruct (hp_ind1 o1) as [|i] eqn:Ei.
    - destruct (hp_traj o1); [congruence|simpl in Hb1; lia].
    - destruct (forward_shape u y o1 h1 i Hv1 Hne Ei) as (uv & yv & tv & TT & Es & L & _). rewrite Es in E1.
      destruct (h_filter_forward hm g (hp_f o1) (hp_N o1) (hp_traj o1) yv uv tv i h1) as [[[[pa rs] anc]|e] h2]; inversion E1; subst.
      + split; [split; [exact L|]|].
        * cbn [hp_traj hp_ind1]. rewrite app_length. simpl. lia.
        * cbn. split; [auto|]. split; [lia|]. eexists; reflexivity.
      + split; [split; [exact L|]|].
        * cbn [hp_traj hp_ind1]. lia.
        * cbn. split; [auto|]. split; [lia|]. reflexivity. }
  destruct (hp_traj o) as [|s0 tr] eqn:Et.
  - (* the initial step is created first; afterwards the call goes on as on a started trajectory *)
    split; [|split; [|congruence]]; revert E;
    (unfold h_forward; rewrite eb; destruct (h_first_step hm (o, h)) as [r1 [o1 h1]] eqn:E1;
     destruct (first_step_shape _ _ _ _ _ E1) as [(X & _)|[(_ & st & -> & Eo)|(_ & e & -> & Eo)]]; [congruence| |]; intros E;
     [|inversion E; subst]).
    + assert (F : h_forward hm g u y (o1, h1) = (r, (o', h'))).
      { unfold h_forward. rewrite eb. subst o1. unfold h_first_step at 1. rewrite eb. unfold self at 1. cbn [fst hp_traj]. unfold eret at 1. exact E. }
      apply K in F; [tauto|subst o1; exact Hv|subst o1; discriminate|subst o1; simpl; lia].
    + split; [exact Hv|simpl; lia].
    + assert (F : h_forward hm g u y (o1, h1) = (r, (o', h'))).
      { unfold h_forward. rewrite eb. subst o1. unfold h_first_step at 1. rewrite eb. unfold self at 1. cbn [fst hp_traj]. unfold eret at 1. exact E. }
      apply K in F; [|subst o1; exact Hv|subst o1; discriminate|subst o1; simpl; lia].
      destruct F as (_ & F & _). rewrite F. subst o1. reflexivity.
    + reflexivity.
  - destruct (K o h) as (B1 & B2 & B3); auto; [congruence|rewrite Et; exact Hb|]. rewrite Et in B3. tauto.
Qed.

Lemma measure_book y (o : hptraj U Y) h r o' h' : book_ok o -> h_pt_measure hm y (o, h) = (r, (o', h')) ->
  book_ok o' /\ hp_f o' = hp_f o /\
  (hp_traj o <> [] -> hp_traj o' <> [] /\ (length (hp_traj o') - length (hp_traj o) <= hp_ind1 o' - hp_ind1 o)%nat /\ (hp_ind1 o <= hp_ind1 o')%nat).
Proof.
  intros [(V1 & V2 & V3) Hb]. unfold h_pt_measure. rewrite eb. unfold self at 1. cbn [fst]. rewrite eb.
  assert (exists u1 y1 t1 T1, 
     (if Nat.leb (hp_T o) (hp_ind1 o)
      then with_vecs (resize CZero (hp_ind1 o + 1) (hp_u o)) (resize CZero (hp_ind1 o + 1) (hp_y o)) (resize 0%nat (hp_ind1 o + 1) (hp_t o)) (hp_ind1 o + 1)
      else eret tt) (o, h) = (Ok tt, (mkHPT (hp_N o) (hp_f o) u1 y1 t1 T1 (hp_ind1 o) (hp_traj o), h)) /\
     (hp_ind1 o < length y1 /\ hp_ind1 o < length t1 /\ T1 <= length y1 /\ T1 <= length t1 /\ T1 <= length u1 + 1)%nat) as (u1 & y1 & t1 & T1 & E & L).
  { destruct (Nat.leb_spec (hp_T o) (hp_ind1 o)).
    - do 4 eexists. split; [reflexivity|]. rewrite !resize_length. lia.
    - exists (hp_u o), (hp_y o), (hp_t o), (hp_T o). split; [destruct o; reflexivity|]. lia. }
  match type of E with _ = ?v => match goal with |- context [let (r, s') := ?x in _] => replace x with v by (exact (eq_sym E)) end end. clear E.
  destruct (h_using_pfy (hp_f o)).
  - rewrite eb. unfold with_ind1 at 1. cbn [fst snd hp_u hp_y hp_t hp_T hp_f hp_N hp_traj hp_ind1].
    rewrite eb. unfold self at 1. cbn [fst snd hp_u hp_y hp_t hp_T hp_f hp_N hp_traj hp_ind1].
    destruct (upd_ok y1 (hp_ind1 o) (cell_of y)) as [yv Ey]; [lia|]. destruct (upd_ok t1 (hp_ind1 o) (hp_ind1 o)) as [tv Et]; [lia|].
    rewrite eb, Ey. unfold elift at 1. rewrite eb. unfold with_vecs at 1. cbn [fst snd hp_u hp_y hp_t hp_T hp_f hp_N hp_traj hp_ind1].
    rewrite eb, Et. unfold elift at 1. rewrite eb. unfold with_vecs at 1. cbn [fst snd hp_u hp_y hp_t hp_T hp_f hp_N hp_traj hp_ind1].
    rewrite eb. unfold on_heap at 1, new_idx at 1. cbn [fst snd].
    rewrite eb. unfold on_heap at 1. cbn [fst snd].
    assert (L' : vec_ok (mkHPT (hp_N o) (hp_f o) u1 yv tv T1 (hp_ind1 o + 1) (hp_traj o))).
    { unfold vec_ok. cbn. rewrite (upd_length _ _ _ _ Ey), (upd_length _ _ _ _ Et). lia. }
    match goal with |- (let (_, _) := (let '(_, _) := ?x in _) in _) = _ -> _ => destruct x as [[pa|e] h2] end;
      unfold with_traj; cbn [fst snd hp_u hp_y hp_t hp_T hp_f hp_N hp_traj hp_ind1]; intros E; inversion E; subst.
    + split; [split; [exact L'|cbn [hp_traj hp_ind1]; rewrite app_length; simpl; lia]|]. split; [reflexivity|].
      intros Hne. cbn [hp_traj hp_ind1]. rewrite app_length. split; [destruct (hp_traj o); discriminate|]. simpl. lia.
    + split; [split; [exact L'|cbn [hp_traj hp_ind1]; lia]|]. split; [reflexivity|].
      intros Hne. cbn [hp_traj hp_ind1]. split; [auto|]. lia.
  - rewrite eb. set (o1 := mkHPT (hp_N o) (hp_f o) u1 y1 t1 T1 (hp_ind1 o) (hp_traj o)).
    destruct (h_first_step hm (o1, h)) as [r1 [o2 h2]] eqn:E1.
    assert (B2 : book_ok o2 /\ hp_f o2 = hp_f o /\ (hp_traj o <> [] -> o2 = o1) /\ hp_u o2 = u1 /\ hp_y o2 = y1 /\ hp_t o2 = t1 /\ hp_T o2 = T1 /\
       (hp_ind1 o2 <= hp_ind1 o \/ hp_ind1 o2 = 1)%nat).
    { destruct (first_step_shape _ _ _ _ _ E1) as [(X & -> & _)|[(X & st & _ & ->)|(X & e & _ & ->)]]; subst o1; cbn in *.
      - repeat split; auto; cbn; lia.
      - repeat split; auto; cbn; try lia. congruence.
      - repeat split; auto; cbn; try lia. congruence. }
    destruct B2 as (B2 & F2 & S2 & U2 & Y2 & T2 & TT2 & I2).
    destruct r1 as [[]|e].
    2:{ intros E. inversion E; subst. split; [auto|]. split; [auto|]. intros Hne. rewrite (S2 Hne). subst o1. cbn. split; [auto|lia]. }
    rewrite eb. unfold self at 1. cbn [fst]. rewrite eb. destruct (hp_ind1 o2) as [|i] eqn:Ei.
    { unfold eraise. intros E. inversion E; subst o'. split; [auto|]. split; [auto|]. intros Hne. rewrite (S2 Hne). subst o1. cbn. split; [auto|lia]. }
    unfold eret at 1. rewrite eb.
    assert (Keep : forall (u0 : list (cell U)) (y0 : list (cell Y)) t0 T0, (T0 <= length y0 /\ T0 <= length t0 /\ T0 <= length u0 + 1)%nat ->
       book_ok (mkHPT (hp_N o2) (hp_f o2) u0 y0 t0 T0 (hp_ind1 o2) (hp_traj o2)) /\ hp_f o2 = hp_f o /\
       (hp_traj o <> [] -> hp_traj o2 <> [] /\ (length (hp_traj o2) - length (hp_traj o) <= hp_ind1 o2 - hp_ind1 o)%nat /\ (hp_ind1 o <= hp_ind1 o2)%nat)).
    { intros u0 y0 t0 T0 L0. split; [split; [exact L0|apply B2]|]. split; [auto|]. intros Hne. rewrite (S2 Hne). subst o1. cbn. split; [auto|lia]. }
    destruct (upd (hp_y o2) i (cell_of y)) as [yv|e] eqn:Ey.
    2:{ unfold elift. intros E. inversion E; subst o'. destruct (Keep u1 y1 t1 T1) as (_ & K2 & K3); [lia|]. split; [auto|]. split; auto. }
    unfold elift at 1. rewrite eb. unfold with_vecs at 1. cbn [fst snd].
    rewrite eb. destruct (upd (hp_t o2) i i) as [tv|e] eqn:Et.
    2:{ unfold elift. intros E. inversion E; subst o'. rewrite Ei in *. apply Keep. rewrite U2, TT2, T2, (upd_length _ _ _ _ Ey), Y2. lia. }
    unfold elift at 1. rewrite eb. unfold with_vecs at 1. cbn [fst snd hp_u hp_y hp_t hp_T hp_f hp_N hp_traj hp_ind1].
    assert (L2 : (hp_T o2 <= length yv /\ hp_T o2 <= length tv /\ hp_T o2 <= length (hp_u o2) + 1)%nat).
    { rewrite U2, TT2, (upd_length _ _ _ _ Ey), (upd_length _ _ _ _ Et), Y2, T2. lia. }
    rewrite eb. destruct (idx_last (hp_traj o2)) as [lst|e].
    2:{ unfold elift. intros E. inversion E; subst o'. rewrite Ei in *. apply Keep. exact L2. }
    unfold elift at 1. unfold on_heap. cbn [fst snd].
    match goal with |- (let '(_, _) := ?x in _) = _ -> _ => destruct x as [rr h3] end.
    intros E. inversion E; subst o'. rewrite Ei in *. apply Keep. exact L2.
Qed.

Lemma op_book op (o : hptraj U Y) h : book_ok o ->
  let o' := fst (snd (h_op hm g op (o, h))) in
  book_ok o' /\ hp_f o' = hp_f o /\
  (hp_traj o <> [] -> hp_traj o' <> [] /\
     ((length (hp_traj o) < hp_ind1 o)%nat -> (length (hp_traj o') < hp_ind1 o')%nat)).
Proof.
  intros Hb. destruct op as [u y|y]; unfold h_op.
  - rewrite eb. destruct (h_forward hm g u y (o, h)) as [r [o' h']] eqn:E. destruct (forward_book _ _ _ _ _ _ _ Hb E) as (B & F & S).
    destruct r as [b|e]; cbn [fst snd eret].
    + split; [auto|]. split; [auto|]. intros Hne. destruct (S Hne) as (I & st & Et). rewrite Et, I, app_length. split; [destruct (hp_traj o); discriminate|]. simpl. lia.
    + split; [auto|]. split; [auto|]. intros Hne. destruct (S Hne) as (I & Et). rewrite Et, I. split; [auto|]. lia.
  - destruct (h_pt_measure hm y (o, h)) as [r [o' h']] eqn:E. destruct (measure_book _ _ _ _ _ _ Hb E) as (B & F & S). cbn [fst snd].
    split; [auto|]. split; [auto|]. intros Hne. destruct (S Hne) as (X1 & X2 & X3). split; [auto|]. lia.
Qed.

Lemma run_book ops : forall (o : hptraj U Y) h, book_ok o ->
  let o' := fst (h_run hm g ops (o, h)) in
  book_ok o' /\ hp_f o' = hp_f o /\
  (hp_traj o <> [] -> hp_traj o' <> [] /\
     ((length (hp_traj o) < hp_ind1 o)%nat -> (length (hp_traj o') < hp_ind1 o')%nat)).
Proof.
  induction ops as [|op ops IH]; intros o h Hb; cbn [h_run].
  - cbn. tauto.
  - pose proof (op_book op o h Hb) as (B & F & S). destruct (h_op hm g op (o, h)) as [r [o1 h1]]. cbn [fst snd] in *.
    destruct (IH o1 h1 B) as (B' & F' & S'). split; [auto|]. split; [congruence|]. intros Hne. destruct (S Hne) as [N1 G1]. destruct (S' N1) as [N2 G2].
    split; [auto|]. auto.
Qed.

Lemma new_book N f : book_ok (h_new N f : hptraj U Y).
Proof. split; [unfold vec_ok, h_new; cbn; lia|cbn; lia]. Qed.

(** *** What no filter of the [by_index] kind survives *)
Definition fails {S A} (m : EM S A) : Prop := forall s, exists e s', m s = (Err e, s').
Lemma fails_bind {S A B} (x : EM S A) (f : A -> EM S B) : (forall a, fails (f a)) -> fails (ebind x f).
Proof. intros H s. rewrite eb. destruct (x s) as [[a|e] s']; [apply H|eauto]. Qed.
Lemma fails_here {S A B} (x : EM S A) (f : A -> EM S B) : fails x -> fails (ebind x f).
Proof. intros H s. rewrite eb. destruct (H s) as (e & s' & ->). eauto. Qed.
Lemma fails_lift {S A} (x : res A) e : x = Err e -> fails (elift x : EM S A).
Proof. intros -> s. eexists _, _. reflexivity. Qed.

Lemma idx_out {A} (l : list A) i : (length l <= i)%nat -> idx l i = Err IndexError.
Proof. intros H. unfold idx. apply nth_error_None in H. rewrite H. reflexivity. Qed.

Lemma by_index_fails f N tr yv uv tv i : by_index f -> (length tr <= i)%nat -> fails (h_filter_forward hm g f N tr yv uv tv i).
Proof.
  intros Hf Hi. destruct f; try contradiction; unfold h_filter_forward, h_pfy_forward, h_cpfyas_forward, h_cpfas_forward, h_cpf_forward, h_csiras_forward;
  repeat first [apply fails_here; apply (fails_lift _ _ (idx_out tr i Hi)) | apply fails_bind; intros ?].
Qed.

(** *** C71 *)
(** A call of forward(u, y) that raises, on a trajectory object reached by any history of calls (of which some may have raised too):
    the stored steps stay as they were, but the time index has moved on by one and u and y are recorded at it, as if the step had been made. *)
Theorem C71_failed_forward N f (h0 : hst W P) ops u y o h e o' h' :
  h_run hm g ops (h_new N f, h0) = (o, h) -> hp_traj o <> [] ->
  h_forward hm g u y (o, h) = (Err e, (o', h')) ->
  hp_traj o' = hp_traj o /\ hp_ind1 o' = (hp_ind1 o + 1)%nat /\
  nth_error (hp_y o') (hp_ind1 o) = Some (cell_of y) /\ nth_error (hp_u o') (hp_ind1 o - 1) = Some (cell_of u) /\
  (forall j c, (j < hp_ind1 o)%nat -> nth_error (hp_y o) j = Some c -> nth_error (hp_y o') j = Some c).
Proof.
  intros Hr Hne E. pose proof (run_book ops (h_new N f) h0 (new_book N f)) as (B & _ & _). rewrite Hr in B. cbn [fst] in B. destruct B as [Bv Bl].
  destruct (hp_ind1 o) as [|i] eqn:Ei; [destruct (hp_traj o); [congruence|simpl in Bl; lia]|].
  destruct (forward_shape u y o h i Bv Hne Ei) as (uv & yv & tv & TT & Es & _ & Hu & Hy & Ky & _). rewrite Es in E.
  destruct (h_filter_forward hm g (hp_f o) (hp_N o) (hp_traj o) yv uv tv i h) as [[[[pa rs] anc]|e'] h2]; inversion E; subst. cbn [hp_traj hp_ind1 hp_y hp_u].
  split; [reflexivity|]. split; [lia|]. replace (S i) with (i + 1)%nat by lia. split; [exact Hy|]. replace (i + 1 - 1)%nat with i by lia. split; [exact Hu|].
  intros j c Hj. apply Ky. lia.
Qed.

(** Nothing the caller does afterwards brings the stored steps and the time index together again. *)
Theorem C71_never_realigned N f (h0 : hst W P) ops u y o h e s ops' :
  h_run hm g ops (h_new N f, h0) = (o, h) -> hp_traj o <> [] ->
  h_forward hm g u y (o, h) = (Err e, s) ->
  let o' := fst (h_run hm g ops' s) in (length (hp_traj o') < hp_ind1 o')%nat.
Proof.
  intros Hr Hne E. pose proof (run_book ops (h_new N f) h0 (new_book N f)) as (B & _ & _). rewrite Hr in B. cbn [fst] in B.
  destruct s as [o1 h1]. destruct (forward_book _ _ _ _ _ _ _ B E) as (B1 & F1 & S1). destruct (S1 Hne) as (I1 & T1).
  destruct (run_book ops' o1 h1 B1) as (B2 & F2 & S2). cbn zeta in *. apply S2; [congruence|]. rewrite T1, I1. destruct B. lia.
Qed.

(** Filters that look the current step up by the time index never work again after a forward that raised: every later forward raises too,
    whatever is called in between. *)
Theorem C71_stuck N f (h0 : hst W P) ops u y o h e s ops' u' y' :
  by_index f ->
  h_run hm g ops (h_new N f, h0) = (o, h) -> hp_traj o <> [] ->
  h_forward hm g u y (o, h) = (Err e, s) ->
  exists e' s', h_forward hm g u' y' (h_run hm g ops' s) = (Err e', s').
Proof.
  intros Hf Hr Hne E. pose proof (run_book ops (h_new N f) h0 (new_book N f)) as (B & F & _). rewrite Hr in B, F. cbn [fst] in B, F.
  pose proof (C71_never_realigned N f h0 ops u y o h e s ops' Hr Hne E) as G. cbn zeta in G.
  destruct s as [o1 h1]. destruct (forward_book _ _ _ _ _ _ _ B E) as (B1 & F1 & S1). destruct (S1 Hne) as (I1 & T1).
  pose proof (run_book ops' o1 h1 B1) as (B2 & F2 & S2). destruct (h_run hm g ops' (o1, h1)) as [o2 h2]. cbn [fst] in *.
  destruct S2 as [N2 _]; [congruence|]. destruct B2 as [Bv2 _].
  destruct (hp_ind1 o2) as [|i] eqn:Ei; [lia|].
  destruct (forward_shape u' y' o2 h2 i Bv2 N2 Ei) as (uv & yv & tv & TT & Es & _). rewrite Es.
  destruct (by_index_fails (hp_f o2) (hp_N o2) (hp_traj o2) yv uv tv i) with (s := h2) as (e' & s' & ->); [rewrite F2, F1, F; exact Hf|lia|].
  cbn. eauto.
Qed.

(** The others go on, but the steps and the measurements no longer correspond: after forward(u1, y1) raised and forward(u2, y2) succeeded
    the new step is the n-th one although y2 is recorded at n + 1, and at n the object holds y1, whose step never was made. *)
Theorem C71_retry_misaligned N f (h0 : hst W P) ops u1 y1 u2 y2 o h e s b o2 h2 :
  h_run hm g ops (h_new N f, h0) = (o, h) -> hp_traj o <> [] -> hp_ind1 o = length (hp_traj o) ->
  h_forward hm g u1 y1 (o, h) = (Err e, s) -> h_forward hm g u2 y2 s = (Ok b, (o2, h2)) ->
  let n := length (hp_traj o) in
  (exists st, hp_traj o2 = hp_traj o ++ [st]) /\ hp_ind1 o2 = (n + 2)%nat /\
  nth_error (hp_y o2) n = Some (cell_of y1) /\ nth_error (hp_y o2) (n + 1) = Some (cell_of y2) /\
  nth_error (hp_u o2) (n - 1) = Some (cell_of u1) /\ nth_error (hp_u o2) n = Some (cell_of u2).
Proof.
  intros Hr Hne Hal E1 E2 n. pose proof (run_book ops (h_new N f) h0 (new_book N f)) as (B & _ & _). rewrite Hr in B. cbn [fst] in B. destruct B as [Bv Bl].
  fold n in Hal, Bl. destruct n as [|i] eqn:En; [destruct (hp_traj o); [congruence|discriminate]|]. 
  destruct (forward_shape u1 y1 o h i Bv Hne Hal) as (uv & yv & tv & TT & Es & L1 & Hu & Hy & _). rewrite Es in E1.
  destruct (h_filter_forward hm g (hp_f o) (hp_N o) (hp_traj o) yv uv tv i h) as [[[[pa rs] anc]|e'] h1]; [discriminate|]. injection E1 as _ Hs. subst s.
  set (o1 := mkHPT (hp_N o) (hp_f o) uv yv tv TT (i + 2) (hp_traj o)) in *.
  destruct (forward_shape u2 y2 o1 h1 (i + 1) L1) as (uv2 & yv2 & tv2 & TT2 & Es2 & _ & Hu2 & Hy2 & Ky & Ku); [exact Hne|cbn; lia|]. rewrite Es2 in E2. cbn [o1 hp_f hp_N hp_traj hp_y hp_u] in *.
  destruct (h_filter_forward hm g (hp_f o) (hp_N o) (hp_traj o) yv2 uv2 tv2 (i + 1) h1) as [[[[pa rs] anc]|e2] h3]; [|discriminate]. inversion E2; subst. cbn [hp_traj hp_ind1 hp_y hp_u].
  split; [eexists; reflexivity|]. split; [lia|]. replace (S i - 1)%nat with i by lia.
  replace (S i) with (i + 1)%nat by lia.
  split; [apply Ky; [lia|exact Hy]|]. split; [exact Hy2|]. split; [apply Ku; [lia|exact Hu]|exact Hu2].
Qed.
End Fail.

(** ** Concrete cases: a user model that rejects the measurement [false] *)
Definition reject {A} (y : cell bool) (x : M unit A) : M unit A := match y with CVal false => raise ValueError | _ => x end.
Definition moody : fmodel unit R unit bool unit :=
  mkModel (fun n => ret (repeat 0 n))
          (fun p i => lift (take p i)) (fun p => ret p) (fun _ _ _ _ => ret tt)
          (fun p _ _ _ _ _ _ => ret (map (fun x => x + 1) p))
          (fun _ _ p _ y _ => bind (lift (idx_last y)) (fun yl => reject yl (ret (p, repeat (Fin 0) (length p)))))
          (fun p _ _ _ _ _ _ _ _ => ret (repeat (Fin 0) (length p)))
          (fun p _ _ _ => ret (repeat (Fin 0) (length p)))
          (fun p _ _ _ => ret p) (fun p _ _ _ _ => ret (repeat (Fin 0) (length p))) (fun p _ _ _ => ret (repeat (Fin 0) (length p)))
          (fun p _ _ => ret (p, repeat (Fin 0) (length p))) (fun n y _ => reject y (ret (repeat 0 n))).

(** C71_failed_forward and C71_never_realigned *)
Example C71_failed_forward_nonvacuous (g : rng unit) :
  exists o h e s, h_run (hm_of moody) g [Meas (Some true)] (h_new 1 (HPF 0), empty_heap tt) = (o, h) /\ hp_traj o <> [] /\
    h_forward (hm_of moody) g None (Some false) (o, h) = (Err e, s).
Proof.
  do 4 eexists. split; [cbv -[Rltb Rplus Rminus Rmult ln INR IZR]; reflexivity|]. split; [discriminate|].
  cbv -[h_filter_forward Rltb Rplus Rminus Rmult ln INR IZR]; rewrite pf_no_resampling;
    cbv -[Rltb Rplus Rminus Rmult ln INR IZR]; reflexivity.
Qed.
Example C71_retry_misaligned_nonvacuous (g : rng unit) :
  exists o h e s b o2 h2, h_run (hm_of moody) g [Meas (Some true)] (h_new 1 (HPF 0), empty_heap tt) = (o, h) /\ hp_traj o <> [] /\
    hp_ind1 o = length (hp_traj o) /\
    h_forward (hm_of moody) g None (Some false) (o, h) = (Err e, s) /\
    h_forward (hm_of moody) g None (Some true) s = (Ok b, (o2, h2)) /\
    hp_y o2 = [CVal true; CVal false; CVal true] /\ length (hp_traj o2) = 2%nat.
Proof.
  do 7 eexists. split; [cbv -[Rltb Rplus Rminus Rmult ln INR IZR]; reflexivity|]. split; [discriminate|]. split; [reflexivity|].
  split; [cbv -[h_filter_forward Rltb Rplus Rminus Rmult ln INR IZR]; rewrite pf_no_resampling;
    cbv -[Rltb Rplus Rminus Rmult ln INR IZR]; reflexivity|].
  split; [cbv -[h_filter_forward Rltb Rplus Rminus Rmult ln INR IZR]; rewrite pf_no_resampling;
    cbv -[Rltb Rplus Rminus Rmult ln INR IZR]; reflexivity|].
  split; reflexivity.
Qed.
(** C71_stuck: the filter 'pfy' *)
Lemma maybe_no_resampling {W P U Y V} (hm : hmodel W P U Y V) g :
  h_maybe_resample hm g 0 = fun pa => ebind (get_pa pa) (fun a => ebind (new_idx (seq 0 (ha_num a))) (fun anc => eret (false, anc))).
Proof.
  assert (E : Rltb 0 0 = false) by (apply Rltb_false; lra).
  unfold h_maybe_resample. rewrite E. reflexivity.
Qed.
Example C71_stuck_nonvacuous (g : rng unit) :
  exists o h e s, by_index (HPFY 0) /\ h_run (hm_of moody) g [Meas (Some true)] (h_new 1 (HPFY 0), empty_heap tt) = (o, h) /\ hp_traj o <> [] /\
    h_forward (hm_of moody) g None (Some false) (o, h) = (Err e, s).
Proof.
  do 4 eexists. split; [exact I|]. split; [cbv -[Rltb Rplus Rminus Rmult ln INR IZR]; reflexivity|]. split; [discriminate|].
  cbv -[h_maybe_resample hm_of Rltb Rplus Rminus Rmult ln INR IZR]; rewrite maybe_no_resampling;
    cbv -[Rltb Rplus Rminus Rmult ln INR IZR]; reflexivity.
Qed.

Print Assumptions C71_failed_forward.
Print Assumptions C71_never_realigned.
Print Assumptions C71_stuck.
Print Assumptions C71_retry_misaligned.
