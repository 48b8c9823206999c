(** Lemmas about the loops of GradLoopModel: what they leave in the arrays. *)
From Coq Require Import Reals List Arith Lia Lra Bool.
From Verif Require Import Base GradLoopModel.
Import ListNotations.
Open Scope R_scope.

(** f 0 + ... + f (n-1) *)
Fixpoint sumn (n : nat) (f : nat -> R) : R := match n with O => 0 | S k => sumn k f + f k end.

Lemma for_inv {S} (n : nat) (body : nat -> S -> res S) (Inv : nat -> S -> Prop) (s : S) :
  Inv 0%nat s -> (forall k s, (k < n)%nat -> Inv k s -> exists s', body k s = Ok s' /\ Inv (k + 1)%nat s') ->
  exists s', for_ n body s = Ok s' /\ Inv n s'.
Proof.
  intros H0 H. induction n as [|n IH]; [exists s; auto|].
  destruct IH as (s1 & E1 & I1); [intros k s1 Hk; apply H; lia|].
  cbn [for_]. rewrite E1. cbn [rbind]. destruct (H n s1) as (s2 & E2 & I2); [lia|exact I1|].
  exists s2. split; [exact E2|]. rewrite Nat.add_1_r in I2. exact I2.
Qed.

(** Each pass over (k, l) changes the cell (k, l) only, by h. *)
Lemma sweep {S X} (K L : nat) (body : nat -> nat -> S -> res S) (Good : S -> Prop) (vw : S -> nat -> nat -> X -> R) (h : nat -> nat -> X -> R -> R) (s0 : S) :
  Good s0 ->
  (forall k l s, (k < K)%nat -> (l < L)%nat -> Good s -> exists s', body k l s = Ok s' /\ Good s' /\
     forall a b x, vw s' a b x = if ((a =? k)%nat && (b =? l)%nat)%bool then h a b x (vw s a b x) else vw s a b x) ->
  exists s', for_ K (fun k s => for_ L (fun l s => body k l s) s) s0 = Ok s' /\ Good s' /\
    forall a b x, vw s' a b x = if ((a <? K)%nat && (b <? L)%nat)%bool then h a b x (vw s0 a b x) else vw s0 a b x.
Proof.
  intros G0 H.
  apply (for_inv K (fun k => for_ L (body k)) (fun k s => Good s /\ forall a b x, vw s a b x = if ((a <? k)%nat && (b <? L)%nat)%bool then h a b x (vw s0 a b x) else vw s0 a b x)).
  { split; [exact G0|]. intros a b x. destruct (a <? 0)%nat eqn:E; [apply Nat.ltb_lt in E; lia|reflexivity]. }
  intros k s Hk [G Hs].
  destruct (for_inv L (body k) (fun l s' => Good s' /\ forall a b x, vw s' a b x = if ((a =? k)%nat && (b <? l)%nat)%bool then h a b x (vw s a b x) else vw s a b x) s) as (s' & E & G' & Hs').
  - split; [exact G|]. intros a b x. destruct (b <? 0)%nat eqn:E; [apply Nat.ltb_lt in E; lia|]. rewrite andb_false_r. reflexivity.
  - intros l s1 Hl [G1 H1]. destruct (H k l s1 Hk Hl G1) as (s2 & E2 & G2 & H2). exists s2. split; [exact E2|]. split; [exact G2|].
    intros a b x. rewrite H2, H1.
    destruct (Nat.eqb_spec a k), (Nat.eqb_spec b l), (Nat.ltb_spec b l), (Nat.ltb_spec b (l + 1)); cbn; try lia; reflexivity.
  - exists s'. split; [exact E|]. split; [exact G'|]. intros a b x. rewrite Hs', Hs.
    destruct (Nat.eqb_spec a k), (Nat.ltb_spec b L), (Nat.ltb_spec a k), (Nat.ltb_spec a (k + 1)); cbn; try lia; reflexivity.
Qed.
(** the same for one loop *)
Lemma sweep1 {S} (K : nat) (body : nat -> S -> res S) (Good : S -> Prop) (vw : S -> nat -> R) (h : nat -> R -> R) (s0 : S) :
  Good s0 ->
  (forall k s, (k < K)%nat -> Good s -> exists s', body k s = Ok s' /\ Good s' /\ forall a, vw s' a = if (a =? k)%nat then h a (vw s a) else vw s a) ->
  exists s', for_ K body s0 = Ok s' /\ Good s' /\ forall a, vw s' a = if (a <? K)%nat then h a (vw s0 a) else vw s0 a.
Proof.
  intros G0 H.
  apply (for_inv K body (fun k s => Good s /\ forall a, vw s a = if (a <? k)%nat then h a (vw s0 a) else vw s0 a)).
  { split; [exact G0|]. intros a. destruct (a <? 0)%nat eqn:E; [apply Nat.ltb_lt in E; lia|reflexivity]. }
  intros k s Hk [G Hs]. destruct (H k s Hk G) as (s' & E & G' & Hs'). exists s'. split; [exact E|]. split; [exact G'|].
  intros a. rewrite Hs', Hs. destruct (Nat.eqb_spec a k), (Nat.ltb_spec a k), (Nat.ltb_spec a (k + 1)); try lia; reflexivity.
Qed.

(** accumulating a sum in one cell *)
Lemma accumulate {S} (n : nat) (body : nat -> S -> res S) (mk : arr -> S) (idx : list nat) (f : nat -> R) (t : arr) :
  inb (fst t) idx = true -> (forall m t', (m < n)%nat -> fst t' = fst t -> body m (mk t') = (dor t'' <- incr t' idx (f m) ; Ok (mk t''))) ->
  exists t', for_ n body (mk t) = Ok (mk t') /\ fst t' = fst t /\ snd t' idx = snd t idx + sumn n f /\ forall j, j <> idx -> snd t' j = snd t j.
Proof.
  intros Hi H.
  destruct (for_inv n body (fun m s => exists t', s = mk t' /\ fst t' = fst t /\ snd t' idx = snd t idx + sumn m f /\ forall j, j <> idx -> snd t' j = snd t j) (mk t)) as (s' & E & t' & -> & Ht).
  - exists t. cbn. repeat split; auto. lra.
  - intros m s Hm (t' & -> & D & C & O). rewrite (H m t' Hm D). unfold incr, rd, wr. rewrite D, Hi. cbn [rbind].
    exists (mk (fst t, put (snd t') idx (snd t' idx + f m))). split; [reflexivity|]. eexists. split; [reflexivity|]. cbn. split; [reflexivity|].
    unfold put. destruct (list_eq_dec Nat.eq_dec idx idx) as [_|N]; [|congruence]. split.
    + rewrite Nat.add_1_r. cbn [sumn]. rewrite C. lra.
    + intros j Hj. destruct (list_eq_dec Nat.eq_dec j idx); [congruence|]. apply O; exact Hj.
  - exists t'. split; [exact E|exact Ht].
Qed.

Lemma rd_ok a i : inb (fst a) i = true -> rd a i = Ok (snd a i). Proof. intros H; unfold rd; now rewrite H. Qed.
Lemma wr_ok a i v : inb (fst a) i = true -> wr a i v = Ok (fst a, put (snd a) i v). Proof. intros H; unfold wr; now rewrite H. Qed.
Lemma incr_ok a i v : inb (fst a) i = true -> incr a i v = Ok (fst a, put (snd a) i (snd a i + v)).
Proof. intros H; unfold incr. rewrite (rd_ok _ _ H). cbn. now apply wr_ok. Qed.
Lemma inb2 d1 d2 a b : (a < d1)%nat -> (b < d2)%nat -> inb [d1; d2] [a; b] = true.
Proof. intros H1 H2. apply Nat.ltb_lt in H1, H2. unfold inb. now rewrite H1, H2. Qed.
Lemma inb3 d1 d2 d3 a b c : (a < d1)%nat -> (b < d2)%nat -> (c < d3)%nat -> inb [d1; d2; d3] [a; b; c] = true.
Proof. intros H1 H2 H3. apply Nat.ltb_lt in H1, H2, H3. unfold inb. now rewrite H1, H2, H3. Qed.
Lemma inb4 d1 d2 d3 d4 a b c d : (a < d1)%nat -> (b < d2)%nat -> (c < d3)%nat -> (d < d4)%nat -> inb [d1; d2; d3; d4] [a; b; c; d] = true.
Proof. intros H1 H2 H3 H4. apply Nat.ltb_lt in H1, H2, H3, H4. unfold inb. now rewrite H1, H2, H3, H4. Qed.
Lemma put2 c k l v a b : put c [k; l] v [a; b] = if ((a =? k)%nat && (b =? l)%nat)%bool then v else c [a; b].
Proof. unfold put. destruct (list_eq_dec Nat.eq_dec [a; b] [k; l]) as [E|N], (Nat.eqb_spec a k), (Nat.eqb_spec b l); cbn; subst; try congruence; reflexivity. Qed.
Lemma put4 c i j k l v i' j' a b : put c [i; j; k; l] v [i'; j'; a; b] =
  if ((i' =? i)%nat && (j' =? j)%nat)%bool then (if ((a =? k)%nat && (b =? l)%nat)%bool then v else c [i'; j'; a; b]) else c [i'; j'; a; b].
Proof.
  unfold put. destruct (list_eq_dec Nat.eq_dec [i'; j'; a; b] [i; j; k; l]) as [E|N], (Nat.eqb_spec i' i), (Nat.eqb_spec j' j), (Nat.eqb_spec a k), (Nat.eqb_spec b l);
    cbn; subst; try congruence; reflexivity.
Qed.

(** two increments of the cells (k, p) and (p, k) *)
Lemma two_cells (c : list nat -> R) i j k p v a b :
  put (put c [i; j; k; p] (c [i; j; k; p] + - v)) [i; j; p; k]
      (put c [i; j; k; p] (c [i; j; k; p] + - v) [i; j; p; k] + - v) [i; j; a; b] =
  c [i; j; a; b] + (if ((a =? k)%nat && (b =? p)%nat)%bool then - v else 0) + (if ((a =? p)%nat && (b =? k)%nat)%bool then - v else 0).
Proof.
  rewrite !put4, !Nat.eqb_refl. cbn [andb].
  destruct (Nat.eqb_spec a p) as [Ea|Ea], (Nat.eqb_spec b k) as [Eb|Eb], (Nat.eqb_spec a k) as [Ea'|Ea'], (Nat.eqb_spec b p) as [Eb'|Eb'], (Nat.eqb_spec p k) as [Ep|Ep], (Nat.eqb_spec k p) as [Ep'|Ep'];
    cbn [andb]; try congruence; try (rewrite <- ?Ea, <- ?Eb, <- ?Ea', <- ?Eb'; lra); subst; try congruence; lra.
Qed.

Section Loops.
Variables N np dim lxi lz : nat.
Hypothesis Hdim : dim = (lxi + lz)%nat.
Variables perr zl Pl M A A_grad f_grad : arr.
Definition r_perr (i l : nat) := snd perr [i; l; 0%nat].
Definition r_fg (i j k : nat) := snd f_grad [i; j; k; 0%nat].
(** (f_grad[i,j] perr[i]^T)[k, l] *)
Definition gf (i j k l : nat) : R := r_fg i j k * r_perr i l.
Definition add_f (i j k l : nat) : R := - gf i j k l - gf i j l k.

Definition is_out (out : arr) := fst out = [N; np; dim; dim].

Lemma loop_grad_f_ok out tmp :
  is_out out -> fst tmp = [dim; dim] -> fst perr = [N; dim; 1%nat] -> fst f_grad = [N; np; dim; 1%nat] ->
  exists out' tmp', loop_grad_f N np dim out perr f_grad tmp = Ok (out', tmp') /\ is_out out' /\ fst tmp' = [dim; dim] /\
    forall i j a b, (i < N)%nat -> (j < np)%nat -> (a < dim)%nat -> (b < dim)%nat -> snd out' [i; j; a; b] = snd out [i; j; a; b] + add_f i j a b.
Proof.
  intros Ho Ht Hp Hf. unfold loop_grad_f.
  destruct (sweep (X := nat * nat) N np (fun i j s =>
    dor s <- for_ dim (fun k s => for_ dim (fun l s =>
      dor a <- rd f_grad [i; j; k; 0%nat] ;
      dor b <- rd perr [i; l; 0%nat] ;
      dor tmp <- wr (snd s) [k; l] (a * b) ;
      Ok (fst s, tmp)) s) s ;
    for_ dim (fun k s => for_ dim (fun l s =>
      dor a <- rd (snd s) [k; l] ;
      dor b <- rd (snd s) [l; k] ;
      dor out <- incr (fst s) [i; j; k; l] (- a - b) ;
      Ok (out, snd s)) s) s)
    (fun s => is_out (fst s) /\ fst (snd s) = [dim; dim]) (fun s i j x => snd (fst s) [i; j; fst x; snd x])
    (fun i j x r => r + if ((fst x <? dim)%nat && (snd x <? dim)%nat)%bool then add_f i j (fst x) (snd x) else 0) (out, tmp)) as (s' & E & (Go & Gt) & V).
  - split; assumption.
  - intros i j s Hi Hj (Go & Gt).
    destruct (sweep (X := unit) dim dim (fun k l s =>
      dor a <- rd f_grad [i; j; k; 0%nat] ;
      dor b <- rd perr [i; l; 0%nat] ;
      dor tmp <- wr (snd s) [k; l] (a * b) ;
      Ok (fst s, tmp)) (fun s1 => fst s1 = fst s /\ fst (snd s1) = [dim; dim]) (fun s1 a b _ => snd (snd s1) [a; b]) (fun a b _ _ => gf i j a b) s) as (s1 & E1 & (G1 & G1') & V1).
    + split; [reflexivity|assumption].
    + intros k l s1 Hk Hl (G1 & G1'). rewrite (rd_ok f_grad), (rd_ok perr) by (rewrite ?Hf, ?Hp; first [apply inb4|apply inb3]; lia). cbn [rbind].
      rewrite wr_ok by (rewrite G1'; apply inb2; lia). cbn [rbind]. eexists. split; [reflexivity|]. split; [split; assumption|]. intros a b _. cbn [snd fst]. rewrite put2.
      destruct (Nat.eqb_spec a k), (Nat.eqb_spec b l); cbn; subst; reflexivity.
    + rewrite E1. cbn [rbind].
      destruct (sweep (X := unit) dim dim (fun k l s =>
        dor a <- rd (snd s) [k; l] ;
        dor b <- rd (snd s) [l; k] ;
        dor out <- incr (fst s) [i; j; k; l] (- a - b) ;
        Ok (out, snd s)) (fun s2 => snd s2 = snd s1 /\ is_out (fst s2) /\ forall i' j' a b, (i' =? i)%nat && (j' =? j)%nat = false -> snd (fst s2) [i'; j'; a; b] = snd (fst s1) [i'; j'; a; b])
        (fun s2 a b _ => snd (fst s2) [i; j; a; b]) (fun a b _ r => r + (- snd (snd s1) [a; b] - snd (snd s1) [b; a])) s1) as (s2 & E2 & (G2 & G2' & F2) & V2).
      * split; [reflexivity|]. rewrite G1. split; [assumption|reflexivity].
      * intros k l s2 Hk Hl (G2 & G2' & F2). rewrite G2. rewrite !rd_ok by (rewrite G1'; apply inb2; lia). cbn [rbind].
        rewrite incr_ok by (rewrite G2'; apply inb4; lia). cbn [rbind]. eexists. split; [reflexivity|]. split; [split; [reflexivity|split; [assumption|]]|].
        -- intros i' j' a b Hn. cbn [fst snd]. rewrite put4, Hn. apply F2; exact Hn.
        -- intros a b _. cbn [fst snd]. rewrite put4, !Nat.eqb_refl. cbn [andb]. destruct (Nat.eqb_spec a k), (Nat.eqb_spec b l); cbn; subst; reflexivity.
      * exists s2. split; [exact E2|]. split; [split; [assumption|rewrite G2; assumption]|].
        intros i' j' [a b]. cbn [fst snd]. destruct ((i' =? i)%nat && (j' =? j)%nat)%bool eqn:Eij; cbn iota.
        -- apply andb_true_iff in Eij as [->%Nat.eqb_eq ->%Nat.eqb_eq]. rewrite (V2 a b tt). rewrite G1.
           destruct (Nat.ltb_spec a dim) as [La|La], (Nat.ltb_spec b dim) as [Lb|Lb]; cbn [andb]; try lra.
           rewrite (V1 a b tt), (V1 b a tt). apply Nat.ltb_lt in La, Lb. rewrite La, Lb. cbn [andb]. unfold add_f. lra.
        -- rewrite F2 by assumption. now rewrite G1.
  - exists (fst s'), (snd s'). split; [etransitivity; [exact E|now destruct s']|]. split; [exact Go|]. split; [exact Gt|].
    intros i j a b Hi Hj Ha Hb. pose proof (V i j (a, b)) as Q. cbn [fst snd] in Q. apply Nat.ltb_lt in Hi, Hj, Ha, Hb. rewrite Hi, Hj, Ha, Hb in Q. exact Q.
Qed.

(** (A_grad[i,j] zl[i])[k] *)
Definition gz (i j k : nat) : R := sumn lz (fun m => snd A_grad [i; j; k; m] * snd zl [i; m; 0%nat]).
(** (A_grad[i,j] Pl[i])[k, l] *)
Definition gP (i j k l : nat) : R := sumn lz (fun m => snd A_grad [i; j; k; m] * snd Pl [i; m; l]).
(** (A_grad[i,j] Pl[i] A[i]^T)[k, l] *)
Definition gPA (i j k l : nat) : R := sumn lz (fun m => gP i j k m * snd A [i; l; m]).
(** (A_grad[i,j] M[i])[k, l] *)
Definition gM (i j k l : nat) : R := sumn lz (fun m => snd A_grad [i; j; k; m] * snd M [i; m; l]).
Definition in_cols (b : nat) : bool := ((lxi <=? b) && (b <? lxi + lz))%nat.
(** everything that is added to out[i, j] at row a, column b *)
Definition add_A (i j a b : nat) : R :=
  (- (gz i j a * r_perr i b) - (gz i j b * r_perr i a)) + (gPA i j a b + gPA i j b a) +
  ((if in_cols b then - gM i j a (b - lxi) else 0) + (if in_cols a then - gM i j b (a - lxi) else 0)).

Lemma next_col k l (v : nat -> nat -> R) a b :
  (if ((a =? k)%nat && ((lxi <=? b) && (b <? lxi + (l + 1)))%nat)%bool then - v a (b - lxi)%nat else 0) =
  (if ((a =? k)%nat && ((lxi <=? b) && (b <? lxi + l))%nat)%bool then - v a (b - lxi)%nat else 0) + (if ((a =? k)%nat && (b =? lxi + l)%nat)%bool then - v k l else 0).
Proof.
  destruct (Nat.eqb_spec a k) as [->|], (Nat.leb_spec lxi b), (Nat.ltb_spec b (lxi + (l + 1))), (Nat.ltb_spec b (lxi + l)), (Nat.eqb_spec b (lxi + l)); cbn; try lia; try lra.
  subst b. replace (lxi + l - lxi)%nat with l by lia. lra.
Qed.

(** the last double loop: every pass adds v k l to two cells (the same one when they coincide) *)
Lemma corner i j (v : nat -> nat -> R) (s0 : arr * arr * arr) : (i < N)%nat -> (j < np)%nat -> is_out (fst (fst s0)) -> fst (snd s0) = [dim; lz] -> (forall k l, (k < dim)%nat -> (l < lz)%nat -> snd (snd s0) [k; l] = v k l) ->
  exists s', for_ dim (fun k s => for_ lz (fun l s =>
      dor a <- rd (snd s) [k; l] ;
      dor out <- incr (fst (fst s)) [i; j; k; (lxi + l)%nat] (- a) ;
      dor a <- rd (snd s) [k; l] ;
      dor out <- incr out [i; j; (lxi + l)%nat; k] (- a) ;
      Ok (out, snd (fst s), snd s)) s) s0 = Ok s' /\ snd s' = snd s0 /\ snd (fst s') = snd (fst s0) /\ is_out (fst (fst s')) /\
    (forall i' j' a b, (i' =? i)%nat && (j' =? j)%nat = false -> snd (fst (fst s')) [i'; j'; a; b] = snd (fst (fst s0)) [i'; j'; a; b]) /\
    forall a b, (a < dim)%nat -> (b < dim)%nat -> snd (fst (fst s')) [i; j; a; b] = snd (fst (fst s0)) [i; j; a; b] + ((if in_cols b then - v a (b - lxi)%nat else 0) + (if in_cols a then - v b (a - lxi)%nat else 0)).
Proof.
  intros Hi Hj Ho Ht2 Hv.
  set (Same := fun s : arr * arr * arr => snd s = snd s0 /\ snd (fst s) = snd (fst s0) /\ is_out (fst (fst s)) /\
    forall i' j' a b, (i' =? i)%nat && (j' =? j)%nat = false -> snd (fst (fst s)) [i'; j'; a; b] = snd (fst (fst s0)) [i'; j'; a; b]).
  destruct (for_inv dim (fun k s => for_ lz (fun l s =>
      dor a <- rd (snd s) [k; l] ;
      dor out <- incr (fst (fst s)) [i; j; k; (lxi + l)%nat] (- a) ;
      dor a <- rd (snd s) [k; l] ;
      dor out <- incr out [i; j; (lxi + l)%nat; k] (- a) ;
      Ok (out, snd (fst s), snd s)) s)
    (fun k s => Same s /\ forall a b, snd (fst (fst s)) [i; j; a; b] = snd (fst (fst s0)) [i; j; a; b] +
       ((if ((a <? k)%nat && in_cols b)%bool then - v a (b - lxi)%nat else 0) + (if ((b <? k)%nat && in_cols a)%bool then - v b (a - lxi)%nat else 0))) s0) as (s' & E & (S1 & S2 & S3 & S4) & V).
  - split; [repeat split; auto|]. intros a b. cbn. lra.
  - intros k s Hk (Sk & Vk).
    destruct (for_inv lz (fun l s =>
      dor a <- rd (snd s) [k; l] ;
      dor out <- incr (fst (fst s)) [i; j; k; (lxi + l)%nat] (- a) ;
      dor a <- rd (snd s) [k; l] ;
      dor out <- incr out [i; j; (lxi + l)%nat; k] (- a) ;
      Ok (out, snd (fst s), snd s))
      (fun l s1 => Same s1 /\ forall a b, snd (fst (fst s1)) [i; j; a; b] = snd (fst (fst s)) [i; j; a; b] +
        ((if ((a =? k)%nat && ((lxi <=? b) && (b <? lxi + l))%nat)%bool then - v a (b - lxi)%nat else 0) + (if ((b =? k)%nat && ((lxi <=? a) && (a <? lxi + l))%nat)%bool then - v b (a - lxi)%nat else 0))) s) as (s1 & E1 & Q1 & V1).
    + split; [exact Sk|]. intros a b.
      destruct (Nat.eqb_spec a k), (Nat.eqb_spec b k), (Nat.leb_spec lxi a), (Nat.leb_spec lxi b), (Nat.ltb_spec b (lxi + 0)), (Nat.ltb_spec a (lxi + 0)); cbn; try lia; lra.
    + intros l s1 Hl ((T1 & T2 & T3 & T4) & Vl). rewrite rd_ok by (rewrite T1, Ht2; apply inb2; lia). cbn [rbind].
      rewrite incr_ok by (rewrite T3; apply inb4; lia). cbn [rbind]. rewrite incr_ok by (cbn [fst]; rewrite T3; apply inb4; lia). cbn [rbind fst snd].
      eexists. split; [reflexivity|]. cbn [fst snd]. split.
      * split; [exact T1|split; [exact T2|split; [exact T3|]]]. intros i' j' a b Hn. cbn [fst snd]. rewrite !put4, Hn. now apply T4.
      * intros a b. rewrite T1, (Hv k l Hk Hl). rewrite two_cells, Vl, !(next_col k l v). rewrite (andb_comm (a =? lxi + l)%nat). lra.
    + exists s1. split; [exact E1|]. split; [exact Q1|]. intros a b. rewrite V1, Vk. unfold in_cols.
      destruct (Nat.eqb_spec a k), (Nat.eqb_spec b k), (Nat.ltb_spec a k), (Nat.ltb_spec b k), (Nat.ltb_spec a (k + 1)), (Nat.ltb_spec b (k + 1)); cbn; try lia;
      destruct (Nat.leb_spec lxi b), (Nat.ltb_spec b (lxi + lz)), (Nat.leb_spec lxi a), (Nat.ltb_spec a (lxi + lz)); cbn; try lra.
  - exists s'. split; [exact E|]. repeat (split; [assumption|]). intros a b Ha Hb. rewrite V. apply Nat.ltb_lt in Ha, Hb. rewrite Ha, Hb. reflexivity.
Qed.
(** what the passes for one (i, j) may change in out *)
Definition keeps (i j : nat) (s s' : arr * arr * arr) : Prop :=
  forall i' j' a b, (i' =? i)%nat && (j' =? j)%nat = false -> snd (fst (fst s')) [i'; j'; a; b] = snd (fst (fst s)) [i'; j'; a; b].

(** tmp2[:, 0] = A_grad[i,j] zl[i] *)
Lemma stage_z i j (s : arr * arr * arr) : (i < N)%nat -> (j < np)%nat -> (0 < lz)%nat -> fst (snd s) = [dim; lz] -> fst A_grad = [N; np; dim; lz] -> fst zl = [N; lz; 1%nat] ->
  exists s', for_ dim (fun k s =>
      dor tmp2 <- wr (snd s) [k; 0%nat] 0 ;
      for_ lz (fun m s =>
        dor a <- rd A_grad [i; j; k; m] ;
        dor b <- rd zl [i; m; 0%nat] ;
        dor tmp2 <- incr (snd s) [k; 0%nat] (a * b) ;
        Ok (fst s, tmp2)) (fst s, tmp2)) s = Ok s' /\ fst s' = fst s /\ fst (snd s') = [dim; lz] /\ forall k, (k < dim)%nat -> snd (snd s') [k; 0%nat] = gz i j k.
Proof.
  intros Hi Hj Hz H2 Hag Hzl.
  destruct (sweep1 dim (fun k s =>
      dor tmp2 <- wr (snd s) [k; 0%nat] 0 ;
      for_ lz (fun m s =>
        dor a <- rd A_grad [i; j; k; m] ;
        dor b <- rd zl [i; m; 0%nat] ;
        dor tmp2 <- incr (snd s) [k; 0%nat] (a * b) ;
        Ok (fst s, tmp2)) (fst s, tmp2)) (fun s1 : arr * arr * arr => fst s1 = fst s /\ fst (snd s1) = [dim; lz]) (fun s1 a => snd (snd s1) [a; 0%nat]) (fun a _ => gz i j a) s) as (s' & E & (G1 & G2) & V).
  - split; [reflexivity|assumption].
  - intros k s1 Hk (G1 & G2). rewrite wr_ok by (rewrite G2; apply inb2; lia). cbn [rbind].
    destruct (accumulate lz (fun m s =>
        dor a <- rd A_grad [i; j; k; m] ;
        dor b <- rd zl [i; m; 0%nat] ;
        dor tmp2 <- incr (snd s) [k; 0%nat] (a * b) ;
        Ok (fst s, tmp2)) (fun t => (fst s1, t)) [k; 0%nat] (fun m => snd A_grad [i; j; k; m] * snd zl [i; m; 0%nat]) (fst (snd s1), put (snd (snd s1)) [k; 0%nat] 0)) as (t' & E & D & C & O).
    + cbn [fst]. rewrite G2. apply inb2; lia.
    + intros m t' Hm Ht. rewrite (rd_ok A_grad), (rd_ok zl) by (rewrite ?Hag, ?Hzl; first [apply inb4|apply inb3]; lia). reflexivity.
    + eexists. split; [exact E|]. split; [split; [exact G1|cbn [snd]; rewrite D; exact G2]|]. intros a. cbn [snd]. destruct (Nat.eqb_spec a k) as [->|Na].
      * rewrite C. cbn [snd]. rewrite put2, !Nat.eqb_refl. cbn [andb]. unfold gz. lra.
      * rewrite O by congruence. cbn [snd]. rewrite put2. apply Nat.eqb_neq in Na. now rewrite Na.
  - exists s'. split; [exact E|]. split; [exact G1|]. split; [exact G2|]. intros k Hk. rewrite V. apply Nat.ltb_lt in Hk. now rewrite Hk.
Qed.

(** tmp2 = A_grad[i,j] B[i] *)
Lemma stage_dot i j (B : arr) (s : arr * arr * arr) : (i < N)%nat -> (j < np)%nat -> fst (snd s) = [dim; lz] -> fst A_grad = [N; np; dim; lz] -> fst B = [N; lz; lz] ->
  exists s', for_ dim (fun k s => for_ lz (fun l s =>
      dor tmp2 <- wr (snd s) [k; l] 0 ;
      for_ lz (fun m s =>
        dor a <- rd A_grad [i; j; k; m] ;
        dor b <- rd B [i; m; l] ;
        dor tmp2 <- incr (snd s) [k; l] (a * b) ;
        Ok (fst s, tmp2)) (fst s, tmp2)) s) s = Ok s' /\ fst s' = fst s /\ fst (snd s') = [dim; lz] /\
    forall k l, (k < dim)%nat -> (l < lz)%nat -> snd (snd s') [k; l] = sumn lz (fun m => snd A_grad [i; j; k; m] * snd B [i; m; l]).
Proof.
  intros Hi Hj H2 Hag HB.
  destruct (sweep (X := unit) dim lz (fun k l s =>
      dor tmp2 <- wr (snd s) [k; l] 0 ;
      for_ lz (fun m s =>
        dor a <- rd A_grad [i; j; k; m] ;
        dor b <- rd B [i; m; l] ;
        dor tmp2 <- incr (snd s) [k; l] (a * b) ;
        Ok (fst s, tmp2)) (fst s, tmp2)) (fun s1 : arr * arr * arr => fst s1 = fst s /\ fst (snd s1) = [dim; lz]) (fun s1 a b _ => snd (snd s1) [a; b])
      (fun a b _ _ => sumn lz (fun m => snd A_grad [i; j; a; m] * snd B [i; m; b])) s) as (s' & E & (G1 & G2) & V).
  - split; [reflexivity|assumption].
  - intros k l s1 Hk Hl (G1 & G2). rewrite wr_ok by (rewrite G2; apply inb2; lia). cbn [rbind].
    destruct (accumulate lz (fun m s =>
        dor a <- rd A_grad [i; j; k; m] ;
        dor b <- rd B [i; m; l] ;
        dor tmp2 <- incr (snd s) [k; l] (a * b) ;
        Ok (fst s, tmp2)) (fun t => (fst s1, t)) [k; l] (fun m => snd A_grad [i; j; k; m] * snd B [i; m; l]) (fst (snd s1), put (snd (snd s1)) [k; l] 0)) as (t' & E & D & C & O).
    + cbn [fst]. rewrite G2. apply inb2; lia.
    + intros m t' Hm Ht. rewrite (rd_ok A_grad), (rd_ok B) by (rewrite ?Hag, ?HB; first [apply inb4; lia|apply inb3; lia]). reflexivity.
    + eexists. split; [exact E|]. split; [split; [exact G1|cbn [snd]; rewrite D; exact G2]|]. intros a b _. cbn [snd].
      destruct (Nat.eqb_spec a k) as [Ea|Na], (Nat.eqb_spec b l) as [Eb|Nb]; cbn [andb].
      * rewrite Ea, Eb, C. cbn [snd]. rewrite put2, !Nat.eqb_refl. cbn [andb]. lra.
      * rewrite O by congruence. cbn [snd]. rewrite put2. apply Nat.eqb_neq in Nb. now rewrite Nb, andb_false_r.
      * rewrite O by congruence. cbn [snd]. rewrite put2. apply Nat.eqb_neq in Na. now rewrite Na.
      * rewrite O by congruence. cbn [snd]. rewrite put2. apply Nat.eqb_neq in Na. now rewrite Na.
  - exists s'. split; [exact E|]. split; [exact G1|]. split; [exact G2|]. intros k l Hk Hl. rewrite (V k l tt). apply Nat.ltb_lt in Hk, Hl. now rewrite Hk, Hl.
Qed.

(** tmp1 = tmp2[:, 0] perr[i]^T *)
Lemma stage_outer i (s : arr * arr * arr) (v : nat -> R) : (i < N)%nat -> (0 < lz)%nat -> fst (snd (fst s)) = [dim; dim] -> fst (snd s) = [dim; lz] -> fst perr = [N; dim; 1%nat] -> (forall k, (k < dim)%nat -> snd (snd s) [k; 0%nat] = v k) ->
  exists s', for_ dim (fun k s => for_ dim (fun l s =>
      dor a <- rd (snd s) [k; 0%nat] ;
      dor b <- rd perr [i; l; 0%nat] ;
      dor tmp1 <- wr (snd (fst s)) [k; l] (a * b) ;
      Ok (fst (fst s), tmp1, snd s)) s) s = Ok s' /\ fst (fst s') = fst (fst s) /\ snd s' = snd s /\ fst (snd (fst s')) = [dim; dim] /\
    forall k l, (k < dim)%nat -> (l < dim)%nat -> snd (snd (fst s')) [k; l] = v k * r_perr i l.
Proof.
  intros Hi Hz H1 H2 Hp Hv.
  destruct (sweep (X := unit) dim dim (fun k l s =>
      dor a <- rd (snd s) [k; 0%nat] ;
      dor b <- rd perr [i; l; 0%nat] ;
      dor tmp1 <- wr (snd (fst s)) [k; l] (a * b) ;
      Ok (fst (fst s), tmp1, snd s)) (fun s1 : arr * arr * arr => fst (fst s1) = fst (fst s) /\ snd s1 = snd s /\ fst (snd (fst s1)) = [dim; dim]) (fun s1 a b _ => snd (snd (fst s1)) [a; b])
      (fun a b _ _ => v a * r_perr i b) s) as (s' & E & (G1 & G2 & G3) & V).
  - auto.
  - intros k l s1 Hk Hl (G1 & G2 & G3). rewrite G2. rewrite (rd_ok (snd s)), (rd_ok perr) by (rewrite ?H2, ?Hp; first [apply inb2|apply inb3]; lia). cbn [rbind].
    rewrite wr_ok by (rewrite G3; apply inb2; lia). cbn [rbind]. eexists. split; [reflexivity|]. split; [repeat split; assumption|].
    intros a b _. cbn [fst snd]. rewrite put2. destruct (Nat.eqb_spec a k) as [->|], (Nat.eqb_spec b l) as [->|]; cbn [andb]; try reflexivity. now rewrite Hv.
  - exists s'. split; [exact E|]. repeat (split; [assumption|]). intros k l Hk Hl. rewrite (V k l tt). apply Nat.ltb_lt in Hk, Hl. now rewrite Hk, Hl.
Qed.

(** tmp1 = tmp2 A[i]^T *)
Lemma stage_back i (s : arr * arr * arr) (v : nat -> nat -> R) : (i < N)%nat -> fst (snd (fst s)) = [dim; dim] -> fst (snd s) = [dim; lz] -> fst A = [N; dim; lz] -> (forall k l, (k < dim)%nat -> (l < lz)%nat -> snd (snd s) [k; l] = v k l) ->
  exists s', for_ dim (fun k s => for_ dim (fun l s =>
      dor tmp1 <- wr (snd (fst s)) [k; l] 0 ;
      for_ lz (fun m s =>
        dor a <- rd (snd s) [k; m] ;
        dor b <- rd A [i; l; m] ;
        dor tmp1 <- incr (snd (fst s)) [k; l] (a * b) ;
        Ok (fst (fst s), tmp1, snd s)) (fst (fst s), tmp1, snd s)) s) s = Ok s' /\ fst (fst s') = fst (fst s) /\ snd s' = snd s /\ fst (snd (fst s')) = [dim; dim] /\
    forall k l, (k < dim)%nat -> (l < dim)%nat -> snd (snd (fst s')) [k; l] = sumn lz (fun m => snd (snd s) [k; m] * snd A [i; l; m]).
Proof.
  intros Hi H1 H2 HA Hv.
  destruct (sweep (X := unit) dim dim (fun k l s =>
      dor tmp1 <- wr (snd (fst s)) [k; l] 0 ;
      for_ lz (fun m s =>
        dor a <- rd (snd s) [k; m] ;
        dor b <- rd A [i; l; m] ;
        dor tmp1 <- incr (snd (fst s)) [k; l] (a * b) ;
        Ok (fst (fst s), tmp1, snd s)) (fst (fst s), tmp1, snd s)) (fun s1 : arr * arr * arr => fst (fst s1) = fst (fst s) /\ snd s1 = snd s /\ fst (snd (fst s1)) = [dim; dim]) (fun s1 a b _ => snd (snd (fst s1)) [a; b])
      (fun a b _ _ => sumn lz (fun m => snd (snd s) [a; m] * snd A [i; b; m])) s) as (s' & E & (G1 & G2 & G3) & V).
  - auto.
  - intros k l s1 Hk Hl (G1 & G2 & G3). rewrite wr_ok by (rewrite G3; apply inb2; lia). cbn [rbind].
    destruct (accumulate lz (fun m s =>
        dor a <- rd (snd s) [k; m] ;
        dor b <- rd A [i; l; m] ;
        dor tmp1 <- incr (snd (fst s)) [k; l] (a * b) ;
        Ok (fst (fst s), tmp1, snd s)) (fun t => (fst (fst s1), t, snd s1)) [k; l] (fun m => snd (snd s) [k; m] * snd A [i; l; m]) (fst (snd (fst s1)), put (snd (snd (fst s1))) [k; l] 0)) as (t' & E & D & C & O).
    + cbn [fst]. rewrite G3. apply inb2; lia.
    + intros m t' Hm Ht. cbn [fst snd]. rewrite G2. rewrite (rd_ok (snd s)), (rd_ok A) by (rewrite ?H2, ?HA; first [apply inb2|apply inb3]; lia). reflexivity.
    + eexists. split; [exact E|]. split; [repeat split; cbn [fst snd]; [assumption|assumption|rewrite D; exact G3]|]. intros a b _. cbn [fst snd].
      destruct (Nat.eqb_spec a k) as [Ea|Na], (Nat.eqb_spec b l) as [Eb|Nb]; cbn [andb].
      * rewrite Ea, Eb, C. cbn [snd]. rewrite put2, !Nat.eqb_refl. cbn [andb]. lra.
      * rewrite O by congruence. cbn [snd]. rewrite put2. apply Nat.eqb_neq in Nb. now rewrite Nb, andb_false_r.
      * rewrite O by congruence. cbn [snd]. rewrite put2. apply Nat.eqb_neq in Na. now rewrite Na.
      * rewrite O by congruence. cbn [snd]. rewrite put2. apply Nat.eqb_neq in Na. now rewrite Na.
  - exists s'. split; [exact E|]. repeat (split; [assumption|]). intros k l Hk Hl. rewrite (V k l tt). apply Nat.ltb_lt in Hk, Hl. now rewrite Hk, Hl.
Qed.

(** out[i,j] += g(tmp1, tmp1^T) *)
Lemma stage_add i j (g : R -> R -> R) (s : arr * arr * arr) (v : nat -> nat -> R) : (i < N)%nat -> (j < np)%nat -> is_out (fst (fst s)) -> fst (snd (fst s)) = [dim; dim] -> (forall k l, (k < dim)%nat -> (l < dim)%nat -> snd (snd (fst s)) [k; l] = v k l) ->
  exists s', for_ dim (fun k s => for_ dim (fun l s =>
      dor a <- rd (snd (fst s)) [k; l] ;
      dor b <- rd (snd (fst s)) [l; k] ;
      dor out <- incr (fst (fst s)) [i; j; k; l] (g a b) ;
      Ok (out, snd (fst s), snd s)) s) s = Ok s' /\ snd (fst s') = snd (fst s) /\ snd s' = snd s /\ is_out (fst (fst s')) /\ keeps i j s s' /\
    forall a b, (a < dim)%nat -> (b < dim)%nat -> snd (fst (fst s')) [i; j; a; b] = snd (fst (fst s)) [i; j; a; b] + g (v a b) (v b a).
Proof.
  intros Hi Hj Ho H1 Hv.
  destruct (sweep (X := unit) dim dim (fun k l s =>
      dor a <- rd (snd (fst s)) [k; l] ;
      dor b <- rd (snd (fst s)) [l; k] ;
      dor out <- incr (fst (fst s)) [i; j; k; l] (g a b) ;
      Ok (out, snd (fst s), snd s)) (fun s1 : arr * arr * arr => snd (fst s1) = snd (fst s) /\ snd s1 = snd s /\ is_out (fst (fst s1)) /\ keeps i j s s1) (fun s1 a b _ => snd (fst (fst s1)) [i; j; a; b])
      (fun a b _ r => r + g (snd (snd (fst s)) [a; b]) (snd (snd (fst s)) [b; a])) s) as (s' & E & (G1 & G2 & G3 & G4) & V).
  - repeat split; auto.
  - intros k l s1 Hk Hl (G1 & G2 & G3 & G4). rewrite G1. rewrite !rd_ok by (rewrite H1; apply inb2; lia). cbn [rbind].
    rewrite incr_ok by (rewrite G3; apply inb4; lia). cbn [rbind]. eexists. split; [reflexivity|]. split; [split; [reflexivity|split; [exact G2|split; [exact G3|]]]|].
    + intros i' j' a b Hn. cbn [fst snd]. rewrite put4, Hn. now apply G4.
    + intros a b _. cbn [fst snd]. rewrite put4, !Nat.eqb_refl. cbn [andb]. destruct (Nat.eqb_spec a k) as [->|], (Nat.eqb_spec b l) as [->|]; cbn [andb]; reflexivity.
  - exists s'. split; [exact E|]. repeat (split; [assumption|]). intros a b Ha Hb. rewrite (V a b tt), <- !Hv by assumption. apply Nat.ltb_lt in Ha, Hb. now rewrite Ha, Hb.
Qed.

Lemma sumn_ext n f g : (forall m, (m < n)%nat -> f m = g m) -> sumn n f = sumn n g.
Proof. intros H. induction n as [|n IH]; [reflexivity|]. cbn [sumn]. rewrite IH, H; auto. Qed.

Lemma loop_grad_A_ok out tmp1 tmp2 : (0 < lz)%nat ->
  is_out out -> fst tmp1 = [dim; dim] -> fst tmp2 = [dim; lz] ->
  fst perr = [N; dim; 1%nat] -> fst zl = [N; lz; 1%nat] -> fst Pl = [N; lz; lz] -> fst M = [N; lz; lz] -> fst A = [N; dim; lz] -> fst A_grad = [N; np; dim; lz] ->
  exists out' tmp1' tmp2', loop_grad_A N np dim out perr lxi zl Pl M A A_grad tmp1 tmp2 = Ok (out', tmp1', tmp2') /\ is_out out' /\
    forall i j a b, (i < N)%nat -> (j < np)%nat -> (a < dim)%nat -> (b < dim)%nat -> snd out' [i; j; a; b] = snd out [i; j; a; b] + add_A i j a b.
Proof.
  intros Hz Ho H1 H2 Hp Hzl HP HM HA Hag. unfold loop_grad_A.
  replace (dim - lxi)%nat with lz by lia.
  pose (body := fun (i j : nat) (s : arr * arr * arr) =>
    dor s <- for_ dim (fun k s =>
      dor tmp2 <- wr (snd s) [k; 0%nat] 0 ;
      for_ lz (fun m s =>
        dor a <- rd A_grad [i; j; k; m] ;
        dor b <- rd zl [i; m; 0%nat] ;
        dor tmp2 <- incr (snd s) [k; 0%nat] (a * b) ;
        Ok (fst s, tmp2)) (fst s, tmp2)) s ;
    dor s <- for_ dim (fun k s => for_ dim (fun l s =>
      dor a <- rd (snd s) [k; 0%nat] ;
      dor b <- rd perr [i; l; 0%nat] ;
      dor tmp1 <- wr (snd (fst s)) [k; l] (a * b) ;
      Ok (fst (fst s), tmp1, snd s)) s) s ;
    dor s <- for_ dim (fun k s => for_ dim (fun l s =>
      dor a <- rd (snd (fst s)) [k; l] ;
      dor b <- rd (snd (fst s)) [l; k] ;
      dor out <- incr (fst (fst s)) [i; j; k; l] (- a - b) ;
      Ok (out, snd (fst s), snd s)) s) s ;
    dor s <- for_ dim (fun k s => for_ lz (fun l s =>
      dor tmp2 <- wr (snd s) [k; l] 0 ;
      for_ lz (fun m s =>
        dor a <- rd A_grad [i; j; k; m] ;
        dor b <- rd Pl [i; m; l] ;
        dor tmp2 <- incr (snd s) [k; l] (a * b) ;
        Ok (fst s, tmp2)) (fst s, tmp2)) s) s ;
    dor s <- for_ dim (fun k s => for_ dim (fun l s =>
      dor tmp1 <- wr (snd (fst s)) [k; l] 0 ;
      for_ lz (fun m s =>
        dor a <- rd (snd s) [k; m] ;
        dor b <- rd A [i; l; m] ;
        dor tmp1 <- incr (snd (fst s)) [k; l] (a * b) ;
        Ok (fst (fst s), tmp1, snd s)) (fst (fst s), tmp1, snd s)) s) s ;
    dor s <- for_ dim (fun k s => for_ dim (fun l s =>
      dor a <- rd (snd (fst s)) [k; l] ;
      dor b <- rd (snd (fst s)) [l; k] ;
      dor out <- incr (fst (fst s)) [i; j; k; l] (a + b) ;
      Ok (out, snd (fst s), snd s)) s) s ;
    dor s <- for_ dim (fun k s => for_ lz (fun l s =>
      dor tmp2 <- wr (snd s) [k; l] 0 ;
      for_ lz (fun m s =>
        dor a <- rd A_grad [i; j; k; m] ;
        dor b <- rd M [i; m; l] ;
        dor tmp2 <- incr (snd s) [k; l] (a * b) ;
        Ok (fst s, tmp2)) (fst s, tmp2)) s) s ;
    for_ dim (fun k s => for_ lz (fun l s =>
      dor a <- rd (snd s) [k; l] ;
      dor out <- incr (fst (fst s)) [i; j; k; (lxi + l)%nat] (- a) ;
      dor a <- rd (snd s) [k; l] ;
      dor out <- incr out [i; j; (lxi + l)%nat; k] (- a) ;
      Ok (out, snd (fst s), snd s)) s) s).
  destruct (sweep (X := nat * nat) N np body
    (fun s => is_out (fst (fst s)) /\ fst (snd (fst s)) = [dim; dim] /\ fst (snd s) = [dim; lz]) (fun s i j x => if ((fst x <? dim)%nat && (snd x <? dim)%nat)%bool then snd (fst (fst s)) [i; j; fst x; snd x] else 0)
    (fun i j x r => if ((fst x <? dim)%nat && (snd x <? dim)%nat)%bool then r + add_A i j (fst x) (snd x) else 0) (out, tmp1, tmp2)) as (s' & E & (Go & Gt) & V).
  - auto.
  - intros i j s Hi Hj (G1 & G2 & G3). unfold body.
    destruct (stage_z i j s Hi Hj Hz G3 Hag Hzl) as (s1 & E1 & F1 & T1 & V1).
    destruct (stage_outer i s1 (gz i j) Hi Hz ltac:(rewrite F1; exact G2) T1 Hp V1) as (s2 & E2 & F2 & T2 & U2 & V2).
    destruct (stage_add i j (fun a b => - a - b) s2 _ Hi Hj ltac:(rewrite F2, F1; exact G1) U2 V2) as (s3 & E3 & F3 & T3 & O3 & K3 & V3).
    destruct (stage_dot i j Pl s3 Hi Hj ltac:(rewrite T3, T2; exact T1) Hag HP) as (s4 & E4 & F4 & T4 & V4).
    destruct (stage_back i s4 (gP i j) Hi ltac:(rewrite F4, F3; exact U2) T4 HA V4) as (s5 & E5 & F5 & T5 & U5 & V5).
    destruct (stage_add i j (fun a b => a + b) s5 (gPA i j) Hi Hj ltac:(rewrite F5, F4; exact O3) U5) as (s6 & E6 & F6 & T6 & O6 & K6 & V6).
    { intros k l Hk Hl. rewrite V5 by assumption. apply sumn_ext. intros m Hm. now rewrite V4. }
    destruct (stage_dot i j M s6 Hi Hj ltac:(rewrite T6, T5; exact T4) Hag HM) as (s7 & E7 & F7 & T7 & V7).
    destruct (corner i j (gM i j) s7 Hi Hj ltac:(rewrite F7; exact O6) T7 V7) as (s8 & E8 & F8 & T8 & O8 & K8 & V8).
    exists s8. split; [|split].
    + rewrite E1. cbn [rbind]. rewrite E2. cbn [rbind]. rewrite E3. cbn [rbind]. rewrite E4. cbn [rbind]. rewrite E5. cbn [rbind]. rewrite E6. cbn [rbind]. rewrite E7. cbn [rbind]. exact E8.
    + split; [exact O8|]. split; [rewrite T8, F7, F6; exact U5|rewrite F8; exact T7].
    + intros i' j' [a b]. cbn [fst snd]. destruct ((i' =? i)%nat && (j' =? j)%nat)%bool eqn:Eij.
      * apply andb_true_iff in Eij as [->%Nat.eqb_eq ->%Nat.eqb_eq].
        destruct ((a <? dim)%nat && (b <? dim)%nat)%bool eqn:Eab.
        -- apply andb_true_iff in Eab as [Ha%Nat.ltb_lt Hb%Nat.ltb_lt]. rewrite V8 by assumption. rewrite F7, V6 by assumption. rewrite F5, F4, V3 by assumption. rewrite F2, F1. unfold add_A. lra.
        -- reflexivity.
      * destruct ((a <? dim)%nat && (b <? dim)%nat)%bool; [|reflexivity]. rewrite K8, F7, K6, F5, F4, K3, F2, F1 by assumption. reflexivity.
  - exists (fst (fst s')), (snd (fst s')), (snd s'). split; [etransitivity; [exact E|now destruct s' as [[? ?] ?]]|]. split; [exact Go|].
    intros i j a b Hi Hj Ha Hb. pose proof (V i j (a, b)) as Q. cbn [fst snd] in Q. apply Nat.ltb_lt in Hi, Hj, Ha, Hb. rewrite Hi, Hj, Ha, Hb in Q. exact Q.
Qed.
End Loops.
