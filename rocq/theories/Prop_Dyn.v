(** C76: which matrices a mixed linear/nonlinear Gaussian model computes with. *)
From mathcomp Require Import all_ssreflect all_algebra.
From Coq Require Import Reals Lra List Lia Eqdep_dec.
From Verif Require Import Base RMat KalmanModel Storage MlnlgModel DynModel.
Set Implicit Arguments.
Unset Strict Implicit.
Unset Printing Implicit Defensive.
Import GRing.Theory.
Local Open Scope ring_scope.

(** ** Specification *)
(** the matrices of the nonlinear part *)
Definition nonlinear_part (f : fld) : bool := match f with FAxi | Ffxi | FQxi | FQxiz => true | _ => false end.
(** the affine terms are zero by default *)
Definition zero_default (f : fld) : bool := match f with Ffxi | Ffz => true | _ => false end.
Section Spec.
Variables (lxi lz m : nat).
Notation mats := (arrays).
(** the program's array n holds v after its actions l: the last thing it wrote to it, or what it held at first *)
Definition never_written (s : shape) (n : nat) (l : list (act)) : Prop := forall v, ~ List.In (@Write s n v) l.
Definition contents (h : mats) (l : list act) (s : shape) (n : nat) (v : 'M[R]_(s.1, s.2)) : Prop :=
  (never_written s n l /\ v = h s (Caller n)) \/ exists l1 l2, l = (l1 ++ cons (@Write s n v) l2)%list /\ never_written s n l2.
(** no call of set_dynamics in l gives argument f *)
Definition not_given (f : fld) (l : list act) : Prop := forall a, List.In (Set_ a) l -> a f = None.
(** After constructing the model with arguments a, and actions l, matrix f is the one last given: for the nonlinear part
    as it was when it was given, for the linear part and the measurement as the caller's array is now. *)
Inductive in_effect (h : mats) (a : args) (l : list act) (f : fld) : option 'M[R]_((fshape lxi lz m f).1, (fshape lxi lz m f).2) -> Prop :=
| eff_set : forall l1 a' l2 n v, l = (l1 ++ cons (Set_ a') l2)%list -> a' f = Some n -> not_given f l2 ->
    contents h (if nonlinear_part f then l1 else l) n v -> @in_effect h a l f (Some v)
| eff_new : forall n v, a f = Some n -> not_given f l -> contents h (if nonlinear_part f then nil else l) n v -> @in_effect h a l f (Some v)
| eff_default : a f = None -> not_given f l -> @in_effect h a l f (if zero_default f then Some 0 else None).
End Spec.

(** ** Proofs *)
Lemma addr_eqbP a b : addr_eqb a b = true <-> a = b.
Proof. by case: a b => [x|x] [y|y] /=; split => //; [move/Nat.eqb_eq ->|case=> ->; rewrite Nat.eqb_refl|move/Nat.eqb_eq ->|case=> ->; rewrite Nat.eqb_refl]. Qed.
Lemma fld_eqbP a b : fld_eqb a b = true <-> a = b.
Proof. by case: a b => [] []. Qed.
Lemma fld_eqb_refl a : fld_eqb a a = true. Proof. by case: a. Qed.
Lemma fld_dec (a b : fld) : {a = b} + {a <> b}. Proof. decide equality. Qed.
Section Proofs.
Variables (lxi lz m : nat).
Notation FS := (fshape lxi lz m).
Notation dyn_new := (@dyn_new lxi lz m).
Notation dyn_set := (@dyn_set lxi lz m).
Notation dstep := (@dstep lxi lz m).
Notation drun := (@drun lxi lz m).
Notation value := (@value lxi lz m).
Notation put_copy := (@put_copy lxi lz m).
Notation fresh := (@fresh lxi lz m).
Notation put_zero := (@put_zero lxi lz m).
Lemma store_same h s a v : @store h s a v s a = v.
Proof.
rewrite /store. case: (eq_comparable s s) => // e. rewrite (proj2 (addr_eqbP a a) erefl).
by rewrite -(@eq_rect_eq_dec shape (@eq_comparable _) s (fun s => 'M[R]_(s.1, s.2)) v e).
Qed.
Lemma store_addr h s a v s' a' : a <> a' -> @store h s a v s' a' = h s' a'.
Proof. move=> H. rewrite /store. case: (eq_comparable s s') => // e. case E : (addr_eqb a a') => //. by move/addr_eqbP: E. Qed.
Lemma store_shape h s a v s' a' : s <> s' -> @store h s a v s' a' = h s' a'.
Proof. move=> H. rewrite /store. by case: (eq_comparable s s'). Qed.

(** what the model may hold *)
Definition wf (o : obj) : Prop := forall f a, o_fld o f = Some a -> match a with Own k => (k < o_next o)%coq_nat | Caller _ => nonlinear_part f = false end.
(** changes from o to o': the caller's arrays are untouched, so are the model's existing ones *)
Definition ext (o o' : obj) : Prop := (o_next o <= o_next o')%coq_nat /\ (forall s n, o_heap o' s (Caller n) = o_heap o s (Caller n)) /\
  (forall s k, (k < o_next o)%coq_nat -> o_heap o' s (Own k) = o_heap o s (Own k)).
Lemma ext_refl o : ext o o. Proof. by split; [lia|]. Qed.
Lemma ext_trans o1 o2 o3 : ext o1 o2 -> ext o2 o3 -> ext o1 o3.
Proof. case=> [A1 [B1 C1]] [A2 [B2 C2]]. split; first lia. split; first by move=> s n; rewrite B2. move=> s k Hk. by rewrite C2 ?C1 //; lia. Qed.
Lemma ext_value o o' f : wf o -> ext o o' -> o_fld o' f = o_fld o f -> value o' f = value o f.
Proof.
move=> W [_ [B C]] E. rewrite /DynModel.value E. case E' : (o_fld o f) => [a|] //. congr Some. have := W _ _ E'. case: a E' => [n|k] E' H; [exact: B|exact: C].
Qed.

(** one attribute is assigned *)
Definition assigns (f : fld) (x : option (option 'M[R]_((FS f).1, (FS f).2))) (o o' : obj) : Prop :=
  wf o' /\ ext o o' /\ (forall g, g <> f -> o_fld o' g = o_fld o g) /\ match x with None => o_fld o' f = o_fld o f | Some v => value o' f = v end.
Lemma fresh_assigns o f v : wf o -> assigns (Some (Some v)) o (@fresh o f v).
Proof.
move=> W. split; [|split; [|split]].
- move=> g a. rewrite /= /setf. case E : (fld_eqb f g).
  + case=> <-. lia.
  + move/W. by case: a => // k; lia.
- split => /=; first lia. split; first by move=> s n; rewrite store_addr. move=> s k Hk. rewrite store_addr //. case=> H. lia.
- move=> g Hg. rewrite /= /setf. case E : (fld_eqb f g) => //. by move/fld_eqbP: E Hg => ->.
- by rewrite /DynModel.value /= /setf fld_eqb_refl store_same.
Qed.
Definition oget (a : args) (o : obj) (f : fld) : option (option 'M[R]_((FS f).1, (FS f).2)) :=
  match a f with Some n => Some (Some (o_heap o (FS f) (Caller n))) | None => None end.
Lemma keep_assigns f o : wf o -> assigns (f := f) None o o.
Proof. move=> W. split; first by []. split; first exact: ext_refl. by []. Qed.
Lemma put_copy_assigns a f o : wf o -> assigns (oget a o f) o (put_copy a f o).
Proof.
move=> W. rewrite /DynModel.put_copy /oget. case: (a f) => [n|]; first exact: fresh_assigns. exact: keep_assigns.
Qed.
Lemma put_zero_assigns a f o : wf o -> @assigns f (match a f with Some _ => None | None => Some (Some 0) end) o (put_zero a f o).
Proof.
move=> W. rewrite /DynModel.put_zero. case: (a f) => [n|]; last exact: fresh_assigns. exact: keep_assigns.
Qed.
Lemma put_ref_assigns a f o : wf o -> nonlinear_part f = false -> assigns (oget a o f) o (put_ref a f o) /\ (forall n, a f = Some n -> o_fld (put_ref a f o) f = Some (Caller n)).
Proof.
move=> W Hf. rewrite /put_ref /oget. case E : (a f) => [n|]; last by split => //; exact: keep_assigns.
split; last by move=> n' [<-] /=; rewrite /setf fld_eqb_refl. split; [|split; [|split]].
- move=> g b /=. rewrite /setf. case E' : (fld_eqb f g); last exact: W. move/fld_eqbP: E' => <-. by case=> <-.
- exact: ext_refl.
- move=> g Hg. rewrite /= /setf. case E' : (fld_eqb f g) => //. by move/fld_eqbP: E' Hg => ->.
- by rewrite /DynModel.value /= /setf fld_eqb_refl.
Qed.
(** a sequence of assignments to different attributes *)
Definition result (o o' : obj) (a : args) (fs : list fld) : Prop := wf o' /\ ext o o' /\
  (forall f, ~ List.In f fs -> o_fld o' f = o_fld o f) /\
  (forall f, List.In f fs -> match a f with
    | None => o_fld o' f = o_fld o f
    | Some n => value o' f = Some (o_heap o (FS f) (Caller n)) /\ (nonlinear_part f = false -> o_fld o' f = Some (Caller n)) end).
Lemma result_nil o a : wf o -> result o o a nil. Proof. move=> W. split; first by []. split; first exact: ext_refl. by []. Qed.
Lemma result_cons o o1 o2 a f fs : ~ List.In f fs -> result o o1 a fs -> assigns (oget a o1 f) o1 o2 -> (nonlinear_part f = false -> forall n, a f = Some n -> o_fld o2 f = Some (Caller n)) ->
  result o o2 a (cons f fs).
Proof.
move=> Hf [W1 [E1 [K1 S1]]] [W2 [E2 [K2 S2]]] HR. split => //. split; first exact: ext_trans E1 E2. split.
- move=> g Hg. rewrite K2; first by apply: K1 => H; apply: Hg; right. move=> H; apply: Hg; by left.
- move=> g. case: (fld_dec g f) => [->|Hg].
  + move=> _. move: S2 HR. rewrite /oget. case: (a f) => [n|].
    * move=> -> HR. split; last by move=> Hn; exact: HR. congr Some. by case: E1 => _ [-> _].
    * move=> -> _. exact: K1.
  + case=> [H|Hin]; first by case: Hg. have := S1 g Hin. have Eg := K2 g Hg. case: (a g) => [n|].
    * case=> Ev Er. split; last by move=> Hn; rewrite Eg; exact: Er. by rewrite -Ev; apply: ext_value.
    * by rewrite Eg.
Qed.
Lemma kf_set_result a o : wf o -> result o (kf_set a o) a (cons Fh (cons Ffz (cons FR (cons FQz (cons FC (cons FAz nil)))))).
Proof.
have Step o0 o1 fs f : nonlinear_part f = false -> ~ List.In f fs -> result o0 o1 a fs -> result o0 (put_ref a f o1) a (cons f fs).
{ move=> Hn Hf HR. case: (put_ref_assigns a (proj1 HR) Hn) => HA Hr. apply: result_cons HR HA _ => //. }
move=> W. rewrite /kf_set. do 6 (refine (Step _ _ _ _ _ _ _); [by []|by simpl; intuition discriminate|]). exact: result_nil.
Qed.
Lemma result_app o o1 o2 a fs1 fs2 : (forall f, List.In f fs1 -> ~ List.In f fs2) -> result o o1 a fs1 -> result o1 o2 a fs2 -> result o o2 a (fs2 ++ fs1)%list.
Proof.
move=> Hd [W1 [E1 [K1 S1]]] [W2 [E2 [K2 S2]]]. split => //. split; first exact: ext_trans E1 E2. split.
- move=> g Hg. rewrite K2; first by apply: K1 => H; apply: Hg; apply/List.in_app_iff; right. move=> H; apply: Hg; apply/List.in_app_iff; by left.
- move=> g /List.in_app_iff [Hg|Hg].
  + have Hg1 : ~ List.In g fs1 by move=> H; exact: (Hd g H Hg). have := S2 g Hg. have E := K1 _ Hg1. case: (a g) => [n|]; last by rewrite E.
    case=> -> Hr. split; last exact: Hr. congr Some. by case: E1 => _ [-> _].
  + have := S1 g Hg. have E := K2 _ (Hd g Hg). case: (a g) => [n|]; last by rewrite E.
    case=> Ev Hr. split; last by move=> H; rewrite E; exact: Hr. rewrite -Ev. exact: ext_value.
Qed.
Lemma copy_result o o1 a fs f : nonlinear_part f = true -> ~ List.In f fs -> result o o1 a fs -> result o (put_copy a f o1) a (cons f fs).
Proof. move=> Hn Hf HR. apply: result_cons HR (put_copy_assigns _ _ (proj1 HR)) _ => //. by rewrite Hn. Qed.
Lemma dyn_set_result a o : wf o -> result o (dyn_set a o) a (cons Ffxi (cons FQxiz (cons FQxi (cons FAxi (cons Fh (cons Ffz (cons FR (cons FQz (cons FC (cons FAz nil)))))))))).
Proof.
move=> W. rewrite /DynModel.dyn_set. do 4 (apply: copy_result; [by []|by simpl; intuition discriminate|]). exact: kf_set_result.
Qed.
Lemma all_fields f : List.In f (cons Ffxi (cons FQxiz (cons FQxi (cons FAxi (cons Fh (cons Ffz (cons FR (cons FQz (cons FC (cons FAz nil)))))))))).
Proof. by case: f => /=; tauto. Qed.
(** one call of set_dynamics *)
Lemma set_spec a o f : wf o -> let o' := dyn_set a o in wf o' /\ ext o o' /\
  match a f with None => o_fld o' f = o_fld o f | Some n => value o' f = Some (o_heap o (FS f) (Caller n)) /\ (nonlinear_part f = false -> o_fld o' f = Some (Caller n)) end.
Proof. move=> W. case: (dyn_set_result a W) => W' [E [_ S]]. split => //. split => //. exact: (S f (all_fields f)). Qed.
Lemma new_spec h a f : let o := dyn_new h a in wf o /\ (forall s n, o_heap o s (Caller n) = h s (Caller n)) /\
  match a f with
  | None => value o f = if zero_default f then Some 0 else None
  | Some n => value o f = Some (h (FS f) (Caller n)) /\ (nonlinear_part f = false -> o_fld o f = Some (Caller n)) end /\
  (a f = None -> forall n, o_fld o f <> Some (Caller n)).
Proof.
rewrite /DynModel.dyn_new. set o0 := mkObj h 0 (fun _ => None). have W0 : wf o0 by [].
have R1 : result o0 (put_copy a FAxi o0) a (cons FAxi nil) by apply: copy_result; [by []|by case|exact: result_nil].
have R2 : result o0 (put_copy a Ffxi (put_copy a FAxi o0)) a (cons Ffxi (cons FAxi nil)) by apply: copy_result; [by []|by simpl; intuition discriminate|].
move: R2. set o2 := put_copy a Ffxi _. move=> R2.
have A3 := put_zero_assigns a Ffxi (proj1 R2). set o3 := put_zero a Ffxi o2 in A3 *.
have R4 : result o3 (put_copy a FQxiz (put_copy a FQxi o3)) a (cons FQxiz (cons FQxi nil)).
{ apply: copy_result; [by []|by simpl; intuition discriminate|]. apply: copy_result; [by []|by case|]. apply: result_nil. exact: (proj1 A3). }
set o4 := put_copy a FQxiz _ in R4 *. have A5 := put_zero_assigns a Ffz (proj1 R4). set o5 := put_zero a Ffz o4 in A5 *.
have R6 := kf_set_result a (proj1 A5). set o6 := kf_set a o5 in R6 *.
case: R2 => W2 [E2 [K2 S2]]. case: A3 => W3 [E3 [K3 S3]]. case: R4 => W4 [E4 [K4 S4]]. case: A5 => W5 [E5 [K5 S5]]. case: R6 => W6 [E6 [K6 S6]].
have E05 : ext o0 o5 by apply: (ext_trans E2); apply: (ext_trans E3); apply: (ext_trans E4).
have E06 := ext_trans E05 E6. have C6 s n : o_heap o6 s (Caller n) = h s (Caller n) by case: E06 => _ [-> _].
split => //. split => //.
have N2 g : ~ List.In g (cons Ffxi (cons FAxi nil)) -> o_fld o2 g = None by move=> H; rewrite (K2 g H).
have N5 : forall g, g <> Ffz -> ~ List.In g (cons FQxiz (cons FQxi nil)) -> g <> Ffxi -> o_fld o5 g = o_fld o2 g by move=> g H1 H2 H3; rewrite K5 // K4 // K3.
case: f.
1,2,3,4,6: (set f := (X in a X); have := S6 f ltac:(simpl; tauto); case: (a f) => [n|];
  [case=> [-> Hr]; split => //; split; [congr Some; by case: E05 => _ [-> _]|by []]
  |rewrite (N5 f) ?N2; [|by simpl; intuition discriminate..]; move=> EN; split; [by rewrite /DynModel.value EN|by rewrite EN]]).
- (* fz *) have := S6 Ffz ltac:(simpl; tauto). move: S5. case: (a Ffz) => [n|].
  + move=> _ [-> Hr]; split => //; split; [congr Some; by case: E05 => _ [-> _]|by []].
  + move=> S5 EN. split; first by rewrite (ext_value W5 E6 EN). move=> _ n. rewrite EN /= /setf. by rewrite /o5 /DynModel.put_zero; case: (a Ffz) => [k|] //=; rewrite K4 //=; [rewrite K3 // N2 //|]; simpl; intuition discriminate.
- (* Axi *) have E26 : ext o2 o6 by apply: (ext_trans E3); apply: (ext_trans E4); apply: (ext_trans E5).
  have EN : o_fld o6 FAxi = o_fld o2 FAxi by rewrite K6 ?N5 //; simpl; intuition discriminate.
  have := S2 FAxi ltac:(simpl; tauto). case: (a FAxi) => [n|].
  + case=> Hv _. split => //. split => //. by rewrite (ext_value W2 E26 EN).
  + move=> E. rewrite E in EN. split; last by rewrite EN. by rewrite /DynModel.value EN.
- (* fxi *) have E36 : ext o3 o6 by apply: (ext_trans E4); apply: (ext_trans E5).
  have EN : o_fld o6 Ffxi = o_fld o3 Ffxi by rewrite K6 ?K5 ?K4 //; simpl; intuition discriminate.
  have := S2 Ffxi ltac:(simpl; tauto). move: S3. case Ea : (a Ffxi) => [n|].
  + move=> E3' [Hv _]. split => //. split => //. rewrite (ext_value W3 E36 EN) (ext_value W2 E3 E3'). by rewrite Hv.
  + move=> S3 E. split; first by rewrite (ext_value W3 E36 EN) S3. move=> _ n. rewrite EN => H. by have := W3 _ _ H.
- (* Qxi *) have E46 : ext o4 o6 by apply: (ext_trans E5).
  have EN : o_fld o6 FQxi = o_fld o4 FQxi by rewrite K6 ?K5 //; simpl; intuition discriminate.
  have := S4 FQxi ltac:(simpl; tauto). have E03 := ext_trans E2 E3. case: (a FQxi) => [n|].
  + case=> Hv _. split => //. split => //. rewrite (ext_value W4 E46 EN) Hv. congr Some. by case: E03 => _ [-> _].
  + move=> E. rewrite E K3 // N2 in EN; last by simpl; intuition discriminate. split; last by rewrite EN. by rewrite /DynModel.value EN.
- (* Qxiz *) have E46 : ext o4 o6 by apply: (ext_trans E5).
  have EN : o_fld o6 FQxiz = o_fld o4 FQxiz by rewrite K6 ?K5 //; simpl; intuition discriminate.
  have := S4 FQxiz ltac:(simpl; tauto). have E03 := ext_trans E2 E3. case: (a FQxiz) => [n|].
  + case=> Hv _. split => //. split => //. rewrite (ext_value W4 E46 EN) Hv. congr Some. by case: E03 => _ [-> _].
  + move=> E. rewrite E K3 // N2 in EN; last by simpl; intuition discriminate. split; last by rewrite EN. by rewrite /DynModel.value EN.
Qed.
End Proofs.
Section Final.
Variables (lxi lz m : nat).
Notation FS := (fshape lxi lz m).
Lemma drun_app h a l1 l2 : drun lxi lz m h a (l1 ++ l2)%list = List.fold_left (dstep lxi lz m) l2 (drun lxi lz m h a l1).
Proof. exact: List.fold_left_app. Qed.
Lemma wf_step o x : wf o -> wf (dstep lxi lz m o x).
Proof. case: x => [a|s n v] W; first by case: (@set_spec lxi lz m a o FAz W). move=> f b /= /W. by case: b. Qed.
Lemma wf_steps l o : wf o -> wf (List.fold_left (dstep lxi lz m) l o).
Proof. elim: l o => [|x l IH] o W //=. by apply: IH; apply: wf_step. Qed.
Lemma wf_run h a l : wf (drun lxi lz m h a l).
Proof. apply: wf_steps. by case: (@new_spec lxi lz m h a FAz). Qed.
(** no writes to array n: its contents stay *)
Lemma keep_contents l o s n : wf o -> never_written s n l -> o_heap (List.fold_left (dstep lxi lz m) l o) s (Caller n) = o_heap o s (Caller n).
Proof.
elim: l o => [|x l IH] o W H //=. rewrite IH; last by move=> v Hin; apply: (H v); right.
- case: x H => [a|s' n' v'] H /=; first by case: (@set_spec lxi lz m a o FAz W) => _ [[_ [-> _]] _].
  case: (eq_comparable s' s) => [Es|Es]; last exact: store_shape. case: (Nat.eq_dec n' n) => [En|En].
  + subst s' n'. case: (H v'). by left.
  + apply: store_addr. by case.
- exact: wf_step.
Qed.
Lemma run_contents h a l s n v : contents h l n v -> o_heap (drun lxi lz m h a l) s (Caller n) = v.
Proof.
case=> [[Hn ->]|[l1 [l2 [-> Hn]]]].
- rewrite keep_contents //; last by case: (@new_spec lxi lz m h a FAz). by case: (@new_spec lxi lz m h a FAz) => _ [-> _].
- rewrite drun_app /= keep_contents //; first by rewrite /= store_same. exact: (@wf_step _ (Write n v) (@wf_run h a l1)).
Qed.
(** matrix f is not given: its attribute stays, and its value, for the nonlinear part *)
Lemma keep_fld l o f : wf o -> not_given f l -> o_fld (List.fold_left (dstep lxi lz m) l o) f = o_fld o f.
Proof.
elim: l o => [|x l IH] o W H //=. rewrite IH; last by move=> a Hin; apply: H; right.
- case: x H => [a|s' n' v'] H //=. have := @set_spec lxi lz m a o f W. by rewrite (H a (or_introl erefl)) => [[_ [_ ->]]].
- exact: wf_step.
Qed.
Lemma keep_own l o f : wf o -> not_given f l -> (forall n, o_fld o f <> Some (Caller n)) -> value lxi lz m (List.fold_left (dstep lxi lz m) l o) f = value lxi lz m o f.
Proof.
elim: l o => [|x l IH] o W H Hn //=. have W' : wf (dstep lxi lz m o x) by apply: wf_step.
have E : o_fld (dstep lxi lz m o x) f = o_fld o f by apply: (@keep_fld (cons x nil)) => // b [E|[]]; apply: H; left.
rewrite IH //; [|by move=> a Hin; apply: H; right|by rewrite E]. rewrite /value E. case Ef : (o_fld o f) => [[n|k]|] //; first by case: (Hn n).
congr Some. have Hk := W _ _ Ef. case: x H W' E => [a|s' n' v'] H W' E /=; last exact: store_addr. by case: (@set_spec lxi lz m a o f W) => _ [[_ [_ HO]] _]; exact: HO.
Qed.
Lemma own_nonlinear o f : wf o -> nonlinear_part f = true -> forall n, o_fld o f <> Some (Caller n).
Proof. move=> W Hf n E. have := W _ _ E. by rewrite Hf. Qed.

(** C76: for every history of set_dynamics calls and of assignments to the caller's own arrays, the matrix the model
    computes with is the one given by the specification. *)
Theorem C76_matrices_in_effect : forall (h : arrays) (a : args) (l : list act) f v,
  @in_effect lxi lz m h a l f v -> value lxi lz m (drun lxi lz m h a l) f = v.
Proof.
move=> h a l f v H. case: v / H => [l1 a' l2 n v El Ea Hn Hc|n v Ea Hn Hc|Ea Hn].
- have W1 : wf (drun lxi lz m h a l1) := @wf_run h a l1. have := @set_spec lxi lz m a' (drun lxi lz m h a l1) f W1. rewrite /= Ea => [[W2 [_ [Hv Hr]]]].
  rewrite {1}El drun_app /=. move: Hc. case Hf : (nonlinear_part f) => Hc.
  + rewrite keep_own //; last exact: own_nonlinear. by rewrite Hv (run_contents a Hc).
  + rewrite /value keep_fld // Hr // -[List.fold_left _ _ _](drun_app h a l1 (cons (Set_ a') l2)) -El. by rewrite (run_contents a Hc).
- have := @new_spec lxi lz m h a f. rewrite /= Ea => [[W [_ [[Hv Hr] _]]]]. rewrite /drun. move: Hc. case Hf : (nonlinear_part f) => Hc.
  + rewrite keep_own //; last exact: own_nonlinear. rewrite Hv. case: Hc => [[_ ->] //|[l1 [l2 [E _]]]]. by case: l1 E.
  + by rewrite /value keep_fld // Hr // (run_contents a Hc).
- have := @new_spec lxi lz m h a f. rewrite /= Ea => [[W [_ [Hv Hr]]]]. rewrite /drun keep_own //. exact: Hr.
Qed.
(** such a matrix (or None) is determined for every history *)
Lemma contents_total h l s n : exists v : 'M[R]_(s.1, s.2), contents h l n v.
Proof.
elim/List.rev_ind: l => [|x l [v Hv]]; first by exists (h s (Caller n)); left; split => // v [].
case: x => [a|s' n' v'].
- exists v. case: Hv => [[H1 H2]|[l1 [l2 [-> H2]]]].
  + left. split => // v' /List.in_app_iff [/H1 //|[]//].
  + right. exists l1, (l2 ++ cons (Set_ a) nil)%list. split; first by rewrite -List.app_assoc. move=> v' /List.in_app_iff [/H2 //|[]//].
- case: (eq_comparable s' s) => [Es|Es]; last first.
  { exists v. case: Hv => [[H1 H2]|[l1 [l2 [-> H2]]]].
    + left. split => // w /List.in_app_iff [/H1 //|[]// E]. apply: Es. by case: E.
    + right. exists l1, (l2 ++ cons (Write n' v') nil)%list. split; first by rewrite -List.app_assoc. move=> w /List.in_app_iff [/H2 //|[]// E]. apply: Es. by case: E. }
  subst s'. case: (Nat.eq_dec n' n) => [En|En].
  + subst n'. exists v'. right. exists l, nil. by split => // w [].
  + exists v. case: Hv => [[H1 H2]|[l1 [l2 [-> H2]]]].
    * left. split => // w /List.in_app_iff [/H1 //|[]// E]. apply: En. by case: E.
    * right. exists l1, (l2 ++ cons (Write n' v') nil)%list. split; first by rewrite -List.app_assoc. move=> w /List.in_app_iff [/H2 //|[]// E]. apply: En. by case: E.
Qed.
Lemma last_given f l : not_given f l \/ exists l1 a' l2 n, l = (l1 ++ cons (Set_ a') l2)%list /\ a' f = Some n /\ not_given f l2.
Proof.
elim/List.rev_ind: l => [|x l IH]; first by left => a [].
have Keep : (forall a, x = Set_ a -> a f = None) -> not_given f (l ++ cons x nil)%list \/ exists l1 a' l2 n, (l ++ cons x nil)%list = (l1 ++ cons (Set_ a') l2)%list /\ a' f = Some n /\ not_given f l2.
{ move=> Hx. case: IH => [H|[l1 [a' [l2 [n [-> [Ea H]]]]]]].
  - left => a /List.in_app_iff [/H //|[E|[]]]. exact: Hx.
  - right. exists l1, a', (l2 ++ cons x nil)%list, n. split; first by rewrite -List.app_assoc. split => // a /List.in_app_iff [/H //|[E|[]]]. exact: Hx. }
case: x Keep => [a|s n v] Keep; last exact: Keep. case Ea : (a f) => [n|]; last by apply: Keep => a' [<-].
right. exists l, a, nil, n. by split => //; split => // a' [].
Qed.
Theorem C76_determined : forall (h : arrays) (a : args) (l : list act) f, exists v, @in_effect lxi lz m h a l f v.
Proof.
move=> h a l f. case: (last_given f l) => [Hn|[l1 [a' [l2 [n [El [Ea Hn]]]]]]].
- case Ea : (a f) => [n|]; last by eexists; exact: eff_default. case: (contents_total h (if nonlinear_part f then nil else l) (FS f) n) => v Hv. exists (Some v). exact: (eff_new (n := n)).
- case: (contents_total h (if nonlinear_part f then l1 else l) (FS f) n) => v Hv. exists (Some v). exact: (eff_set a El Ea Hn Hv).
Qed.
End Final.

(** C76: the model behaves as one constructed now from the matrices in effect. *)
Theorem C76_as_if_new : forall lxi lz m U Y Tm (h : arrays) (a : args) (l : list act) nonlin lin meas cross
  (Az : option 'M[R]_lz) (C : option 'M[R]_(m, lz)) Qz Rn fz (Axi : option 'M[R]_(lxi, lz)) Qxi Qxiz fxi hz,
  @in_effect lxi lz m h a l FAz Az -> @in_effect lxi lz m h a l FC C -> @in_effect lxi lz m h a l FQz Qz -> @in_effect lxi lz m h a l FR Rn ->
  @in_effect lxi lz m h a l Ffz fz -> @in_effect lxi lz m h a l FAxi Axi -> @in_effect lxi lz m h a l FQxi Qxi -> @in_effect lxi lz m h a l FQxiz Qxiz ->
  @in_effect lxi lz m h a l Ffxi fxi -> @in_effect lxi lz m h a l Fh hz ->
  ml_of (U := U) (Y := Y) (Tm := Tm) (drun lxi lz m h a l) nonlin lin meas cross = ml_init Az C Qz Rn fz Axi Qxi Qxiz fxi hz nonlin lin meas cross.
Proof.
move=> lxi lz m U Y Tm h a l nonlin lin meas cross Az C Qz Rn fz Axi Qxi Qxiz fxi hz HA HC HQ HR Hf HAx HQx HQc Hfx Hh.
rewrite /ml_of /ml_init. rewrite (C76_matrices_in_effect HA) (C76_matrices_in_effect HC) (C76_matrices_in_effect HQ) (C76_matrices_in_effect HR) (C76_matrices_in_effect Hf) (C76_matrices_in_effect HAx) (C76_matrices_in_effect HQx) (C76_matrices_in_effect HQc) (C76_matrices_in_effect Hfx) (C76_matrices_in_effect Hh).
clear. by rewrite /kf_init /set_dynamics /=; destruct Az, C, Qz, Rn, fz, hz.
Qed.
(** C76, finding: the arrays given for the linear part and the measurement are not copied, as those of the nonlinear part
    are: a program that constructs a model and then writes to the array it gave for Qz changes the model. *)
Theorem C76_not_copied_refuted : forall lxi lz m (h : arrays) (a : args) f n (v : 'M[R]_((fshape lxi lz m f).1, (fshape lxi lz m f).2)),
  a f = Some n -> value lxi lz m (drun lxi lz m h a (cons (Write n v) nil)) f = Some (if nonlinear_part f then h _ (Caller n) else v).
Proof.
move=> lxi lz m h a f n v Ea. apply: C76_matrices_in_effect. apply: (eff_new (n := n)) => //; first by move=> a' [].
case: (nonlinear_part f); first by left; split => // w []. right. exists nil, nil. by split => // w [].
Qed.

(** ** Example: Az and Axi are given the same kind of arrays; later Qz is replaced and the old arrays are overwritten *)
Example C76_case : forall (h : arrays) (v w : 'M[R]_1), let a f := match f with FAz => Some 0%nat | FQz => Some 1%nat | FAxi => Some 2%nat | _ => None end in
  let a' f := match f with FQz => Some 3%nat | _ => None end in
  let o := drun 1 1 1 h a (cons (Set_ a') (cons (@Write (1%nat, 1%nat) 0 v) (cons (@Write (1%nat, 1%nat) 2 w) nil))) in
  value 1 1 1 o FAz = Some v /\ value 1 1 1 o FQz = Some (h (1%nat, 1%nat) (Caller 3)) /\ value 1 1 1 o FAxi = Some (h (1%nat, 1%nat) (Caller 2)) /\ value 1 1 1 o Ffz = Some 0 /\ value 1 1 1 o FC = None.
Proof.
move=> h v w a a' o. have G f l : a' f = None -> not_given f (cons (Set_ a') (cons (@Write (1%nat, 1%nat) 0 v) (cons (@Write (1%nat, 1%nat) 2 w) l))) \/ l <> nil.
{ move=> H. case: l => [|x l]; [left|by right]. move=> b [[<-] //|[//|[//|[]]]]. }
have G' f : a' f = None -> not_given f (cons (Set_ a') (cons (@Write (1%nat, 1%nat) 0 v) (cons (@Write (1%nat, 1%nat) 2 w) nil))) by move=> H; case: (G f nil H).
split; [|split; [|split; [|split]]]; apply: C76_matrices_in_effect.
- apply: (eff_new (n := 0%nat)) => //; first exact: G'. right. exists (cons (Set_ a') nil), (cons (@Write (1%nat, 1%nat) 2 w) nil). split => // x [//|[]].
- apply: (@eff_set 1 1 1 _ _ _ FQz nil a' _ 3%nat) => //; first by move=> b [//|[//|[]]]. left. split => // x [//|[//|[//|[]]]].
- apply: (eff_new (n := 2%nat)) => //; first exact: G'. left. split => // x [].
- apply: (@eff_default 1 1 1 _ _ _ Ffz) => //. exact: G'.
- apply: (@eff_default 1 1 1 _ _ _ FC) => //. exact: G'.
Qed.
Print Assumptions C76_matrices_in_effect.
