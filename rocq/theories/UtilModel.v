(** Models of pyparticleest/utils/pdf.py and pyparticleest/utils/intrument.py. *)
From Coq Require Import Bool Reals List Arith String.
From Verif Require Import Base.
Import ListNotations.
Open Scope R_scope.

(** Python [<], pdf.py:13-68 *)
Definition rlt (a b : R) : bool := if Rlt_dec a b then true else false.

(** pdf.py:5-46 [unifsum.__init__]: the attributes it sets. *)
Record unifsum := mkUS { us_c : R; us_wmin : R; us_wdiff : R; us_l : R; us_h : R; us_t : R }.

(** pdf.py:13-46 *)
Definition unifsum_init (a b : R * R) : res unifsum :=
  let a1 := if rlt (fst a) (snd a) then fst a else snd a in
  let b1 := if rlt (fst a) (snd a) then snd a else fst a in
  let a2 := if rlt (fst b) (snd b) then fst b else snd b in
  let b2 := if rlt (fst b) (snd b) then snd b else fst b in
  let w1 := b1 - a1 in
  let w2 := b2 - a2 in
  let w := (w1 + w2) / 2 in
  let c := (a1 + a2 + b1 + b2) / 2 in
  let w_min := if rlt w1 w2 then w1 else w2 in
  let w_diff := if rlt w2 w1 then w1 - w2 else w2 - w1 in
  if Req_EM_T (w_min + w_diff) 0 then Err ZeroDivisionError
  else Ok (mkUS c w_min w_diff (c - w) (c + w) (1 / (w_min + w_diff))).

(** pdf.py:48-68 [unifsum.__call__]; dividing by zero raises. *)
Definition unifsum_call (s : unifsum) (p : R) : res R :=
  let div x := if Req_EM_T (us_wmin s) 0 then Err ZeroDivisionError else Ok (x / us_wmin s) in
  if rlt p (us_l s) then Ok 0
  else if rlt p (us_c s - us_wdiff s / 2) then div (us_t s * (p - us_l s))
  else if rlt p (us_c s + us_wdiff s / 2) then Ok (us_t s)
  else if rlt p (us_h s) then div (us_t s * (us_c s + us_wdiff s / 2 - p + us_wmin s))
  else Ok 0.

(** ** Instrumenter *)

(** intrument.py:7-21 [OpCount]. *)
Record opcount := mkOC {
  cnt_sample : nat; cnt_update : nat; cnt_measure : nat; cnt_pdfxn : nat; cnt_pdfxn_full : nat;
  cnt_pdfxnmax : nat; cnt_propsmooth : nat; cnt_pdfsmooth : nat; cnt_eval1st : nat; cnt_eval_logp_x0 : nat }.
(** intrument.py:8-20 *)
Definition oc0 : opcount := mkOC 0 0 0 0 0 0 0 0 0 0.

(** intrument.py:23-33 [OpCount.__add__]. *)
Definition oc_add (x y : opcount) : opcount :=
  mkOC (cnt_sample x + cnt_sample y) (cnt_update x + cnt_update y) (cnt_measure x + cnt_measure y)
       (cnt_pdfxn x + cnt_pdfxn y) (cnt_pdfxn_full x + cnt_pdfxn_full y) (cnt_pdfxnmax x + cnt_pdfxnmax y)
       (cnt_propsmooth x + cnt_propsmooth y) (cnt_pdfsmooth x + cnt_pdfsmooth y)
       (cnt_eval1st x + cnt_eval1st y) (cnt_eval_logp_x0 x + cnt_eval_logp_x0 y).

Section Instr.
(** Particles, trajectories, and everything else that is passed through. *)
Context {P Tr A : Type}.

(** The calls the filters and smoothers make to a model.  [A] stands for the remaining
    positional arguments and for results other than particles. *)
(** intrument.py:81-164, interfaces.py *)
Inductive call : Type -> Type :=
| CCreate (n : nat) : call (list P)
| CNoise (ptraj : Tr) (anc : list nat) (rest : A) : call A
| CUpdate (part : list P) (traj : Tr) (rest : A) (anc : list nat) (noise : A) : call (list P)
| CMeasure (part : list P) (traj : Tr) (rest : A) (anc : list nat) : call (list P * list R)
| CCopy (part : list P) (ind : option (list nat)) : call (list P)
| CXnext (part next : list P) (rest : A) : call (list R)
| CXnextMaxFull (part : list P) (past : Tr) (pind : list nat) (rest : A) : call (list R)
| CSampleSmooth (part : list P) (ptraj : option Tr) (anc : list nat) (fut : option Tr) (find : list nat) (rest : A) : call (list P)
| CPropose (ptraj : option Tr) (anc : list nat) (fut : option Tr) (find : list nat) (rest : A) : call (list P)
| CLogpProposal (part : list P) (ptraj : option Tr) (anc : list nat) (fut : option Tr) (find : list nat) (rest : A) : call (list R)
| CXnextFull (part : list P) (past : option Tr) (pind : list nat) (fut : option Tr) (find : list nat) (rest : A) : call (list R)
| CXnextSingle (part : list P) (past : option Tr) (pind : list nat) (fut : list P) (find : list nat) (rest : A) : call (list R)
| CEval1st (part : list P) (rest : A) : call (list R)
| CPre (st : Tr) : call unit
| CPost (st : Tr) : call unit
| CLogpX0 (part : list P) (rest : A) : call (list R)
| CCondPredict (part : list P) (past : option Tr) (pind : list nat) (fut : list P) (find : list nat) (rest : A) : call (list P)
| CCondInitial (part : list P) (rest : A) : call (list P)
(* methods other parts of the library call but the wrapper does not have *)
| CProposeFromY (n : nat) (rest : A) : call (list P)
| CQsample (part : list P) (rest : A) : call (list P)
| CLogpQ (part next : list P) (rest : A) : call (list R)
| CMeasure3 (part : list P) (rest : A) : call (list R).

(** A model: answers calls, may change its state and may raise. *)
(** interfaces.py *)
Definition object (W : Type) : Type := forall T, call T -> M W T.

(** intrument.py:85-88 *)
Definition bump_sample n := mkOC n 0 0 0 0 0 0 0 0 0.
(** intrument.py:90-93 *)
Definition bump_update n := mkOC 0 n 0 0 0 0 0 0 0 0.
(** intrument.py:95-98 *)
Definition bump_measure n := mkOC 0 0 n 0 0 0 0 0 0 0.
(** intrument.py:103-106, 133-144 *)
Definition bump_pdfxn n := mkOC 0 0 0 n 0 0 0 0 0 0.
(** intrument.py:108-111 *)
Definition bump_pdfxnmax n := mkOC 0 0 0 0 0 n 0 0 0 0.
(** intrument.py:117-124 *)
Definition bump_propsmooth n := mkOC 0 0 0 0 0 0 n 0 0 0.
(** intrument.py:126-131 *)
Definition bump_pdfsmooth n := mkOC 0 0 0 0 0 0 0 n 0 0.
(** intrument.py:146-148 *)
Definition bump_eval1st n := mkOC 0 0 0 0 0 0 0 0 n 0.
(** intrument.py:156-158 *)
Definition bump_x0 n := mkOC 0 0 0 0 0 0 0 0 0 n.

(** Increase the counters, then pass the call on to the model. *)
(** intrument.py:81-164 *)
Definition counted {W T} (m : M W T) (d : opcount) : M (W * opcount) T :=
  fun s => match m (fst s) with Ok (r, w) => Ok (r, (w, oc_add (snd s) d)) | Err e => Err e end.

(** intrument.py:58-164 [Instrumenter]: the wrapped model. *)
Definition instrument {W} (m : object W) : object (W * opcount) :=
  fun T c =>
    match c in call T return (M W T -> M (W * opcount) T) with
    | CCreate n => fun r => counted r oc0
    | CNoise tr anc rest => fun r => counted r (bump_sample (List.length anc))
    | CUpdate p tr rest anc noise => fun r => counted r (bump_update (List.length p))
    | CMeasure p tr rest anc => fun r => counted r (bump_measure (List.length p))
    | CCopy p ind => fun r => counted r oc0
    | CXnext p next rest => fun r => counted r (bump_pdfxn (Nat.max (List.length p) (List.length next)))
    | CXnextMaxFull p past pind rest => fun r => counted r (bump_pdfxnmax (List.length p))
    | CSampleSmooth p tr anc fut find rest => fun r => counted r oc0
    | CPropose tr anc fut find rest => fun r =>
        counted r (bump_propsmooth (match tr with Some _ => List.length anc | None => List.length find end))
    | CLogpProposal p tr anc fut find rest => fun r => counted r (bump_pdfsmooth (List.length p))
    | CXnextFull p past pind fut find rest => fun r => counted r (bump_pdfxn (Nat.max (List.length p) (List.length find)))
    | CXnextSingle p past pind fut find rest => fun r => counted r (bump_pdfxn (Nat.max (List.length p) (List.length find)))
    | CEval1st p rest => fun r => counted r (bump_eval1st (List.length p))
    | CPre st => fun r => counted r oc0
    | CPost st => fun r => counted r oc0
    | CLogpX0 p rest => fun r => counted r (bump_x0 (List.length p))
    | CCondPredict p past pind fut find rest => fun r => counted r oc0
    | CCondInitial p rest => fun r => counted r oc0
    | CProposeFromY _ _ | CQsample _ _ | CLogpQ _ _ _ | CMeasure3 _ _ => fun _ _ => Err AttributeError
    end (m T c).

(** A program that uses a model: it may choose every call from all results so far. *)
(** the library code of filter.py and smoother.py calling a model *)
Inductive client (Z : Type) : Type :=
| Done (z : Z)
| Use {T} (c : call T) (k : T -> client Z).

(** the library code of filter.py and smoother.py calling a model *)
Fixpoint run {W Z} (m : object W) (c : client Z) : M W Z :=
  match c with
  | Done _ z => ret z
  | Use _ c k => bind (m _ c) (fun r => run m (k r))
  end.
End Instr.
Arguments call : clear implicits.
Arguments object : clear implicits.
Arguments client : clear implicits.
