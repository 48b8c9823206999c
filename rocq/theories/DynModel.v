(** The arrays a mixed linear/nonlinear Gaussian model is given for its constant matrices: which are copied and which are
    only referenced. *)
From mathcomp Require Import all_ssreflect all_algebra.
From Coq Require Import Reals List.
From Verif Require Import Base RMat KalmanModel Storage MlnlgModel.
Set Implicit Arguments.
Unset Strict Implicit.
Unset Printing Implicit Defensive.
Import GRing.Theory.
Local Open Scope ring_scope.

(** arguments of the constructor and of set_dynamics *)
(** keyword arguments of mlnlg.py:46-49, 73-76 *)
Inductive fld := FAz | FC | FQz | FR | Ffz | Fh | FAxi | Ffxi | FQxi | FQxiz.
(** equality of names (no counterpart in the code) *)
Definition fld_eqb (a b : fld) : bool :=
  match a, b with FAz, FAz | FC, FC | FQz, FQz | FR, FR | Ffz, Ffz | Fh, Fh | FAxi, FAxi | Ffxi, Ffxi | FQxi, FQxi | FQxiz, FQxiz => true | _, _ => false end.
(** an array object belongs to the caller or was made by the model *)
Inductive addr := Caller (n : nat) | Own (n : nat).
(** identity of array objects (Python [is]) *)
Definition addr_eqb (a b : addr) : bool := match a, b with Caller x, Caller y | Own x, Own y => (x =? y)%nat | _, _ => false end.

Section DYN.
Variables (lxi lz m : nat).
(** numpy [a.shape] of a matrix *)
Definition shape : Type := (nat * nat)%type.
(** the shapes mlnlg.py:18-45 asks for *)
Definition fshape (f : fld) : shape :=
  match f with
  | FAz | FQz => (lz, lz) | FC => (m, lz) | FR => (m, m) | Ffz => (lz, 1) | Fh => (m, 1)
  | FAxi | FQxiz => (lxi, lz) | Ffxi => (lxi, 1) | FQxi => (lxi, lxi)
  end%nat.
(** contents of all arrays; the attributes of the model and of its Kalman filter object *)
(** contents of numpy arrays (mlnlg.py:46-109) *)
Definition arrays : Type := forall s : shape, addr -> 'M[R]_(s.1, s.2).
(** numpy [a[:] = v] on one array *)
Definition store (h : arrays) (s : shape) (a : addr) (v : 'M[R]_(s.1, s.2)) : arrays :=
  fun s' a' => match eq_comparable s s' with
               | left e => if addr_eqb a a' then eq_rect s (fun s => 'M[R]_(s.1, s.2)) v s' e else h s' a'
               | right _ => h s' a'
               end.
(** the model object built at mlnlg.py:46-71 with its KalmanSmoother (rbpf.py:38-40, kalman.py:69-79) *)
Record obj := mkObj { o_heap : arrays; o_next : nat; o_fld : fld -> option addr }.
(** assignment of an attribute, mlnlg.py:53-71, 78-109; kalman.py:83-94 *)
Definition setf (o : fld -> option addr) (f : fld) (a : addr) : fld -> option addr := fun g => if fld_eqb f g then Some a else o g.
(** a new array made by the model, stored in an attribute *)
(** [numpy.copy] / [numpy.zeros], mlnlg.py:56-69, 78-96 *)
Definition fresh (o : obj) (f : fld) (v : 'M[R]_((fshape f).1, (fshape f).2)) : obj :=
  mkObj (store (o_heap o) (Own (o_next o)) v) (o_next o).+1 (setf (o_fld o) f (Own (o_next o))).

(** arguments: for each keyword the caller's array, or None *)
(** None defaults of mlnlg.py:46-49, 73-76 *)
Definition args : Type := fld -> option nat.
(** "if (X is not None): self.X = numpy.copy(X)" *)
Definition put_copy (a : args) (f : fld) (o : obj) : obj :=
  match a f with Some n => fresh o (o_heap o (fshape f) (Caller n)) | None => o end.
(** "if (X is not None): self.X = X" *)
(** kalman.py:83-94 *)
Definition put_ref (a : args) (f : fld) (o : obj) : obj :=
  match a f with Some n => mkObj (o_heap o) (o_next o) (setf (o_fld o) f (Caller n)) | None => o end.
(** kalman.py:82-94 [KalmanFilter.set_dynamics], called by rbpf.py:43-56 *)
Definition kf_set (a : args) (o : obj) : obj :=
  put_ref a Fh (put_ref a Ffz (put_ref a FR (put_ref a FQz (put_ref a FC (put_ref a FAz o))))).
(** mlnlg.py:73-109 [set_dynamics].  Lines 98-99 and 104-107 store copies in the attributes Az, Qz and fz, which nothing
    reads; they are left out. *)
Definition dyn_set (a : args) (o : obj) : obj :=
  put_copy a Ffxi (put_copy a FQxiz (put_copy a FQxi (put_copy a FAxi (kf_set a o)))).
(** mlnlg.py:46-71 [__init__], rbpf.py:36-41, kalman.py:69-79 *)
Definition put_zero (a : args) (f : fld) (o : obj) : obj := match a f with Some _ => o | None => fresh (f := f) o 0 end.
Definition dyn_new (h : arrays) (a : args) : obj :=
  let o := mkObj h 0 (fun _ => None) in
  let o := put_copy a FAxi o in
  let o := put_zero a Ffxi (put_copy a Ffxi o) in
  let o := put_copy a FQxiz (put_copy a FQxi o) in
  kf_set a (put_zero a Ffz o).

(** What a program does with the model and with its own arrays. *)
(** calls of mlnlg.py:73-109 and writes of the caller into its own arrays *)
Inductive act := Set_ (a : args) | Write (s : shape) (n : nat) (v : 'M[R]_(s.1, s.2)).
(** one such action, mlnlg.py:73-109 *)
Definition dstep (o : obj) (x : act) : obj :=
  match x with
  | Set_ a => dyn_set a o
  | Write s n v => mkObj (store (o_heap o) (Caller n) v) (o_next o) (o_fld o)
  end.
(** construction (mlnlg.py:46-71) followed by actions *)
Definition drun (h : arrays) (a : args) (l : list act) : obj := List.fold_left dstep l (dyn_new h a).
(** the matrix a computation reads *)
(** reading an attribute, e.g. rbpf.py:100-112 *)
Definition value (o : obj) (f : fld) : option 'M[R]_((fshape f).1, (fshape f).2) :=
  match o_fld o f with Some a => Some (o_heap o (fshape f) a) | None => None end.
(** the model as used by the rest of the formalisation *)
(** the attributes read by mlnlg.py and rbpf.py *)
Definition ml_of U Y Tm (o : obj) nonlin lin meas cross : mlnlg lxi lz m U Y Tm :=
  mkML (mkKF (value o FAz) (value o FC) (value o FQz) (value o FR) (match value o Ffz with Some f => f | None => 0 end) (value o Fh))
    (value o FAxi) (match value o Ffxi with Some f => f | None => 0 end) (value o FQxi) (value o FQxiz) nonlin lin meas cross.
End DYN.
