(** Model of the element loops of pyparticleest/utils/mlnlg_compute.py:27-102 on numpy arrays, with the bounds checks numpy makes, and of
    their caller pyparticleest/models/mlnlg.py:798-816.  The compiled pyparticleest/utils/cmlnlg_compute.pyx:28-132 has the same loops with
    boundscheck(False): there an index out of range is not an error but undefined behaviour.  Numbers are exact; the arrays passed in are
    different arrays, as the caller makes them. *)
From Coq Require Import Reals List Arith.
From Verif Require Import Base.
Import ListNotations.
Open Scope R_scope.

(** A numpy array of floats: its shape and its entries (meaningful at indices in range). *)
(** numpy.ndarray *)
Definition arr : Type := (list nat * (list nat -> R))%type.
(** index in range, one index per axis; all indices of the loops are non-negative *)
(** numpy indexing *)
Fixpoint inb (shape idx : list nat) : bool :=
  match shape, idx with
  | [], [] => true
  | n :: shape', i :: idx' => (Nat.ltb i n && inb shape' idx')%bool
  | _, _ => false
  end.
(** numpy [a[i, ...]] *)
Definition rd (a : arr) (i : list nat) : res R := if inb (fst a) i then Ok (snd a i) else Err IndexError.
(** the entries after one assignment *)
(** numpy [a[i, ...] = v] *)
Definition put (c : list nat -> R) (i : list nat) (v : R) : list nat -> R := fun j => if list_eq_dec Nat.eq_dec j i then v else c j.
(** numpy [a[i, ...] = v] *)
Definition wr (a : arr) (i : list nat) (v : R) : res arr := if inb (fst a) i then Ok (fst a, put (snd a) i v) else Err IndexError.
(** numpy [a[i, ...] += v] *)
Definition incr (a : arr) (i : list nat) (v : R) : res arr := dor o <- rd a i ; wr a i (o + v).
(** numpy.zeros *)
Definition zeros (shape : list nat) : arr := (shape, fun _ => 0).

(** [for k in range(n): ...] on the variables the body changes. *)
(** Python for *)
Fixpoint for_ {S : Type} (n : nat) (body : nat -> S -> res S) (s : S) : res S :=
  match n with
  | O => Ok s
  | S k => dor s' <- for_ k body s ; body k s'
  end.

(** mlnlg_compute.py:27-38 [compute_l2_grad_f] (cmlnlg_compute.pyx:29-44); returns the arrays it changes, out and tmp *)
Definition loop_grad_f (N lenp dim : nat) (out perr f_grad tmp : arr) : res (arr * arr) :=
  for_ N (fun i s => for_ lenp (fun j s =>
    dor s <- for_ dim (fun k s => for_ dim (fun l s =>
      dor a <- rd f_grad [i; j; k; 0%nat] ;
      dor b <- rd perr [i; l; 0%nat] ;
      dor tmp <- wr (snd s) [k; l] (a * b) ;
      Ok (fst s, tmp)) s) s ;
    for_ dim (fun k s => for_ dim (fun l s =>
      dor a <- rd (snd s) [k; l] ;
      dor b <- rd (snd s) [l; k] ;
      dor out <- incr (fst s) [i; j; k; l] (- a - b) ;
      Ok (out, snd s)) s) s) s) (out, tmp).

(** mlnlg_compute.py:41-97 [compute_l2_grad_A] (cmlnlg_compute.pyx:66-132); the argument Pn is not used.  [dim - lxi] is truncated at 0
    here, which is the same for lxi <= dim. *)
Definition loop_grad_A (N lenp dim : nat) (out perr : arr) (lxi : nat) (zl Pl M A A_grad tmp1 tmp2 : arr) : res (arr * arr * arr) :=
  let lz := (dim - lxi)%nat in
  for_ N (fun i s => for_ lenp (fun j s =>
    (* A_grad[i,j].dot(zl[i], tmp2[:,0]) *)
    dor s <- for_ dim (fun k s =>
      dor tmp2 <- wr (snd s) [k; 0%nat] 0 ;
      for_ lz (fun m s =>
        dor a <- rd A_grad [i; j; k; m] ;
        dor b <- rd zl [i; m; 0%nat] ;
        dor tmp2 <- incr (snd s) [k; 0%nat] (a * b) ;
        Ok (fst s, tmp2)) (fst s, tmp2)) s ;
    (* tmp2[:,0].dot(perr[i].T, tmp1) *)
    dor s <- for_ dim (fun k s => for_ dim (fun l s =>
      dor a <- rd (snd s) [k; 0%nat] ;
      dor b <- rd perr [i; l; 0%nat] ;
      dor tmp1 <- wr (snd (fst s)) [k; l] (a * b) ;
      Ok (fst (fst s), tmp1, snd s)) s) s ;
    (* out[i,j] += -tmp1 - tmp1.T *)
    dor s <- for_ dim (fun k s => for_ dim (fun l s =>
      dor a <- rd (snd (fst s)) [k; l] ;
      dor b <- rd (snd (fst s)) [l; k] ;
      dor out <- incr (fst (fst s)) [i; j; k; l] (- a - b) ;
      Ok (out, snd (fst s), snd s)) s) s ;
    (* A_grad[i][j].dot(Pl[i], tmp2) *)
    dor s <- for_ dim (fun k s => for_ lz (fun l s =>
      dor tmp2 <- wr (snd s) [k; l] 0 ;
      for_ lz (fun m s =>
        dor a <- rd A_grad [i; j; k; m] ;
        dor b <- rd Pl [i; m; l] ;
        dor tmp2 <- incr (snd s) [k; l] (a * b) ;
        Ok (fst s, tmp2)) (fst s, tmp2)) s) s ;
    (* tmp2.dot(A[i].T, tmp1) *)
    dor s <- for_ dim (fun k s => for_ dim (fun l s =>
      dor tmp1 <- wr (snd (fst s)) [k; l] 0 ;
      for_ lz (fun m s =>
        dor a <- rd (snd s) [k; m] ;
        dor b <- rd A [i; l; m] ;
        dor tmp1 <- incr (snd (fst s)) [k; l] (a * b) ;
        Ok (fst (fst s), tmp1, snd s)) (fst (fst s), tmp1, snd s)) s) s ;
    (* out[i,j] += tmp1 + tmp1.T *)
    dor s <- for_ dim (fun k s => for_ dim (fun l s =>
      dor a <- rd (snd (fst s)) [k; l] ;
      dor b <- rd (snd (fst s)) [l; k] ;
      dor out <- incr (fst (fst s)) [i; j; k; l] (a + b) ;
      Ok (out, snd (fst s), snd s)) s) s ;
    (* A_grad[i][j].dot(M[i], tmp2) *)
    dor s <- for_ dim (fun k s => for_ lz (fun l s =>
      dor tmp2 <- wr (snd s) [k; l] 0 ;
      for_ lz (fun m s =>
        dor a <- rd A_grad [i; j; k; m] ;
        dor b <- rd M [i; m; l] ;
        dor tmp2 <- incr (snd s) [k; l] (a * b) ;
        Ok (fst s, tmp2)) (fst s, tmp2)) s) s ;
    (* the columns and rows from lxi on *)
    for_ dim (fun k s => for_ lz (fun l s =>
      dor a <- rd (snd s) [k; l] ;
      dor out <- incr (fst (fst s)) [i; j; k; (lxi + l)%nat] (- a) ;
      dor a <- rd (snd s) [k; l] ;
      dor out <- incr out [i; j; (lxi + l)%nat; k] (- a) ;
      Ok (out, snd (fst s), snd s)) s) s) s) (out, tmp1, tmp2).

(** mlnlg.py:807-816, the gradient part of [calc_l2_grad]: fresh arrays, then the two loops; [np] is len(self.params) *)
Definition loop_l2_grad (N np lxi lz : nat) (perr zl Pl M A : arr) (f_grad A_grad : option arr) : res arr :=
  let dim := (lxi + lz)%nat in
  let diff := zeros [N; np; dim; dim] in
  let tmp1 := zeros [dim; dim] in
  let tmp2 := zeros [dim; lz] in
  dor s <- match f_grad with Some fg => loop_grad_f N np dim diff perr fg tmp1 | None => Ok (diff, tmp1) end ;
  match A_grad with
  | Some ag => dor r <- loop_grad_A N np dim (fst s) perr lxi zl Pl M A ag (snd s) tmp2 ; Ok (fst (fst r))
  | None => Ok (fst s)
  end.
