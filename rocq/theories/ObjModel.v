(** Model of the objective functions used in the maximisation step of the EM methods
    (pyparticleest/paramest/interfaces.py).  [xrange] is read as [range]. *)
From Coq Require Import Bool Reals List Arith.
From Verif Require Import Base.
Import ListNotations.
Open Scope R_scope.

(** [numpy.sum], paramest/interfaces.py:59-168 *)
Definition rsum (l : list R) : R := fold_right Rplus 0 l.

(** [numpy.mean] of all entries. *)
Definition rmean (l : list R) : res R := match l with [] => Err NotFinite | _ => Ok (rsum l / INR (length l)) end.

(** [a + b] of two vectors of equal length. *)
(** numpy addition, paramest/interfaces.py:139-168 *)
Fixpoint vadd (a b : list R) : res (list R) :=
  match a, b with
  | [], [] => Ok []
  | x :: a', y :: b' => dor r <- vadd a' b' ; Ok (x + y :: r)
  | _, _ => Err ValueError
  end.

Section Obj.
(** Particles, inputs, measurements, time stamps. *)
Context {P U Y T : Type}.

(** The user's methods after [set_params theta]; values are arrays with one entry per particle (a single
    float is represented by a one element list). *)
(** paramest/interfaces.py:21-120, 171-230 *)
Record pmodel := mkPM {
  pm_xnext : list P -> list P -> U -> T -> res (list R);      (* eval_logp_xnext *)
  pm_y : list P -> Y -> T -> res (list R);                    (* eval_logp_y *)
  pm_x0 : list P -> T -> res (list R);                        (* eval_logp_x0 *)
  pm_xnext_vg : list P -> list P -> U -> T -> res (R * list R);   (* eval_logp_xnext_val_grad *)
  pm_y_vg : list P -> Y -> T -> res (R * list R);                 (* eval_logp_y_val_grad *)
  pm_x0_vg : list P -> T -> res (list R * list R) }.              (* eval_logp_x0_val_grad *)

(** [for i in is: acc += f(i)]. *)
(** paramest/interfaces.py:62-66, 74-78 *)
Fixpoint for_sum (is : list nat) (f : nat -> res R) (acc : R) : res R :=
  match is with [] => Ok acc | i :: is' => dor v <- f i ; for_sum is' f (acc + v) end.
(** paramest/interfaces.py:144-150, 160-166 *)
Fixpoint for_sum_vg (is : list nat) (f : nat -> res (R * list R)) (acc : R * list R) : res (R * list R) :=
  match is with
  | [] => Ok acc
  | i :: is' => dor v <- f i ; dor g <- vadd (snd acc) (snd v) ; for_sum_vg is' f (fst acc + fst v, g)
  end.

(** [sest.shape[1]] *)
(** paramest/interfaces.py:61, 73, 141, 156 *)
Definition num_traj (sest : list (list P)) : nat := match sest with [] => 0%nat | r :: _ => length r end.
(** paramest/interfaces.py:69, 81 *)
Definition over (v : R) (m : nat) : res R := match m with O => Err NotFinite | S _ => Ok (v / INR m) end.
(** paramest/interfaces.py:152, 168 *)
Definition over_vg (v : R * list R) (m : nat) : res (R * list R) :=
  match m with O => Err NotFinite | S _ => Ok (fst v / INR m, map (fun x => x / INR m) (snd v)) end.

(** interfaces.py:59-69 [eval_logp_xnext_fulltraj]. *)
Definition eval_logp_xnext_fulltraj (pm : pmodel) (sest : list (list P)) (ut : list U) (tt : list T) : res R :=
  dor s <- for_sum (seq 0 (length sest - 1))
             (fun i => dor a <- idx sest i ; dor b <- idx sest (S i) ; dor u <- idx ut i ; dor t <- idx tt i ;
                       dor v <- pm_xnext pm a b u t ; Ok (rsum v)) 0 ;
  over s (num_traj sest).

(** interfaces.py:71-81 [eval_logp_y_fulltraj]; an entry [None] of [yt] is a missing measurement. *)
Definition eval_logp_y_fulltraj (pm : pmodel) (sest : list (list P)) (yt : list (option Y)) (tt : list T) : res R :=
  dor s <- for_sum (seq 0 (length sest))
             (fun i => dor y <- idx yt i ;
                       match y with
                       | None => Ok 0
                       | Some y => dor a <- idx sest i ; dor t <- idx tt i ; dor v <- pm_y pm a y t ; Ok (rsum v)
                       end) 0 ;
  over s (num_traj sest).

(** What [straj] stores. *)
(** smoother.py:196-251 *)
Record straj := mkST { st_sest : list (list P); st_part0 : list P; st_u : list U; st_y : list (option Y); st_t : list T }.

(** interfaces.py:139-152 [eval_logp_y_val_grad_fulltraj]; the arguments [yt], [tt] are not used. *)
Definition eval_logp_y_val_grad_fulltraj (pm : pmodel) (np : nat) (s : straj) : res (R * list R) :=
  dor v <- for_sum_vg (seq 0 (length (st_sest s)))
             (fun i => dor y <- idx (st_y s) i ;
                       match y with
                       | None => Ok (0, repeat 0 np)
                       | Some y => dor a <- idx (st_sest s) i ; dor t <- idx (st_t s) i ; pm_y_vg pm a y t
                       end) (0, repeat 0 np) ;
  over_vg v (num_traj (st_sest s)).

(** interfaces.py:154-168 [eval_logp_xnext_val_grad_fulltraj]; the arguments [ut], [tt] are not used. *)
Definition eval_logp_xnext_val_grad_fulltraj (pm : pmodel) (np : nat) (s : straj) : res (R * list R) :=
  dor v <- for_sum_vg (seq 0 (length (st_sest s) - 1))
             (fun i => dor a <- idx (st_sest s) i ; dor b <- idx (st_sest s) (S i) ; dor u <- idx (st_u s) i ; dor t <- idx (st_t s) i ;
                       pm_xnext_vg pm a b u t) (0, repeat 0 np) ;
  over_vg v (num_traj (st_sest s)).

(** interfaces.py:242-256 [ParamEstBaseNumeric.maximize.fval]; [pm theta] is the model after
    [set_params theta]. *)
Definition fval (pm : list R -> pmodel) (s : straj) (theta : list R) : res R :=
  dor log_py <- eval_logp_y_fulltraj (pm theta) (st_sest s) (st_y s) (st_t s) ;
  dor log_pxnext <- eval_logp_xnext_fulltraj (pm theta) (st_sest s) (st_u s) (st_t s) ;
  dor t0 <- idx (st_t s) 0 ;
  dor tmp <- pm_x0 (pm theta) (st_part0 s) t0 ;
  dor log_px0 <- rmean tmp ;
  Ok (-1 * (log_py + log_px0 + log_pxnext)).

(** interfaces.py:273-288 [ParamEstBaseNumericGrad.maximize.fval_grad]: the gradient of the initial term
    is averaged over the parameters ([numpy.mean(tmp2)]) and the scalar is added to every component. *)
Definition fval_grad (pm : list R -> pmodel) (np : nat) (s : straj) (theta : list R) : res (R * list R) :=
  dor vy <- eval_logp_y_val_grad_fulltraj (pm theta) np s ;
  dor vx <- eval_logp_xnext_val_grad_fulltraj (pm theta) np s ;
  dor t0 <- idx (st_t s) 0 ;
  dor tmp <- pm_x0_vg (pm theta) (st_part0 s) t0 ;
  dor logp_x0 <- rmean (fst tmp) ;
  dor grad_x0 <- rmean (snd tmp) ;
  dor g <- vadd (snd vy) (snd vx) ;
  Ok (-1 * (fst vy + logp_x0 + fst vx), map (fun x => -1 * (x + grad_x0)) g).

(** interfaces.py:241-261, 271-294 [maximize]: the optimiser (scipy's l-bfgs-b) is a parameter: any
    function of the objective, the current parameters and the bounds. *)
Definition maximize_numeric {B} (opt : (list R -> res R) -> list R -> B -> res (list R)) (pm : list R -> pmodel) (params : list R) (bounds : B) (s : straj) : res (list R) :=
  opt (fval pm s) params bounds.
(** paramest/interfaces.py:271-294 *)
Definition maximize_numeric_grad {B} (opt : (list R -> res (R * list R)) -> list R -> B -> res (list R)) (pm : list R -> pmodel) (params : list R) (bounds : B) (s : straj) : res (list R) :=
  opt (fval_grad pm (length params) s) params bounds.
End Obj.
Arguments pmodel : clear implicits.
Arguments straj : clear implicits.
