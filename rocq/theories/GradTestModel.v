(** Model of pyparticleest/paramest/gradienttest.py (without the drawing): curves of the terms of the EM objective as a
    function of one parameter, with the gradients the model claims. *)
From Coq Require Import Bool Reals List Arith.
From Verif Require Import Base ObjModel.
Import ListNotations.
Open Scope R_scope.

(** gradienttest.py:10-14 [GradPlot.__init__]: parameter values, values of the curve, and derivatives if there are any. *)
Record gplot := mkGP { gp_params : list R; gp_vals : list R; gp_diff : option (list R) }.

Section GradTest.
Context {P U Y T : Type}.

(** What one pass of the loop computes: log p(y|x), log p(x'|x), log p(x0) and, with [analytic_grad], one row of
    each of the three gradient arrays. *)
(** one row of the arrays of gradienttest.py:35-41 *)
Record grow := mkGR { gr_y : R; gr_xn : R; gr_x0 : R; gr_grad : option (list R * list R * list R) }.

(** [a[k] = v] for a row of [np] numbers: the length has to fit (broadcasting of a one element array not modelled). *)
(** the row assignments gradienttest.py:67-68 *)
Definition row_fits (np : nat) (v : list R) : res (list R) := if Nat.eqb (length v) np then Ok v else Err ValueError.

(** gradienttest.py:46-72: the body of the loop after [set_params(tmp)]; [pm] is the model with these parameters and [np] the
    number of parameters.  The gradient of the initial term is averaged over the parameters (line 68) and the average is
    stored in every column (line 72). *)
Definition gt_row (pm : pmodel P U Y T) (np : nat) (analytic : bool) (s : straj P U Y T) : res grow :=
  dor ly <- eval_logp_y_fulltraj pm (st_sest s) (st_y s) (st_t s) ;
  dor lx <- eval_logp_xnext_fulltraj pm (st_sest s) (st_u s) (st_t s) ;
  dor t0 <- idx (st_t s) 0 ;
  dor tmp <- pm_x0 pm (st_part0 s) t0 ;
  dor l0 <- rmean tmp ;
  if analytic then
    dor vy <- eval_logp_y_val_grad_fulltraj pm np s ;
    dor vx <- eval_logp_xnext_val_grad_fulltraj pm np s ;
    dor tmp12 <- pm_x0_vg pm (st_part0 s) t0 ;
    dor _ <- rmean (fst tmp12) ;
    dor g0 <- rmean (snd tmp12) ;
    dor gy <- row_fits np (snd vy) ;
    dor gx <- row_fits np (snd vx) ;
    Ok (mkGR ly lx l0 (Some (gy, gx, repeat g0 np)))
  else Ok (mkGR ly lx l0 None).

(** gradienttest.py:42-45 and the loop around it: [tmp = numpy.copy(self.params); tmp[param_id] = v; self.set_params(tmp)], where
    set_params (simulator.py:34-42) makes [tmp] the current parameters.  [param_id] is not negative here. *)
Fixpoint gt_loop (pm : list R -> pmodel P U Y T) (np : nat) (analytic : bool) (s : straj P U Y T) (pid : nat) (vals : list R) (params : list R) : res (list R * list grow) :=
  match vals with
  | [] => Ok (params, [])
  | v :: vals' =>
      dor tmp <- upd params pid v ;
      dor r <- gt_row (pm tmp) np analytic s ;
      dor rest <- gt_loop pm np analytic s pid vals' tmp ;
      Ok (fst rest, r :: snd rest)
  end.

(** [a[:, param_id]] of the gradient rows. *)
(** numpy [a[:, param_id]], gradienttest.py:70-72 *)
Fixpoint column (sel : list R * list R * list R -> list R) (pid : nat) (rows : list grow) : res (list R) :=
  match rows with
  | [] => Ok []
  | r :: rows' =>
      match gr_grad r with
      | None => Err UnboundLocalError
      | Some g => dor x <- idx (sel g) pid ; dor xs <- column sel pid rows' ; Ok (x :: xs)
      end
  end.
(** gradienttest.py:70-76 *)
Definition gt_plot (analytic : bool) (pid : nat) (vals : list R) (sel : list R * list R * list R -> list R) (val : grow -> R) (rows : list grow) : res gplot :=
  if analytic then dor d <- column sel pid rows ; Ok (mkGP vals (map val rows) (Some d)) else Ok (mkGP vals (map val rows) None).

(** gradienttest.py:32-81 [GradientTest.test]: the result is the estimator's parameters, its smoothed trajectories and its plots (of y,
    x', x0) after the call.  [sim] is [self.simulate] followed by reading [self.straj]; [plots] are the plots the object had
    before, which stay if there is no parameter value to test.  The arrays in the plots are filled in place, so what counts is their content
    after the last pass. *)
Definition gt_test (sim : option (list R) -> nat -> nat -> res (straj P U Y T)) (pm : list R -> pmodel P U Y T) (params : option (list R))
    (plots : option (gplot * gplot * gplot)) (pid : nat) (vals : list R) (num nums : nat) (analytic : bool)
    : res (option (list R) * straj P U Y T * option (gplot * gplot * gplot)) :=
  dor s <- sim params num nums ;
  match params with
  | None => if analytic then Err TypeError (* len(None) *) else match vals with [] => Ok (None, s, plots) | _ => Err IndexError end
  | Some th =>
      dor r <- gt_loop pm (length th) analytic s pid vals th ;
      match vals with
      | [] => Ok (Some th, s, plots)
      | _ =>
          dor py <- gt_plot analytic pid vals (fun g => fst (fst g)) gr_y (snd r) ;
          dor px <- gt_plot analytic pid vals (fun g => snd (fst g)) gr_xn (snd r) ;
          dor p0 <- gt_plot analytic pid vals snd gr_x0 (snd r) ;
          Ok (Some (fst r), s, Some (py, px, p0))
      end
  end.
End GradTest.
