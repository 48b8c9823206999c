(** Model of pyparticleest/models/nlg.py: nonlinear systems with additive Gaussian noise.  A particle is its state vector;
    all particles have the dimension [n] of the model and measurements have dimension [m].  Arithmetic is exact. *)
From mathcomp Require Import all_ssreflect all_algebra.
From Coq Require Import Reals List.
From Verif Require Import Base RMat KalmanModel Storage MlnlgModel.
Set Implicit Arguments.
Unset Strict Implicit.
Unset Printing Implicit Defensive.
Import GRing.Theory.
Local Open Scope ring_scope.

(** ** numpy *)
(** [op(a, b)] for two arrays with the particles along the first axis: equal lengths, or one of them of length one (an array
    without the particle axis behaves as one of length one) *)
(** numpy broadcasting, nlg.py:173, 200, 286 *)
Definition bcast A B C (op : A -> B -> C) (a : list A) (b : list B) : res (list C) :=
  if length a == length b then Ok (List.map (fun p => op p.1 p.2) (List.combine a b))
  else match a, b with
       | cons x nil, _ => Ok (List.map (op x) b)
       | _, cons y nil => Ok (List.map (fun x => op x y) a)
       | _, _ => Err ValueError
       end.
(** [particles[:] = x] for N particles *)
(** nlg.py:173 *)
Definition assign_all A (N : nat) (x : list A) : res (list A) :=
  if length x == N then Ok x else match x with cons v nil => Ok (List.repeat v N) | _ => Err ValueError end.
(** the factor returned by [scipy.linalg.cho_factor(P)[0]]: the upper triangle is that of the Cholesky factor, the entries below the
    diagonal are whatever was in the buffer ([junk]) *)
Definition cho_factor_raw n (junk P : 'M[R]_n) : res 'M[R]_n :=
  dor Uc <- chol P ; Ok (\matrix_(i, j) (if (i <= j)%nat then Uc i j else junk i j)).

Section NLG.
Context {n m : nat} {U Tm : Type}.
(** nlg.py:42-99: the callbacks default to returning None; nlg.py:100-118: the stored constants.  [ng_Q] is (Qcholtri, logpdfmax),
    absent if no Q was ever given (using it raises AttributeError), [ng_R] is Rcholtri. *)
Record nlg : Type := mkNlg {
  ng_f : option 'cV[R]_n; ng_g : option 'cV[R]_m; ng_Q : option ('M[R]_n * R); ng_R : option 'M[R]_m;
  calc_f : list 'cV[R]_n -> U -> Tm -> option (list 'cV[R]_n);
  calc_Q : list 'cV[R]_n -> U -> Tm -> option (list 'M[R]_n);
  calc_g : list 'cV[R]_n -> Tm -> option (list 'cV[R]_m);
  calc_R : list 'cV[R]_n -> Tm -> option (list 'M[R]_m) }.
(** nlg.py:110-113, 120-124: factor and the largest value of the log density *)
Definition factor_Q (Q : 'M[R]_n) : res ('M[R]_n * R) :=
  dor Uc <- chol Q ; Ok (Uc, (- (1 / 2) * (INR n * l2pi + cho_logdet Uc))%Re).
(** nlg.py:100-118 [__init__] *)
Definition nlg_init (f : option 'cV[R]_n) (g : option 'cV[R]_m) (Q : option 'M[R]_n) (Rn : option 'M[R]_m) cf cQ cg cR : res nlg :=
  dor q <- match Q with Some Q => dor q <- factor_Q Q ; Ok (Some q) | None => Ok None end ;
  dor r <- match Rn with Some Rn => dor r <- chol Rn ; Ok (Some r) | None => Ok None end ;
  Ok (mkNlg f g q r cf cQ cg cR).
(** nlg.py:120-124 [set_Q] *)
Definition set_Q (L : nlg) (Q : 'M[R]_n) : res nlg :=
  dor q <- factor_Q Q ; Ok (mkNlg (ng_f L) (ng_g L) (Some q) (ng_R L) (calc_f L) (calc_Q L) (calc_g L) (calc_R L)).
(** nlg.py:126-128 [set_R] *)
Definition set_R (L : nlg) (Rn : 'M[R]_m) : res nlg :=
  dor r <- chol Rn ; Ok (mkNlg (ng_f L) (ng_g L) (ng_Q L) (Some r) (calc_f L) (calc_Q L) (calc_g L) (calc_R L)).

Variable L : nlg.
(** attributes set at nlg.py:100-118 only *)
Definition attr T (o : option T) : res T := match o with Some v => Ok v | None => Err AttributeError end.

(** nlg.py:130-153 [sample_process_noise]; [w i] is the i-th column drawn by numpy.random.normal *)
Definition nl_noise (w : nat -> 'cV[R]_n) (particles : list 'cV[R]_n) (u : U) (t : Tm) : res (list 'cV[R]_n) :=
  let N := length particles in
  match calc_Q L particles u t with
  | None => dor q <- attr (ng_Q L) ; forr N (fun i => Ok (q.1^T *m w i))
  | Some Q => forr N (fun i => dor Qi <- idx Q i ; dor Uc <- chol Qi ; Ok (Uc^T *m w i))
  end.
(** the value of f: one entry per particle, or the stored constant without a particle axis; None + x raises TypeError *)
(** nlg.py:170-172, 283-285 *)
Definition f_val (particles : list 'cV[R]_n) (u : U) (t : Tm) : res (list 'cV[R]_n) :=
  match calc_f L particles u t with
  | Some f => Ok f
  | None => match ng_f L with Some f => Ok (cons f nil) | None => Err TypeError end
  end.
(** nlg.py:155-174 [update] *)
Definition nl_update (particles : list 'cV[R]_n) (u : U) (t : Tm) (noise : list 'cV[R]_n) : res (list 'cV[R]_n) :=
  dor f <- f_val particles u t ;
  dor x <- bcast (fun a b => a + b) f noise ;
  assign_all (length particles) x.
(** the log density of the errors when the covariance is the stored constant: one-dimensional errors go through
    [lognormpdf_scalar], which is given the Cholesky factor (nlg.py:203-206, 289-292) *)
Definition logpdf_stored k (diff : list 'cV[R]_k) (Uc : 'M[R]_k) : res (list R) :=
  match k as k return list 'cV[R]_k -> 'M[R]_k -> res (list R) with
  | 1 => fun diff Uc => lognormpdf_scalar (List.map (fun e => scal11 e) diff) Uc
  | _ => fun diff Uc => Ok (lognormpdf_cho_vec diff Uc)
  end diff Uc.
(** nlg.py:176-212 [measure]; [y] as a column *)
Definition nl_measure (particles : list 'cV[R]_n) (y : 'cV[R]_m) (t : Tm) : res (list R) :=
  let N := length particles in
  dor g <- match calc_g L particles t with
           | None => dor g <- attr (ng_g L) ; Ok (List.repeat g N)
           | Some g => if length g == N then Ok g else Err ValueError
           end ;
  let diff := List.map (fun gi => y - gi) g in
  match calc_R L particles t with
  | None => dor Uc <- attr (ng_R L) ; logpdf_stored diff Uc
  | Some Rl => forr N (fun i => dor Ri <- idx Rl i ; dor Uc <- chol Ri ; dor d <- idx diff i ; Ok (lognormpdf_cho d Uc))
  end.
(** nlg.py:214-234 [eval_1st_stage_weights]; [t1] is [t + 1] *)
Definition nl_1st_stage (particles : list 'cV[R]_n) (u : U) (y : 'cV[R]_m) (t t1 : Tm) : res (list R) :=
  dor partn <- nl_update particles u t (List.map (fun _ => 0) particles) ;
  nl_measure partn y t1.
(** nlg.py:236-264 [logp_xnext_max] *)
Definition nl_xnext_max (particles : list 'cV[R]_n) (u : U) (t : Tm) : res R :=
  match calc_Q L particles u t with
  | None => dor q <- attr (ng_Q L) ; Ok q.2
  | Some Q =>
      dor pmax <- forr (length particles) (fun i =>
        dor Qi <- idx Q i ; dor Uc <- chol Qi ; Ok (- (1 / 2) * (INR n * l2pi + cho_logdet Uc))%Re) ;
      rmax pmax
  end.
(** nlg.py:266-300 [logp_xnext] *)
Definition nl_xnext (particles next_part : list 'cV[R]_n) (u : U) (t : Tm) : res (list R) :=
  dor f <- f_val particles u t ;
  dor diff <- bcast (fun a b => a - b) next_part f ;
  match calc_Q L particles u t with
  | None => dor q <- attr (ng_Q L) ; logpdf_stored diff q.1
  | Some Q => forr (length particles) (fun i => dor Qi <- idx Q i ; dor Uc <- chol Qi ; dor d <- idx diff i ; Ok (lognormpdf_cho d Uc))
  end.

(** ** NonlinearGaussianInitialGaussian, nlg.py:376-445 *)
Variables (x0 : 'cV[R]_n) (Px0 : 'M[R]_n).
(** nlg.py:404-418 [create_initial_estimate]; [w i]: the i-th column of the unit noise *)
Definition create_initial_estimate (junk : 'M[R]_n) (w : nat -> 'cV[R]_n) (N : nat) : res (list 'cV[R]_n) :=
  if Px0 == 0 then Ok (List.repeat x0 N)
  else dor F <- cho_factor_raw junk Px0 ; forr N (fun i => Ok (x0 + F *m w i)).
(** nlg.py:420-445 [eval_logp_x0]; None is -inf *)
Definition eval_logp_x0 (particles : list 'cV[R]_n) : res (list (option R)) :=
  if Px0 == 0 then Ok (List.map (fun p => if p == x0 then Some 0%Re else None) particles)
  else dor Uc <- chol Px0 ; Ok (List.map (fun p => Some (lognormpdf_cho (p - x0) Uc)) particles).

(** nlg.py:302-330 [propose_smooth]; [parents]: the particles of the last step of ptraj and the ancestor indices, None at the
    first time step; [u], [t]: input and time of the step before; [nfind]: the number of proposals *)
Definition propose_smooth (junk : 'M[R]_n) (w : nat -> 'cV[R]_n) (parents : option (list 'cV[R]_n * list nat)) (nfind : nat) (u : U) (t : Tm) : res (list 'cV[R]_n) :=
  match parents with
  | Some (part, anc) =>
      dor prop <- Base.take part anc ;
      dor noise <- nl_noise w prop u t ;
      nl_update prop u t noise
  | None => create_initial_estimate junk w nfind
  end.
(** nlg.py:332-356 [logp_proposal] *)
Definition logp_proposal (prop : list 'cV[R]_n) (parents : option (list 'cV[R]_n * list nat)) (u : U) (t : Tm) : res (list (option R)) :=
  match parents with
  | Some (part, anc) => dor p <- Base.take part anc ; dor l <- nl_xnext p prop u t ; Ok (List.map Some l)
  | None => eval_logp_x0 prop
  end.
End NLG.
Arguments nlg : clear implicits.
