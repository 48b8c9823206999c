(** Model of the EM terms of pyparticleest/models/mlnlg.py (lines 722-1167: initial, transition and measurement term of
    the expected log-likelihood, with gradients) and of the helpers in pyparticleest/utils/mlnlg_compute.py.
    The particles are smoothed rows xi | z | P | Mz.  Gradients supplied by the user are lists, one entry per particle,
    of lists with one matrix per parameter; [np] is len(self.params).  The element loops of
    mlnlg_compute are in GradLoopModel.  Simplification: lz = 0 is not excluded here (the code's work array has then no column and raises). *)
From mathcomp Require Import all_ssreflect all_algebra.
From Coq Require Import Reals List.
From Verif Require Import Base RMat KalmanModel Storage LtvModel MlnlgModel.
Set Implicit Arguments.
Unset Strict Implicit.
Unset Printing Implicit Defensive.
Import GRing.Theory.
Local Open Scope ring_scope.

(** [g[i][j]] *)
(** numpy [a[i, j]], mlnlg.py:862-1035 *)
Definition idx2 (T : Type) (g : list (list T)) (i j : nat) : res T := dor l <- idx g i ; idx l j.
(** [sum -= 0.5 * (...)] over the particles *)
(** [numpy.sum], mlnlg.py:862-1035 *)
Definition rsum (l : list R) : R := List.fold_left Rplus l 0%Re.

Section EM.
Context {lxi lz m : nat} {U Y Tm : Type}.
Variable L : mlnlg lxi lz m U Y Tm.
Notation dim := (lxi + lz)%nat.

(** mlnlg_compute.py:104-106 [compute_pred_err], one particle *)
Definition pred_err (xn f : 'cV[R]_dim) (A : 'M[R]_(dim, lz)) (z : 'cV[R]_lz) : 'cV[R]_dim := xn - f - A *m z.
(** mlnlg_compute.py:108-126 [compute_l2], one particle: the columns lxi: and the rows lxi: get -A M and its transpose, and
    the lower right block Pn *)
Definition compute_l2 (perr : 'cV[R]_dim) (Pn : 'M[R]_lz) (A : 'M[R]_(dim, lz)) (P M : 'M[R]_lz) : 'M[R]_dim :=
  let out := perr *m perr^T + A *m P *m A^T in
  let tmp := - (A *m M) in
  let out := out + row_mx 0 tmp in
  let out := out + col_mx 0 tmp^T in
  out + block_mx 0 0 0 Pn.
(** mlnlg_compute.py:27-39 [compute_l2_grad_f]: what is added for one particle and parameter *)
Definition l2_grad_f (perr fg : 'cV[R]_dim) : 'M[R]_dim := let tmp := fg *m perr^T in - tmp - tmp^T.
(** mlnlg_compute.py:41-102 [compute_l2_grad_A] *)
Definition l2_grad_A (perr : 'cV[R]_dim) (z : 'cV[R]_lz) (P M : 'M[R]_lz) (A Ag : 'M[R]_(dim, lz)) : 'M[R]_dim :=
  let tmp1 := Ag *m z *m perr^T in
  let tmp2 := Ag *m P *m A^T in
  let tmp3 := Ag *m M in
  (- tmp1 - tmp1^T) + (tmp2 + tmp2^T) + (row_mx 0 (- tmp3) + col_mx 0 (- tmp3)^T).

(** mlnlg.py:787-796 [calc_l2], one particle; xn is xin stacked on zn *)
Definition ml_l2 (sn : st3 (lxi := lxi) (lz := lz)) (z : 'cV[R]_lz) (P M : 'M[R]_lz) (A : 'M[R]_(dim, lz)) (f : 'cV[R]_dim) : 'M[R]_dim :=
  compute_l2 (pred_err (col_mx sn.1.1 sn.1.2) f A z) sn.2 A P M.
(** mlnlg.py:798-816 [calc_l2_grad], one particle and parameter *)
Definition ml_l2_grad (sn : st3 (lxi := lxi) (lz := lz)) (z : 'cV[R]_lz) (P M : 'M[R]_lz) (A : 'M[R]_(dim, lz)) (f : 'cV[R]_dim)
  (fg : option 'cV[R]_dim) (Ag : option 'M[R]_(dim, lz)) : 'M[R]_dim :=
  let perr := pred_err (col_mx sn.1.1 sn.1.2) f A z in
  let d := 0 in
  let d := match fg with Some g => d + l2_grad_f perr g | None => d end in
  match Ag with Some g => d + l2_grad_A perr z P M A g | None => d end.

(** mlnlg.py:351-411: the last flag returned by [calc_A_f_Q] *)
Definition Q_identical (particles : list row) (u : U) (t : Tm) : bool :=
  let '(_, _, (_, Qz_id)) := lin_int L particles u t in
  let '(_, _, (_, Qxi_id)) := nonlin_int L particles u t in
  Qxi_id && Qz_id && (match ml_cross L particles u t with None => true | Some _ => false end).

(** mlnlg.py:836-845: the l2 matrices of all particles *)
Definition all_l2 (particles x_next : list row) (D : list ('M[R]_(dim, lz) * 'cV[R]_dim * 'M[R]_dim)) : res (list 'M[R]_dim) :=
  dor Ss <- get_states3 (lxi := lxi) (lz := lz) particles ;
  dor Ms <- mapr (get_Mz3 (lxi := lxi) (lz := lz)) particles ;
  dor Sn <- get_states3 (lxi := lxi) (lz := lz) x_next ;
  forr (length Sn) (fun i =>
    dor s <- idx Ss i ; dor M <- idx Ms i ; dor sn <- idx Sn i ; dor d <- idx D i ;
    Ok (ml_l2 sn s.1.2 s.2 M d.1.1 d.1.2)).
(** mlnlg.py:818-860 [eval_logp_xnext]: one number for all particles *)
Definition em_logp_xnext (particles x_next : list row) (u : U) (t : Tm) : res R :=
  let N := length particles in
  dor D <- calc_A_f_Q L particles u t ;
  dor l2 <- all_l2 particles x_next D ;
  if Q_identical particles u t then
    dor d0 <- idx D 0 ; dor Qcho <- chol d0.2 ;
    dor r <- forr N (fun i => dor l <- idx l2 i ; Ok (qterm_cho Qcho l)) ;
    Ok (rsum r)
  else
    dor r <- forr N (fun i => dor d <- idx D i ; dor Qcho <- chol d.2 ; dor l <- idx l2 i ; Ok (qterm_cho Qcho l)) ;
    Ok (rsum r).

(** mlnlg.py:862-917 [eval_logp_xnext_val_grad], given what [get_pred_dynamics_grad] returns; Q_grad None: zeros *)
Definition em_logp_xnext_val_grad (np : nat) (A_grad : option (list (list 'M[R]_(dim, lz)))) (f_grad : option (list (list 'cV[R]_dim)))
  (Q_grad : option (list (list 'M[R]_dim))) (particles x_next : list row) (u : U) (t : Tm) : res (R * list R) :=
  let N := length particles in
  match A_grad, f_grad, Q_grad with
  | None, None, None => dor v <- em_logp_xnext particles x_next u t ; Ok (v, List.repeat 0%Re np)
  | _, _, _ =>
      dor Ss <- get_states3 (lxi := lxi) (lz := lz) particles ;
      dor Ms <- mapr (get_Mz3 (lxi := lxi) (lz := lz)) particles ;
      dor Sn <- get_states3 (lxi := lxi) (lz := lz) x_next ;
      dor D <- calc_A_f_Q L particles u t ;
      dor Qcho0 <- (if Q_identical particles u t then dor d0 <- idx D 0 ; dor C <- chol d0.2 ; Ok (Some C) else Ok None) ;
      dor r <- forr N (fun i =>
        dor s <- idx Ss i ; dor M <- idx Ms i ; dor sn <- idx Sn i ; dor d <- idx D i ;
        dor Qcho <- (match Qcho0 with Some C => Ok C | None => chol d.2 end) ;
        let l2 := ml_l2 sn s.1.2 s.2 M d.1.1 d.1.2 in
        dor g <- forr np (fun j =>
          dor fg <- (match f_grad with None => Ok None | Some g => dor x <- idx2 g i j ; Ok (Some x) end) ;
          dor Ag <- (match A_grad with None => Ok None | Some g => dor x <- idx2 g i j ; Ok (Some x) end) ;
          dor Qg <- (match Q_grad with None => Ok 0 | Some g => idx2 g i j end) ;
          Ok (compute_logprod_derivative Qcho Qg l2 (ml_l2_grad sn s.1.2 s.2 M d.1.1 d.1.2 fg Ag))) ;
        Ok (qterm_cho Qcho l2, g)) ;
      Ok (rsum (List.map fst r), List.fold_left sub_half (List.map snd r) (List.repeat 0%Re np))
  end.

(** mlnlg.py:919-926 [calc_l3], one particle *)
Definition ml_l3 (y : 'cV[R]_m) (z : 'cV[R]_lz) (P : 'M[R]_lz) (C : 'M[R]_(m, lz)) (h : option 'cV[R]_m) : 'M[R]_m :=
  let meas_diff := measurement_diff y z (Some C) h in
  meas_diff *m meas_diff^T + C *m P *m C^T.
(** mlnlg.py:928-949 [calc_l3_grad], one particle and parameter: a C_grad that is given is replaced by zeros before it is
    used (line 939) *)
Definition ml_l3_grad (y : 'cV[R]_m) (z : 'cV[R]_lz) (P : 'M[R]_lz) (C : 'M[R]_(m, lz)) (h : option 'cV[R]_m)
  (Cg : option 'M[R]_(m, lz)) (hg : option 'cV[R]_m) : 'M[R]_m :=
  let meas_diff := measurement_diff y z (Some C) h in
  let d := 0 in
  let d := match Cg with
           | Some _ => let Cg := (0 : 'M[R]_(m, lz)) in
                       let tmp2 := Cg *m P *m C^T in
                       let tmp := Cg *m z *m meas_diff^T in
                       d + (- tmp - tmp^T + tmp2 + tmp2^T)
           | None => d
           end in
  match hg with Some g => let tmp := g *m meas_diff^T in d + (- tmp - tmp^T) | None => d end.
(** mlnlg.py:951-984 [eval_logp_y]: one number for all particles *)
Definition em_logp_y (particles : list row) (y : Y) (t : Tm) : res R :=
  let N := length particles in
  let '(y, (Cz, _), (hz, _), (Rz, Rz_identical)) := meas_int L particles y t in
  dor Ss <- get_states3 (lxi := lxi) (lz := lz) particles ;
  dor l3 <- forr (length Ss) (fun i => dor s <- idx Ss i ; dor h <- idx hz i ; dor C <- at_ Cz i ; Ok (ml_l3 y s.1.2 s.2 C h)) ;
  if Rz_identical then
    dor R0 <- at_ Rz 0 ; dor Rcho <- chol R0 ;
    dor r <- forr N (fun i => dor l <- idx l3 i ; Ok (qterm_cho Rcho l)) ;
    Ok (rsum r)
  else
    dor r <- forr N (fun i => dor Ri <- at_ Rz i ; dor Rcho <- chol Ri ; dor l <- idx l3 i ; Ok (qterm_cho Rcho l)) ;
    Ok (rsum r).
(** mlnlg.py:986-1035 [eval_logp_y_val_grad], given what [get_meas_dynamics_grad] returns.  Without gradients the
    measurement that [get_meas_dynamics] returned is passed on to [eval_logp_y] ([reY] makes it a measurement again).
    With R different for the particles the loop reads the local variable Rzcho before anything is assigned to it (line
    1026), which raises UnboundLocalError if there is a particle. *)
Definition em_logp_y_val_grad (reY : 'cV[R]_m -> Y) (np : nat) (C_grad : option (list (list 'M[R]_(m, lz)))) (h_grad : option (list (list 'cV[R]_m)))
  (R_grad : option (list (list 'M[R]_m))) (particles : list row) (y : Y) (t : Tm) : res (R * list R) :=
  let N := length particles in
  let '(y, (Cz, _), (hz, _), (Rz, Rz_identical)) := meas_int L particles y t in
  match C_grad, h_grad, R_grad with
  | None, None, None => dor v <- em_logp_y particles (reY y) t ; Ok (v, List.repeat 0%Re np)
  | _, _, _ =>
      dor Ss <- get_states3 (lxi := lxi) (lz := lz) particles ;
      dor l3 <- forr (length Ss) (fun i =>
        dor s <- idx Ss i ; dor h <- idx hz i ; dor C <- at_ Cz i ;
        dor g <- forr np (fun j =>
          dor Cg <- (match C_grad with None => Ok None | Some _ => Ok (Some 0) end) ;
          dor hg <- (match h_grad with None => Ok None | Some g => dor x <- idx2 g i j ; Ok (Some x) end) ;
          Ok (ml_l3_grad y s.1.2 s.2 C h Cg hg)) ;
        Ok (ml_l3 y s.1.2 s.2 C h, g)) ;
      if Rz_identical then
        dor R0 <- at_ Rz 0 ; dor Rcho <- chol R0 ;
        dor r <- forr N (fun i =>
          dor l <- idx l3 i ;
          dor g <- forr np (fun j =>
            dor Rg <- (match R_grad with None => Ok 0 | Some g => idx2 g i j end) ;
            dor dl <- idx l.2 j ;
            Ok (compute_logprod_derivative Rcho Rg l.1 dl)) ;
          Ok (qterm_cho Rcho l.1, g)) ;
        Ok (rsum (List.map fst r), List.fold_left sub_half (List.map snd r) (List.repeat 0%Re np))
      else match N with 0 => Ok (0%Re, List.repeat 0%Re np) | _ => Err UnboundLocalError end
  end.

(** mlnlg.py:722-746 [eval_logp_x0]: one number per particle; [rb_initial] is [get_rb_initial], [logp_xi0] is
    [eval_logp_xi0] *)
Definition em_logp_x0 (rb_initial : list 'cV[R]_lxi -> list ('cV[R]_lz * 'M[R]_lz)) (logp_xi0 : list 'cV[R]_lxi -> res (list R))
  (particles : list row) : res (list R) :=
  dor Ss <- get_states3 (lxi := lxi) (lz := lz) particles ;
  let xil := List.map (fun s => s.1.1) Ss in
  let z0P0 := rb_initial xil in
  dor lpxi0 <- logp_xi0 xil ;
  dor lpz0 <- forr (length particles) (fun i =>
    dor s <- idx Ss i ; dor zp <- idx z0P0 i ;
    dor P0cho <- chol zp.2 ;
    Ok (qterm_cho P0cho (calc_l1 s.1.2 s.2 zp.1))) ;
  map2r (fun a b => Ok (a + b)%Re) lpxi0 lpz0.
(** mlnlg.py:748-784 [eval_logp_x0_val_grad].  The sum over the particles of the z term is added to the array of the xi
    terms; value and gradient are divided by N. *)
Definition em_logp_x0_val_grad (rb_initial : list 'cV[R]_lxi -> list ('cV[R]_lz * 'M[R]_lz)) (logp_xi0 : list 'cV[R]_lxi -> res (list R))
  (np : nat) (z0_grad : list (list 'cV[R]_lz)) (P0_grad : list (list 'M[R]_lz)) (logp_xi0_grad : list 'cV[R]_lxi -> res (list R))
  (particles : list row) : res (list R * list R) :=
  let N := length particles in
  dor Ss <- get_states3 (lxi := lxi) (lz := lz) particles ;
  let xil := List.map (fun s => s.1.1) Ss in
  let z0P0 := rb_initial xil in
  dor lpxi0 <- logp_xi0 xil ;
  dor lpxi0_grad <- logp_xi0_grad xil ;
  dor r <- forr N (fun i =>
    dor s <- idx Ss i ; dor zp <- idx z0P0 i ;
    dor P0cho <- chol zp.2 ;
    let l1 := calc_l1 s.1.2 s.2 zp.1 in
    dor g <- forr np (fun j =>
      dor zg <- idx2 z0_grad i j ; dor Pg <- idx2 P0_grad i j ;
      let tmp := (s.1.2 - zp.1) *m zg^T in
      Ok (compute_logprod_derivative P0cho Pg l1 (- tmp - tmp^T))) ;
    Ok (qterm_cho P0cho l1, g)) ;
  let lpz0 := rsum (List.map fst r) in
  let lpz0_grad := List.fold_left sub_half (List.map snd r) (List.repeat 0%Re np) in
  dor g <- map2r (fun a b => Ok ((a + b) / INR N)%Re) lpxi0_grad lpz0_grad ;
  Ok (List.map (fun a => (a + lpz0) / INR N)%Re lpxi0, g).

(** ** MixedNLGaussianSampledInitialGaussian *)
(** mlnlg.py:1039-1055 [__init__]: what is stored; without Pz0, line 1048 reads self.z0, which is only assigned
    afterwards *)
Record ml_init_gauss := mkIG { ig_xi0 : 'cV[R]_lxi; ig_z0 : 'cV[R]_lz; ig_Pxi0 : 'M[R]_lxi; ig_Pz0 : 'M[R]_lz }.
(** mlnlg.py:1039-1055 *)
Definition ig_new (xi0 : 'cV[R]_lxi) (z0 : 'cV[R]_lz) (Pxi0 : option 'M[R]_lxi) (Pz0 : option 'M[R]_lz) : res ml_init_gauss :=
  let Pxi0 := match Pxi0 with None => 0 | Some P => P end in
  match Pz0 with None => Err AttributeError | Some Pz0 => Ok (mkIG xi0 z0 Pxi0 Pz0) end.
Variable G : ml_init_gauss.
(** mlnlg.py:1057-1073 [create_initial_estimate]; [mvn i] is the i-th draw *)
Definition ig_create (mvn : nat -> 'cV[R]_lxi -> 'M[R]_lxi -> 'cV[R]_lxi) (N : nat) : list row :=
  List.map (fun i => (ravel (mvn i (ig_xi0 G) (ig_Pxi0 G)) ++ ravel (ig_z0 G) ++ ravel (ig_Pz0 G))%SEQ) (List.seq 0 N).
(** mlnlg.py:1075-1093 [get_rb_initial] *)
Definition ig_rb_initial (xi0 : list 'cV[R]_lxi) : list ('cV[R]_lz * 'M[R]_lz) := List.repeat (ig_z0 G, ig_Pz0 G) (length xi0).
(** mlnlg.py:1095-1100 [cond_sampled_initial]: rows as long as the given ones, zero beyond xi | z | P *)
Definition ig_cond_sampled_initial (part : list row) : res (list row) :=
  dor xi <- mapr (fun p => reshape lxi 1 (slice p 0 lxi)) part ;
  set_states3 (List.map (fun p => nseq (size p) 0%Re) part) (List.map (fun xz => (xz.1, xz.2.1, xz.2.2)) (List.combine xi (ig_rb_initial xi))).
(** mlnlg.py:1120-1134 [eval_logp_xi0] *)
Definition ig_logp_xi0 (xil : list 'cV[R]_lxi) : res (list R) :=
  dor Pchol <- chol (ig_Pxi0 G) ;
  Ok (List.map (fun xi => lognormpdf_cho (xi - ig_xi0 G) Pchol) xil).
(** mlnlg.py:1136-1167 [get_xi_intitial_grad] (zeros, or what an override returns) and [eval_logp_xi0_grad] *)
Definition ig_logp_xi0_grad (np : nat) (xi0_grad : list (list 'cV[R]_lxi)) (Pxi0_grad : list (list 'M[R]_lxi)) (xil : list 'cV[R]_lxi) : res (list R) :=
  dor Pchol <- chol (ig_Pxi0 G) ;
  dor r <- forr (length xil) (fun i =>
    dor xi <- idx xil i ;
    let tmp := xi - ig_xi0 G in
    let l0 := tmp *m tmp^T in
    forr np (fun j =>
      dor xg <- idx2 xi0_grad i j ; dor Pg <- idx2 Pxi0_grad i j ;
      let tmp2 := tmp *m xg^T in
      Ok (compute_logprod_derivative Pchol Pg l0 (- tmp2 - tmp2^T)))) ;
  Ok (List.fold_left sub_half r (List.repeat 0%Re np)).
(** mlnlg.py:1136-1144 *)
Definition ig_xi_initial_grad (np N : nat) : list (list 'cV[R]_lxi) * list (list 'M[R]_lxi) :=
  (List.repeat (List.repeat 0 np) N, List.repeat (List.repeat 0 np) N).
End EM.
