(** Properties of linear time-varying models: C42 (storage), C43, C46, C47, C62. *)
From mathcomp Require Import all_ssreflect all_algebra.
From Coq Require Import Reals Lra List FunctionalExtensionality.
From Verif Require Import Base RMat KalmanModel LinAlg Gauss Moments MatDeriv Storage LtvModel Prop_Kalman.
Set Implicit Arguments.
Unset Strict Implicit.
Unset Printing Implicit Defensive.
Import GRing.Theory.
Local Open Scope ring_scope.

(** A particle row holding z, P and whatever follows. *)
Definition mkrow n (z : 'cV[R]_n) (P : 'M[R]_n) (rest : row) : row := (ravel z ++ ravel P ++ rest)%SEQ.
(** A smoothed row: also the cross covariance. *)
Definition smrow n (z : 'cV[R]_n) (P M : 'M[R]_n) : row := mkrow z P (ravel M).

Lemma get_mkrow n (z : 'cV[R]_n) (P : 'M[R]_n) rest : get_state1 (mkrow z P rest) = Ok (z, P).
Proof.
rewrite /get_state1 /mkrow /slice drop0 subn0.
rewrite take_size_cat ?size_ravel ?muln1 // reshape_ravel /=.
rewrite drop_cat size_ravel muln1 ltnn subnn drop0 addKn take_size_cat ?size_ravel // reshape_ravel //.
Qed.
Lemma get_smrow_Mz n (z : 'cV[R]_n) (P M : 'M[R]_n) : get_Mz1 (smrow z P M) = Ok M.
Proof.
rewrite /get_Mz1 /smrow /mkrow catA drop_size_cat ?reshape_ravel // size_cat !size_ravel muln1 //.
Qed.
Lemma set_mkrow n (z z' : 'cV[R]_n) (P P' : 'M[R]_n) rest : set_state1 (mkrow z P rest) z' P' = Ok (mkrow z' P' rest).
Proof.
rewrite /set_state1 /mkrow set_slice_ok ?size_cat ?size_ravel ?muln1 ?subn0 ?leq_addr //=.
rewrite take0 cat0s drop_size_cat ?size_ravel ?muln1 //.
rewrite set_slice_ok ?leq_addr ?addKn ?size_cat ?size_ravel ?muln1 // ?leq_add2l ?leq_addr //.
rewrite take_size_cat ?size_ravel ?muln1 //. congr (Ok (_ ++ (_ ++ _)))%SEQ. by rewrite catA drop_size_cat ?size_cat ?size_ravel ?muln1.
Qed.

(** every row that is long enough is of that form *)
Lemma mkrow_ex n (p : row) : (n + n * n <= size p)%nat -> exists (z : 'cV[R]_n) (P : 'M[R]_n) rest, p = mkrow z P rest.
Proof.
move=> H.
have RR : forall a b (l : row), size l = (a * b)%nat -> exists M : 'M[R]_(a, b), l = ravel M.
{ move=> a b l Hl. exists (\matrix_(i, j) seq.nth 0%Re l (i * b + j)%nat). apply: (@eq_from_nth _ 0%Re); first by rewrite size_ravel.
  move=> k Hk. rewrite nth_mkseq; last by rewrite -Hl. rewrite Hl in Hk. have Hb : (0 < b)%nat by case: b Hk {Hl} => //; rewrite muln0.
  have H1 : (k %/ b < a)%nat by rewrite ltn_divLR. have H2 : (k %% b < b)%nat by rewrite ltn_mod.
  by rewrite /mget !insubT !mxE /= -divn_eq. }
have Hn : (n <= size p)%nat by exact: leq_trans (leq_addr _ _) H.
case: (RR n 1%nat (seq.take n p)) => [|z Ez]; first by rewrite size_takel ?muln1.
case: (RR n n (seq.take (n * n) (drop n p))) => [|P EP]; first by rewrite size_takel // size_drop leq_subRL.
exists z, P, (drop (n * n) (drop n p)). by rewrite /mkrow -Ez -EP !cat_take_drop.
Qed.

Lemma get_states_map n (T : Type) (z : T -> 'cV[R]_n) (P : T -> 'M[R]_n) (rest : T -> row) (l : list T) :
  get_states (List.map (fun a => mkrow (z a) (P a) (rest a)) l) = Ok (List.map (fun a => (z a, P a)) l).
Proof. by elim: l => [//|a l IH]; rewrite /get_states /= get_mkrow /= -/(get_states _) IH. Qed.
Lemma set_states_map n (T : Type) (z z' : T -> 'cV[R]_n) (P P' : T -> 'M[R]_n) (rest : T -> row) (l : list T) :
  set_states (List.map (fun a => mkrow (z a) (P a) (rest a)) l) (List.map (fun a => (z' a, P' a)) l) = Ok (List.map (fun a => mkrow (z' a) (P' a) (rest a)) l).
Proof. by elim: l => [//|a l IH]; rewrite /set_states /= set_mkrow /= -/(set_states _ _) IH. Qed.

(** C42 for linear models: writing states into particles that have room for them and reading them back
    gives the same means and covariances, and leaves the rest of each row as it was. *)
Theorem C42_ltv_storage : forall n (particles : list row) (zP : list ('cV[R]_n * 'M[R]_n)),
  List.length particles = List.length zP -> List.Forall (fun p => (n + n * n <= size p)%nat) particles ->
  exists particles', set_states particles zP = Ok particles' /\ get_states particles' = Ok zP /\
    List.Forall2 (fun p p' => size p' = size p /\ drop (n + n * n) p' = drop (n + n * n) p) particles particles'.
Proof.
move=> n; elim=> [|p ps IH] [|[z P] zP] //=; first by move=> _ _; exists nil.
move=> [HL] HF. inversion_clear HF as [|? ? Hp HF']. case: (IH _ HL HF') => ps' [E1 [E2 E3]].
case: (mkrow_ex Hp) => z0 [P0 [rest Ep]]. subst p.
exists (cons (mkrow z P rest) ps'). rewrite /set_states /= set_mkrow /= -/(set_states ps zP) E1. split => //.
rewrite /get_states /= get_mkrow /= -/(get_states ps') E2. split => //. constructor => //. split.
- by rewrite !size_cat !size_ravel.
- by rewrite /mkrow !catA !drop_size_cat // size_cat !size_ravel muln1.
Qed.

(** ** C62: the filter for a linear model is the Kalman filter *)
Section Filt.
Context {n m : nat} {U Y Tm : Type}.
Inductive lop := LUpdate (u : U) (t : Tm) | LMeasure (y : Y) (t : Tm).
(** running the model's methods on the particles; the log weights of each measurement are collected *)
Fixpoint ltv_run (L : ltv n m U Y Tm) (k : kf n m) (particles : list row) (ops : list lop) : res (kf n m * list row * list (list R)) :=
  match ops with
  | nil => Ok (k, particles, nil)
  | cons (LUpdate u t) ops' => dor r <- update L k particles u t ; ltv_run L r.1 r.2 ops'
  | cons (LMeasure y t) ops' =>
      dor r <- ltv_measure L k particles y t ; dor r' <- ltv_run L r.1.1 r.1.2 ops' ; Ok (r'.1, cons r.2 r'.2)
  end.
(** the Kalman filter with the matrices that the model gives for each input and time; what is not given is
    as before *)
Fixpoint kalman_run (L : ltv n m U Y Tm) (k : kf n m) (z : 'cV[R]_n) (P : 'M[R]_n) (ops : list lop) : res (kf n m * 'cV[R]_n * 'M[R]_n * list R) :=
  match ops with
  | nil => Ok (k, z, P, nil)
  | cons (LUpdate u t) ops' =>
      let '(A, f, Q) := get_pred_dynamics L u t in
      let k := set_dynamics k (mkDyn A None Q None f None) in
      dor r <- predict k z P ; kalman_run L k r.1 r.2 ops'
  | cons (LMeasure y t) ops' =>
      let '(y, C, h, Rn) := get_meas_dynamics L y t in
      let k := set_dynamics k (mkDyn None C None Rn None h) in
      dor r <- measure k y z P ; dor r' <- kalman_run L k r.1.2 r.2 ops' ; Ok (r'.1, cons r.1.1 r'.2)
  end.
End Filt.
Arguments lop : clear implicits.

Lemma mapr_repeat (A B : Type) (f : A -> res B) a b N : f a = Ok b -> mapr f (List.repeat a N) = Ok (List.repeat b N).
Proof. by move=> H; elim: N => [//|N IH] /=; rewrite H /= IH. Qed.
Lemma map2r_repeat (A B C : Type) (f : A -> B -> res C) a b c N : f a b = Ok c -> map2r f (List.repeat a N) (List.repeat b N) = Ok (List.repeat c N).
Proof. by move=> H; elim: N => [//|N IH] /=; rewrite H /= IH. Qed.
Lemma map_repeat (A B : Type) (f : A -> B) a N : List.map f (List.repeat a N) = List.repeat (f a) N.
Proof. by elim: N => [//|N IH] /=; rewrite IH. Qed.

(** C62: started from N copies of one state, for every sequence of updates and measurements all particles
    stay identical and hold the Kalman filter's state, and each measurement gives every particle the Kalman
    filter's log likelihood. *)
Theorem C62_ltv_is_kalman : forall n m U Y Tm (L : ltv n m U Y Tm) (ops : list (lop U Y Tm)) k z P rest N k' z' P' lls,
  kalman_run L k z P ops = Ok (k', z', P', lls) ->
  ltv_run L k (List.repeat (mkrow z P rest) N) ops = Ok (k', List.repeat (mkrow z' P' rest) N, List.map (fun l => List.repeat l N) lls).
Proof.
move=> n m U Y Tm L; elim=> [|o ops IH] k z P rest N k' z' P' lls /=; first by move=> [<- <- <- <-].
have G : forall z (P : 'M[R]_n), get_states (List.repeat (mkrow z P rest) N) = Ok (List.repeat (z, P) N).
{ move=> z1 P1; apply: mapr_repeat; exact: get_mkrow. }
have S : forall (z : 'cV[R]_n) (P : 'M[R]_n) (z1 : 'cV[R]_n) (P1 : 'M[R]_n), set_states (List.repeat (mkrow z P rest) N) (List.repeat (z1, P1) N) = Ok (List.repeat (mkrow z1 P1 rest) N).
{ move=> z2 P2 z1 P1; exact: (@map2r_repeat _ _ _ (fun p s => set_state1 p s.1 s.2) _ (z1, P1) _ N (set_mkrow z2 z1 P2 P1 rest)). }
case: o => [u t|y t].
- rewrite /update G /= /dyn_pred. case: (get_pred_dynamics L u t) => [[A f] Q]. set k1 := set_dynamics _ _.
  case E : (predict k1 z P) => [[z1 P1]|//] /= H. rewrite (@mapr_repeat _ _ (fun s => predict k1 s.1 s.2) (z, P) (z1, P1) N E) /= S /=. exact: IH.
- rewrite /ltv_measure G /= /dyn_meas. case: (get_meas_dynamics L y t) => [[[y' C] h] Rn]. set k1 := set_dynamics _ _.
  case E : (measure k1 y' z P) => [[[l z1] P1]|//] /=. case E' : (kalman_run L k1 z1 P1 ops) => [[[[k2 z2] P2] lls2]|//] /= [<- <- <- <-].
  rewrite (@mapr_repeat _ _ (fun s => measure k1 y' s.1 s.2) (z, P) (l, z1, P1) N E) /= map_repeat S /=. rewrite map_repeat (IH _ _ _ _ _ _ _ _ _ E') //=.
Qed.

(** C62: the initial estimate is N copies of the initial mean and covariance, and the first measurement of
    a fresh filter is a Bayes update of them. *)
Theorem C62_initial : forall n m U Y Tm (L : ltv n m U Y Tm) N, create_initial_estimate L N = List.repeat (mkrow (ltv_z0 L) (ltv_P0 L) nil) N.
Proof. by move=> n m U Y Tm L N; rewrite /create_initial_estimate /mkrow cats0. Qed.

(** The textbook Kalman filter with constant matrices: measurements as numbers, the density of each
    measurement given those before it collected. *)
Section Textbook.
Context {n m : nat} {U Y Tm : Type}.
Fixpoint textbook (A : 'M[R]_n) (f : 'cV[R]_n) (Q : 'M[R]_n) (C : 'M[R]_(m, n)) (h : 'cV[R]_m) (Rn : 'M[R]_m) (val : Y -> 'cV[R]_m)
  (z : 'cV[R]_n) (P : 'M[R]_n) (ops : list (lop U Y Tm)) : 'cV[R]_n * 'M[R]_n * list R :=
  match ops with
  | nil => (z, P, nil)
  | cons (LUpdate _ _) ops' => textbook A f Q C h Rn val (A *m z + f) (A *m P *m A^T + Q) ops'
  | cons (LMeasure y _) ops' =>
      let S := C *m P *m C^T + Rn in
      let K := P *m C^T *m invmx S in
      let r := textbook A f Q C h Rn val (z + K *m (val y - (C *m z + h))) (P - K *m (C *m P)) ops' in
      (r.1.1, r.1.2, cons (normal_pdf (C *m z + h) S (val y)) r.2)
  end.
End Textbook.

(** C62 for constant matrices: a model object created with A, C, Q, R and possibly f and h, whose methods
    give no new matrices, run on its own initial particles through any sequence of updates and measurements:
    the particles hold the mean and covariance of the textbook Kalman filter for x' = A x + f + v,
    y = C x + h + e started at z0, P0 (absent f or h is zero), and the exponentials of the log weights are
    the densities of the measurements given the earlier ones. *)
Theorem C62_constant_matrices : forall n m U Y Tm (L : ltv n m U Y Tm) (A : 'M[R]_n) (C : 'M[R]_(m, n)) Q Rn (f : option 'cV[R]_n) (h : option 'cV[R]_m) (val : Y -> 'cV[R]_m) N (ops : list (lop U Y Tm)),
  (forall u t, get_pred_dynamics L u t = (None, None, None)) ->
  (forall y t, get_meas_dynamics L y t = (val y, None, None, None)) ->
  psd (ltv_P0 L) -> psd Q -> posdef Rn ->
  let k := ltv_init (Some A) (Some C) (Some Q) (Some Rn) f h in
  let r := textbook A (orzero f) Q C (orzero h) Rn val (ltv_z0 L) (ltv_P0 L) ops in
  exists lls, ltv_run L k (create_initial_estimate L N) ops = Ok (k, List.repeat (mkrow r.1.1 r.1.2 nil) N, List.map (fun l => List.repeat l N) lls) /\
    List.map exp lls = r.2.
Proof.
move=> n m U Y Tm L A C Q Rn f h val N ops HG HM HP0 HQ HR k r.
have HK : forall ops z (P : 'M[R]_n), psd P -> let r := textbook A (orzero f) Q C (orzero h) Rn val z P ops in
  exists lls, kalman_run L k z P ops = Ok (k, r.1.1, r.1.2, lls) /\ List.map exp lls = r.2.
{ elim=> [|[u t|y t] l IH] z P HP /=; first by exists nil.
  - rewrite HG /=. have -> : set_dynamics k (mkDyn None None None None None None) = k by [].
    have -> : predict k z P = Ok (A *m z + orzero f, A *m P *m A^T + Q).
    { rewrite /predict /k /ltv_init /kf_init /=. case: (h) => [h'|] /=; rewrite /predict_full addrC; case: (f) => [f'|] //. }
    apply: IH. apply: psd_add => //. exact: psd_cong.
  - rewrite HM /=. have -> : set_dynamics k (mkDyn None None None None None None) = k by [].
    set S := C *m P *m C^T + Rn.
    have HS : posdef S by apply: posdef_add => //; exact: psd_cong.
    have -> : measure k (val y) z P = Ok (normal_logpdf (C *m z + orzero h) S (val y), z + P *m C^T *m invmx S *m (val y - (C *m z + orzero h)), P - P *m C^T *m invmx S *m (C *m P)).
    { have -> : measure k (val y) z P = measure_full (val y) z P (Some C) h Rn by rewrite /measure /k /ltv_init /kf_init /=; case: (h).
      by rewrite (measure_ok _ _ _ _ HP HR) -/S !mulmxA. }
    have HP' : psd (P - P *m C^T *m invmx S *m (C *m P)) by move: (measure_psd C HP HR); rewrite -/S !mulmxA.
    case: (IH (z + P *m C^T *m invmx S *m (val y - (C *m z + orzero h))) _ HP') => lls [E1 E2].
    exists (cons (normal_logpdf (C *m z + orzero h) S (val y)) lls). rewrite /= E1 /= E2. split => //. congr cons. rewrite normal_pdf_log //. exact: posdef_det. }
have := HK ops (ltv_z0 L) (ltv_P0 L) HP0. cbv zeta. move=> [lls [E1 E2]]. exists lls. split => //. rewrite C62_initial. exact: C62_ltv_is_kalman E1.
Qed.

(** ** C43 *)
Lemma idx_map (A B : Type) (f : A -> B) l i a : idx l i = Ok a -> idx (List.map f l) i = Ok (f a).
Proof. by rewrite /idx List.nth_error_map; case: (nth_error l i) => //= b [->]. Qed.

(** matrices in force for input u and time t *)
Definition in_force n m U Y Tm (L : ltv n m U Y Tm) (k : kf n m) u t : kf n m :=
  let '(A, f, Q) := get_pred_dynamics L u t in set_dynamics k (mkDyn A None Q None f None).
Lemma kf_ext n m (k1 k2 : kf n m) : kf_A k1 = kf_A k2 -> kf_C k1 = kf_C k2 -> kf_Q k1 = kf_Q k2 -> kf_R k1 = kf_R k2 -> kf_f k1 = kf_f k2 -> kf_h k1 = kf_h k2 -> k1 = k2.
Proof. by case: k1 => ? ? ? ? ? ?; case: k2 => ? ? ? ? ? ? /= -> -> -> -> -> ->. Qed.
Lemma oror_idem T (o r : option T) : oror o (oror o r) = oror o r. Proof. by case: o. Qed.
Lemma ord_idem T (o : option T) r : or_default o (or_default o r) = or_default o r. Proof. by case: o. Qed.
Lemma set_dynamics_idem n m (k : kf n m) d : set_dynamics (set_dynamics k d) d = set_dynamics k d.
Proof. by apply: kf_ext; rewrite ?sd_A ?sd_C ?sd_Q ?sd_R ?sd_f ?sd_h ?oror_idem ?ord_idem. Qed.
Lemma in_force_idem n m U Y Tm (L : ltv n m U Y Tm) k u t : in_force L (in_force L k u t) u t = in_force L k u t.
Proof. by rewrite /in_force; case: (get_pred_dynamics L u t) => [[A f] Q]; rewrite set_dynamics_idem. Qed.

Lemma smooth_loop_ok n m U Y Tm (L : ltv n m U Y Tm) k zP fut ut tt u0 t0 z P A Q (ns : list ('cV[R]_n * 'M[R]_n * row)) (r : nat -> row) js :
  idx ut 0 = Ok u0 -> idx tt 0 = Ok t0 -> idx zP 0 = Ok (z, P) -> fut = List.map (fun s => mkrow s.1.1 s.1.2 s.2) ns ->
  kf_A (in_force L k u0 t0) = Some A -> kf_Q (in_force L k u0 t0) = Some Q ->
  (forall j, List.In j js -> exists s zs Ps Ms, idx ns j = Ok s /\ smooth z P s.1.1 s.1.2 A (kf_f (in_force L k u0 t0)) Q = Ok (zs, Ps, Ms) /\ r j = smrow zs Ps Ms) ->
  exists k', smooth_loop L k zP (Some fut) ut tt js = Ok (k', List.map r js).
Proof.
move=> Hu Ht Hz -> . elim: js k => [|j js IH] k HA HQ H /=; first by exists k.
case: (H j) => [|s [zs [Ps [Ms [H1 [H2 H3]]]]]]; first by left.
rewrite (idx_map (fun s => mkrow s.1.1 s.1.2 s.2) H1) /=.
have := get_mkrow s.1.1 s.1.2 s.2. rewrite /get_state1. case: (reshape n 1 _) => //= zn. case: (reshape n n _) => //= Pn [-> ->].
rewrite Hu /= Ht /= Hz /= /smooth_stored /dyn_pred. move: HA HQ H2 H IH. rewrite /in_force. case E : (get_pred_dynamics L u0 t0) => [[A' f'] Q'].
set k1 := set_dynamics _ _ => HA HQ H2 H IH. rewrite HA HQ H2 /=.
case: (IH k1).
- by rewrite /k1 set_dynamics_idem.
- by rewrite /k1 set_dynamics_idem.
- move=> j' Hj'. rewrite /k1 set_dynamics_idem. apply: H. by right.
- move=> k' ->. exists k'. by rewrite /= H3.
Qed.

(** C43: if the dynamics for (u_0, t_0) are those for (u_k, t_k) and all particles are in the same state,
    smoothing step k gives for each trajectory j the Rauch-Tung-Striebel step with the dynamics of time k
    towards the j-th future state. *)
Theorem C43_constant_dynamics : forall n m U Y Tm (L : ltv n m U Y Tm) k z P rest N (ns : list ('cV[R]_n * 'M[R]_n * row)) ut tt cur u0 t0 u t A f Q (sm : ('cV[R]_n * 'M[R]_n * row) -> 'cV[R]_n * 'M[R]_n * 'M[R]_n),
  List.length ns = N -> idx ut 0 = Ok u0 -> idx tt 0 = Ok t0 -> idx ut cur = Ok u -> idx tt cur = Ok t ->
  get_pred_dynamics L u0 t0 = get_pred_dynamics L u t ->
  kf_A (in_force L k u t) = Some A -> kf_f (in_force L k u t) = f -> kf_Q (in_force L k u t) = Some Q ->
  (forall s, List.In s ns -> smooth z P s.1.1 s.1.2 A f Q = Ok (sm s)) ->
  exists k', sample_smooth L k (List.repeat (mkrow z P rest) N) (Some (List.map (fun s => mkrow s.1.1 s.1.2 s.2) ns)) ut tt cur =
             Ok (k', List.map (fun s => smrow (sm s).1.1 (sm s).1.2 (sm s).2) ns).
Proof.
move=> n m U Y Tm L k z P rest N ns ut tt cur u0 t0 u t A f Q sm HN Hu0 Ht0 Hu Ht E HA Hf HQ HS.
have EF : in_force L k u0 t0 = in_force L k u t by rewrite /in_force E.
case: N HN => [|N] HN.
{ case: ns HN HS => //= _ _. by exists k. }
rewrite /sample_smooth /get_states. rewrite (mapr_repeat (b := (z, P)) _ (get_mkrow z P rest)). rewrite /rbind List.repeat_length -HN.
pose r j := match idx ns j with Ok s => smrow (sm s).1.1 (sm s).1.2 (sm s).2 | Err _ => nil end.
case: (@smooth_loop_ok n m U Y Tm L k (List.repeat (z, P) (List.length ns)) (List.map (fun s => mkrow s.1.1 s.1.2 s.2) ns) ut tt u0 t0 z P A Q ns r (List.seq 0 (List.length ns))) => //; try (by rewrite EF); first by rewrite HN.
- move=> j /List.in_seq [_ Hj]. have [s Hs] : exists s, idx ns j = Ok s by apply: idx_lt; exact: Hj.
  exists s, (sm s).1.1, (sm s).1.2, (sm s).2. split => //. split; last by rewrite /r Hs.
  rewrite EF Hf HS; first by case: (sm s) => [[? ?] ?]. move/idx_ok: Hs; exact: List.nth_error_In.
- move=> k' Hk. exists k'. rewrite Hk. congr (Ok (_, _)). rewrite /r. clear. have G : forall pre l, List.map (fun j => match idx (pre ++ l)%list j with Ok s => smrow (sm s).1.1 (sm s).1.2 (sm s).2 | Err _ => nil end) (List.seq (List.length pre) (List.length l)) = List.map (fun s => smrow (sm s).1.1 (sm s).1.2 (sm s).2) l.
  { move=> pre l; elim: l pre => [//|s l IH] pre /=. congr cons.
    - by rewrite /idx List.nth_error_app2 // PeanoNat.Nat.sub_diag.
    - have := IH (pre ++ cons s nil)%list. by rewrite -List.app_assoc List.app_length PeanoNat.Nat.add_1_r. }
  exact: (G nil).
Qed.

(** C43: for the last step (no future) the result is the filtered state with zero cross covariance. *)
Theorem C43_last_step : forall n m U Y Tm (L : ltv n m U Y Tm) k (ps : list ('cV[R]_n * 'M[R]_n * row)) ut tt cur,
  sample_smooth L k (List.map (fun s => mkrow s.1.1 s.1.2 s.2) ps) None ut tt cur = Ok (k, List.map (fun s => smrow s.1.1 s.1.2 0) ps).
Proof.
move=> n m U Y Tm L k ps ut tt cur. rewrite /sample_smooth get_states_map /= List.map_length.
have G : forall pre l, smooth_loop L k (List.map (fun s => (s.1.1, s.1.2)) (pre ++ l)%list) None ut tt (List.seq (List.length pre) (List.length l)) = Ok (k, List.map (fun s : 'cV[R]_n * 'M[R]_n * row => smrow s.1.1 s.1.2 0) l).
{ move=> pre l; elim: l pre => [//|s l IH] pre /=.
  rewrite (idx_map (fun s : 'cV[R]_n * 'M[R]_n * row => (s.1.1, s.1.2)) (a := s)); last by rewrite /idx List.nth_error_app2 // PeanoNat.Nat.sub_diag.
  have := IH (pre ++ cons s nil)%list. rewrite -List.app_assoc List.app_length PeanoNat.Nat.add_1_r /= => -> //. }
exact: (G nil).
Qed.

(** C43, finding: when the dynamics vary with time, smoothing of step k uses those of time 0. *)
Theorem C43_time_varying_refuted :
  exists (L : ltv 1 1 bool unit unit) (k : kf 1 1) (z : 'cV[R]_1) (P : 'M[R]_1) (zn : 'cV[R]_1) (Pn : 'M[R]_1) ut tt cur u t A Q k' r,
    idx ut cur = Ok u /\ idx tt cur = Ok t /\ kf_A (in_force L k u t) = Some A /\ kf_Q (in_force L k u t) = Some Q /\
    posdef P /\ posdef Q /\
    sample_smooth L k (cons (mkrow z P nil) nil) (Some (cons (mkrow zn Pn nil) nil)) ut tt cur = Ok (k', cons r nil) /\
    forall zs Ps Ms, smooth z P zn Pn A (kf_f (in_force L k u t)) Q = Ok (zs, Ps, Ms) -> r <> smrow zs Ps Ms.
Proof.
pose L := mkLTV (m := 1) (0 : 'cV[R]_1) (1%:M : 'M[R]_1) (fun (b : bool) (_ : unit) => (Some (if b then 1%:M else 0), Some 0, Some 1%:M)) (fun (_ _ : unit) => (0, None, None, None)) (fun _ => tt).
pose k := kf_init (mkDyn None None None None None None) : kf 1 1.
have P1 := posdef1 1.
have S0 : forall A, exists zs Ps Ms, smooth (0 : 'cV[R]_1) 1%:M 1%:M 0 A 0 1%:M = Ok (zs, Ps, Ms) /\ zs = A^T *m invmx (A *m A^T + 1%:M).
{ move=> A. rewrite /smooth /predict_full /np_inv. have HS := S_posdef A P1 P1. rewrite mulmx1 in HS *.
  case: Req_EM_T => H0; first by exfalso; have := posdef_det HS; lra.
  do 3 eexists; split; first by reflexivity. by rewrite mul1mx mulmx0 addr0 subr0 mulmx1 add0r. }
case: (S0 0) => zs0 [Ps0 [Ms0 [E0 Ez0]]].
have [k' Hk] := @C43_constant_dynamics 1 1 bool unit unit L k 0 1%:M nil 1 (cons (1%:M, 0, nil) nil) (cons false (cons true nil)) (cons tt (cons tt nil)) 0 false tt false tt 0 0 1%:M
  (fun _ => (zs0, Ps0, Ms0)) erefl erefl erefl erefl erefl erefl erefl erefl erefl (fun s H => match H with or_introl e => match e with erefl => E0 end | or_intror f => match f with end end).
exists L, k, 0, 1%:M, 1%:M, 0, (cons false (cons true nil)), (cons tt (cons tt nil)), 1%nat, true, tt, 1%:M, 1%:M.
do 2 eexists. do 4 (split; first by []). do 2 (split; first exact: P1). split.
- exact: Hk.
- move=> zs Ps Ms /=. case: (S0 1%:M) => zs1 [Ps1 [Ms1 [-> Ez1]]] [<- <- <-] Er.
  have : get_state1 (n := 1) (smrow zs0 Ps0 Ms0) = get_state1 (n := 1) (smrow zs1 Ps1 Ms1) by rewrite -Er.
  rewrite !get_mkrow => -[E _]. move: Ez1. rewrite -E Ez0 trmx0 mul0mx trmx1 !mul1mx => E1.
  have U : (1%:M + 1%:M : 'M[R]_1) \in unitmx by apply/posdef_unit/posdef_add => //; exact: posdef_psd.
  have := mulmxV U. rewrite -E1 mulmx0 => /matrixP /(_ ord0 ord0). rewrite !mxE /= => /esym. exact: R1_neq_R0.
Qed.

(** ** C46 *)
Lemma E_quad Om (E : (Om -> R) -> R) d (B : 'M[R]_d) (e : Om -> 'cV[R]_d) : expectation E ->
  E (fun w => quad B (e w)) = \tr (B *m Emx E (fun w => e w *m (e w)^T)).
Proof.
move=> HE. rewrite -(Emx_mull HE). transitivity (E (fun w => \sum_i (B *m (e w *m (e w)^T)) i i)).
- apply: E_ext => w. rewrite /quad -/(mxtrace _). transitivity (\tr ((e w)^T *m B *m e w)); first by rewrite /mxtrace big_ord1.
  by rewrite mxtrace_mulC !mulmxA mxtrace_mulC mulmxA.
- rewrite (E_sum HE). by rewrite /mxtrace; apply: eq_bigr => i _; rewrite mxE.
Qed.
(** second moment of a vector with mean c *)
Lemma E_second Om (E : (Om -> R) -> R) d (a : Om -> 'cV[R]_d) (c : 'cV[R]_d) : expectation E -> Emx E a = 0 ->
  Emx E (fun w => (a w + c) *m (a w + c)^T) = c *m c^T + Emx E (fun w => a w *m (a w)^T).
Proof.
move=> HE Ha. transitivity (Emx E (fun w => c *m c^T + a w *m (a w)^T + c *m (a w)^T + a w *m c^T)).
- apply: Emx_ext => w. move: (a w) => b. rewrite trD mulmxDl !mulmxDr. mxab.
- by rewrite !(Emx_add HE) (Emx_const HE) (Emx_mull HE) (Emx_mulr HE) Emx_tr Ha trmx0 mulmx0 mul0mx !addr0.
Qed.
Lemma E_centred Om (E : (Om -> R) -> R) d (x : Om -> 'cV[R]_d) mu : expectation E -> has_mean E x mu -> Emx E (fun w => x w - mu) = 0.
Proof. by move=> HE Hx; rewrite (Emx_sub HE) (Emx_const HE) Hx subrr. Qed.
Lemma E_logpdf Om (E : (Om -> R) -> R) d (S : 'M[R]_d) (mu x : Om -> 'cV[R]_d) : expectation E ->
  E (fun w => normal_logpdf (mu w) S (x w)) = (- (1 / 2) * (INR d * ln (2 * PI) + ln (\det S) + \tr (invmx S *m Emx E (fun w => (x w - mu w) *m (x w - mu w)^T))%mx))%Re.
Proof.
move=> HE. rewrite /normal_logpdf (proj1 (proj2 HE)) (proj1 HE (fun _ => _)) (proj2 (proj2 HE)) (E_quad _ _ HE) //.
Qed.

(** the matrices of the EM objective are second moments, for every distribution with the given moments *)
Lemma calc_l1_moment Om (E : (Om -> R) -> R) n (x : Om -> 'cV[R]_n) z P z0 : expectation E -> has_mean E x z -> has_cov E x z P ->
  Emx E (fun w => (x w - z0) *m (x w - z0)^T) = calc_l1 z P z0.
Proof.
move=> HE Hx HP. rewrite /calc_l1 -HP /cross_cov -(E_second _ HE (E_centred HE Hx)).
apply: Emx_ext => w. have -> : x w - z0 = x w - z + (z - z0) by mxab. by [].
Qed.
Lemma calc_l2_moment Om (E : (Om -> R) -> R) n (x x' : Om -> 'cV[R]_n) z P zn Pn A f M : expectation E ->
  has_mean E x z -> has_cov E x z P -> has_mean E x' zn -> has_cov E x' zn Pn -> cross_cov E x z x' zn = M ->
  Emx E (fun w => (x' w - (A *m x w + f)) *m (x' w - (A *m x w + f))^T) = calc_l2 zn Pn z P A f M.
Proof.
move=> HE Hx HP Hx' HPn HM.
pose a w := (x' w - zn) - A *m (x w - z).
have Ha : Emx E a = 0 by rewrite (Emx_sub HE) (Emx_mull HE) (E_centred HE Hx) (E_centred HE Hx') mulmx0 subr0.
transitivity (Emx E (fun w => (a w + (zn - f - A *m z)) *m (a w + (zn - f - A *m z))^T)).
{ apply: Emx_ext => w. have -> : x' w - (A *m x w + f) = a w + (zn - f - A *m z); last by []. rewrite /a mulmxBr. mxab. }
rewrite (E_second _ HE Ha) /calc_l2. congr (_ + _).
transitivity (Emx E (fun w => (x' w - zn) *m (x' w - zn)^T + A *m ((x w - z) *m (x w - z)^T) *m A^T - ((A *m ((x w - z) *m (x' w - zn)^T))^T) - (A *m ((x w - z) *m (x' w - zn)^T)))).
{ apply: Emx_ext => w. rewrite /a. move: (x' w - zn) (x w - z) => b c. rewrite trB !trmx_mul trmxK mulmxBl !mulmxBr !mulmxA. mxab. }
rewrite !(Emx_sub HE) !(Emx_add HE) Emx_tr !(Emx_mulr HE) !(Emx_mull HE).
have E1 : Emx E (fun w => (x w - z) *m (x' w - zn)^T) = M by exact: HM.
have E2 : Emx E (fun w => (x w - z) *m (x w - z)^T) = P by exact: HP.
have E3 : Emx E (fun w => (x' w - zn) *m (x' w - zn)^T) = Pn by exact: HPn.
by rewrite E1 E2 E3.
Qed.
Lemma calc_l3_moment Om (E : (Om -> R) -> R) n m (x : Om -> 'cV[R]_n) z P (k : kf n m) C y l : expectation E -> has_mean E x z -> has_cov E x z P ->
  kf_C k = Some C -> calc_l3 k y z P = Ok l ->
  Emx E (fun w => (y - (C *m x w + orzero (kf_h k))) *m (y - (C *m x w + orzero (kf_h k)))^T) = l.
Proof.
move=> HE Hx HP HC. rewrite /calc_l3 HC => -[<-].
have -> : measurement_diff y z (Some C) (kf_h k) = y - C *m z - orzero (kf_h k).
{ rewrite /measurement_diff. case: (kf_h k) => [h|] /=; rewrite add0r ?subr0 //. mxab. }
pose a w := - (C *m (x w - z)).
have Ha : Emx E a = 0 by rewrite (Emx_opp HE) (Emx_mull HE) (E_centred HE Hx) mulmx0 oppr0.
transitivity (Emx E (fun w => (a w + (y - C *m z - orzero (kf_h k))) *m (a w + (y - C *m z - orzero (kf_h k)))^T)).
{ apply: Emx_ext => w. have -> : y - (C *m x w + orzero (kf_h k)) = a w + (y - C *m z - orzero (kf_h k)); last by []. rewrite /a mulmxBr. mxab. }
rewrite (E_second _ HE Ha). congr (_ + _).
transitivity (Emx E (fun w => C *m ((x w - z) *m (x w - z)^T) *m C^T)).
{ apply: Emx_ext => w. rewrite /a. move: (x w - z) => c. rewrite trN mulNmx mulmxN opprK trmx_mul !mulmxA //. }
by rewrite (Emx_mulr HE) (Emx_mull HE); congr (_ *m _ *m _).
Qed.

Lemma qterm_ok d (S l : 'M[R]_d) : posdef S -> qterm S l = Ok (- (1 / 2) * (ln (\det S) + \tr (invmx S *m l)%mx))%Re.
Proof. by move=> HS; rewrite /qterm (np_slogdet_ok HS) (np_solve_ok _ HS). Qed.
Lemma qterm_cho_ok d (S U l : 'M[R]_d) : posdef S -> chol S = Ok U -> qterm_cho U l = (- (1 / 2) * (ln (\det S) + \tr (invmx S *m l)%mx))%Re.
Proof. by move=> HS HU; rewrite /qterm_cho (proj2 (chol_det (proj1 HS) HU)) (cho_solveE _ (proj1 HS) HU). Qed.

(** one particle of a smoothed trajectory: state at time t (mean, covariance), cross covariance with the
    state at t+1, and that state *)
Record step n := mkStep { s_z : 'cV[R]_n; s_P : 'M[R]_n; s_M : 'M[R]_n; s_zn : 'cV[R]_n; s_Pn : 'M[R]_n; s_rest : row }.
Definition now n (l : list (step n)) : list row := List.map (fun s => smrow (s_z s) (s_P s) (s_M s)) l.
Definition next n (l : list (step n)) : list row := List.map (fun s => mkrow (s_zn s) (s_Pn s) (s_rest s)) l.

Lemma map2r_map (T A B C : Type) (f : A -> B -> res C) (a : T -> A) (b : T -> B) (g : T -> C) l :
  (forall s, List.In s l -> f (a s) (b s) = Ok (g s)) -> map2r f (List.map a l) (List.map b l) = Ok (List.map g l).
Proof. elim: l => [//|s l IH] H /=. rewrite H /=; last by left. rewrite IH // => s' Hs'; apply: H; by right. Qed.
Lemma combine_map (T A B : Type) (a : T -> A) (b : T -> B) l : List.combine (List.map a l) (List.map b l) = List.map (fun s => (a s, b s)) l.
Proof. by elim: l => [//|s l IH] /=; rewrite IH. Qed.
Lemma mapr_map (T A B : Type) (f : A -> res B) (a : T -> A) (g : T -> B) l : (forall s, List.In s l -> f (a s) = Ok (g s)) -> mapr f (List.map a l) = Ok (List.map g l).
Proof. elim: l => [//|s l IH] H /=. rewrite H /=; last by left. rewrite IH // => s' Hs'; apply: H; by right. Qed.
Lemma in_forceE n m U Y Tm (L : ltv n m U Y Tm) k u t : set_dynamics k (dyn_pred (get_pred_dynamics L u t)) = in_force L k u t.
Proof. by rewrite /in_force /dyn_pred; case: (get_pred_dynamics L u t) => [[A f] Q]. Qed.

(** C46, transition term: for each particle the returned value is, up to the constant n/2 log(2 pi), the
    expectation of log N(x' | A x + f, Q), for every joint distribution of x and x' with the moments the
    particle stores. *)
Theorem C46_ltv_xnext : forall n m U Y Tm (L : ltv n m U Y Tm) k (l : list (step n)) u t A Q,
  kf_A (in_force L k u t) = Some A -> kf_Q (in_force L k u t) = Some Q -> posdef Q ->
  exists v, eval_logp_xnext L k (now l) (next l) u t = Ok (in_force L k u t, List.map v l) /\
    forall s, List.In s l -> forall Om (E : (Om -> R) -> R) (x x' : Om -> 'cV[R]_n), expectation E ->
      has_mean E x (s_z s) -> has_cov E x (s_z s) (s_P s) -> has_mean E x' (s_zn s) -> has_cov E x' (s_zn s) (s_Pn s) ->
      cross_cov E x (s_z s) x' (s_zn s) = s_M s ->
      v s = (E (fun w => normal_logpdf (A *m x w + kf_f (in_force L k u t))%mx Q (x' w)) + INR n / 2 * ln (2 * PI))%Re.
Proof.
move=> n m U Y Tm L k l u t A Q HA HQ HP.
exists (fun s => (- (1 / 2) * (ln (\det Q) + \tr (invmx Q *m calc_l2 (s_zn s) (s_Pn s) (s_z s) (s_P s) A (kf_f (in_force L k u t)) (s_M s))%mx))%Re). split.
- rewrite /eval_logp_xnext /now /next !get_states_map /= in_forceE combine_map.
  rewrite (map2r_map (g := fun s => (- (1 / 2) * (ln (\det Q) + \tr (invmx Q *m calc_l2 (s_zn s) (s_Pn s) (s_z s) (s_P s) A (kf_f (in_force L k u t)) (s_M s))%mx))%Re)) //.
  move=> s _. rewrite /stored_AQ HA HQ /= /l2_of get_smrow_Mz /= qterm_ok //.
- move=> s _ Om E x x' HE H1 H2 H3 H4 H5. rewrite (E_logpdf _ _ _ HE) (calc_l2_moment _ _ HE H1 H2 H3 H4 H5). field.
Qed.

(** C46, initial term. *)
Theorem C46_ltv_x0 : forall n m U Y Tm (L : ltv n m U Y Tm) (l : list (step n)), posdef (ltv_P0 L) ->
  exists v, eval_logp_x0 L (now l) = Ok (List.map v l) /\
    forall s, List.In s l -> forall Om (E : (Om -> R) -> R) (x : Om -> 'cV[R]_n), expectation E ->
      has_mean E x (s_z s) -> has_cov E x (s_z s) (s_P s) ->
      v s = (E (fun w => normal_logpdf (ltv_z0 L) (ltv_P0 L) (x w)) + INR n / 2 * ln (2 * PI))%Re.
Proof.
move=> n m U Y Tm L l HP.
exists (fun s => (- (1 / 2) * (ln (\det (ltv_P0 L)) + \tr (invmx (ltv_P0 L) *m calc_l1 (s_z s) (s_P s) (ltv_z0 L))%mx))%Re). split.
- rewrite /eval_logp_x0 /now get_states_map /=. rewrite (mapr_map (g := fun s => (- (1 / 2) * (ln (\det (ltv_P0 L)) + \tr (invmx (ltv_P0 L) *m calc_l1 (s_z s) (s_P s) (ltv_z0 L))%mx))%Re)) //.
  move=> s _ /=. exact: qterm_ok.
- move=> s _ Om E x HE H1 H2. rewrite (E_logpdf _ (fun _ => _) _ HE) (calc_l1_moment _ HE H1 H2). field.
Qed.

Definition in_force_meas n m (k : kf n m) (d : 'cV[R]_m * option 'M[R]_(m, n) * option 'cV[R]_m * option 'M[R]_m) : kf n m :=
  let '(_, C, h, Rn) := d in set_dynamics k (mkDyn None C None Rn None h).
(** C46, measurement term. *)
Theorem C46_ltv_y : forall n m U Y Tm (L : ltv n m U Y Tm) k (l : list (step n)) (y : Y) t C Rn,
  let d := get_meas_dynamics L y t in let k1 := in_force_meas k d in let y1 := d.1.1.1 in
  kf_C k1 = Some C -> kf_R k1 = Some Rn -> posdef Rn ->
  exists v, eval_logp_y L k (now l) y t = Ok (k1, List.map v l) /\
    forall s, List.In s l -> forall Om (E : (Om -> R) -> R) (x : Om -> 'cV[R]_n), expectation E ->
      has_mean E x (s_z s) -> has_cov E x (s_z s) (s_P s) ->
      v s = (E (fun w => normal_logpdf (C *m x w + orzero (kf_h k1))%mx Rn y1) + INR m / 2 * ln (2 * PI))%Re.
Proof.
move=> n m U Y Tm L k l y t C Rn. rewrite /eval_logp_y. case: (get_meas_dynamics L y t) => [[[y' C'] h'] R'] /=. rewrite -/(dyn_meas C' h' R'). set k1 := set_dynamics _ _ => HC HR HP.
pose l3 (s : step n) := match calc_l3 k1 y' (s_z s) (s_P s) with Ok l => l | Err _ => 0 end.
have Hl : forall s, calc_l3 k1 y' (s_z s) (s_P s) = Ok (l3 s) by move=> s; rewrite /l3 /calc_l3 HC.
exists (fun s => (- (1 / 2) * (ln (\det Rn) + \tr (invmx Rn *m l3 s)%mx))%Re). split.
- rewrite /now get_states_map /=. rewrite (mapr_map (g := fun s => (- (1 / 2) * (ln (\det Rn) + \tr (invmx Rn *m l3 s)%mx))%Re)) //.
  move=> s _ /=. rewrite Hl /= HR. exact: qterm_ok.
- move=> s _ Om E x HE H1 H2. rewrite (E_logpdf _ _ (fun _ => _) HE) (calc_l3_moment HE H1 H2 HC (Hl s)). field.
Qed.

(** ** C47 *)
(** C47: [compute_logprod_derivative] is the derivative of log det A + tr (A^-1 B) along every
    differentiable curve of positive definite matrices A and every differentiable curve B. *)
Theorem C47_logprod : forall n (A B : R -> 'M[R]_n) s0 dA dB U, (forall s, posdef (A s)) -> mx_deriv A s0 dA -> mx_deriv B s0 dB -> chol (A s0) = Ok U ->
  derivable_pt_lim (fun s => (ln (\det (A s)) + \tr (invmx (A s) *m B s)%mx)%Re) s0 (compute_logprod_derivative U dA (B s0) dB).
Proof.
move=> n A B s0 dA dB U HA H1 H2 HU. rewrite /compute_logprod_derivative !(cho_solveE _ (proj1 (HA s0)) HU).
apply: mxd_logprod => // s. exact: posdef_det.
Qed.

(** gradient for parameter j; None stands for no dependence *)
Definition ograd m n (o : option (list 'M[R]_(m, n))) (j : nat) : 'M[R]_(m, n) := match o with None => 0 | Some l => List.nth j l 0 end.
Definition olen T (o : option (list T)) (np : nat) : Prop := match o with None => True | Some l => List.length l = np end.
Lemma oidx_ok m n (o : option (list 'M[R]_(m, n))) np j : olen o np -> (j < np)%coq_nat -> exists r, oidx o j = Ok r /\ match r with Some g => g | None => 0 end = ograd o j.
Proof.
case: o => [l|] /=; last by move=> _ _; exists None.
move=> Hl Hj. rewrite -Hl in Hj. case: (@idx_lt _ l j Hj) => g Hg. rewrite Hg /=. exists (Some g); split => //. move/idx_ok: Hg => Hg; symmetry; exact: List.nth_error_nth.
Qed.

Lemma mxd_outer n (e : R -> 'cV[R]_n) s0 de : mx_deriv e s0 de -> mx_deriv (fun s => e s *m (e s)^T) s0 (de *m (e s0)^T + (de *m (e s0)^T)^T).
Proof.
move=> H. have := mxd_mul H (mxd_tr H). by rewrite trmx_mul trmxK.
Qed.
Lemma calc_l1_deriv n z (P : 'M[R]_n) (z0 : R -> 'cV[R]_n) s0 dz g : mx_deriv z0 s0 dz -> match g with Some g => g | None => 0 end = dz ->
  mx_deriv (fun s => calc_l1 z P (z0 s)) s0 (calc_l1_grad z (z0 s0) g).
Proof.
move=> H E. have H1 := mxd_sub (mxd_const s0 z) H. have H2 := mxd_add (mxd_outer H1) (mxd_const s0 P).
rewrite [calc_l1_grad _ _ _](_ : _ = (0 - dz) *m (z - z0 s0)^T + ((0 - dz) *m (z - z0 s0)^T)^T + 0); first exact: H2.
rewrite addr0 sub0r /calc_l1_grad -E. case: g E => [g|] //= _. by rewrite oppr0 mul0mx trmx0 addr0.
Qed.
Lemma calc_l2_deriv n (zn : 'cV[R]_n) Pn z (P : 'M[R]_n) (A : R -> 'M[R]_n) (f : R -> 'cV[R]_n) M s0 dA df Ag fg : symmetric P ->
  mx_deriv A s0 dA -> mx_deriv f s0 df -> match Ag with Some g => g | None => 0 end = dA -> match fg with Some g => g | None => 0 end = df ->
  mx_deriv (fun s => calc_l2 zn Pn z P (A s) (f s) M) s0 (calc_l2_grad zn z P (A s0) (f s0) M Ag fg).
Proof.
move=> SP HA Hf EA Ef.
have He := mxd_sub (mxd_sub (mxd_const s0 zn) Hf) (mxd_mulr z HA).
have HAM := mxd_mulr M HA.
have H := mxd_add (mxd_outer He) (mxd_sub (mxd_sub (mxd_add (mxd_const s0 Pn) (mxd_mul (mxd_mulr P HA) (mxd_tr HA))) (mxd_tr HAM)) HAM).
apply: (eq_ind _ (mx_deriv (fun s => calc_l2 zn Pn z P (A s) (f s) M) s0) H).
rewrite /calc_l2_grad. set e := zn - f s0 - A s0 *m z.
have -> : A s0 *m P *m dA^T = (dA *m P *m (A s0)^T)^T by rewrite !trmx_mul trmxK SP mulmxA.
rewrite [(0 - df - dA *m z) *m e^T](_ : _ = (- df *m e^T) + (- dA *m z *m e^T)); last by rewrite sub0r mulmxBl !mulNmx.
rewrite (trD (- df *m e^T)). rewrite -EA -Ef {H He HAM EA Ef HA Hf}.
case: Ag => [Ag|]; case: fg => [fg|]; rewrite ?(oppr0, mul0mx, mulmx0, trmx0, addr0, add0r, subr0, sub0r) ?mulNmx ?trN; mxab.
Qed.

Lemma fold_sub_half np (ds : list (list R)) g j : List.length g = np -> List.Forall (fun d => List.length d = np) ds -> (j < np)%coq_nat ->
  List.nth j (List.fold_left sub_half ds g) 0%Re = (List.nth j g 0 - 1 / 2 * List.fold_right Rplus 0 (List.map (fun d => List.nth j d 0) ds))%Re.
Proof.
move=> Hg HF Hj. elim: ds g Hg HF => [|d ds IH] g Hg HF /=; first by ring.
inversion_clear HF as [|? ? Hd HF']. have L : List.length (sub_half g d) = np by rewrite /sub_half List.map_length List.combine_length Hg Hd PeanoNat.Nat.min_id.
rewrite IH // /sub_half. rewrite (List.nth_indep _ 0%Re ((fun p => (p.1 - 1 / 2 * p.2)%Re) (0%Re, 0%Re))); last by rewrite -/(sub_half g d) L.
rewrite List.map_nth List.combine_nth /=; last by rewrite Hg Hd. ring.
Qed.
Lemma fold_left_plus l (a : R) : List.fold_left Rplus l a = (a + List.fold_right Rplus 0 l)%Re.
Proof. elim: l a => [|b l IH] a /=; first by ring. rewrite IH; ring. Qed.
Lemma dpl_lsum (T : Type) (l : list T) (F : T -> R -> R) (dF : T -> R) s0 : (forall x, List.In x l -> derivable_pt_lim (F x) s0 (dF x)) ->
  derivable_pt_lim (fun s => List.fold_right Rplus 0%Re (List.map (fun x => F x s) l)) s0 (List.fold_right Rplus 0%Re (List.map dF l)).
Proof.
elim: l => [|x l IH] H /=; first exact: derivable_pt_lim_const.
apply: (derivable_pt_lim_plus (F x)); first by apply: H; left. apply: IH => y Hy; apply: H; by right.
Qed.

(** the value and gradient the loops over particles and parameters produce *)
Lemma loop_deriv np (T : Type) (l : list T) d (S : R -> 'M[R]_d) (Uc : 'M[R]_d) (lm : T -> R -> 'M[R]_d) s0 (dS : 'M[R]_d) (dl : T -> 'M[R]_d) (ds : T -> list R) j :
  (forall s, posdef (S s)) -> chol (S s0) = Ok Uc -> mx_deriv S s0 dS -> (forall x, List.In x l -> mx_deriv (lm x) s0 (dl x)) ->
  (j < np)%coq_nat -> (forall x, List.In x l -> List.length (ds x) = np) ->
  (forall x, List.In x l -> List.nth j (ds x) 0%Re = compute_logprod_derivative Uc dS (lm x s0) (dl x)) ->
  derivable_pt_lim (fun s => List.fold_left Rplus (List.map (fun x => (- (1 / 2) * (ln (\det (S s)) + \tr (invmx (S s) *m lm x s)%mx))%Re) l) 0%Re) s0
    (List.nth j (List.fold_left sub_half (List.map ds l) (List.repeat 0%Re np)) 0%Re).
Proof.
move=> HS HU HdS Hl Hj Hlen Hds.
rewrite (fold_sub_half (np := np)) ?List.repeat_length //; last first.
{ apply/List.Forall_forall => x /List.in_map_iff [y [<- Hy]]. exact: Hlen. }
rewrite [List.nth j (List.repeat _ _) _](_ : _ = 0%Re); last first.
{ by rewrite List.nth_repeat. }
rewrite List.map_map.
apply: (dpl_ext (f := fun s => List.fold_right Rplus 0%Re (List.map (fun x => (- (1 / 2) * (ln (\det (S s)) + \tr (invmx (S s) *m lm x s)%mx))%Re) l))).
{ move=> s; rewrite fold_left_plus; ring. }
rewrite [X in derivable_pt_lim _ _ X](_ : _ = List.fold_right Rplus 0%Re (List.map (fun x => (- (1 / 2) * List.nth j (ds x) 0)%Re) l)); last first.
{ elim: (l) => [|x l' IH] /=; first by ring. rewrite -IH. ring. }
apply: dpl_lsum => x Hx. rewrite (Hds _ Hx).
apply: (derivable_pt_lim_scal (fun s => (ln (\det (S s)) + \tr (invmx (S s) *m lm x s)%mx)%Re)). exact: C47_logprod (Hl _ Hx) HU.
Qed.

Lemma grad_list (np : nat) (F : nat -> res R) (G : nat -> R) : (forall j, (j < np)%coq_nat -> F j = Ok (G j)) -> mapr F (List.seq 0 np) = Ok (List.map G (List.seq 0 np)).
Proof. by move=> H; apply: mapr_ok_in => j /List.in_seq [_ Hj]; exact: H. Qed.
Lemma nth_grad_list (np j : nat) (G : nat -> R) : (j < np)%coq_nat -> List.nth j (List.map G (List.seq 0 np)) 0%Re = G j.
Proof.
move=> Hj. rewrite (List.nth_indep _ 0%Re (G 0%nat)); last by rewrite List.map_length List.seq_length. by rewrite List.map_nth List.seq_nth.
Qed.

(** C47, transition term: let a parameter s vary, the matrices in force being differentiable functions of
    it with the derivatives the user supplies for parameter j.  Then the returned value is differentiable in
    s and entry j of the returned gradient is its derivative. *)
Theorem C47_ltv_xnext : forall n m U Y Tm (Lc : R -> ltv n m U Y Tm) k (l : list (step n)) u t np A_grad f_grad Q_grad (A Q : R -> 'M[R]_n) (f : R -> 'cV[R]_n) s0 j,
  ~ (A_grad = None /\ f_grad = None /\ Q_grad = None) -> olen A_grad np -> olen f_grad np -> olen Q_grad np -> (j < np)%coq_nat ->
  (forall s, kf_A (in_force (Lc s) k u t) = Some (A s) /\ kf_f (in_force (Lc s) k u t) = f s /\ kf_Q (in_force (Lc s) k u t) = Some (Q s) /\ posdef (Q s)) ->
  mx_deriv A s0 (ograd A_grad j) -> mx_deriv f s0 (ograd f_grad j) -> mx_deriv Q s0 (ograd Q_grad j) ->
  (forall s, List.In s l -> symmetric (s_P s)) ->
  exists v g, (forall s, eval_logp_xnext_val_grad (Lc s) np A_grad f_grad Q_grad k (now l) (next l) u t = Ok (in_force (Lc s) k u t, (VNum (v s), g s))) /\
    derivable_pt_lim v s0 (List.nth j (g s0) 0%Re).
Proof.
move=> n m U Y Tm Lc k l u t np Agr fgr Qgr A Q f s0 j Hnn LA Lf LQ Hj HK HA Hf HQ Hsym.
pose l2 (x : step n) s := calc_l2 (s_zn x) (s_Pn x) (s_z x) (s_P x) (A s) (f s) (s_M x).
pose og T (o : option (list T)) i := match oidx o i with Ok r => r | Err _ => None end.
have Hog : forall a b (o : option (list 'M[R]_(a, b))) i, olen o np -> (i < np)%coq_nat -> oidx o i = Ok (og _ o i) /\ match og _ o i with Some g => g | None => 0 end = ograd o i.
{ move=> a b o i Ho Hi. case: (oidx_ok Ho Hi) => r [Hr Er]. by rewrite /og Hr. }
pose Uc s := match chol (Q s) with Ok Uc => Uc | Err _ => 0 end.
have HU : forall s, chol (Q s) = Ok (Uc s). { move=> s. case: (HK s) => _ [_ [_ HP]]. rewrite /Uc. by case: (chol_total HP) => V ->. }
pose d s (x : step n) i := compute_logprod_derivative (Uc s) (match og _ Qgr i with Some g => g | None => 0 end) (l2 x s) (calc_l2_grad (s_zn x) (s_z x) (s_P x) (A s) (f s) (s_M x) (og _ Agr i) (og _ fgr i)).
pose ds s x := List.map (d s x) (List.seq 0 np).
exists (fun s => List.fold_left Rplus (List.map (fun x => (- (1 / 2) * (ln (\det (Q s)) + \tr (invmx (Q s) *m l2 x s)%mx))%Re) l) 0%Re),
       (fun s => List.fold_left sub_half (List.map (ds s) l) (List.repeat 0%Re np)).
split.
- move=> s. case: (HK s) => KA [Kf [KQ KP]].
  have -> : eval_logp_xnext_val_grad (Lc s) np Agr fgr Qgr k (now l) (next l) u t =
      (dor zP <- get_states (now l) ; dor zPn <- get_states (next l) ;
      let k := set_dynamics k (dyn_pred (get_pred_dynamics (Lc s) u t)) in
      dor Q <- match kf_Q k with None => Err ValueError | Some Q => Ok Q end ;
      dor Qcho <- chol Q ;
      dor r <- map2r (fun ps sn =>
        dor AQ <- stored_AQ k ;
        dor l2 <- l2_of k AQ.1 ps.1 ps.2 sn ;
        dor Mz <- get_Mz1 ps.1 ;
        dor d <- mapr (fun j =>
          dor Ag <- oidx Agr j ; dor fg <- oidx fgr j ; dor Qg <- oidx Qgr j ;
          Ok (compute_logprod_derivative Qcho (match Qg with Some g => g | None => 0 end) l2
                (calc_l2_grad sn.1 ps.2.1 ps.2.2 AQ.1 (kf_f k) Mz Ag fg))) (List.seq 0 np) ;
        Ok (qterm_cho Qcho l2, d)) (List.combine (now l) zP) zPn ;
      Ok (k, (VNum (List.fold_left Rplus (List.map fst r) 0%Re), List.fold_left sub_half (List.map snd r) (List.repeat 0%Re np)))).
  { by move: Hnn; rewrite /eval_logp_xnext_val_grad; case: (Agr) => [?|] //; case: (fgr) => [?|] //; case: (Qgr) => [?|] // []. }
  rewrite /now /next !get_states_map /= combine_map in_forceE KQ /= HU /=.
  rewrite (map2r_map (g := fun x => ((- (1 / 2) * (ln (\det (Q s)) + \tr (invmx (Q s) *m l2 x s)%mx))%Re, ds s x))) /=.
  + by rewrite !List.map_map.
  + move=> x Hx. rewrite /stored_AQ KA KQ /= /l2_of get_smrow_Mz /= Kf. rewrite (grad_list (G := d s x)) /=.
    * by rewrite (qterm_cho_ok _ KP (HU s)).
    * move=> i Hi. case: (Hog _ _ _ _ LA Hi) => -> _. case: (Hog _ _ _ _ Lf Hi) => -> _. by case: (Hog _ _ _ _ LQ Hi) => -> _.
- apply: (@loop_deriv np _ l n Q (Uc s0) l2 s0 (ograd Qgr j) (fun x => calc_l2_grad (s_zn x) (s_z x) (s_P x) (A s0) (f s0) (s_M x) (og _ Agr j) (og _ fgr j)) (ds s0) j) => //.
  + by move=> s; case: (HK s) => _ [_ [_ ]].
  + move=> x Hx. apply: calc_l2_deriv HA Hf _ _; first exact: Hsym. * exact: (proj2 (Hog _ _ _ _ LA Hj)). * exact: (proj2 (Hog _ _ _ _ Lf Hj)).
  + by move=> x _; rewrite /ds List.map_length List.seq_length.
  + move=> x _. rewrite /ds nth_grad_list // /d. by rewrite (proj2 (Hog _ _ _ _ LQ Hj)).
Qed.

(** C47, initial term, likewise for z0 and P0. *)
Theorem C47_ltv_x0 : forall n m U Y Tm (Lc : R -> ltv n m U Y Tm) (l : list (step n)) np z0_grad P0_grad (z0 : R -> 'cV[R]_n) (P0 : R -> 'M[R]_n) s0 j,
  olen z0_grad np -> List.length P0_grad = np -> (j < np)%coq_nat ->
  (forall s, ltv_z0 (Lc s) = z0 s /\ ltv_P0 (Lc s) = P0 s /\ posdef (P0 s)) ->
  mx_deriv z0 s0 (ograd z0_grad j) -> mx_deriv P0 s0 (ograd (Some P0_grad) j) ->
  exists v g, (forall s, eval_logp_x0_val_grad (Lc s) np z0_grad (Some P0_grad) (now l) = Ok (VNum (v s), g s)) /\
    derivable_pt_lim v s0 (List.nth j (g s0) 0%Re).
Proof.
move=> n m U Y Tm Lc l np zgr Pgr z0 P0 s0 j Lz LP Hj HK Hz HP.
pose l1 (x : step n) s := calc_l1 (s_z x) (s_P x) (z0 s).
pose og T (o : option (list T)) i := match oidx o i with Ok r => r | Err _ => None end.
have Hog : forall a b (o : option (list 'M[R]_(a, b))) i, olen o np -> (i < np)%coq_nat -> oidx o i = Ok (og _ o i) /\ match og _ o i with Some g => g | None => 0 end = ograd o i.
{ move=> a b o i Ho Hi. case: (oidx_ok Ho Hi) => r [Hr Er]. by rewrite /og Hr. }
pose Uc s := match chol (P0 s) with Ok Uc => Uc | Err _ => 0 end.
have HU : forall s, chol (P0 s) = Ok (Uc s). { move=> s. case: (HK s) => _ [_ HP']. rewrite /Uc. by case: (chol_total HP') => V ->. }
pose d s (x : step n) i := compute_logprod_derivative (Uc s) (ograd (Some Pgr) i) (l1 x s) (calc_l1_grad (s_z x) (z0 s) (og _ zgr i)).
pose ds s x := List.map (d s x) (List.seq 0 np).
exists (fun s => List.fold_left Rplus (List.map (fun x => (- (1 / 2) * (ln (\det (P0 s)) + \tr (invmx (P0 s) *m l1 x s)%mx))%Re) l) 0%Re),
       (fun s => List.fold_left sub_half (List.map (ds s) l) (List.repeat 0%Re np)).
split.
- move=> s. case: (HK s) => Kz [KP KD].
  have -> : eval_logp_x0_val_grad (Lc s) np zgr (Some Pgr) (now l) =
     (dor zP <- get_states (now l) ;
      dor P0cho <- chol (ltv_P0 (Lc s)) ;
      dor r <- mapr (fun x =>
        let l1 := calc_l1 x.1 x.2 (ltv_z0 (Lc s)) in
        dor d <- mapr (fun j =>
          dor zg <- oidx zgr j ;
          dor Pg <- idx Pgr j ;
          Ok (compute_logprod_derivative P0cho Pg l1 (calc_l1_grad x.1 (ltv_z0 (Lc s)) zg))) (List.seq 0 np) ;
        Ok (qterm_cho P0cho l1, d)) zP ;
      Ok (VNum (List.fold_left Rplus (List.map fst r) 0%Re), List.fold_left sub_half (List.map snd r) (List.repeat 0%Re np))).
  { by rewrite /eval_logp_x0_val_grad; case: (zgr). }
  rewrite /now get_states_map /= Kz KP HU /=.
  rewrite (mapr_map (g := fun x => ((- (1 / 2) * (ln (\det (P0 s)) + \tr (invmx (P0 s) *m l1 x s)%mx))%Re, ds s x))) /=.
  + by rewrite !List.map_map.
  + move=> x Hx. rewrite (grad_list (G := d s x)) /=.
    * by rewrite (qterm_cho_ok _ KD (HU s)).
    * move=> i Hi. case: (Hog _ _ _ _ Lz Hi) => -> _. rewrite /=. case: (@idx_lt _ Pgr i); first by rewrite LP. move=> g Hg. rewrite Hg /= /d /=. move/idx_ok: Hg => Hg. by rewrite (List.nth_error_nth Pgr i 0 Hg).
- apply: (@loop_deriv np _ l n P0 (Uc s0) l1 s0 (ograd (Some Pgr) j) (fun x => calc_l1_grad (s_z x) (z0 s0) (og _ zgr j)) (ds s0) j) => //.
  + by move=> s; case: (HK s) => _ [_ ].
  + move=> x Hx. apply: calc_l1_deriv Hz _. exact: (proj2 (Hog _ _ _ _ Lz Hj)).
  + by move=> x _; rewrite /ds List.map_length List.seq_length.
  + move=> x _. rewrite /ds nth_grad_list //.
Qed.

(** C47, finding: for the measurement term, whenever a gradient is supplied and there is a particle, the call
    raises TypeError instead of returning a gradient. *)
Theorem C47_ltv_y_refuted : forall n m U Y Tm (L : ltv n m U Y Tm) k (l : list (step n)) np C_grad h_grad R_grad (y : Y) t Rn,
  ~ (C_grad = None /\ h_grad = None /\ R_grad = None) -> l <> nil ->
  kf_R (in_force_meas k (get_meas_dynamics L y t)) = Some Rn -> posdef Rn ->
  eval_logp_y_val_grad L np C_grad h_grad R_grad k (now l) y t = Err TypeError.
Proof.
move=> n m U Y Tm L k l np Cg hg Rg y t Rn Hnn Hl HR HP. rewrite /eval_logp_y_val_grad.
have G : forall zP, get_states (n := n) (now l) = Ok zP -> exists a b, zP = cons a b.
{ move=> zP. rewrite /now get_states_map => -[<-]. case: l Hl => //= a b _. by eexists; eexists. }
case: (chol_total HP) => V HV. move: HR. rewrite /in_force_meas. case E : (get_meas_dynamics L y t) => [[[y' C'] h'] R'].
rewrite -/(dyn_meas C' h' R') => HR. rewrite /now get_states_map in G *. case: (G _ erefl) => a [b Eab].
by move: Hnn; case: Cg => [?|] //; case: hg => [?|] //; case: Rg => [?|] // H; rewrite ?HR /= ?HV /= ?Eab //; case: H.
Qed.

(** ** Concrete cases *)
Example C42_ltv_case : exists ps, set_states (n := 2) (cons (List.repeat 7%Re 10) nil) (cons (ex_u, ex_P) nil) = Ok ps /\ get_states ps = Ok (cons (ex_u, ex_P) nil).
Proof. case: (@C42_ltv_storage 2 (cons (List.repeat 7%Re 10) nil) (cons (ex_u, ex_P) nil) erefl) => [|ps [H1 [H2 _]]]; [by constructor | by exists ps]. Qed.

(** a model whose A depends on a parameter s: A = s I, f = 0, Q constant; the sum of the two states is measured *)
Definition ex_ltv (s : R) : ltv 2 1 unit 'cV[R]_1 unit :=
  mkLTV ex_u ex_P (fun _ _ => (Some (s%:M), Some 0, None)) (fun y _ => (y, None, None, None)) (fun y => y).
Definition ex_kf : kf 2 1 := ltv_init None (Some ex_C) (Some ex_P) (Some ex_R) None None.
Definition ex_step : step 2 := mkStep 0 ex_P 0 ex_u ex_P nil.

Example C62_case : exists r, kalman_run (ex_ltv 2) ex_kf ex_u ex_P (cons (LMeasure (const_mx 1%Re) tt) (cons (LUpdate tt tt) nil)) = Ok r.
Proof.
rewrite [kalman_run _ _ _ _ _]/=. rewrite /in_force /measure. have -> : kf_R (set_dynamics ex_kf (mkDyn None None None None None None)) = Some ex_R by [].
have -> : kf_C (set_dynamics ex_kf (mkDyn None None None None None None)) = Some ex_C by [].
rewrite (measure_ok _ _ _ _ (posdef_psd ex_P_posdef) ex_R_posdef) /=. by eexists.
Qed.
Definition ex_const : ltv 2 1 unit 'cV[R]_1 unit := mkLTV ex_u ex_P (fun _ _ => (None, None, None)) (fun y _ => (y, None, None, None)) (fun y => y).
Example C62_constant_case : (forall u t, get_pred_dynamics ex_const u t = (None, None, None)) /\ (forall y t, get_meas_dynamics ex_const y t = (y, None, None, None)) /\
  psd (ltv_P0 ex_const) /\ posdef ex_R /\
  exists lls, ltv_run ex_const (ltv_init (Some 1%:M) (Some ex_C) (Some ex_P) (Some ex_R) (Some ex_u) None) (create_initial_estimate ex_const 3) (cons (LUpdate tt tt) nil) =
    Ok (ltv_init (Some 1%:M) (Some ex_C) (Some ex_P) (Some ex_R) (Some ex_u) None, List.repeat (mkrow (1%:M *m ex_u + ex_u) (1%:M *m ex_P *m (1%:M)^T + ex_P) nil) 3, lls).
Proof.
do 2 (split; first by []). split; first exact: posdef_psd ex_P_posdef. split; first exact: ex_R_posdef.
case: (@C62_constant_matrices 2 1 unit _ unit ex_const 1%:M ex_C ex_P ex_R (Some ex_u) None (fun y => y) 3 (cons (LUpdate tt tt) nil)) => // [||| lls [E _]].
- exact: posdef_psd ex_P_posdef.
- exact: posdef_psd ex_P_posdef.
- exact: ex_R_posdef.
- eexists. exact: E.
Qed.
Example C43_case : exists sm, smooth ex_u ex_P 0 ex_P (2%:M : 'M[R]_2)%Re 0 ex_P = Ok sm /\ get_pred_dynamics (ex_ltv 2) tt tt = get_pred_dynamics (ex_ltv 2) tt tt.
Proof. case: (C37_smooth_exact ex_u 0 ex_P ((2%Re : R)%:M) 0 ex_P_posdef ex_P_posdef) => J [L [_ [_ H]]]. by eexists; split; first exact: H. Qed.
Example C46_case : exists v, eval_logp_xnext (ex_ltv 2) ex_kf (now (cons ex_step nil)) (next (cons ex_step nil)) tt tt = Ok (in_force (ex_ltv 2) ex_kf tt tt, cons (v ex_step) nil).
Proof. case: (@C46_ltv_xnext 2 1 unit _ unit (ex_ltv 2) ex_kf (cons ex_step nil) tt tt _ ex_P erefl erefl ex_P_posdef) => v [H _]. by exists v. Qed.
Example C47_case : exists v g, (forall s, eval_logp_xnext_val_grad (ex_ltv s) 1 (Some (cons 1%:M nil)) None None ex_kf (now (cons ex_step nil)) (next (cons ex_step nil)) tt tt = Ok (in_force (ex_ltv s) ex_kf tt tt, (VNum (v s), g s))) /\
  derivable_pt_lim v 3%Re (List.nth 0 (g 3%Re) 0%Re).
Proof.
apply: (@C47_ltv_xnext 2 1 unit _ unit ex_ltv ex_kf (cons ex_step nil) tt tt 1 (Some (cons 1%:M nil)) None None (fun s => s%:M) (fun _ => ex_P) (fun _ => 0) 3%Re 0) => //.
- by case.
- move=> s; do 3 split => //; exact: ex_P_posdef.
- move=> i j. rewrite /ograd /= mxE. apply: (dpl_ext (f := fun s => ((if i == j then 1 else 0) * s)%Re)).
  + move=> x; rewrite mxE. by case: eqP => _; rewrite ?mulr1n ?mulr0n ?Rmult_1_l ?Rmult_0_l.
  + rewrite [X in derivable_pt_lim _ _ X](_ : _ = ((if i == j then 1 else 0) * 1)%Re); last by case: eqP => _; rewrite ?mulr1n ?mulr0n ?Rmult_1_r.
    exact: (derivable_pt_lim_scal (fun x => x) _ _ _ (derivable_pt_lim_id _)).
- exact: mxd_const.
- exact: mxd_const.
- move=> s [<-|[]] /=. exact: (proj1 ex_P_posdef).
Qed.
Example C47_y_case : eval_logp_y_val_grad (ex_ltv 2) 1 (Some (cons ex_C nil)) None None ex_kf (now (cons ex_step nil)) (const_mx 1%Re) tt = Err TypeError.
Proof. apply: (@C47_ltv_y_refuted _ _ _ _ _ _ _ _ _ _ _ _ _ _ ex_R) => //; [by case | exact: ex_R_posdef]. Qed.

Print Assumptions C47_ltv_xnext.
Print Assumptions C46_ltv_y.
Print Assumptions C62_ltv_is_kalman.
Print Assumptions C62_constant_matrices.
