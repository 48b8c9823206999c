(** Properties C01-C06: systematic resampling ([sample], filter.py:10-23). *)
From Coquelicot Require Import Coquelicot.
From Coq Require Import ZArith Reals Lra Lia List.
From Verif Require Import Base XR SampleModel SampleSpec SampleProofs SampleRound.
Import ListNotations.
Open Scope R_scope.

(** C01. *)
Theorem C01_sample_valid : forall (w : list R) (n : nat) (r : R),
  weights_ok w -> unit_draw r ->
  exists l, np_sample (map Fin w) n r = Ok l /\
    length l = n /\
    Forall (fun i => (i < length w)%nat) l /\
    nondecreasing l.
Proof. exact sample_valid. Qed.

(** An empty weight vector is the only list of finite weights of any kind on
    which the call itself raises. *)
Theorem C01_sample_raises_iff_empty : forall (w : list xr) (n : nat) (r : R),
  (exists e, np_sample w n r = Err e) <-> w = [].
Proof.
  intros w n r. unfold np_sample, idx_last. split.
  - intros [e H]. destruct w as [|x w]; auto.
    destruct (rev (xcumsum (x :: w))) as [|z l] eqn:E; [|discriminate].
    apply (f_equal (@rev xr)) in E. rewrite rev_involutive in E. discriminate.
  - intros ->. exists IndexError. reflexivity.
Qed.

Example C01_instance :
  weights_ok [0; 1/2; 0; 3/2] /\ unit_draw (1/4) /\
  np_sample (map Fin [0; 1/2; 0; 3/2]) 3 (1/4) = Ok [1; 3; 3]%nat.
Proof.
  split; [|split].
  - split; [repeat constructor; lra | simpl; lra].
  - unfold unit_draw; lra.
  - xcompute. reflexivity.
Qed.

(** C02: strictly less than one copy away from the proportional share for every
    draw but 0; never more than one copy away. *)
Theorem C02_sample_share : forall (w : list R) (n : nat) (r : R) (i : nat) (x : R) (l : list nat),
  weights_ok w -> (0 < n)%nat -> 0 < r < 1 ->
  nth_error w i = Some x ->
  np_sample (map Fin w) n r = Ok l ->
  Rabs (INR (occurrences i l) - INR n * (x / rsum w)) < 1.
Proof. exact sample_share. Qed.

Theorem C02_sample_share_all_draws : forall (w : list R) (n : nat) (r : R) (i : nat) (x : R) (l : list nat),
  weights_ok w -> (0 < n)%nat -> unit_draw r ->
  nth_error w i = Some x ->
  np_sample (map Fin w) n r = Ok l ->
  Rabs (INR (occurrences i l) - INR n * (x / rsum w)) <= 1.
Proof. exact sample_share_le. Qed.

(** The strict bound is false at the draw 0: with two equal weights and n = 2 both
    copies go to the first index. *)
Theorem C02_strict_share_at_zero_refuted :
  ~ (forall (w : list R) (n : nat) (r : R) (i : nat) (x : R) (l : list nat),
      weights_ok w -> (0 < n)%nat -> unit_draw r ->
      nth_error w i = Some x -> np_sample (map Fin w) n r = Ok l ->
      Rabs (INR (occurrences i l) - INR n * (x / rsum w)) < 1).
Proof.
  intros H.
  assert (E : np_sample (map Fin [1; 1]) 2 0 = Ok [0; 0]%nat).
  { xcompute. reflexivity. }
  specialize (H [1; 1] 2%nat 0 0%nat 1 _ ltac:(split; [repeat constructor; lra | simpl; lra])
                ltac:(lia) ltac:(unfold unit_draw; lra) eq_refl E).
  simpl in H. apply Rabs_def2 in H. lra.
Qed.

Example C02_instance :
  exists l, np_sample (map Fin [0; 1/2; 0; 3/2]) 3 (1/4) = Ok l /\ occurrences 3 l = 2%nat.
Proof.
  exists [1; 3; 3]%nat. split; [|reflexivity]. apply C01_instance.
Qed.

(** C03: the draws selecting [i] form an interval of length [w_i / W]... *)
Theorem C03_sample_one_interval : forall (w : list R) (r : R) (i : nat) (x : R),
  weights_ok w -> 0 < r < 1 -> nth_error w i = Some x ->
  (np_sample (map Fin w) 1 r = Ok [i] <->
   psum w i / rsum w < r <= psum w i / rsum w + x / rsum w).
Proof.
  intros w r i x Hw Hr Hx. rewrite <- (frac_diff w i x Hw Hx).
  apply sample_one; auto. apply nth_error_Some. congruence.
Qed.

(** ... and the expected number of copies is exactly proportional. *)
Theorem C03_sample_unbiased : forall (w : list R) (n i : nat) (x : R),
  weights_ok w -> (0 < n)%nat -> nth_error w i = Some x ->
  is_RInt (fun r => match np_sample (map Fin w) n r with
                    | Ok l => INR (occurrences i l)
                    | Err _ => 0
                    end) 0 1 (INR n * (x / rsum w)).
Proof. exact sample_expected. Qed.

Example C03_instance :
  is_RInt (fun r => match np_sample (map Fin [1; 3]) 2 r with
                    | Ok l => INR (occurrences 1 l)
                    | Err _ => 0
                    end) 0 1 (3 / 2).
Proof.
  replace (3 / 2) with (INR 2 * (3 / rsum [1; 3])) by (simpl; lra).
  apply C03_sample_unbiased; [|lia|reflexivity].
  split; [repeat constructor; lra | simpl; lra].
Qed.

(** C04 (the linear-weight part; the log-weight part is in Prop_Weights). *)
Theorem C04_sample_scale : forall (c : R) (w : list R) (n : nat) (r : R),
  0 < c -> weights_ok w ->
  np_sample (map Fin (map (Rmult c) w)) n r = np_sample (map Fin w) n r.
Proof. exact sample_scale. Qed.

(** C05 *)
Theorem C05_zero_weight_never_drawn : forall (w : list R) (n : nat) (r : R) (i : nat) (l : list nat),
  weights_ok w -> 0 < r < 1 -> nth_error w i = Some 0 ->
  np_sample (map Fin w) n r = Ok l -> ~ In i l.
Proof. exact sample_zero_never. Qed.

Example C05_instance :
  np_sample (map Fin [0; 1/2; 0; 3/2]) 3 (1/4) = Ok [1; 3; 3]%nat /\ ~ In 2%nat [1; 3; 3]%nat.
Proof.
  split; [apply C01_instance|].
  apply (C05_zero_weight_never_drawn [0; 1/2; 0; 3/2] 3 (1/4)); try reflexivity; try lra.
  - apply C01_instance.
  - apply C01_instance.
Qed.

(** Dropping the restriction on the draw makes it false. *)
Theorem C05_zero_weight_at_zero_draw_refuted :
  ~ (forall (w : list R) (n : nat) (r : R) (i : nat) (l : list nat),
      weights_ok w -> unit_draw r -> nth_error w i = Some 0 ->
      np_sample (map Fin w) n r = Ok l -> ~ In i l).
Proof.
  intros H.
  assert (E : np_sample (map Fin [0; 1]) 1 0 = Ok [0]%nat).
  { xcompute. reflexivity. }
  refine (H [0; 1] 1%nat 0 0%nat _ _ _ eq_refl E _).
  - split; [repeat constructor; lra | simpl; lra].
  - unfold unit_draw; lra.
  - left; auto.
Qed.

(** C06: IEEE binary64 rounding of every addition and division. *)
Theorem C06_sample_binary64_valid : forall (w : list R) (n : nat) (r : R),
  Forall (fun x => 0 <= x /\ float64 x) w -> Exists (fun x => 0 < x) w ->
  (Z.of_nat n <= 2 ^ 53)%Z -> unit_draw r ->
  length (np_sample_rnd rnd64 w n r) = n /\
  Forall (fun i => (i < length w)%nat) (np_sample_rnd rnd64 w n r) /\
  nondecreasing (np_sample_rnd rnd64 w n r).
Proof. exact sample64_valid. Qed.

(** The rounded cumulative weights are sorted, as numpy.searchsorted requires. *)
Theorem C06_cumulative_sorted : forall (w : list R),
  Forall (fun x => 0 <= x /\ float64 x) w -> Exists (fun x => 0 < x) w ->
  forall i j x y, (i <= j)%nat -> nth_error (wc_rnd rnd64 w) i = Some x ->
    nth_error (wc_rnd rnd64 w) j = Some y -> x <= y.
Proof. exact wc64_sorted. Qed.

(** Any other rounding works too, as long as it is monotone, idempotent and fixes
    0, 1 and the number of samples. *)
Theorem C06_sample_any_rounding : forall (rnd : R -> R),
  (forall x y, x <= y -> rnd x <= rnd y) -> (forall x, rnd (rnd x) = rnd x) ->
  rnd 0 = 0 -> rnd 1 = 1 ->
  forall (w : list R) (n : nat) (r : R),
  Forall (fun x => 0 <= x /\ rnd x = x) w -> Exists (fun x => 0 < x) w ->
  rnd (INR n) = INR n -> unit_draw r ->
  length (np_sample_rnd rnd w n r) = n /\
  Forall (fun i => (i < length w)%nat) (np_sample_rnd rnd w n r) /\
  nondecreasing (np_sample_rnd rnd w n r).
Proof. exact sample_rnd_valid. Qed.

Example C06_instance :
  Forall (fun x => 0 <= x /\ float64 x) [INR 0; INR 3; INR 5] /\
  Exists (fun x => 0 < x) [INR 0; INR 3; INR 5].
Proof.
  split.
  - change (Forall (fun x => 0 <= x /\ float64 x) (map INR [0; 3; 5]%nat)).
    apply Forall_map. repeat (apply Forall_cons; [split; [apply pos_INR | apply float64_nat; lia]|]).
    apply Forall_nil.
  - right. left. simpl. lra.
Qed.

Print Assumptions C01_sample_valid.
Print Assumptions C03_sample_unbiased.
Print Assumptions C06_sample_binary64_valid.
