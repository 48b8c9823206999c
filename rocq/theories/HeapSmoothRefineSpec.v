(** When array-level smoothing methods (HeapSmooth.hsmodel) do what value-level ones (SmoothModel.smodel) do.  Nothing here models code. *)
From Coq Require Import Bool Reals List Arith Lia.
From Verif Require Import Base XR SampleModel PAModel FilterModel TrajModel SmoothModel HeapModel HeapSpec HeapSmooth HeapRefineSpec.
Import ListNotations.

(** A hook: handed references that show [T] it does what the value-level hook does on [T], and returns references that show its result. *)
Definition hook_implements {W P U Y}
    (f : option (list hstep -> list (cell U) -> list (cell Y) -> list nat -> nat -> HM (W := W) (P := P) (list hstep)))
    (h : option (list (tstep P) -> list (cell U) -> list (cell Y) -> list nat -> nat -> M W (list (tstep P)))) : Prop :=
  match f, h with
  | None, None => True
  | Some f, Some h => forall (s : hst W P) tr u y t m T, shows_traj s tr T -> sim s (f tr u y t m) (h T u y t m) (fun tr' T' s' => shows_traj s' tr' T')
  | _, _ => False
  end.

(** The array-level methods compute the value-level functions of the contents of what they are handed. *)
Record simplements {W P U Y V} (hsm : hsmodel W P U Y V) (sm : smodel W P U Y V) : Prop := {
  si_f : implements (hs_f hsm) (s_f sm);
  si_xnext : forall (s : hst W P) p past pind fut find u y t k x T pv FT fv,
    part_at s p x -> shows_traj s past T -> idx_at s pind pv -> shows_traj s fut FT -> idx_at s find fv ->
    sim s (hs_xnext hsm p past pind fut find u y t k) (s_xnext sm x T pv FT fv u y t k) (fun l w s' => w_at s' l w);
  si_xmax : forall (s : hst W P) p past pind u y t k x T pv, part_at s p x -> shows_traj s past T -> idx_at s pind pv ->
    sim s (hs_xmax hsm p past pind u y t k) (s_xmax sm x T pv u y t k) (fun c c' _ => c = c');
  si_sample : forall (s : hst W P) p past pind fut find u y t k x T pv FT fv,
    part_at s p x -> shows_traj s past T -> idx_at s pind pv -> shows_traj s fut FT -> idx_at s find fv ->
    sim s (hs_sample hsm p past pind fut find u y t k) (s_sample sm x T pv FT fv u y t k) (fun l z s' => part_at s' l z);
  si_cpred : forall (s : hst W P) p past pind fp find u y t k x T pv z fv,
    part_at s p x -> shows_traj s past T -> idx_at s pind pv -> part_at s fp z -> idx_at s find fv ->
    sim s (hs_cpred hsm p past pind fp find u y t k) (s_cpred sm x T pv z fv u y t k) (fun l z s' => part_at s' l z);
  si_cinit : forall (s : hst W P) p t x, part_at s p x -> sim s (hs_cinit hsm p t) (s_cinit sm x t) (fun l z s' => part_at s' l z);
  si_propose : forall (s : hst W P) past pind fut find u y t k T pv FT fv,
    shows_traj s past T -> idx_at s pind pv -> shows_traj s fut FT -> idx_at s find fv ->
    sim s (hs_propose hsm past pind fut find u y t k) (s_propose sm T pv FT fv u y t k) (fun l z s' => part_at s' l z);
  si_logprop : forall (s : hst W P) p past pind fut find u y t k x T pv FT fv,
    part_at s p x -> shows_traj s past T -> idx_at s pind pv -> shows_traj s fut FT -> idx_at s find fv ->
    sim s (hs_logprop hsm p past pind fut find u y t k) (s_logprop sm x T pv FT fv u y t k) (fun l w s' => w_at s' l w);
  si_x0 : forall (s : hst W P) p t x, part_at s p x -> sim s (hs_x0 hsm p t) (s_x0 sm x t) (fun l w s' => w_at s' l w);
  si_post : hook_implements (hs_post hsm) (s_post sm);
  si_pre : hook_implements (hs_pre hsm) (s_pre sm) }.

(** The array-level trajectory object as the smoothers see it: its stored vectors and steps show those of the value. *)
Definition past_shows {W P U Y} (s : hst W P) (o : hptraj U Y) (v : ptraj P U Y) : Prop :=
  hp_u o = pt_u v /\ hp_y o = pt_y v /\ hp_t o = pt_t v /\ shows_traj s (hp_traj o) (pt_traj v).
