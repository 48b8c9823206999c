(** The frame contract of the smoothing methods of a user model (HeapSmooth).  Nothing here models code. *)
From Coq Require Import Bool Reals List Arith Lia.
From Verif Require Import Base XR SampleModel PAModel FilterModel TrajModel SmoothModel HeapModel HeapSpec HeapSmooth.
Import ListNotations.

(** The computation keeps every cell that existed, whether it returns or raises. *)
Definition no_write {W P A} (x : HM (W := W) (P := P) A) : Prop := forall s, keeps_all s (snd (x s)).

(** What is asked of a model: besides [frame_ok], the smoothing methods write into no array and no object that existed before (so in
    particular not into the arrays they are handed; except that [sample_smooth] may write into the particle array it is handed), and
    [logp_xnext_full] returns a new array.  They may return an array they were handed. *)
Record sframe_ok {W P U Y V} (sm : hsmodel W P U Y V) : Prop := {
  so_f : frame_ok (hs_f sm);
  so_xnext : forall p past pind fut find u y t k, returns_new h_w (hs_xnext sm p past pind fut find u y t k);
  so_xmax : forall p past pind u y t k, no_write (hs_xmax sm p past pind u y t k);
  so_sample : forall p past pind fut find u y t k s, keeps_but p s (snd (hs_sample sm p past pind fut find u y t k s));
  so_cpred : forall p past pind fut find u y t k, no_write (hs_cpred sm p past pind fut find u y t k);
  so_cinit : forall p t, no_write (hs_cinit sm p t);
  so_propose : forall past pind fut find u y t k, no_write (hs_propose sm past pind fut find u y t k);
  so_logprop : forall p past pind fut find u y t k, no_write (hs_logprop sm p past pind fut find u y t k);
  so_x0 : forall p t, no_write (hs_x0 sm p t);
  so_post : forall f, hs_post sm = Some f -> forall tr u y t m, no_write (f tr u y t m);
  so_pre : forall f, hs_pre sm = Some f -> forall tr u y t m, no_write (f tr u y t m) }.

(** An object, with its arrays, that did not exist in [s0] and exists in [s]; an index array likewise. *)
Definition new_pa_in {W P} (s0 s : hst W P) (pa : nat) : Prop :=
  (length (h_pa s0) <= pa)%nat /\
  exists a, nth_error (h_pa s) pa = Some a /\ (length (h_part s0) <= ha_part a < length (h_part s))%nat /\
    (length (h_w s0) <= ha_w a < length (h_w s))%nat.
Definition new_idx_in {W P} (s0 s : hst W P) (i : nat) : Prop := (length (h_idx s0) <= i < length (h_idx s))%nat.
(** A step none of whose objects and arrays existed in [s0]. *)
Definition unshared {W P} (s0 s : hst W P) (st : hstep) : Prop := new_pa_in s0 s (hs_pa st) /\ new_idx_in s0 s (hs_anc st).
(** A hook that returns steps made of objects and index arrays of the steps it was handed or of new ones. *)
Definition hook_new {W P U Y} (f : list hstep -> list (cell U) -> list (cell Y) -> list nat -> nat -> HM (W := W) (P := P) (list hstep)) : Prop :=
  forall tr u y t m s tr' s', f tr u y t m s = (Ok tr', s') ->
  Forall (fun st => (In (hs_pa st) (map hs_pa tr) \/ new_pa_in s s' (hs_pa st)) /\
                    (In (hs_anc st) (map hs_anc tr) \/ new_idx_in s s' (hs_anc st))) tr'.
