(** * Arrays in other units. *)
From Verif Require Import FGraph BPState BP Lists SpecWiring SpecState SpecBP SpecText.
From Coq Require Import Reals.
Local Open Scope nat_scope.

(** Potentials, messages and evidence multiplied by [k]. *)
Definition times (k : R) (a : bp_arrays R) : bp_arrays R :=
  {| ba_log_potentials := map (Rmult k) (ba_log_potentials a);
     ba_ftov_msgs := map (Rmult k) (ba_ftov_msgs a);
     ba_evidence := map (Rmult k) (ba_evidence a) |}.
(** The messages [m] are not clipped, nor are [k] times these messages. *)
Definition unclipped {A} (fs : list (sfactor A)) (k : R) (m : msg) : Prop :=
  forall f u s, f < length fs -> u < arity fs f -> s < snd (var_at fs f u) -> (-1000 < m f u s)%R /\ (-1000 <= k * m f u s)%R.
(** The entries of a message differ by at most [w]. *)
Definition msgs_range {A} (fs : list (sfactor A)) (m : msg) (w : R) : Prop :=
  forall f u s s', f < length fs -> u < arity fs f -> s < snd (var_at fs f u) -> s' < snd (var_at fs f u) -> (m f u s - m f u s' <= w)%R.
