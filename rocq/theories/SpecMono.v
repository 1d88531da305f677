(** * Attractive models, and runs that favour higher states. *)
From Verif Require Import FGraph BPState BP Lists SpecWiring SpecState SpecBP SpecText.
From Coq Require Import Reals.
Local Open Scope nat_scope.

(** Going up from any state to a higher one gains at least as much in [h'] as in [h]. *)
Definition favours (n : nat) (h h' : nat -> R) : Prop :=
  forall s t, t <= s -> s < n -> (h s - h t <= h' s - h' t)%R.

Section Attractive.
  Context {A : Type} (fs : list (sfactor A)).
  Definition msgs_favour (m m' : msg) : Prop :=
    forall f u, f < length fs -> u < arity fs f -> favours (snd (var_at fs f u)) (m f u) (m' f u).
  Definition ev_favours (xs : list variable) (ev ev' : variable -> nat -> R) : Prop :=
    forall x, In x xs -> favours (snd x) (ev x) (ev' x).
  (** For any two configurations of a factor the one with the higher state of each variable and
      the one with the lower state are also there, and have no smaller potentials together. *)
  Definition attractive (pots : nat -> nat -> R) : Prop :=
    forall f c c', f < length fs -> c < length (sf_configs (factor_at fs f)) -> c' < length (sf_configs (factor_at fs f)) ->
    exists hi lo, hi < length (sf_configs (factor_at fs f)) /\ lo < length (sf_configs (factor_at fs f)) /\
      (forall u, u < arity fs f -> config_at_slot fs f hi u = Nat.max (config_at_slot fs f c u) (config_at_slot fs f c' u) /\
                                   config_at_slot fs f lo u = Nat.min (config_at_slot fs f c u) (config_at_slot fs f c' u)) /\
      (pots f c + pots f c' <= pots f hi + pots f lo)%R.
  (** No configuration of a factor is listed twice. *)
  Definition distinct : Prop :=
    forall f c c', f < length fs -> c < length (sf_configs (factor_at fs f)) -> c' < length (sf_configs (factor_at fs f)) ->
    (forall u, u < arity fs f -> config_at_slot fs f c u = config_at_slot fs f c' u) -> c = c'.
  Definition binary : Prop := forall f u, f < length fs -> u < arity fs f -> snd (var_at fs f u) = 2.
  (** No message is clipped. *)
  Definition inside (m : msg) : Prop :=
    forall f u s, f < length fs -> u < arity fs f -> s < snd (var_at fs f u) -> (-1000 < m f u s)%R.
  (** The normalised messages that favour state 0 of every variable most, and state 1. *)
  Definition lowest : msg := fun _ _ s => if s =? 0 then 0%R else (-1000)%R.
  Definition highest : msg := fun _ _ s => if s =? 0 then (-1000)%R else 0%R.
End Attractive.
