(** * Symmetries of a model. *)
From Verif Require Import FGraph BPState BP Lists SpecFactor SpecWiring SpecState SpecBP SpecText SpecPerm SpecLocal.
From Coq Require Import Reals.
Local Open Scope nat_scope.

Section Symmetry.
  Context {A : Type} (fs : list (sfactor A)) (pots : nat -> nat -> R) (ev : variable -> nat -> R) (m : msg) (xs : list variable).
  (** Moving factors by [p], their variables by [w] and [r], and states by [t] gives the same
      factors, evidence and messages. *)
  Definition is_symmetry (p : nat -> nat) (w : nat -> nat -> nat) (r : variable -> variable) (t : variable -> nat -> nat) : Prop :=
    embeds fs fs p w r t /\
    (forall f, f < length fs -> same_factor fs fs p w t pots pots f) /\
    (forall x, In x xs -> snd (r x) = snd x /\ perm_below (snd x) (t x) /\ same_var fs fs p w r t ev ev x) /\
    (forall f u, f < length fs -> u < arity fs f -> same_msg fs p w t m m f u).
  (** Symmetries take the first state of [x] to every other one. *)
  Definition alike (x : variable) : Prop :=
    forall s, s < snd x -> exists p w r t, is_symmetry p w r t /\ r x = x /\ t x 0 = s.
End Symmetry.
