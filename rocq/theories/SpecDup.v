(** * Factors of a group connected to the same set of variables. *)
From Verif Require Import Factor SpecFactor.
Local Open Scope nat_scope.

(** Factor [i] is the first, or the last, of those connected to its set of variables. *)
Definition first_of_set (vss : list (list variable)) (i : nat) : Prop :=
  exists vs, nth_error vss i = Some vs /\ forall j ws, j < i -> nth_error vss j = Some ws -> ~ same_set ws vs.
Definition last_of_set (vss : list (list variable)) (i : nat) : Prop :=
  exists vs, nth_error vss i = Some vs /\ forall j ws, i < j -> nth_error vss j = Some ws -> ~ same_set ws vs.
