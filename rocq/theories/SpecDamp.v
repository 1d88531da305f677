(** * How fast damped belief propagation converges on acyclic graphs. *)
From Coq Require Import Reals.
Local Open Scope nat_scope.

(** A message depends on at most [(K - 1) (D - 1)] others. *)
Definition reach_cost (D K : nat) : R := Rmax 1 (INR (K - 1) * INR (D - 1)).
(** Distance to the fixed point after [n] iterations with damping [d] on a graph with [F]
    factors. [th] may be any number between 0 and 1: smaller ones give a better rate and a
    larger constant. *)
Definition tree_bound (D K F : nat) (d th : R) (n : nat) : R :=
  (2000 * (reach_cost D K / th) ^ F * (d + (1 - d) * th) ^ n)%R.
