(** * Comparing temperatures. *)
From Verif Require Import FGraph Lists SpecWiring SpecState SpecBP SpecText SpecStable.
From Coq Require Import Reals.
Local Open Scope nat_scope.

(** At most [N] configurations of a factor agree with a state of one of its variables. *)
Definition choices_at_most {A} (fs : list (sfactor A)) (N : nat) : Prop :=
  forall f u s, f < length fs -> u < arity fs f -> s < snd (var_at fs f u) -> length (choices fs f u s) <= N.
(** The drift between runs at temperatures [T] and [T']: a difference of temperatures acts
    like a difference of potentials of [|T - T'| ln N]. *)
Definition temp_drift (D K N : nat) (d m e p T T' : R) (n : nat) : R :=
  drift D K d m e (p + Rabs (T - T') * ln (INR N))%R n.
