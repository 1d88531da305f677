(** * Exact joint marginals of the variables of a factor. *)
From Verif Require Import FGraph BPState BP Lists SpecFactor SpecWiring SpecState SpecBP SpecText SpecTree SpecSum.
From Coq Require Import Reals.
Local Open Scope nat_scope.

Section Joint.
  Context {A : Type} (fs : list (sfactor A)) (pots : nat -> nat -> R) (T : R) (ev : variable -> nat -> R).
  (** The weight of the states when factor [F] is in configuration [c]. *)
  Definition config_weight (xs : list variable) (F c : nat) (st : variable -> nat) : R :=
    (exp (rsum (map (fun x => ev x (st x)) xs) / T)
     * rprod (map (fun f => rsum (map (fun k => exp (pots f k / T)) (filter (fun k => negb (f =? F) || (k =? c)) (agree fs f st)))) (seq 0 (length fs))))%R.
  (** The probability that factor [F] is in configuration [c]. *)
  Definition config_marginal (xs : list variable) (F c : nat) : R :=
    (sum_states xs (fun _ => 0%nat) (config_weight xs F c) / sum_states xs (fun _ => 0%nat) (state_weight fs pots T ev xs))%R.
End Joint.
