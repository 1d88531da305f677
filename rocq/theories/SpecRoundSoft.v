(** * Rounded sum-product runs on graphs of enumeration factors. *)
From Verif Require Import FGraph Lists SpecWiring SpecState SpecBP SpecText SpecStable SpecConv SpecRoundErr.
From Coq Require Import Reals.
Local Open Scope nat_scope.

(** The computed exponential and logarithm are off by at most [e] on the arguments the code
    gives them: numbers up to 0, and numbers from 1/2 to [N + 1]. *)
Definition accurate (ex lg : R -> R) (e : R) (N : nat) : Prop :=
  (forall x, (x <= 0)%R -> (Rabs (ex x - exp x) <= e)%R) /\
  (forall x, (1 / 2 <= x <= INR N + 1)%R -> (Rabs (lg x - ln x) <= e)%R).

(** Inputs of moderate size at temperature [T]: all factors are enumeration factors, each
    with at most [N] configurations. *)
Definition soft_sized {A} (fs : list (sfactor A)) (ne : nat) (pots : nat -> nat -> R)
    (ev : variable -> nat -> R) (m : msg) (D K N : nat) (T B P L e : R) : Prop :=
  sized fs ne pots ev m D K B P L e /\ length fs = ne /\
  (forall f, f < length fs -> length (sf_configs (factor_at fs f)) <= N) /\
  (P + (INR K + 2) * (2 * (B + (INR D + 1) * (1000 + e)) + 3 * e) + T * (INR N + 2) <= L)%R /\
  (INR N * (3 + / T) * e <= 1 / 2)%R.

(** The drift after [n] iterations at damping [d], in units of the rounding error. *)
Definition soft_error (D K N : nat) (T : R) : R :=
  (2 * (INR K + 4 + T + 2 * INR N * (1 + 3 * T)) + INR (K - 1) * (2 * INR D + 2))%R.
Fixpoint soft_drift (D K N : nat) (T d : R) (n : nat) : R :=
  match n with
  | O => 2
  | S k => let x := soft_drift D K N T d k in
           (d * x + (1 - d) * (INR (K - 1) * INR (D - 1) * x + soft_error D K N T) + 8)%R
  end.

(** A bound on the drift for all numbers of iterations when updates shrink differences of
    messages; [w] bounds the differences of potentials of a factor. *)
Definition lasting_drift (D K N : nat) (T d w : R) : R :=
  (2 + ((1 - d) * soft_error D K N T + 8) / (1 - rate D K d w T))%R.
