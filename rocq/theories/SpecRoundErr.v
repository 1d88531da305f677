(** * How far a rounded run drifts from an exact one. *)
From Verif Require Import FGraph Lists SpecWiring SpecState SpecBP SpecText SpecStable.
From Coq Require Import Reals.
Local Open Scope nat_scope.

(** Numbers up to [M] in size are rounded by at most [e]. *)
Definition rounds_within (rnd : R -> R) (e M : R) : Prop :=
  forall x, (Rabs x <= M)%R -> (Rabs (rnd x - x) <= e)%R.

(** Inputs of moderate size: evidence up to [B], potentials up to [P], initial messages up
    to [L]; at most [D] factors per variable and [K] variables per factor; every state in
    some configuration. [L] bounds all values of an iteration. *)
Definition sized {A} (fs : list (sfactor A)) (ne : nat) (pots : nat -> nat -> R)
    (ev : variable -> nat -> R) (m : msg) (D K : nat) (B P L e : R) : Prop :=
  degrees fs D K /\ covered fs /\ (0 <= B)%R /\ (0 <= P)%R /\
  (forall x s, In x (sf_edges fs) -> s < snd x -> (Rabs (ev x s) <= B)%R) /\
  (forall f c, f < ne -> c < length (sf_configs (factor_at fs f)) -> (Rabs (pots f c) <= P)%R) /\
  (forall f u s, f < length fs -> u < arity fs f -> s < snd (var_at fs f u) -> (Rabs (m f u s) <= L)%R) /\
  (P + (INR K + 2) * (2 * (B + (INR D + 1) * (1000 + e)) + 3 * e) <= L)%R /\ (L <= 50000)%R.

(** The drift after [n] iterations at damping [d], in units of the rounding error. *)
Fixpoint rounding_drift (D K : nat) (d : R) (n : nat) : R :=
  match n with
  | O => 2
  | S k => let x := rounding_drift D K d k in
           (d * x + (1 - d) * (INR (K - 1) * INR (D - 1) * x
              + (2 * (INR K + 2) + INR (K - 1) * (2 * INR D + 3))) + 8)%R
  end.
