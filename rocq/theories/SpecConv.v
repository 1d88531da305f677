(** * Convergence of belief propagation at high temperature. *)
From Verif Require Import FGraph BPState BP Lists SpecWiring SpecState SpecBP SpecText.
From Coq Require Import Reals.
Local Open Scope nat_scope.

(** Every combination of states of the variables of a factor is one of its configurations,
    and no configuration is listed twice. *)
Definition all_configs {A} (fs : list (sfactor A)) : Prop := forall f, f < length fs ->
  NoDup (sf_configs (factor_at fs f)) /\
  forall cfg, length cfg = arity fs f ->
    (forall u, u < arity fs f -> (0 <= nth u cfg 0 < Z.of_nat (snd (var_at fs f u)))%Z) ->
    In cfg (sf_configs (factor_at fs f)).
(** The potentials of a factor differ by at most [w]. *)
Definition pots_within {A} (fs : list (sfactor A)) (pots : nat -> nat -> R) (w : R) : Prop :=
  forall f c c', f < length fs -> c < length (sf_configs (factor_at fs f)) -> c' < length (sf_configs (factor_at fs f)) ->
    (pots f c - pots f c' <= w)%R.
(** By how much an update shrinks differences of messages: [mixing] for a factor with
    potentials within [w] at temperature [T], [gain] for the factor and its variables,
    [rate] with damping. *)
Definition mixing (w T : R) : R := (1 - exp (- (2 * w / T)))%R.
Definition gain (D K : nat) (w T : R) : R := (mixing w T * INR (K - 1) * INR (D - 1))%R.
Definition rate (D K : nat) (d w T : R) : R := (d + (1 - d) * gain D K w T)%R.
(** The same arrays with other messages. *)
Definition with_msgs (a : bp_arrays R) (m : list R) : bp_arrays R :=
  {| ba_log_potentials := ba_log_potentials a; ba_ftov_msgs := m; ba_evidence := ba_evidence a |}.
