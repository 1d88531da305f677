(** * Bounds on scores, and the partition function, from beliefs and messages. *)
From Verif Require Import FGraph BPState BP Lists SpecFactor SpecWiring SpecState SpecBP SpecText SpecBeliefs SpecTree SpecSum SpecFix.
From Coq Require Import Reals.
Local Open Scope nat_scope.

Section Bound.
  Context {A : Type} (fs : list (sfactor A)) (pots : nat -> nat -> R).
  (** Every variable hands the share [w f u] of its belief to its slot [u] of factor [f] and
      keeps the rest. *)
  Definition share_left (w : nat -> nat -> R) (x : variable) : R :=
    (1 - rsum (map (fun fu => w (fst fu) (snd fu)) (slots_of fs x)))%R.
  (** What a configuration of a factor adds to the beliefs of its states that are kept. *)
  Definition residual (b : variable -> nat -> R) (m : msg) (w : nat -> nat -> R) (f c : nat) : R :=
    (config_belief fs pots b m f c
     - rsum (map (fun u => (1 - w f u) * b (var_at fs f u) (config_at_slot fs f c u)) (seq 0 (arity fs f))))%R.
  Definition residuals_below (b : variable -> nat -> R) (m : msg) (w : nat -> nat -> R) (F : nat -> R) : Prop :=
    forall f c, f < length fs -> c < length (sf_configs (factor_at fs f)) -> (residual b m w f c <= F f)%R.

  (** The sum of the exponentials of the beliefs of the states of a variable, or of the
      configurations of a factor. *)
  Definition state_sum (T : R) (b : variable -> nat -> R) (x : variable) : R :=
    rsum (map (fun s => exp (b x s / T)) (seq 0 (snd x))).
  Definition config_sum (T : R) (b : variable -> nat -> R) (m : msg) (f : nat) : R :=
    rsum (map (fun c => exp (config_belief fs pots b m f c / T)) (seq 0 (length (sf_configs (factor_at fs f))))).
  (** The Bethe free energy, with the sign of a score. *)
  Definition bethe (T : R) (b : variable -> nat -> R) (m : msg) (xs : list variable) : R :=
    (T * (rsum (map (fun x => ln (state_sum T b x)) xs)
      + rsum (map (fun f => ln (config_sum T b m f) - rsum (map (fun u => ln (state_sum T b (var_at fs f u))) (seq 0 (arity fs f)))) (seq 0 (length fs)))))%R.
  (** The total weight of all assignments. *)
  Definition partition_sum (T : R) (ev : variable -> nat -> R) (xs : list variable) : R :=
    sum_states xs (fun _ => 0) (state_weight fs pots T ev xs).
End Bound.
