(** * Exact max-marginals of the configurations of a factor. *)
From Verif Require Import FGraph BPState BP Lists SpecFactor SpecWiring SpecState SpecBP SpecText SpecTree.
From Coq Require Import Reals.
Local Open Scope nat_scope.

Section MaxJoint.
  Context {A : Type} (fs : list (sfactor A)) (pots : nat -> nat -> R) (ev : variable -> nat -> R).
  (** [v] is the largest score of an assignment that gives factor [F] the configuration [c]. *)
  Definition config_max (xs : list variable) (F c : nat) (v : R) : Prop :=
    (exists st cf, joint fs xs st cf /\ cf F = c /\ joint_score fs pots ev xs st cf = v) /\
    (forall st cf, joint fs xs st cf -> cf F = c -> (joint_score fs pots ev xs st cf <= v)%R).
End MaxJoint.
