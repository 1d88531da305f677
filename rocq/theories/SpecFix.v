(** * What fixed points of belief propagation mean. *)
From Verif Require Import FGraph BPState BP Lists SpecFactor SpecFGraph SpecWiring SpecState SpecBP SpecText SpecBeliefs SpecTree.
From Coq Require Import Reals.
Local Open Scope nat_scope.

(** [b x s] is the belief of variable [x] in state [s] in the dictionary [r] of beliefs; [st x]
    is the state of [x] in the dictionary [q] of decoded states. *)
Definition belief_table (vgs : list vgroup) (r : list (vgroup * gdata (ext R))) (b : variable -> nat -> R) : Prop :=
  forall gr, In gr vgs -> exists d, dget vg_eqb gr r = Some d /\
    forall i x s, nth_error (vg_variables gr) i = Some x -> s < snd x -> nth_error (row gr d i) s = Some (Fin (b x s)).
Definition state_table (vgs : list vgroup) (q : list (vgroup * gdata nat)) (st : variable -> nat) : Prop :=
  forall gr, In gr vgs -> exists d, dget vg_eqb gr q = Some d /\
    forall i x, nth_error (vg_variables gr) i = Some x -> cell gr d i = [st x].

Section Fix.
  Context {A : Type} (fs : list (sfactor A)) (pots : nat -> nat -> R).
  (** Belief of a configuration of a factor: its potential plus the beliefs of its states without
      the factor's own messages. *)
  Definition config_belief (b : variable -> nat -> R) (m : msg) (f c : nat) : R :=
    (pots f c + rsum (map (fun u => b (var_at fs f u) (config_at_slot fs f c u) - m f u (config_at_slot fs f c u)) (seq 0 (arity fs f))))%R.
  (** Probability of a configuration at temperature [T]. *)
  Definition config_prob (T : R) (b : variable -> nat -> R) (m : msg) (f c : nat) : R :=
    gibbs (fun c => config_belief b m f c / T)%R (length (sf_configs (factor_at fs f))) c.

  (** Sets of variables forming trees and single loops. Every factor distributes a weight of at
      most 1 over its variables in the set, such that the weights missing to 1 at a variable
      add up to at most 1. In a tree every factor gives weight 1 to its variable closest to the
      root; in a loop every factor gives weight 1/2 to both its variables. *)
  Definition loosely_coupled (S : variable -> bool) : Prop := exists w : nat -> nat -> R,
    (forall f u, 0 <= w f u)%R /\
    (forall f, f < length fs -> (rsum (map (w f) (filter (fun u => S (var_at fs f u)) (seq 0 (arity fs f)))) <= 1)%R) /\
    (forall x, S x = true -> (rsum (map (fun fu => 1 - w (fst fu) (snd fu)) (slots_of fs x)) <= 1)%R).

  (** A forest: variables are added one by one, each in at most one factor with the earlier ones. *)
  Definition touches (f : nat) (S : list variable) : Prop := exists u, u < arity fs f /\ In (var_at fs f u) S.
  Inductive forest : list variable -> Prop :=
  | forest_nil : forest []
  | forest_add x S : forest S -> ~ In x S ->
      (forall f u u', In (f, u) (slots_of fs x) -> In (f, u') (slots_of fs x) -> u = u') ->
      (forall f u f' u', In (f, u) (slots_of fs x) -> In (f', u') (slots_of fs x) -> touches f S -> touches f' S -> f = f') ->
      forest (x :: S).
  Definition member (S : list variable) (x : variable) : bool := existsb (var_eqb x) S.
End Fix.
