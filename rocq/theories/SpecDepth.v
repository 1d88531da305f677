(** * How far messages travel. *)
From Verif Require Import FGraph BPState BP Lists SpecWiring SpecState SpecBP.
Local Open Scope nat_scope.

Section Depth.
  Context {A : Type} (fs : list (sfactor A)).
  (** A factor and the number of one of its variables. *)
  Definition is_slot (q : nat * nat) : Prop := fst q < length fs /\ snd q < arity fs (fst q).
  (** The message from factor [fst q] to its variable [snd q] enters into the one at [q']: it goes
      to another variable of the factor of [q'], and does not come from that very slot. *)
  Definition feeds (q q' : nat * nat) : Prop :=
    is_slot q /\ is_slot q' /\ exists w, w < arity fs (fst q') /\ w <> snd q' /\
      var_at fs (fst q) (snd q) = var_at fs (fst q') w /\ q <> (fst q', w).
  (** A chain of [n] messages, each entering into the next, ends at [q]. *)
  Inductive chain : nat -> nat * nat -> Prop :=
  | chain_one q : is_slot q -> chain 1 q
  | chain_step n q q' : chain n q -> feeds q q' -> chain (S n) q'.
  (** No chain has more than [L] messages. *)
  Definition depth_within (L : nat) : Prop := forall n q, chain n q -> n <= L.
End Depth.
