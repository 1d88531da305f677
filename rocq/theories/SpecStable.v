(** * How far two runs of belief propagation can drift apart. *)
From Verif Require Import FGraph Lists SpecWiring SpecState SpecBP SpecText.
From Coq Require Import Reals.
Local Open Scope nat_scope.

(** The differences [h s - h' s] for [s < n] lie in an interval of length [e]. Adding a
    constant to [h] or [h'] does not change this. *)
Definition spread (n : nat) (h h' : nat -> R) (e : R) : Prop :=
  exists b, forall s, s < n -> (b <= h s - h' s <= b + e)%R.

Section Spread.
  Context {A : Type} (fs : list (sfactor A)).
  (** The same for every message, for the evidence of every variable in some factor, and for the
      potentials of every factor. *)
  Definition msgs_spread (m m' : msg) (e : R) : Prop :=
    forall f u, f < length fs -> u < arity fs f -> spread (snd (var_at fs f u)) (m f u) (m' f u) e.
  Definition ev_spread (ev ev' : variable -> nat -> R) (e : R) : Prop :=
    forall x, In x (sf_edges fs) -> spread (snd x) (ev x) (ev' x) e.
  Definition pots_spread (pots pots' : nat -> nat -> R) (e : R) : Prop :=
    forall f, f < length fs -> spread (length (sf_configs (factor_at fs f))) (pots f) (pots' f) e.
  (** Every message is within [e] of the other one. *)
  Definition msgs_near (m m' : msg) (e : R) : Prop :=
    forall f u s, f < length fs -> u < arity fs f -> s < snd (var_at fs f u) -> (Rabs (m f u s - m' f u s) <= e)%R.
  (** At most [D] factors per variable and [K] variables per factor. *)
  Definition degrees (D K : nat) : Prop :=
    (forall x, length (slots_of fs x) <= D) /\ (forall f, f < length fs -> arity fs f <= K).
End Spread.

(** The drift after [n] iterations at damping [d], when the initial messages differ by [m],
    the evidence by [e] and the potentials by [p]. *)
Fixpoint drift (D K : nat) (d m e p : R) (n : nat) : R :=
  match n with
  | O => m
  | S k => let x := drift D K d m e p k in
           (d * x + (1 - d) * (p + INR (K - 1) * (e + INR (D - 1) * x)))%R
  end.
