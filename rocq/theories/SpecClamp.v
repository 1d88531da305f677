(** * Variables held in a state by their evidence. *)
From Verif Require Import FGraph BPState BP Lists SpecWiring SpecState SpecBP SpecText.
From Coq Require Import Reals.
Local Open Scope nat_scope.

Section Clamp.
  Context {A : Type} (fs : list (sfactor A)) (cl : variable -> option nat) (side : variable -> bool).
  (** [cl x = Some s]: variable [x] is to be held in state [s]. [side] is a set of other variables. *)
  (** A factor has a variable in the set. *)
  Definition touches (f : nat) : Prop := exists u, u < arity fs f /\ side (var_at fs f u) = true.
  (** All other variables of such factors are held: the set is cut off by held variables. *)
  Definition cut_off : Prop :=
    (forall x, side x = true -> cl x = None) /\
    forall f u, f < length fs -> touches f -> u < arity fs f -> side (var_at fs f u) = true \/ cl (var_at fs f u) <> None.
  (** Configuration [c] has every held variable in its state. *)
  Definition obeys (f c : nat) : Prop :=
    forall u s, u < arity fs f -> cl (var_at fs f u) = Some s -> config_at_slot fs f c u = s.
  (** Every state of every variable in the set can occur together with the held states. *)
  Definition possible : Prop :=
    forall f u t, f < length fs -> u < arity fs f -> side (var_at fs f u) = true -> t < snd (var_at fs f u) ->
      exists c, In c (choices fs f u t) /\ obeys f c.
  (** Evidence for the held states that outweighs everything else in the factors of the set:
      messages of at most [D] factors per variable, evidence of size [B] for the variables in the
      set, potentials that differ by at most [W], and at most [K] variables per factor. *)
  Definition held (pots : nat -> nat -> R) (ev : variable -> nat -> R) (G B W : R) (D K : nat) : Prop :=
    (forall x s, cl x = Some s -> In x (sf_edges fs) -> s < snd x /\ forall s', s' < snd x -> s' <> s -> (ev x s' + G <= ev x s)%R) /\
    (forall x s, side x = true -> In x (sf_edges fs) -> s < snd x -> (- B <= ev x s <= B)%R) /\
    (forall f c c', f < length fs -> touches f -> c < length (sf_configs (factor_at fs f)) -> c' < length (sf_configs (factor_at fs f)) -> (pots f c' - pots f c <= W)%R) /\
    (forall x, length (slots_of fs x) <= D) /\
    (forall f, f < length fs -> touches f -> arity fs f <= K) /\
    (0 <= B)%R /\ (W + INR K * (2 * B + 1000 * INR D) + 1000 * INR D <= G)%R.
End Clamp.
