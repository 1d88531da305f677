(** * The same factors in another order or in other groups. *)
From Verif Require Import FGraph BPState BP Lists SpecFactor SpecWiring SpecState SpecBP SpecText.
From Coq Require Import Reals Permutation.
Local Open Scope nat_scope.

(** The configurations of factor [f] with their potentials. *)
Definition table {A} (fs : list (sfactor A)) (pots : nat -> nat -> R) (f : nat) : list (list Z * R) :=
  map (fun c => (nth c (sf_configs (factor_at fs f)) [], pots f c)) (seq 0 (length (sf_configs (factor_at fs f)))).
(** Factor [f] of the first list and factor [p f] of the second have the same variables,
    and the same configurations and potentials in some order. *)
Definition matching {A} (fs fs' : list (sfactor A)) (pots pots' : nat -> nat -> R) (p : nat -> nat) : Prop :=
  length fs' = length fs /\
  (forall f, f < length fs -> p f < length fs) /\
  (forall f g, f < length fs -> g < length fs -> p f = p g -> f = g) /\
  (forall f, f < length fs -> sf_vars (factor_at fs' (p f)) = sf_vars (factor_at fs f) /\
     Permutation (table fs' pots' (p f)) (table fs pots f)).
(** The messages [m'] of the second list are the messages [m] of the first. *)
Definition carried {A} (fs : list (sfactor A)) (p : nat -> nat) (m m' : msg) : Prop :=
  forall f u s, f < length fs -> u < arity fs f -> s < snd (var_at fs f u) -> m' (p f) u s = m f u s.

(** The factors of one group, whatever its type. *)
Definition factors_of {A} (zero : A) (fg : fgroup A) : list (sfactor A) :=
  match fg_type fg with
  | TEnum => group_factors fg
  | t => map (logical_sf zero t) (fg_vars fg)
  end.
(** The variables of the factors of type [t] among some groups. *)
Definition has_type {A} (t : ftype) (fg : fgroup A) : bool :=
  match fg_type fg, t with TEnum, TEnum | TOr, TOr | TAnd, TAnd => true | _, _ => false end.
Definition sets_of_type {A} (t : ftype) (l : list (fgroup A)) : list (list variable) :=
  flat_map fg_vars (filter (has_type t) l).

(** ** Programs *)
(** A graph built from scratch by adding the groups of a list, all accepted. *)
Definition built_from {A} (arg : groups_arg) (l : list (fgroup A)) (g : fgraph A) : Prop :=
  add_factors (AList (map AGroup l)) (FactorGraph arg) = (g, Ok tt).
(** A BP context for the graph's own bp_state. *)
Definition fresh_bp {A} `{Num A} (g : fgraph A) (T : A) (c : bp_ctx A) : Prop :=
  exists junk st k bs, compile_fg_state junk g = Ok st /\ default_bp_state (k, st) = Ok bs /\ BP bs T = Ok c.
