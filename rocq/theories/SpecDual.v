(** * Negating variables: OR factors in place of AND factors and conversely. *)
From Verif Require Import FGraph BPState BP Lists SpecWiring SpecState SpecBP SpecText SpecPerm.
From Coq Require Import Reals.
Local Open Scope nat_scope.

(** The variables in [fl] have two states, and these are exchanged. *)
Definition turn (fl : variable -> bool) (x : variable) (s : nat) : nat := if fl x then 1 - s else s.
Definition turned (fl : variable -> bool) (vs : list variable) (cfg : list Z) : list Z :=
  map (fun vz => Z.of_nat (turn fl (fst vz) (Z.to_nat (snd vz)))) (combine vs cfg).
(** Two graphs: the enumeration factors of the second list the configurations of the first with
    states exchanged; the second has an AND factor for every OR factor of the first, and
    conversely. *)
Definition dual {A} (fl : variable -> bool) (gs gs' : per_type (list (fgroup A))) : Prop :=
  Forall2 (fun F F' => sf_vars F' = sf_vars F /\ sf_configs F' = map (turned fl (sf_vars F)) (sf_configs F)) (enum_factors gs) (enum_factors gs') /\
  logical_factors TOr gs' = logical_factors TAnd gs /\ logical_factors TAnd gs' = logical_factors TOr gs.
(** Every variable of a logical factor is in [fl]. *)
Definition covers {A} (fl : variable -> bool) (gs : per_type (list (fgroup A))) : Prop :=
  forall vs x, In vs (logical_factors TOr gs ++ logical_factors TAnd gs) -> In x vs -> fl x = true.
(** Where the factors of the first graph are in the second. *)
Definition dual_at {A} (gs : per_type (list (fgroup A))) (f : nat) : nat :=
  let ne := length (enum_factors gs) in
  let no := length (logical_factors TOr gs) in
  let na := length (logical_factors TAnd gs) in
  if f <? ne then f else if f <? ne + no then f + na else f - no.
