(** * Specifications for the factors property of FactorGraph. *)
From Verif Require Import FGraph FGraphFactors SpecFactor SpecAdd SpecWiring.
Local Open Scope nat_scope.

(** A factor object is the enumeration factor [F]. *)
Definition represents {A} (F : sfactor A) (f : factor A) : Prop :=
  exists e, f = FEnum e /\ ef_variables e = sf_vars F /\
    config_rows (ef_configs e) = sf_configs F /\ ef_log_potentials e = sf_pots F.

(** The factors of the group can be constructed. *)
Definition constructible {A} (g : fgroup A) : Prop :=
  forall vs, In vs (fg_vars g) ->
  match fg_type g with
  | TEnum => legal_configs vs (fg_configs g) (nth 0 (shape (fg_configs g)) 0)
  | _ => 2 <= length vs /\ binary_vars vs
  end.

(** The operations of a history that are not reads of factors or factor_groups. *)
Definition base_ops {A} (ops : list (fop A)) : list (op A) :=
  flat_map (fun o => match o with FBase o => [o] | _ => [] end) ops.
(** The world after a history. *)
Definition fworld_after {A} (ops : list (fop A)) : fworld A := fworld_run fworld0 ops.
