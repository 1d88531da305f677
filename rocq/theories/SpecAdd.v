(** * Specifications for adding factors to a graph. *)
From Verif Require Import FGraph SpecFactor.
Local Open Scope nat_scope.

(** The sets of variables of the factors of one type in the graph. *)
Definition factor_sets {A} (t : ftype) (g : fgraph A) : list (list variable) :=
  concat (map fg_vars (pt_get t (gr_groups g))).
(** The sets of variables the graph refuses for one type. *)
Definition refused_sets {A} (t : ftype) (g : fgraph A) : list (list variable) :=
  pt_get t (gr_varsets g).
(** [vs] is (as a set) one of the sets [vss]. *)
Definition among (vs : list variable) (vss : list (list variable)) : Prop :=
  exists ws, In ws vss /\ same_set vs ws.
(** The graph after some calls of add_factors, failing or not. *)
Definition after_adds {A} (l : list (add_arg A)) (g : fgraph A) : fgraph A :=
  fold_left (fun g a => fst (add_factors a g)) l g.
