(** * Sorting functions. *)
From Verif Require Import FGraph BPState BP SpecFGraph.
From Coq Require Import Permutation Sorting.Sorted.
Local Open Scope nat_scope.

(** [lt] orders the elements of [l] strictly. *)
Definition orders {X} (lt : X -> X -> bool) (l : list X) : Prop :=
  (forall x, In x l -> lt x x = false) /\
  (forall x y z, In x l -> In y l -> In z l -> lt x y = true -> lt y z = true -> lt x z = true) /\
  ForallOrdPairs (fun x y => lt x y = true \/ lt y x = true) l.
(** All that is assumed of [list.sort]: it permutes the list, and the result is increasing
    if [<] orders the elements. *)
Definition sorts (srt : forall X : Type, (X -> X -> bool) -> list X -> list X) : Prop :=
  (forall X lt (l : list X), Permutation (srt X lt l) l) /\
  (forall X lt (l : list X), orders lt l -> StronglySorted (fun x y => lt x y = true) (srt X lt l)).

(** Update dictionaries whose keys are all groups, or all variables. *)
Definition group_keys {A} (us : list (ev_key * gdata A)) : Prop :=
  (forall u, In u us -> exists g, fst u = EGroup g) /\
  ForallOrdPairs (fun u v => forall g h, fst u = EGroup g -> fst v = EGroup h -> (vg_id g mod 2 ^ 32 <> vg_id h mod 2 ^ 32)%Z) us.
Definition variable_keys {A} (us : list (ev_key * gdata A)) : Prop :=
  (forall u, In u us -> exists v, fst u = EVar v) /\ NoDup (map fst us).
(** No name occurs twice in the data for a VarDict. *)
Definition names_once {A} (d : gdata A) : Prop :=
  match d with DArr _ => True | DMap m => NoDup (map fst m) end.
