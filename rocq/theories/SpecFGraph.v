(** * Specifications for factor graphs and their flat evidence layout. *)
From Verif Require Import FGraph BPState SpecVGroup.
Local Open Scope nat_scope.

(** The variable groups of a graph: constructed, of supported size, and distinct
    objects (ids different modulo 2^32, see C01). *)
Definition groups_ok (gs : list vgroup) : Prop :=
  Forall constructed gs /\
  Forall (fun g => (Z.of_nat (length (vg_variables g)) <= 1000000000)%Z) gs /\
  ForallOrdPairs (fun g h => (vg_id g mod 2 ^ 32 <> vg_id h mod 2 ^ 32)%Z) gs.

(** All variables, group after group. *)
Definition all_vars (gs : list vgroup) : list variable := concat (map vg_variables gs).

Definition arg_groups (a : groups_arg) : list vgroup :=
  match a with GOne g => [g] | GsList l => l | GsTuple l => l end.

(** The graphs a program can build over the groups [gs]: the constructor followed by any
    calls of add_factors, failing or not. *)
Inductive reachable {A} (gs : list vgroup) : fgraph A -> Prop :=
| reach_new arg : arg_groups arg = gs -> reachable gs (FactorGraph arg)
| reach_add g a : reachable gs g -> reachable gs (fst (add_factors a g)).

(** ** Evidence writes *)
(** Data with one value per state of every variable of a group. *)
Definition per_state {A} (g : vgroup) (d : gdata A) : Prop :=
  match g, d with
  | VA v, DArr a => wf_arr a /\ va_num_states v <> [] /\
                    shape a = va_shape v ++ [nat_max (va_num_states v)]
  | VD v, DMap m =>
      vd_names v <> [] /\
      (forall x a, In (x, a) m -> In x (vd_names v)) /\
      (forall x a i, In (x, a) m -> nth_error (vd_names v) i = Some x ->
         wf_arr a /\ shape a = [nth i (vd_num_states v) 0]) /\
      (forall x, In x (vd_names v) -> exists a, dget Z.eqb x m = Some a)
  | _, _ => False
  end.

(** The values [d] supplies for the [i]-th variable of the group. *)
Definition entry {A} (g : vgroup) (d : gdata A) (i : nat) : list A :=
  match g, d with
  | VA v, DArr a => firstn (nth i (va_num_states v) 0)
                      (skipn (i * nat_max (va_num_states v)) (data a))
  | VD v, DMap m => match dget Z.eqb (nth i (vd_names v) 0%Z) m with
                    | Some a => data a | None => [] end
  | _, _ => []
  end.

(** Position of a variable in a list of variables. *)
Fixpoint position (x : variable) (l : list variable) : option nat :=
  match l with
  | [] => None
  | y :: r => if var_eqb x y then Some 0 else option_map S (position x r)
  end.

(** What a write supplies for variable [x], if it covers it. *)
Definition covers {A} (u : ev_key * gdata A) (x : variable) : option (list A) :=
  match u with
  | (EVar v, DArr a) => if var_eqb v x then Some (data a) else None
  | (EGroup g, d) => option_map (entry g d) (position x (vg_variables g))
  | _ => None
  end.

(** A write with the right amount of data to a variable or group of the graph. *)
Definition good_write {A} (gs : list vgroup) (u : ev_key * gdata A) : Prop :=
  match u with
  | (EVar v, DArr a) => In v (all_vars gs) /\ wf_arr a /\ shape a = [snd v]
  | (EGroup g, d) => In g gs /\ per_state g d
  | _ => False
  end.

(** The evidence of [x] after some writes: the last write covering it. *)
Definition last_write {A} (us : list (ev_key * gdata A)) (x : variable) (init : list A) : list A :=
  fold_left (fun cur u => match covers u x with Some new => new | None => cur end) us init.

(** The variables an update key addresses. *)
Definition addresses (k : ev_key) (x : variable) : Prop :=
  match k with EVar v => v = x | EGroup g => In x (vg_variables g) | EOther => False end.

(** ** Order of updates *)
(** The updates considered: group keys are either groups of the graph or unrelated to
    them, and arrays have as many entries as their shape says. *)
Definition plain_key (gs : list vgroup) (k : ev_key) : Prop :=
  match k with
  | EGroup g => In g gs \/ (forall h, In h gs -> (vg_id g mod 2 ^ 32 <> vg_id h mod 2 ^ 32)%Z)
  | _ => True
  end.
Definition data_ok {A} (d : gdata A) : Prop :=
  match d with DArr a => wf_arr a | DMap m => forall x a, In (x, a) m -> wf_arr a end.
Definition update_ok {A} (gs : list vgroup) (u : ev_key * gdata A) : Prop :=
  plain_key gs (fst u) /\ data_ok (snd u).
Definition disjoint_updates {A} (u v : ev_key * gdata A) : Prop :=
  forall x, ~ (addresses (fst u) x /\ addresses (fst v) x).
