(** * Specifications for log potentials, messages and belief propagation states. *)
From Verif Require Import FGraph BPState BP SpecFactor SpecWiring.
Local Open Scope nat_scope.

(** ** Log potentials *)
(** The shape of the potentials of one factor of the group. *)
Definition pots_shape {A} (g : fgroup A) : option (list nat) :=
  match fg_kind g with
  | KEnum => Some [nth 0 (shape (fg_configs g)) 0]
  | KPairwise n m => Some [n; m]
  | _ => None
  end.
(** The values, factor by factor, that [d] supplies for the group: one block shared by all
    factors, or one block per factor. When both variables of a pairwise group have two
    states the four potentials of a factor can also be given as one row. *)
Definition lp_values {A} (g : fgroup A) (d : ndarray A) : option (list A) :=
  let nf := length (fg_vars g) in
  match pots_shape g with
  | None => None
  | Some s =>
      if shape_eqb (shape d) s then Some (concat (repeat (data d) nf))
      else if shape_eqb (shape d) (nf :: s)
              || (prod s =? list_sum s) && shape_eqb (shape d) [nf; prod s]
      then Some (data d)
      else None
  end.

(** A group as the constructors of enum.py build it: in the right slot, and a pairwise
    group has one configuration per entry of the matrix. *)
Definition pots_group {A} (g : fgroup A) : Prop :=
  fg_type g = TEnum /\ valid_group g /\ fg_vars g <> [] /\ distinct_sets (fg_vars g) /\
  match fg_kind g with
  | KEnum => True
  | KPairwise n m => nth 0 (shape (fg_configs g)) 0 = n * m /\ pair_vars (fg_vars g) n m
  | _ => False
  end.

Definition good_lp_write {A} (groups : list (fgroup A)) (u : fgroup A * ndarray A) : Prop :=
  In (fst u) groups /\ pots_group (fst u) /\ wf_arr (snd u) /\ lp_values (fst u) (snd u) <> None.
(** The potentials of group [g] after some writes: the last write to it. *)
Definition last_lp_write {A} (us : list (fgroup A * ndarray A)) (g : fgroup A) (init : list A) : list A :=
  fold_left (fun cur u => if (fg_id (fst u) =? fg_id g)%Z
                          then match lp_values (fst u) (snd u) with Some new => new | None => cur end
                          else cur) us init.

(** An update key is either a group of the graph or unknown to it. *)
Definition lp_key_ok {A} (groups : list (fgroup A)) (g : fgroup A) : Prop :=
  In g groups \/ ~ In (fg_id g) (map fg_id groups).

(** ** Messages *)
(** All edges of a graph: enumeration, OR and AND factors, in order of addition. *)
Definition all_edges {A} (groups : per_type (list (fgroup A))) : list variable :=
  concat (concat (map fg_vars (all_groups groups))).
(** The edges of a variable, and how many there are. *)
Definition edges_of (es : list variable) (v : variable) : list nat :=
  filter (fun e => var_eqb (nth e es (0%Z, 0)) v) (seq 0 (length es)).
Definition num_edges_of (es : list variable) (v : variable) : nat := length (edges_of es v).
(** The message of edge [e]. *)
Definition message {A} (es : list variable) (msgs : list A) (e : nat) : list A :=
  slice msgs (edge_start es e) (edge_start es e + nth e (map snd es) 0).

Definition good_msg_write {A} (vars : list variable) (u : variable * ndarray A) : Prop :=
  In (fst u) vars /\ wf_arr (snd u) /\ shape (snd u) = [snd (fst u)].
(** The message on an edge of variable [x] after some writes: the share of the last write
    to [x]. *)
Definition last_msg_write {A} `{Num A} (es : list variable) (us : list (variable * ndarray A))
    (x : variable) (init : list A) : list A :=
  fold_left (fun cur u => if var_eqb (fst u) x
                          then map (fun y => ndiv y (nofZ (Z.of_nat (num_edges_of es x)))) (data (snd u))
                          else cur) us init.

(** ** Histories of several graphs *)
(** The graphs a history builds, caches aside. *)
Definition graphs_step {A} (gs : list (fgraph A)) (o : op A) : list (fgraph A) :=
  match o with
  | ONew arg => gs ++ [FactorGraph arg]
  | OAdd i a => upd i (fun g => fst (add_factors a g)) gs
  | _ => gs
  end.
Definition graphs_after {A} (ops : list (op A)) : list (fgraph A) := fold_left graphs_step ops [].
(** The world after a history. *)
Definition world_after {A} (ops : list (op A)) : world A := fst (run world0 ops).

(** Object identities: groups of the graphs with equal ids (for variable groups: equal
    hashes) are the same objects. *)
Definition distinct_ids {A} (gs : list (fgraph A)) : Prop :=
  (forall g g' h h', In g gs -> In g' gs ->
     In h (all_groups (gr_groups g)) -> In h' (all_groups (gr_groups g')) -> fg_id h = fg_id h' -> h = h') /\
  (forall g g' v v', In g gs -> In g' gs ->
     In v (gr_variable_groups g) -> In v' (gr_variable_groups g') ->
     vg_hash (vg_id v) = vg_hash (vg_id v') -> v = v').
(** The client does not call compute_offsets() itself. *)
Definition no_direct_offsets {A} (ops : list (op A)) : Prop :=
  forall i, ~ In (OComputeOffsets i) ops.
(** Nothing is added to graph [i]. *)
Definition no_additions {A} (i : nat) (ops : list (op A)) : Prop :=
  forall a, ~ In (OAdd i a) ops.
(** Two graphs have the same variable groups and factor groups, as objects. *)
Definition same_objects {A} (g g' : fgraph A) : Prop :=
  gr_is_list g = gr_is_list g' /\
  map (fun v => vg_hash (vg_id v)) (gr_variable_groups g) = map (fun v => vg_hash (vg_id v)) (gr_variable_groups g') /\
  map fg_id (all_groups (gr_groups g)) = map fg_id (all_groups (gr_groups g')).
