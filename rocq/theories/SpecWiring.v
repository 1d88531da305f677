(** * Specifications for compiled wirings. *)
From Verif Require Import FGraph Lists SpecFactor.
Local Open Scope nat_scope.

(** An enumeration factor, independently of the group it was added in: its variables, its
    configurations (one state per variable) and their log potentials. *)
Record sfactor (A : Type) := SF {
  sf_vars : list variable;
  sf_configs : list (list Z);
  sf_pots : list A
}.
Arguments SF {A} sf_vars sf_configs sf_pots.
Arguments sf_vars {A} s.
Arguments sf_configs {A} s.
Arguments sf_pots {A} s.

(** The factors of an enumeration group. *)
Definition config_rows (configs : ndarray Z) : list (list Z) :=
  let nc := nth 0 (shape configs) 0 in
  let k := nth 1 (shape configs) 0 in
  map (fun r => map (fun u => config_at configs k r u) (seq 0 k)) (seq 0 nc).
Definition group_factors {A} (g : fgroup A) : list (sfactor A) :=
  let nc := nth 0 (shape (fg_configs g)) 0 in
  map (fun iv => SF (snd iv) (config_rows (fg_configs g))
                    (slice (fg_log_potentials g) (fst iv * nc) (fst iv * nc + nc)))
      (combine (seq 0 (length (fg_vars g))) (fg_vars g)).

(** The groups whose factors all have as many variables as the configurations have
    columns. *)
Definition arity_ok {A} (g : fgroup A) : Prop :=
  exists nc k, shape (fg_configs g) = [nc; k] /\ forall vs, In vs (fg_vars g) -> length vs = k.

(** The edges of some factors: one per variable slot, in order; edge [e] owns the block of
    edge states starting at [edge_start es e]. *)
Definition edge_start (es : list variable) (e : nat) : nat := off (map snd es) e.
Definition sf_edges {A} (fs : list (sfactor A)) : list variable := concat (map sf_vars fs).
(** Number of the first edge and of the first configuration of the [f]-th factor. *)
Definition first_edge (arities : list nat) (f : nat) : nat := off arities f.
Definition sf_first_edge {A} (fs : list (sfactor A)) (f : nat) : nat :=
  first_edge (map (fun F => length (sf_vars F)) fs) f.
Definition sf_first_config {A} (fs : list (sfactor A)) (f : nat) : nat :=
  off (map (fun F => length (sf_configs F)) fs) f.

(** The row for factor [f], configuration [c], slot [u]: the configuration's number and
    the edge state it selects. *)
Definition sf_row {A} (fs : list (sfactor A)) (f c u : nat) : Z * Z :=
  let F := nth f fs (SF [] [] []) in
  (Z.of_nat (sf_first_config fs f + c),
   (Z.of_nat (edge_start (sf_edges fs) (sf_first_edge fs f + u))
    + nth u (nth c (sf_configs F) []) 0)%Z).
Definition sf_rows {A} (fs : list (sfactor A)) : list (Z * Z) :=
  flat_map (fun f => let F := nth f fs (SF [] [] []) in
    flat_map (fun c => map (sf_row fs f c) (seq 0 (length (sf_vars F))))
             (seq 0 (length (sf_configs F))))
    (seq 0 (length fs)).

(** Every state of every edge points to the same state of the edge's variable in the flat
    evidence array. *)
Definition start_of (starts : list (variable * nat)) (x : variable) : nat :=
  match dget var_eqb x starts with Some s => s | None => 0 end.
Definition edge_var_states (starts : list (variable * nat)) (es : list variable) : list Z :=
  flat_map (fun x => map (fun s => Z.of_nat (start_of starts x + s)) (seq 0 (snd x))) es.
Definition known (starts : list (variable * nat)) (es : list variable) : Prop :=
  forall x, In x es -> exists s, dget var_eqb x starts = Some s.

(** ** Logical factors *)
(** The variables of each factor: the parents, then the child. [rs] is the state the
    wiring points at (0 for OR, 1 for AND). *)
Definition lf_first_edge (fs : list (list variable)) (f : nat) : nat :=
  first_edge (map (@length variable) fs) f.
Definition relevant_state (t : ftype) : nat := match t with TAnd => 1 | _ => 0 end.
Definition lf_parents (rs : nat) (fs : list (list variable)) : list (Z * Z) :=
  flat_map (fun f => map (fun u => (Z.of_nat f,
                             Z.of_nat (edge_start (concat fs) (lf_first_edge fs f + u) + rs)))
                         (seq 0 (length (nth f fs []) - 1)))
           (seq 0 (length fs)).
Definition lf_children (rs : nat) (fs : list (list variable)) : list Z :=
  map (fun f => Z.of_nat (edge_start (concat fs)
                            (lf_first_edge fs f + (length (nth f fs []) - 1)) + rs))
      (seq 0 (length fs)).

(** The var-states array of a logical group: two states per edge whatever the number of
    states of the variable. *)
Definition edge_var_states_2 (starts : list (variable * nat)) (es : list variable) : list Z :=
  flat_map (fun x => map (fun s => Z.of_nat (start_of starts x + s)) (seq 0 2)) es.

(** ** Ideal wirings *)
Definition ew_ideal {A} (starts : list (variable * nat)) (fs : list (sfactor A)) : enum_wiring :=
  {| ew_edges_num_states := map snd (sf_edges fs);
     ew_var_states_for_edges := edge_var_states starts (sf_edges fs);
     ew_factor_configs_edge_states := sf_rows fs |}.

Definition lw_ideal (starts : list (variable * nat)) (t : ftype) (vss : list (list variable)) : logical_wiring :=
  {| lw_edges_num_states := map snd (concat vss);
     lw_var_states_for_edges := edge_var_states starts (concat vss);
     lw_parents_edge_states := lf_parents (relevant_state t) vss;
     lw_children_edge_states := lf_children (relevant_state t) vss;
     lw_edge_states_offset := type_offset t |}.

Definition logical_ok (vss : list (list variable)) : Prop :=
  forall vs, In vs vss -> 2 <= length vs /\ binary_vars vs.

(** Every group except the last has exactly one factor. *)
Definition all_but_last_single (vsss : list (list (list variable))) : Prop :=
  forall i, S i < length vsss -> length (nth i vsss []) = 1.

(** A group is usable when it has at least one factor, configuration and column. *)
Definition has_rows {A} (g : fgroup A) : Prop :=
  fg_vars g <> [] /\ 0 < nth 0 (shape (fg_configs g)) 0 /\ 0 < nth 1 (shape (fg_configs g)) 0.

(** The last factor has at least one configuration and one variable. *)
Definition last_ok {A} (fs : list (sfactor A)) : Prop :=
  exists fs' F, fs = fs' ++ [F] /\ sf_vars F <> [] /\ sf_configs F <> [].

(** ** Graphs *)
(** All groups, in the order enumeration, OR, AND and by time of addition. *)
Definition all_groups {A} (groups : per_type (list (fgroup A))) : list (fgroup A) :=
  concat (pt_values groups).
(** The factors of a graph, independently of how they were grouped. *)
Definition enum_factors {A} (groups : per_type (list (fgroup A))) : list (sfactor A) :=
  flat_map group_factors (pt_enum groups).
Definition logical_factors {A} (t : ftype) (groups : per_type (list (fgroup A))) : list (list variable) :=
  concat (map fg_vars (pt_get t groups)).
(** The wiring of all logical factors of one type; without factors the offset is 1. *)
Definition lw_type (starts : list (variable * nat)) (t : ftype) (vss : list (list variable)) : logical_wiring :=
  match vss with [] => lw_ideal starts TOr [] | _ => lw_ideal starts t vss end.

(** Groups as the constructors produce them, in the slot of their type. *)
Definition wf_groups {A} (groups : per_type (list (fgroup A))) : Prop :=
  forall t g, In g (pt_get t groups) -> fg_type g = t /\ valid_group g /\ fg_vars g <> [].
(** Every variable of every factor belongs to the graph. *)
Definition known_groups {A} (starts : list (variable * nat)) (groups : per_type (list (fgroup A))) : Prop :=
  forall g, In g (all_groups groups) -> known starts (concat (fg_vars g)).

(** Sizes of a group's blocks in the flat messages and in the flat log potentials. *)
Definition group_states {A} (g : fgroup A) : nat := list_sum (map snd (concat (fg_vars g))).
Definition group_pots {A} (g : fgroup A) : nat := length (fg_log_potentials g).
Definition total {X} (f : X -> nat) (l : list X) : nat := list_sum (map f l).
(** Where the blocks of one type start. *)
Definition type_start {A} (f : fgroup A -> nat) (t : ftype) (groups : per_type (list (fgroup A))) : nat :=
  match t with
  | TEnum => 0
  | TOr => total f (pt_enum groups)
  | TAnd => total f (pt_enum groups) + total f (pt_or groups)
  end.

(** The rows of a group as compiled when the number of variables of the factors is not
    checked against the number [k] of columns: factor [f] takes the edges [k*f .. k*f+k-1]. *)
Definition rows_by_position {A} (g : fgroup A) (nc k : nat) : list (Z * Z) :=
  flat_map (fun f => flat_map (fun c => map (fun u =>
      (Z.of_nat (nc * f + c),
       (Z.of_nat (edge_start (concat (fg_vars g)) (k * f + u)) + config_at (fg_configs g) k c u)%Z))
    (seq 0 k)) (seq 0 nc)) (seq 0 (length (fg_vars g))).

(** The part of FactorGraph.wiring about one factor type: compile every group, then
    concatenate. *)
Definition compile_all_enum {A} (junk : nat -> Z) (starts0 : list (variable * nat)) (gs : list (fgroup A)) : res enum_wiring :=
  ws <- mapM (fun g => fg_compile_enum junk g starts0) gs ;; enum_concatenate_wirings ws.
Definition compile_all_logical {A} (junk : nat -> Z) (starts0 : list (variable * nat)) (gs : list (fgroup A)) : res logical_wiring :=
  ws <- mapM (fun g => fg_compile_logical junk g starts0) gs ;; logical_concatenate_wirings ws.
