(** * Model of pgmax/fgraph/fgraph.py: factor graphs and their compiled states. *)
From Verif Require Export FGroup.
Local Open Scope nat_scope.

(** One value per factor type: the OrderedDicts keyed by FAC_TO_VAR_UPDATES
    (pgmax/factor/__init__.py:13-21). *)
Record per_type (X : Type) := PT { pt_enum : X; pt_or : X; pt_and : X }.
Arguments PT {X} pt_enum pt_or pt_and.
Arguments pt_enum {X} p.
Arguments pt_or {X} p.
Arguments pt_and {X} p.
Definition pt_get {X} (t : ftype) (p : per_type X) : X :=
  match t with TEnum => pt_enum p | TOr => pt_or p | TAnd => pt_and p end.
Definition pt_set {X} (t : ftype) (x : X) (p : per_type X) : per_type X :=
  match t with
  | TEnum => PT x (pt_or p) (pt_and p)
  | TOr => PT (pt_enum p) x (pt_and p)
  | TAnd => PT (pt_enum p) (pt_or p) x
  end.
(** [d.values()], in order. *)
Definition pt_values {X} (p : per_type X) : list X := [pt_enum p; pt_or p; pt_and p].

(** ** The graph *)
(** [gr_is_list] says whether [self.variable_groups] is a list after construction
    (it is a tuple if the caller passed a tuple). Sets of frozensets of variables are
    lists of lists of variables, compared with [set_eqb]. *)
Record fgraph (A : Type) := {
  gr_is_list : bool;
  gr_variable_groups : list vgroup;
  gr_groups : per_type (list (fgroup A));
  gr_varsets : per_type (list (list variable));
  gr_vars_to_starts : list (variable * nat);
  gr_num_var_states : nat
}.
Arguments gr_is_list {A} f.
Arguments gr_variable_groups {A} f.
Arguments gr_groups {A} f.
Arguments gr_varsets {A} f.
Arguments gr_vars_to_starts {A} f.
Arguments gr_num_var_states {A} f.

(** The constructor argument: one group, a list, or another sequence. *)
Inductive groups_arg := GOne (g : vgroup) | GsList (l : list vgroup) | GsTuple (l : list vgroup).

(** pgmax/fgraph/fgraph.py:96-106, one iteration of the loop over the groups. *)
Definition vars_to_starts_step (st : list (variable * nat) * nat) (g : vgroup)
    : list (variable * nat) * nat :=
  let ns_cumsum := cumsum0 (vg_num_states g) in
  (dupdate var_eqb (fst st)
     (combine (vg_variables g) (map (fun s => snd st + s) (removelast ns_cumsum))),
   snd st + last ns_cumsum 0).

(** pgmax/fgraph/fgraph.py:77-107 (FactorGraph.__post_init__) *)
Definition FactorGraph {A} (arg : groups_arg) : fgraph A :=
  let '(is_list, gs) := match arg with
                        | GOne g => (true, [g])
                        | GsList l => (true, l)
                        | GsTuple l => (false, l) end in
  let st := fold_left vars_to_starts_step gs ([], 0) in
  {| gr_is_list := is_list; gr_variable_groups := gs;
     gr_groups := PT [] [] []; gr_varsets := PT [] [] [];
     gr_vars_to_starts := fst st; gr_num_var_states := snd st |}.

(** ** Adding factors *)
Definition with_groups {A} (g : fgraph A) (p : per_type (list (fgroup A))) : fgraph A :=
  {| gr_is_list := gr_is_list g; gr_variable_groups := gr_variable_groups g;
     gr_groups := p; gr_varsets := gr_varsets g;
     gr_vars_to_starts := gr_vars_to_starts g; gr_num_var_states := gr_num_var_states g |}.
Definition with_varsets {A} (g : fgraph A) (p : per_type (list (list variable))) : fgraph A :=
  {| gr_is_list := gr_is_list g; gr_variable_groups := gr_variable_groups g;
     gr_groups := gr_groups g; gr_varsets := p;
     gr_vars_to_starts := gr_vars_to_starts g; gr_num_var_states := gr_num_var_states g |}.

(** pgmax/fgraph/fgraph.py:150-156: the loop recording the variable sets; it mutates
    the graph before it may raise. *)
Fixpoint record_varsets {A} (t : ftype) (vss : list (list variable)) (g : fgraph A)
    : fgraph A * res unit :=
  match vss with
  | [] => (g, Ok tt)
  | vs :: r =>
      if existsb (set_eqb vs) (pt_get t (gr_varsets g)) then (g, Raise ValueError)
      else record_varsets t r
             (with_varsets g (pt_set t (pt_get t (gr_varsets g) ++ [vs]) (gr_varsets g)))
  end.

(** pgmax/fgraph/fgraph.py:149-158 *)
Definition add_group {A} (fg : fgroup A) (g : fgraph A) : fgraph A * res unit :=
  let t := fg_type fg in
  match record_varsets t (fg_vars fg) g with
  | (g', Ok _) =>
      (with_groups g' (pt_set t (pt_get t (gr_groups g') ++ [fg]) (gr_groups g')), Ok tt)
  | (g', Raise e) => (g', Raise e)
  end.

(** The argument of add_factors: a factor (with the id of the SingleFactorGroup object
    that will be created for it), a factor group, a list, or any other object. *)
Inductive add_arg (A : Type) :=
| AFactor (id : Z) (f : factor A)
| AGroup (g : fgroup A)
| AList (l : list (add_arg A))
| AOther.
Arguments AFactor {A} id f.
Arguments AGroup {A} g.
Arguments AList {A} l.
Arguments AOther {A}.

(** pgmax/fgraph/fgraph.py:119-158 (FactorGraph.add_factors). For any other object
    (e.g. a tuple) the local variable [factor_group] is never assigned. *)
Fixpoint add_factors {A} (a : add_arg A) (g : fgraph A) : fgraph A * res unit :=
  match a with
  | AList l =>
      (fix go (l : list (add_arg A)) (g : fgraph A) : fgraph A * res unit :=
         match l with
         | [] => (g, Ok tt)
         | a :: r => match add_factors a g with
                     | (g', Ok _) => go r g'
                     | (g', Raise e) => (g', Raise e)
                     end
         end) l g
  | AGroup fg => add_group fg g
  | AFactor id f => add_group (SingleFactorGroup id f) g
  | AOther => (g, Raise UnboundLocalError)
  end.

(** ** Compilation *)
(** The attributes set by compute_offsets. Factor groups are hashed and compared by
    object id, so the dictionaries keyed by groups are keyed by [fg_id]. *)
Record offsets := {
  of_msgs_range : per_type (nat * nat);
  of_group_msgs_starts : list (Z * nat);
  of_pots_range : per_type (nat * nat);
  of_group_pots_starts : list (Z * nat);
  of_total_states : nat;
  of_total_configs : nat
}.

(** pgmax/fgraph/fgraph.py:183-194: the loop over the groups of one type. *)
Definition offsets_group_step {A}
    (st : (nat * nat) * (list (Z * nat) * list (Z * nat))) (g : fgroup A)
    : (nat * nat) * (list (Z * nat) * list (Z * nat)) :=
  let '((states, configs), (ms, ps)) := st in
  ((states + list_sum (fg_factor_edges_num_states g),
    configs + length (fg_log_potentials g)),
   (dset Z.eqb (fg_id g) states ms, dset Z.eqb (fg_id g) configs ps)).

(** pgmax/fgraph/fgraph.py:160-206 (compute_offsets), without its cache. *)
Definition compute_offsets {A} (groups : per_type (list (fgroup A))) : offsets :=
  let s0 := ((0, 0), ([], [])) in
  let s1 := fold_left offsets_group_step (pt_enum groups) s0 in
  let s2 := fold_left offsets_group_step (pt_or groups) s1 in
  let s3 := fold_left offsets_group_step (pt_and groups) s2 in
  let st (s : (nat * nat) * (list (Z * nat) * list (Z * nat))) := fst (fst s) in
  let cf (s : (nat * nat) * (list (Z * nat) * list (Z * nat))) := snd (fst s) in
  {| of_msgs_range := PT (st s0, st s1) (st s1, st s2) (st s2, st s3);
     of_group_msgs_starts := fst (snd s3);
     of_pots_range := PT (cf s0, cf s1) (cf s1, cf s2) (cf s2, cf s3);
     of_group_pots_starts := snd (snd s3);
     of_total_states := st s3;
     of_total_configs := cf s3 |}.

(** The three wirings of a graph. *)
Record wirings := { w_enum : enum_wiring; w_or : logical_wiring; w_and : logical_wiring }.

(** pgmax/fgraph/fgraph.py:208-235 (wiring), without its cache: first every group of
    every type is compiled, then the wirings of each type are concatenated. *)
Definition compile_wirings {A} (junk : nat -> Z) (vars_to_starts : list (variable * nat))
    (groups : per_type (list (fgroup A))) : res wirings :=
  es <- mapM (fun g => fg_compile_enum junk g vars_to_starts) (pt_enum groups) ;;
  os <- mapM (fun g => fg_compile_logical junk g vars_to_starts) (pt_or groups) ;;
  ds <- mapM (fun g => fg_compile_logical junk g vars_to_starts) (pt_and groups) ;;
  e <- enum_concatenate_wirings es ;;
  o <- logical_concatenate_wirings os ;;
  d <- logical_concatenate_wirings ds ;;
  Ok {| w_enum := e; w_or := o; w_and := d |}.

(** pgmax/fgraph/fgraph.py:237-259 (log_potentials), without its cache. *)
Definition compile_log_potentials {A} (groups : per_type (list (fgroup A)))
    : per_type (list A) :=
  let f gs := concat (map fg_log_potentials gs) in
  PT (f (pt_enum groups)) (f (pt_or groups)) (f (pt_and groups)).

(** pgmax/fgraph/fgraph.py:29-63 (FactorGraphState) *)
Record fg_state (A : Type) := {
  st_variable_groups : list vgroup;
  st_vars_to_starts : list (variable * nat);
  st_num_var_states : nat;
  st_total_factor_num_states : nat;
  st_msgs_range : per_type (nat * nat);
  st_pots_range : per_type (nat * nat);
  st_group_pots_starts : list (Z * nat);
  st_log_potentials : list A;
  st_wiring : wirings
}.
Arguments st_variable_groups {A} f.
Arguments st_vars_to_starts {A} f.
Arguments st_num_var_states {A} f.
Arguments st_total_factor_num_states {A} f.
Arguments st_msgs_range {A} f.
Arguments st_pots_range {A} f.
Arguments st_group_pots_starts {A} f.
Arguments st_log_potentials {A} f.
Arguments st_wiring {A} f.

(** The FactorGraphState(...) call of pgmax/fgraph/fgraph.py:303-317. *)
Definition mk_fg_state {A} (g : fgraph A) (o : offsets) (lps : per_type (list A))
    (w : wirings) : fg_state A :=
  {| st_variable_groups := gr_variable_groups g;
     st_vars_to_starts := gr_vars_to_starts g;
     st_num_var_states := gr_num_var_states g;
     st_total_factor_num_states := of_total_states o;
     st_msgs_range := of_msgs_range o;
     st_pots_range := of_pots_range o;
     st_group_pots_starts := of_group_pots_starts o;
     st_log_potentials := concat (pt_values lps);
     st_wiring := w |}.

(** pgmax/fgraph/fgraph.py:293-317 (fg_state) computed from scratch. *)
Definition compile_fg_state {A} (junk : nat -> Z) (g : fgraph A) : res (fg_state A) :=
  let o := compute_offsets (gr_groups g) in
  let lps := compile_log_potentials (gr_groups g) in
  _ <- guard (gr_is_list g) AssertionError ;;
  w <- compile_wirings junk (gr_vars_to_starts g) (gr_groups g) ;;
  Ok (mk_fg_state g o lps w).

(** ** Several graphs and the global caches *)
(** The caches created by [functools.lru_cache] (pgmax/utils.py:11-20 and
    pgmax/fgraph/fgraph.py:160) are module-wide dictionaries keyed by the graph: a
    lookup succeeds when the hash computed now equals the hash stored at insertion and
    the graphs compare equal. [FactorGraph.__hash__] (fgraph.py:109-117) hashes the
    tuple of factor groups (hashed by object id); the dataclass [__eq__] compares
    [variable_groups] (groups compared by their hashes, a list never equals a tuple).
    Tuple hashing is idealised as injective. *)
Definition cache_key := (bool * list Z * list Z)%type.
Definition graph_key {A} (g : fgraph A) : cache_key :=
  (gr_is_list g,
   map (fun v => vg_hash (vg_id v)) (gr_variable_groups g),
   map fg_id (concat (pt_values (gr_groups g)))).
Definition zlist_eqb (x y : list Z) : bool := if list_eq_dec Z.eq_dec x y then true else false.
Definition key_eqb (x y : cache_key) : bool :=
  Bool.eqb (fst (fst x)) (fst (fst y)) && zlist_eqb (snd (fst x)) (snd (fst y))
  && zlist_eqb (snd x) (snd y).

(** A graph object: the graph and the attributes last set by compute_offsets on it. *)
Record gobj (A : Type) := { go_graph : fgraph A; go_offsets : option offsets }.
Arguments go_graph {A} g.
Arguments go_offsets {A} g.

(** FactorGraphState objects carry an object identity (allocation number). *)
Definition state_obj (A : Type) := (nat * fg_state A)%type.

Record world (A : Type) := {
  wo_graphs : list (gobj A);
  wo_offsets_cache : list (cache_key * unit);
  wo_log_potentials_cache : list (cache_key * per_type (list A));
  wo_wiring_cache : list (cache_key * wirings);
  wo_fg_state_cache : list (cache_key * state_obj A);
  wo_next : nat
}.
Arguments wo_graphs {A} w.
Arguments wo_offsets_cache {A} w.
Arguments wo_log_potentials_cache {A} w.
Arguments wo_wiring_cache {A} w.
Arguments wo_fg_state_cache {A} w.
Arguments wo_next {A} w.

Definition world0 {A} : world A :=
  {| wo_graphs := []; wo_offsets_cache := []; wo_log_potentials_cache := [];
     wo_wiring_cache := []; wo_fg_state_cache := []; wo_next := 0 |}.

Definition set_graph {A} (i : nat) (o : gobj A) (w : world A) : world A :=
  {| wo_graphs := upd i (fun _ => o) (wo_graphs w);
     wo_offsets_cache := wo_offsets_cache w;
     wo_log_potentials_cache := wo_log_potentials_cache w;
     wo_wiring_cache := wo_wiring_cache w;
     wo_fg_state_cache := wo_fg_state_cache w; wo_next := wo_next w |}.

(** [g.compute_offsets()] through its cache: on a hit nothing is done, in particular
    the attributes of [g] are not set. *)
Definition call_compute_offsets {A} (i : nat) (o : gobj A) (w : world A) : world A :=
  let k := graph_key (go_graph o) in
  match dget key_eqb k (wo_offsets_cache w) with
  | Some _ => w
  | None =>
      let o' := {| go_graph := go_graph o;
                   go_offsets := Some (compute_offsets (gr_groups (go_graph o))) |} in
      {| wo_graphs := upd i (fun _ => o') (wo_graphs w);
         wo_offsets_cache := (k, tt) :: wo_offsets_cache w;
         wo_log_potentials_cache := wo_log_potentials_cache w;
         wo_wiring_cache := wo_wiring_cache w;
         wo_fg_state_cache := wo_fg_state_cache w; wo_next := wo_next w |}
  end.

(** [g.log_potentials] through its cache. *)
Definition call_log_potentials {A} (o : gobj A) (w : world A)
    : world A * per_type (list A) :=
  let k := graph_key (go_graph o) in
  match dget key_eqb k (wo_log_potentials_cache w) with
  | Some v => (w, v)
  | None =>
      let v := compile_log_potentials (gr_groups (go_graph o)) in
      ({| wo_graphs := wo_graphs w; wo_offsets_cache := wo_offsets_cache w;
          wo_log_potentials_cache := (k, v) :: wo_log_potentials_cache w;
          wo_wiring_cache := wo_wiring_cache w;
          wo_fg_state_cache := wo_fg_state_cache w; wo_next := wo_next w |}, v)
  end.

(** [g.wiring] through its cache; exceptions are not cached. *)
Definition call_wiring {A} (junk : nat -> Z) (o : gobj A) (w : world A)
    : world A * res wirings :=
  let k := graph_key (go_graph o) in
  match dget key_eqb k (wo_wiring_cache w) with
  | Some v => (w, Ok v)
  | None =>
      match compile_wirings junk (gr_vars_to_starts (go_graph o)) (gr_groups (go_graph o)) with
      | Ok v =>
          ({| wo_graphs := wo_graphs w; wo_offsets_cache := wo_offsets_cache w;
              wo_log_potentials_cache := wo_log_potentials_cache w;
              wo_wiring_cache := (k, v) :: wo_wiring_cache w;
              wo_fg_state_cache := wo_fg_state_cache w; wo_next := wo_next w |}, Ok v)
      | Raise e => (w, Raise e)
      end
  end.

Definition add_state {A} (k : cache_key) (s : fg_state A) (w : world A) : world A * state_obj A :=
  let so := (wo_next w, s) in
  ({| wo_graphs := wo_graphs w; wo_offsets_cache := wo_offsets_cache w;
      wo_log_potentials_cache := wo_log_potentials_cache w;
      wo_wiring_cache := wo_wiring_cache w;
      wo_fg_state_cache := (k, so) :: wo_fg_state_cache w;
      wo_next := S (wo_next w) |}, so).

(** [g.fg_state] through its cache (pgmax/fgraph/fgraph.py:293-317). Reading an
    attribute never set by compute_offsets raises AttributeError. *)
Definition call_fg_state {A} (junk : nat -> Z) (i : nat) (o : gobj A) (w : world A)
    : world A * res (state_obj A) :=
  let k := graph_key (go_graph o) in
  match dget key_eqb k (wo_fg_state_cache w) with
  | Some s => (w, Ok s)
  | None =>
      let w1 := call_compute_offsets i o w in
      let '(w2, lps) := call_log_potentials o w1 in
      if negb (gr_is_list (go_graph o)) then (w2, Raise AssertionError)
      else match nth_error (wo_graphs w2) i with
      | None => (w2, Raise AttributeError)
      | Some o2 =>
          match go_offsets o2 with
          | None => (w2, Raise AttributeError)
          | Some offs =>
              match call_wiring junk o w2 with
              | (w3, Raise e) => (w3, Raise e)
              | (w3, Ok wi) =>
                  let '(w4, so) := add_state k (mk_fg_state (go_graph o) offs lps wi) w3 in
                  (w4, Ok so)
              end
          end
      end
  end.

(** Operations of a client on a collection of graphs (graphs are numbered in order of
    creation). *)
Inductive op (A : Type) :=
| ONew (arg : groups_arg)
| OAdd (i : nat) (a : add_arg A)
| OFgState (i : nat) (junk : nat -> Z)
| OBpState (i : nat) (junk : nat -> Z)
| OWiring (i : nat) (junk : nat -> Z)
| OLogPotentials (i : nat)
| OComputeOffsets (i : nat).
Arguments ONew {A} arg.
Arguments OAdd {A} i a.
Arguments OFgState {A} i junk.
Arguments OBpState {A} i junk.
Arguments OWiring {A} i junk.
Arguments OLogPotentials {A} i.
Arguments OComputeOffsets {A} i.

Inductive out (A : Type) :=
| RUnit
| RState (s : state_obj A)
| RWiring (w : wirings)
| RLogPotentials (l : per_type (list A)).
Arguments RUnit {A}.
Arguments RState {A} s.
Arguments RWiring {A} w.
Arguments RLogPotentials {A} l.

(** One operation. An operation on a graph that does not exist is a NameError in the
    client; the model reports AttributeError. *)
Definition step {A} (w : world A) (o : op A) : world A * res (out A) :=
  let on (i : nat) (f : gobj A -> world A * res (out A)) :=
    match nth_error (wo_graphs w) i with
    | None => (w, Raise AttributeError)
    | Some g => f g
    end in
  match o with
  | ONew arg =>
      ({| wo_graphs := wo_graphs w ++ [{| go_graph := FactorGraph arg; go_offsets := None |}];
          wo_offsets_cache := wo_offsets_cache w;
          wo_log_potentials_cache := wo_log_potentials_cache w;
          wo_wiring_cache := wo_wiring_cache w;
          wo_fg_state_cache := wo_fg_state_cache w; wo_next := wo_next w |}, Ok RUnit)
  | OAdd i a => on i (fun g =>
      let '(g', r) := add_factors a (go_graph g) in
      (set_graph i {| go_graph := g'; go_offsets := go_offsets g |} w,
       _ <- r ;; Ok RUnit))
  | OFgState i junk => on i (fun g =>
      let '(w', r) := call_fg_state junk i g w in
      (w', s <- r ;; Ok (RState s)))
  (** pgmax/fgraph/fgraph.py:319-331: compute_offsets, then fg_state three times (the
      last two are cache hits). *)
  | OBpState i junk => on i (fun g =>
      let w1 := call_compute_offsets i g w in
      let g1 := match nth_error (wo_graphs w1) i with Some g1 => g1 | None => g end in
      let '(w', r) := call_fg_state junk i g1 w1 in
      (w', s <- r ;; Ok (RState s)))
  | OWiring i junk => on i (fun g =>
      let '(w', r) := call_wiring junk g w in (w', v <- r ;; Ok (RWiring v)))
  | OLogPotentials i => on i (fun g =>
      let '(w', v) := call_log_potentials g w in (w', Ok (RLogPotentials v)))
  | OComputeOffsets i => on i (fun g => (call_compute_offsets i g w, Ok RUnit))
  end.

(** A whole history: the final world and the results. *)
Fixpoint run {A} (w : world A) (ops : list (op A)) : world A * list (res (out A)) :=
  match ops with
  | [] => (w, [])
  | o :: r => let '(w1, x) := step w o in
              let '(w2, xs) := run w1 r in (w2, x :: xs)
  end.
