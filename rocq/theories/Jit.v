(** * What jax.jit does to dictionaries and to registered classes.

    Arguments and results of a compiled function are flattened and rebuilt. A dictionary
    is flattened in the order of its sorted keys, so the function sees, and returns, a
    dictionary whose keys are in sorted order. *)
From Verif Require Export BP.
From Coq Require Import String.
Local Open Scope nat_scope.

(** [list.sort], as a function of [<]. The functions below take the sorting function as an
    argument; this one is stable insertion, which agrees with [list.sort] when [<] orders
    the elements. *)
Fixpoint insert_by {X} (lt : X -> X -> bool) (x : X) (l : list X) : list X :=
  match l with
  | [] => [x]
  | y :: r => if lt y x then y :: insert_by lt x r else x :: y :: r
  end.
Definition py_sort (X : Type) (lt : X -> X -> bool) (l : list X) : list X :=
  fold_right (insert_by lt) [] l.

(** ** Comparisons *)
(** pgmax/vgroup/vgroup.py:41-42 (VarGroup.__lt__) *)
Definition vg_lt (g h : vgroup) : bool := (vg_hash (vg_id g) <? vg_hash (vg_id h))%Z.
(** pgmax/fgroup/fgroup.py:59-60 (FactorGroup.__lt__): comparison of ids. *)
Definition fg_lt {A} (g h : fgroup A) : bool := (fg_id g <? fg_id h)%Z.
(** Tuples are compared lexicographically. *)
Definition var_lt (v w : variable) : bool :=
  ((fst v <? fst w) || ((fst v =? fst w) && (Z.of_nat (snd v) <? Z.of_nat (snd w))))%Z.
(** A group and a tuple are compared by their hashes: [g < v] is VarGroup.__lt__, and
    [v < g] falls back on the reflected __gt__ that functools.total_ordering adds.
    [hash_var] is Python's hash of a tuple. Other keys are not compared here. *)
Definition ev_lt (hash_var : variable -> Z) (k l : ev_key) : bool :=
  match k, l with
  | EGroup g, EGroup h => vg_lt g h
  | EVar v, EVar w => var_lt v w
  | EGroup g, EVar v => (vg_hash (vg_id g) <? hash_var v)%Z
  | EVar v, EGroup g => (hash_var v <? vg_hash (vg_id g))%Z
  | _, _ => false
  end.

(** Python's hash of an int, and (CPython 3.8 or later) of a pair of ints. *)
Definition hash_int (z : Z) : Z :=
  let h := (Z.sgn z * (Z.abs z mod (2 ^ 61 - 1)))%Z in if (h =? -1)%Z then (-2)%Z else h.
Definition hash_lane (acc x : Z) : Z :=
  let a := ((acc + (x mod 2 ^ 64) * 14029467366897019727) mod 2 ^ 64)%Z in
  let b := ((a * 2 ^ 31) mod 2 ^ 64 + a / 2 ^ 33)%Z in
  ((b * 11400714785074694791) mod 2 ^ 64)%Z.
Definition hash_pair (v : variable) : Z :=
  let acc := hash_lane (hash_lane 2870177450012600261 (hash_int (fst v))) (hash_int (Z.of_nat (snd v))) in
  let h := ((acc + Z.lxor 2 (Z.lxor 2870177450012600261 3527539)) mod 2 ^ 64)%Z in
  if (h =? 2 ^ 64 - 1)%Z then 1546275796%Z else if (h <? 2 ^ 63)%Z then h else (h - 2 ^ 64)%Z.

Section Jit.
  Variable srt : forall X : Type, (X -> X -> bool) -> list X -> list X.
  Variable hash_var : variable -> Z.

  (** A dictionary on its way through jit. *)
  Definition jit_dict {K V} (lt : K -> K -> bool) (d : list (K * V)) : list (K * V) :=
    srt _ (fun p q => lt (fst p) (fst q)) d.
  (** Data for a VarDict is a dictionary as well; names are integers in this model. *)
  Definition jit_data {A} (d : gdata A) : gdata A :=
    match d with DArr a => DArr a | DMap m => DMap (jit_dict Z.ltb m) end.
  Definition jit_items {K A} (d : list (K * gdata A)) : list (K * gdata A) :=
    map (fun p => (fst p, jit_data (snd p))) d.

  (** pgmax/infer/bp_state.py:42, 151, 252: the update functions are compiled. *)
  Definition jit_update_log_potentials {A} (st : fg_state A) (lp : list A)
      (us : list (fgroup A * ndarray A)) : res (list A) :=
    update_log_potentials st lp (jit_dict fg_lt us).
  Definition jit_update_ftov_msgs {A} `{Num A} (st : fg_state A) (ms : list A)
      (us : list (variable * ndarray A)) : res (list A) :=
    update_ftov_msgs st ms (jit_dict var_lt us).
  Definition jit_update_evidence {A} (st : fg_state A) (ev : list A)
      (us : list (ev_key * gdata A)) : res (list A) :=
    update_evidence st ev (jit_dict (ev_lt hash_var) (jit_items us)).

  (** pgmax/infer/bp.py:251, 335, 348: get_beliefs, decode_map_states and get_marginals are
      compiled too. *)
  Definition jit_result {A} (d : list (vgroup * gdata A)) : list (vgroup * gdata A) :=
    jit_dict vg_lt (jit_items d).
  Definition jit_get_beliefs {A} `{Num A} (c : bp_ctx A) (a : bp_arrays A)
      : res (list (vgroup * gdata (ext A))) :=
    b <- get_beliefs c a ;; Ok (jit_result b).
  Definition jit_decode_map_states {A} `{Num A} (b : list (vgroup * gdata (ext A)))
      : res (list (vgroup * gdata nat)) :=
    r <- decode_map_states (jit_result b) ;; Ok (jit_result r).
  Definition jit_get_marginals {A} `{Num A} (b : list (vgroup * gdata (ext A)))
      : res (list (vgroup * gdata A)) :=
    r <- get_marginals (jit_result b) ;; Ok (jit_result r).

  (** ** Registered classes *)
  (** pgmax/infer/bp_state.py:34-39 and pgmax/factor/factor.py:32-37: [asdict], then the
      flattening of a dictionary; the tree definition remembers the keys. *)
  Definition tree_flatten {V} (fields : list (string * V)) : list V * list string :=
    let d := jit_dict String.ltb fields in (map snd d, map fst d).
  (** [cls( **aux_data.unflatten(children))]: fields are passed by keyword. *)
  Definition keyword {V} (k : string) (d : list (string * V)) : res V :=
    match dget String.eqb k d with Some v => Ok v | None => Raise TypeError end.
  Definition bp_arrays_fields {A} (a : bp_arrays A) : list (string * list A) :=
    [("log_potentials"%string, ba_log_potentials a); ("ftov_msgs"%string, ba_ftov_msgs a);
     ("evidence"%string, ba_evidence a)].
  Definition bp_arrays_unflatten {A} (keys : list string) (children : list (list A)) : res (bp_arrays A) :=
    let d := combine keys children in
    lp <- keyword "log_potentials" d ;; ms <- keyword "ftov_msgs" d ;; ev <- keyword "evidence" d ;;
    Ok {| ba_log_potentials := lp; ba_ftov_msgs := ms; ba_evidence := ev |}.
  (** [jax.tree_util.tree_map(f, bp_arrays)] *)
  Definition bp_arrays_map {A B} (f : list A -> list B) (a : bp_arrays A) : res (bp_arrays B) :=
    let '(children, keys) := tree_flatten (bp_arrays_fields a) in
    bp_arrays_unflatten keys (map f children).

  (** Leaves of a wiring: vectors, tables with two columns, and a number. *)
  Inductive leaf := LNats (l : list nat) | LInts (l : list Z) | LPairs (l : list (Z * Z)) | LInt (z : Z).
  Definition as_nats (l : leaf) : res (list nat) := match l with LNats x => Ok x | _ => Raise TypeError end.
  Definition as_ints (l : leaf) : res (list Z) := match l with LInts x => Ok x | _ => Raise TypeError end.
  Definition as_pairs (l : leaf) : res (list (Z * Z)) := match l with LPairs x => Ok x | _ => Raise TypeError end.
  Definition as_int (l : leaf) : res Z := match l with LInt x => Ok x | _ => Raise TypeError end.
  Definition enum_wiring_fields (w : enum_wiring) : list (string * leaf) :=
    [("edges_num_states"%string, LNats (ew_edges_num_states w));
     ("var_states_for_edges"%string, LInts (ew_var_states_for_edges w));
     ("factor_configs_edge_states"%string, LPairs (ew_factor_configs_edge_states w))].
  Definition enum_wiring_unflatten (keys : list string) (children : list leaf) : res enum_wiring :=
    let d := combine keys children in
    a <- (x <- keyword "edges_num_states" d ;; as_nats x) ;;
    b <- (x <- keyword "var_states_for_edges" d ;; as_ints x) ;;
    c <- (x <- keyword "factor_configs_edge_states" d ;; as_pairs x) ;;
    Ok {| ew_edges_num_states := a; ew_var_states_for_edges := b; ew_factor_configs_edge_states := c |}.
  Definition logical_wiring_fields (w : logical_wiring) : list (string * leaf) :=
    [("edges_num_states"%string, LNats (lw_edges_num_states w));
     ("var_states_for_edges"%string, LInts (lw_var_states_for_edges w));
     ("parents_edge_states"%string, LPairs (lw_parents_edge_states w));
     ("children_edge_states"%string, LInts (lw_children_edge_states w));
     ("edge_states_offset"%string, LInt (lw_edge_states_offset w))].
  (** The constructor checks the wiring again (pgmax/factor/logical.py:47-67). *)
  Definition logical_wiring_unflatten (keys : list string) (children : list leaf) : res logical_wiring :=
    let d := combine keys children in
    a <- (x <- keyword "edges_num_states" d ;; as_nats x) ;;
    b <- (x <- keyword "var_states_for_edges" d ;; as_ints x) ;;
    p <- (x <- keyword "parents_edge_states" d ;; as_pairs x) ;;
    c <- (x <- keyword "children_edge_states" d ;; as_ints x) ;;
    o <- (x <- keyword "edge_states_offset" d ;; as_int x) ;;
    LogicalWiring {| lw_edges_num_states := a; lw_var_states_for_edges := b; lw_parents_edge_states := p;
                     lw_children_edge_states := c; lw_edge_states_offset := o |}.
End Jit.
