(** * Model of pgmax/factor: factors and wirings. *)
From Verif Require Export VGroup.
Local Open Scope nat_scope.

(** pgmax/factor/__init__.py:13-21: the keys of FAC_TO_VAR_UPDATES, in order. *)
Inductive ftype := TEnum | TOr | TAnd.
Definition all_types : list ftype := [TEnum; TOr; TAnd].

(** pgmax/factor/factor.py:14-27 and pgmax/factor/enum.py:17-42 (EnumWiring).
    [num_val_configs] is computed in __post_init__: last config index + 1, or 0. *)
Record enum_wiring := {
  ew_edges_num_states : list nat;
  ew_var_states_for_edges : list Z;
  ew_factor_configs_edge_states : list (Z * Z)
}.
Definition ew_num_val_configs (w : enum_wiring) : nat :=
  match ew_factor_configs_edge_states w with
  | [] => 0
  | rws => Z.to_nat (fst (last rws (0, 0)%Z) + 1)
  end.

(** pgmax/factor/logical.py:18-45 (LogicalWiring) *)
Record logical_wiring := {
  lw_edges_num_states : list nat;
  lw_var_states_for_edges : list Z;
  lw_parents_edge_states : list (Z * Z);
  lw_children_edge_states : list Z;
  lw_edge_states_offset : Z
}.

(** pgmax/factor/logical.py:47-67 (LogicalWiring.__post_init__). [max()] of an empty
    array would raise ValueError too. *)
Definition zmax_list (l : list Z) : Z :=
  match l with [] => 0%Z | x :: r => fold_left Z.max r x end.
Definition LogicalWiring (w : logical_wiring) : res logical_wiring :=
  let nf := length (lw_children_edge_states w) in
  if 0 <? nf then
    let idx := map fst (lw_parents_edge_states w) in
    if negb (num_unique idx =? nf) then Raise ValueError
    else if (Z.of_nat nf <=? zmax_list idx)%Z then Raise ValueError
    else if negb (lw_edge_states_offset w =? 1)%Z && negb (lw_edge_states_offset w =? -1)%Z
         then Raise ValueError
    else Ok w
  else Ok w.

(** pgmax/factor/factor.py:76-93 (_compile_var_states_numba): fills
    [var_states_for_edges] in place.
    [var_states_for_edges[a:b] = var_states[i] + np.arange(b - a)]. *)
Definition compile_var_states_numba (var_states_for_edges : list Z)
    (num_states_cumsum : list nat) (var_states : list nat) : list Z :=
  for_range (length num_states_cumsum - 1)
    (fun i out =>
       let a := nth i num_states_cumsum 0 in
       let b := nth (i + 1) num_states_cumsum 0 in
       blit a (map (fun k => Z.of_nat (nth i var_states 0 + k)) (seq 0 (b - a))) out)
    var_states_for_edges.

(** [var_states.append(vars_to_starts[variable])] for all variables of all factors;
    an unknown variable raises KeyError.
    pgmax/factor/enum.py:187-191, pgmax/factor/logical.py:167-171. *)
Definition lookup_var_states (vars_to_starts : list (variable * nat))
    (variables_for_factors : list (list variable)) : res (list nat) :=
  mapM (fun v => match dget var_eqb v vars_to_starts with
                 | Some s => Ok s | None => Raise KeyError end)
       (concat variables_for_factors).

(** pgmax/factor/enum.py:219-248 (_compile_enumeration_wiring_numba). The 2D output of
    shape (rows, 2) is a list of pairs; column 0 is assigned slice-wise, column 1
    entry-wise. *)
Definition compile_enumeration_wiring_numba (out : list (Z * Z))
    (factor_configs : ndarray Z) (factor_edges_starts : list nat) (num_factors : nat)
    : list (Z * Z) :=
  let num_configs := nth 0 (shape factor_configs) 0 in
  let num_variables := nth 1 (shape factor_configs) 0 in
  for_range num_factors (fun factor_idx out =>
    for_range num_configs (fun config_idx out =>
      let factor_config_idx := num_configs * factor_idx + config_idx in
      let out1 :=
        for_range num_variables (fun k out =>
          upd (num_variables * factor_config_idx + k)
              (fun p => (Z.of_nat factor_config_idx, snd p)) out) out in
      for_range num_variables (fun var_idx out =>
        upd (num_variables * factor_config_idx + var_idx)
            (fun p => (fst p,
               (Z.of_nat (nth (num_variables * factor_idx + var_idx) factor_edges_starts 0%nat)
                + get2 0 num_variables (data factor_configs) config_idx var_idx)%Z)) out) out1)
      out) out.

(** pgmax/factor/enum.py:156-216 (EnumFactor.compile_wiring). [junk] is the contents
    of the uninitialised arrays. *)
Definition enum_compile_wiring (junk : nat -> Z) (factor_edges_num_states : list nat)
    (variables_for_factors : list (list variable)) (factor_configs : ndarray Z)
    (vars_to_starts : list (variable * nat)) (num_factors : nat) : res enum_wiring :=
  var_states <- lookup_var_states vars_to_starts variables_for_factors ;;
  let num_states_cumsum := cumsum0 factor_edges_num_states in
  let var_states_for_edges :=
    compile_var_states_numba (np_empty junk (last num_states_cumsum 0))
      num_states_cumsum var_states in
  if negb (length (shape factor_configs) =? 2) then Raise ValueError else
  let num_configs := nth 0 (shape factor_configs) 0 in
  let num_variables := nth 1 (shape factor_configs) 0 in
  if negb (length factor_edges_num_states =? num_factors * num_variables)
  then Raise ValueError
  else
    let out := np_empty (fun i => (junk i, junk i)) (num_factors * num_configs * num_variables) in
    Ok {| ew_edges_num_states := factor_edges_num_states;
          ew_var_states_for_edges := var_states_for_edges;
          ew_factor_configs_edge_states :=
            compile_enumeration_wiring_numba out factor_configs
              (cumsum0 factor_edges_num_states) num_factors |}.

(** pgmax/factor/enum.py:103-154 (EnumFactor.concatenate_wirings). The last row of an
    empty wiring raises IndexError. *)
Definition last_config_plus_1 (w : enum_wiring) : res nat :=
  match ew_factor_configs_edge_states w with
  | [] => Raise IndexError
  | rws => Ok (Z.to_nat (fst (last rws (0, 0)%Z) + 1))
  end.
Definition enum_concatenate_wirings (ws : list enum_wiring) : res enum_wiring :=
  match ws with
  | [] => Ok {| ew_edges_num_states := []; ew_var_states_for_edges := [];
                ew_factor_configs_edge_states := [] |}
  | _ =>
    ncs <- mapM last_config_plus_1 ws ;;
    let factor_configs_cumsum := removelast (cumsum0 ncs) in
    let num_edge_states_cumsum :=
      removelast (cumsum0 (map (fun w => list_sum (ew_edges_num_states w)) ws)) in
    let shifted :=
      map2 (fun w (off : nat * nat) =>
              map (fun p => (fst p + Z.of_nat (fst off), snd p + Z.of_nat (snd off))%Z)
                  (ew_factor_configs_edge_states w))
           ws (combine factor_configs_cumsum num_edge_states_cumsum) in
    Ok {| ew_edges_num_states := concat (map ew_edges_num_states ws);
          ew_var_states_for_edges := concat (map ew_var_states_for_edges ws);
          ew_factor_configs_edge_states := concat shifted |}
  end.

(** pgmax/factor/logical.py:243-271 (_compile_logical_wiring_numba). [num_parents] are
    [nat] (factor sizes are at least 1). *)
Definition compile_logical_wiring_numba (parents : list (Z * Z)) (children : list Z)
    (num_parents num_parents_cumsum edges_num_states_cumsum : list nat)
    (relevant_state : Z) : list (Z * Z) * list Z :=
  for_range (length num_parents) (fun f st =>
    let a := nth f num_parents_cumsum 0 in
    let b := nth (f + 1) num_parents_cumsum 0 in
    let e := Z.of_nat (nth f edges_num_states_cumsum 0) in
    let np := Z.of_nat (nth f num_parents 0) in
    let parents1 := for_range (b - a) (fun k out =>
                      upd (a + k) (fun p => (Z.of_nat f, snd p)) out) (fst st) in
    let vals := arange2 (e + relevant_state) (e + 2 * np) in
    let parents2 := for_range (b - a) (fun k out =>
                      upd (a + k) (fun p => (fst p, nth k vals 0%Z)) out) parents1 in
    (parents2, upd f (fun _ => (e + 2 * np + relevant_state)%Z) (snd st)))
    (parents, children).

(** pgmax/factor/logical.py:141-206 (LogicalFactor.compile_wiring). Note that
    [factor_edges_num_states] is stored unchanged while the other arrays assume two
    states per variable. *)
Definition logical_compile_wiring (junk : nat -> Z) (factor_edges_num_states : list nat)
    (variables_for_factors : list (list variable)) (factor_sizes : list nat)
    (vars_to_starts : list (variable * nat)) (edge_states_offset : Z)
    : res logical_wiring :=
  var_states <- lookup_var_states vars_to_starts variables_for_factors ;;
  let relevant_state := ((- edge_states_offset + 1) / 2)%Z in
  let n := length var_states in
  let num_states_cumsum := map (fun k => 2 * k) (seq 0 (n + 1)) in
  let var_states_for_edges :=
    compile_var_states_numba (np_empty junk (2 * n)) num_states_cumsum var_states in
  let num_parents := map (fun s => s - 1) factor_sizes in
  let num_parents_cumsum := cumsum0 num_parents in
  let edges_num_states_cumsum := cumsum0 (map (fun s => 2 * s) factor_sizes) in
  let pc := compile_logical_wiring_numba
              (np_empty (fun i => (junk i, junk i)) (last num_parents_cumsum 0))
              (np_empty junk (length factor_sizes))
              num_parents num_parents_cumsum edges_num_states_cumsum relevant_state in
  LogicalWiring {|
    lw_edges_num_states := factor_edges_num_states;
    lw_var_states_for_edges := var_states_for_edges;
    lw_parents_edge_states := fst pc;
    lw_children_edge_states := snd pc;
    lw_edge_states_offset := edge_states_offset |}.

(** pgmax/factor/logical.py:97-139 (LogicalFactor.concatenate_wirings). The factor
    indices of the ww-th wiring are shifted by [ww]. *)
Definition logical_concatenate_wirings (ws : list logical_wiring) : res logical_wiring :=
  match ws with
  | [] => LogicalWiring {| lw_edges_num_states := []; lw_var_states_for_edges := [];
                           lw_parents_edge_states := []; lw_children_edge_states := [];
                           lw_edge_states_offset := 1 |}
  | w0 :: _ =>
    let num_edge_states_cumsum :=
      removelast (cumsum0 (map (fun w => list_sum (lw_edges_num_states w)) ws)) in
    let offs := combine (seq 0 (length ws)) num_edge_states_cumsum in
    let parents :=
      map2 (fun w (off : nat * nat) =>
              map (fun p => (fst p + Z.of_nat (fst off), snd p + Z.of_nat (snd off))%Z)
                  (lw_parents_edge_states w)) ws offs in
    let children :=
      map2 (fun w (off : nat * nat) =>
              map (fun c => (c + Z.of_nat (snd off))%Z) (lw_children_edge_states w)) ws offs in
    LogicalWiring {|
      lw_edges_num_states := concat (map lw_edges_num_states ws);
      lw_var_states_for_edges := concat (map lw_var_states_for_edges ws);
      lw_parents_edge_states := concat parents;
      lw_children_edge_states := concat children;
      lw_edge_states_offset := lw_edge_states_offset w0 |}
  end.

(** ** Factors *)
Record enum_factor (A : Type) := {
  ef_variables : list variable;
  ef_configs : ndarray Z;
  ef_log_potentials : list A
}.
Arguments ef_variables {A} e.
Arguments ef_configs {A} e.
Arguments ef_log_potentials {A} e.

(** pgmax/factor/enum.py:67-101 (EnumFactor.__post_init__). The dtypes are given as the
    booleans "dtype is a subtype of np.integer / np.floating". *)
Definition EnumFactor {A} (variables : list variable)
    (configs_int : bool) (configs : ndarray Z)
    (pots_float : bool) (pots : ndarray A) : res (enum_factor A) :=
  if negb configs_int then Raise ValueError
  else if negb pots_float then Raise ValueError
  else if negb (length (shape configs) =? 2) then Raise ValueError
  else if negb (length variables =? nth 1 (shape configs) 0) then Raise ValueError
  else if negb (shape_eqb (shape pots) [nth 0 (shape configs) 0]) then Raise ValueError
  else if negb (forallb (fun r =>
                 forallb (fun u =>
                    let c := get2 0%Z (length variables) (data configs) r u in
                    (0 <=? c)%Z && (c <? Z.of_nat (snd (nth u variables (0%Z, 0%nat))))%Z)
                  (seq 0 (length variables)))
               (seq 0 (nth 0 (shape configs) 0)))
       then Raise ValueError
  else Ok {| ef_variables := variables; ef_configs := configs;
             ef_log_potentials := data pots |}.

(** ORFactor / ANDFactor. *)
Record logical_factor := { lf_type : ftype; lf_variables : list variable }.

(** pgmax/factor/logical.py:223,240: class-level [edge_states_offset] (1 for OR, -1 for
    AND). Enumeration factors have none. *)
Definition type_offset (t : ftype) : Z :=
  match t with TAnd => -1 | _ => 1 end.

(** pgmax/factor/logical.py:88-95 (LogicalFactor.__post_init__) *)
Definition LogicalFactor (t : ftype) (variables : list variable) : res logical_factor :=
  if length variables <? 2 then Raise ValueError
  else if negb (forallb (fun v => snd v =? 2) variables) then Raise ValueError
  else Ok {| lf_type := t; lf_variables := variables |}.

Inductive factor (A : Type) := FEnum (f : enum_factor A) | FLogical (f : logical_factor).
Arguments FEnum {A} f.
Arguments FLogical {A} f.

Definition factor_variables {A} (f : factor A) : list variable :=
  match f with FEnum e => ef_variables e | FLogical l => lf_variables l end.
