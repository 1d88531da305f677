(** * Model of pgmax/fgroup: groups of factors. *)
From Verif Require Export Factor.
Local Open Scope nat_scope.

(** Which class a group belongs to. For pairwise groups, the two last dimensions of
    [log_potential_matrix]. *)
Inductive fgkind := KEnum | KPairwise (n m : nat) | KLogical | KSingle.

(** A constructed factor group. [fg_configs] is only meaningful for enumeration
    types; [fg_log_potentials] is [self.log_potentials.flatten()], i.e.
    [factor_group_log_potentials] (pgmax/fgroup/fgroup.py:123-126), of [num_factors]
    rows for enumeration types and empty for logical ones. *)
Record fgroup (A : Type) := {
  fg_id : Z;
  fg_kind : fgkind;
  fg_type : ftype;
  fg_vars : list (list variable);
  fg_configs : ndarray Z;
  fg_log_potentials : list A
}.
Arguments fg_id {A} f.
Arguments fg_kind {A} f.
Arguments fg_type {A} f.
Arguments fg_vars {A} f.
Arguments fg_configs {A} f.
Arguments fg_log_potentials {A} f.

(** [frozenset(xs) == frozenset(ys)] *)
Definition var_in (v : variable) (l : list variable) : bool := existsb (var_eqb v) l.
Definition set_eqb (xs ys : list variable) : bool :=
  forallb (fun v => var_in v ys) xs && forallb (fun v => var_in v xs) ys.

(** pgmax/fgroup/fgroup.py:134-137 *)
Definition fg_num_factors {A} (g : fgroup A) : nat := length (fg_vars g).
(** pgmax/fgroup/fgroup.py:82-94 *)
Definition fg_factor_sizes {A} (g : fgroup A) : list nat := map (@length _) (fg_vars g).
(** pgmax/fgroup/fgroup.py:96-111 (the double loop filling an empty array is the
    concatenation of the numbers of states). *)
Definition fg_factor_edges_num_states {A} (g : fgroup A) : list nat :=
  map snd (concat (fg_vars g)).

(** ** EnumFactorGroup *)
(** pgmax/fgroup/enum.py:44-69 (EnumFactorGroup.__post_init__). [pots] is None or
    (dtype is floating, array). *)
Definition EnumFactorGroup {A} `{Num A} (id : Z) (vars : list (list variable))
    (configs : ndarray Z) (pots : option (bool * ndarray A)) : res (fgroup A) :=
  match vars with
  | [] => Raise ValueError
  | _ =>
    match shape configs with
    | [] => Raise IndexError
    | num_val_configs :: _ =>
      let nf := length vars in
      lp <- match pots with
            | None => Ok (repeat n0 (nf * num_val_configs))
            | Some (is_float, p) =>
                if shape_eqb (shape p) [num_val_configs] then
                  (if is_float then Ok (tile (data p) nf) else Raise ValueError)
                else if shape_eqb (shape p) [nf; num_val_configs] then
                  (if is_float then Ok (data p) else Raise ValueError)
                else Raise ValueError
            end ;;
      Ok {| fg_id := id; fg_kind := KEnum; fg_type := TEnum; fg_vars := vars;
            fg_configs := configs; fg_log_potentials := lp |}
    end
  end.

(** ** PairwiseFactorGroup *)
(** [np.mgrid[:n, :m].transpose((1, 2, 0)).reshape((-1, 2))] *)
Definition pair_grid (n m : nat) : ndarray Z :=
  mkArr [n * m; 2]
    (flat_map (fun i => flat_map (fun j => [Z.of_nat i; Z.of_nat j]) (seq 0 m)) (seq 0 n)).

(** pgmax/fgroup/enum.py:381-394 (_compute_log_potentials) on the matrix broadcast to
    (num_factors, n, m); [log_potentials] is filled column by column:
    log_potentials[:, c] = matrix[:, configs[c, 0], configs[c, 1]]. The result is
    flattened. *)
Definition compute_log_potentials {A} (d : A) (junk : nat -> A) (nf n m : nat)
    (mat : list A) (configs : ndarray Z) : list A :=
  let nc := nth 0 (shape configs) 0 in
  for_range nc (fun c out =>
    for_range nf (fun f out =>
      upd (f * nc + c)
        (fun _ => nth (f * (n * m)
                       + Z.to_nat (get2 0%Z 2 (data configs) c 0) * m
                       + Z.to_nat (get2 0%Z 2 (data configs) c 1)) mat d) out) out)
    (np_empty junk (nf * nc)).

(** pgmax/fgroup/enum.py:202-275 (PairwiseFactorGroup.__post_init__). With no matrix the
    shape comes from the first factor (IndexError when it has fewer than two
    variables). *)
Definition PairwiseFactorGroup {A} `{Num A} (junk : nat -> A) (id : Z)
    (vars : list (list variable)) (mat : option (bool * ndarray A)) : res (fgroup A) :=
  match vars with
  | [] => Raise ValueError
  | v0 :: _ =>
    fm <- match mat with
          | Some fm => Ok fm
          | None =>
              match v0 with
              | a :: b :: _ => Ok (true, mkArr [snd a; snd b] (repeat n0 (snd a * snd b)))
              | _ => Raise IndexError
              end
          end ;;
    let '(is_float, p) := fm in
    let nd := length (shape p) in
    if negb ((nd =? 2) || (nd =? 3)) then Raise ValueError
    else if negb is_float then Raise ValueError
    else if (nd =? 3) && negb (nth 0 (shape p) 0 =? length vars) then Raise ValueError
    else
      let n := nth (nd - 2) (shape p) 0 in
      let m := nth (nd - 1) (shape p) 0 in
      _ <- mapM (fun vs : list variable =>
             match vs with
             | [a; b] => if (n =? snd a) && (m =? snd b) then Ok tt else Raise ValueError
             | _ => Raise ValueError
             end) vars ;;
      let configs := pair_grid n m in
      let nf := length vars in
      let full := if nd =? 3 then data p else tile (data p) nf in
      Ok {| fg_id := id; fg_kind := KPairwise n m; fg_type := TEnum; fg_vars := vars;
            fg_configs := configs;
            fg_log_potentials := compute_log_potentials n0 junk nf n m full configs |}
  end.

(** ** LogicalFactorGroup *)
(** pgmax/fgroup/logical.py:14-73 with pgmax/fgroup/fgroup.py:49-51: only emptiness is
    checked. *)
Definition LogicalFactorGroup {A} (t : ftype) (id : Z) (vars : list (list variable))
    : res (fgroup A) :=
  match vars with
  | [] => Raise ValueError
  | _ => Ok {| fg_id := id; fg_kind := KLogical; fg_type := t; fg_vars := vars;
               fg_configs := mkArr [] []; fg_log_potentials := [] |}
  end.

(** ** SingleFactorGroup *)
(** pgmax/fgroup/fgroup.py:201-231, as built by FactorGraph.add_factors
    (pgmax/fgraph/fgraph.py:143-147). *)
Definition SingleFactorGroup {A} (id : Z) (f : factor A) : fgroup A :=
  match f with
  | FEnum e => {| fg_id := id; fg_kind := KSingle; fg_type := TEnum;
                  fg_vars := [ef_variables e]; fg_configs := ef_configs e;
                  fg_log_potentials := ef_log_potentials e |}
  | FLogical l => {| fg_id := id; fg_kind := KSingle; fg_type := lf_type l;
                     fg_vars := [lf_variables l]; fg_configs := mkArr [] [];
                     fg_log_potentials := [] |}
  end.

(** ** Individual factors of a group *)
(** pgmax/fgroup/enum.py:71-93 and 277-299, pgmax/fgroup/logical.py:29-47,
    pgmax/fgroup/fgroup.py:233-241 (_get_variables_to_factors): an OrderedDict from
    frozensets of variables to factors (built with the factor constructors, which may
    raise). Row [ii] of the potentials goes to factor [ii]. *)
Definition fg_make_factor {A} (g : fgroup A) (ii : nat) (vs : list variable) : res (factor A) :=
  match fg_type g with
  | TEnum =>
      let nc := nth 0 (shape (fg_configs g)) 0 in
      e <- EnumFactor vs true (fg_configs g) true
             (mkArr [nc] (slice (fg_log_potentials g) (ii * nc) (ii * nc + nc))) ;;
      Ok (FEnum e)
  | t => l <- LogicalFactor t vs ;; Ok (FLogical l)
  end.
Definition fg_variables_to_factors {A} (g : fgroup A)
    : res (list (list variable * factor A)) :=
  fs <- mapM (fun iv => f <- fg_make_factor g (fst iv) (snd iv) ;; Ok (snd iv, f))
             (combine (seq 0 (length (fg_vars g))) (fg_vars g)) ;;
  Ok (dict_of set_eqb fs).

(** pgmax/fgroup/fgroup.py:128-132 *)
Definition fg_factors {A} (g : fgroup A) : res (list (factor A)) :=
  d <- fg_variables_to_factors g ;; Ok (map snd d).

(** pgmax/fgroup/fgroup.py:62-80 (FactorGroup.__getitem__) *)
Definition fg_getitem {A} (g : fgroup A) (vs : list variable) : res (factor A) :=
  d <- fg_variables_to_factors g ;;
  match dget set_eqb vs d with Some f => Ok f | None => Raise ValueError end.

(** ** flatten / unflatten *)
(** [sum(variable[1] for variable in self.variables_for_factors[0])] *)
Definition fg_first_edges {A} (g : fgroup A) : nat := list_sum (map snd (nth 0 (fg_vars g) [])).

(** pgmax/fgroup/enum.py:95-129 and 301-332; logical and single groups raise
    NotImplementedError (pgmax/fgroup/fgroup.py:150-161, 243-254).
    [len(self.factors)] builds the factors. *)
Definition fg_flatten {A} (g : fgroup A) (d : ndarray A) : res (list A) :=
  match fg_kind g with
  | KEnum =>
      fs <- fg_factors g ;;
      let nf := length fs in
      let nc := nth 0 (shape (fg_configs g)) 0 in
      let ne := fg_first_edges g in
      if negb (shape_eqb (shape d) [nf; nc]) && negb (shape_eqb (shape d) [nf; ne])
         && negb (shape_eqb (shape d) [nc]) then Raise ValueError
      else if shape_eqb (shape d) [nc] then Ok (tile (data d) nf)
      else Ok (data d)
  | KPairwise n m =>
      fs <- fg_factors g ;;
      let nf := length fs in
      if negb (shape_eqb (shape d) [nf; n; m]) && negb (shape_eqb (shape d) [nf; n + m])
         && negb (shape_eqb (shape d) [n; m]) then Raise ValueError
      else if shape_eqb (shape d) [n; m] then Ok (tile (data d) nf)
      else Ok (data d)
  | _ => Raise NotImplementedError
  end.

(** pgmax/fgroup/enum.py:131-170 and 334-378 *)
Definition fg_unflatten {A} (g : fgroup A) (f : ndarray A) : res (ndarray A) :=
  match fg_kind g with
  | KEnum =>
      if negb (length (shape f) =? 1) then Raise ValueError else
      fs <- fg_factors g ;;
      let nf := length fs in
      let nc := nth 0 (shape (fg_configs g)) 0 in
      let ne := fg_first_edges g in
      if length (data f) =? nf * nc then Ok (mkArr [nf; nc] (data f))
      else if length (data f) =? nf * ne then Ok (mkArr [nf; ne] (data f))
      else Raise ValueError
  | KPairwise n m =>
      if negb (length (shape f) =? 1) then Raise ValueError else
      fs <- fg_factors g ;;
      let nf := length fs in
      if length (data f) =? nf * (n * m) then Ok (mkArr [nf; n; m] (data f))
      else if length (data f) =? nf * (n + m) then Ok (mkArr [nf; n + m] (data f))
      else Raise ValueError
  | _ => Raise NotImplementedError
  end.

(** ** Compilation *)
(** A wiring of any type. *)
Inductive wiring := WEnum (w : enum_wiring) | WLogical (w : logical_wiring).

(** pgmax/fgroup/fgroup.py:176-198 (FactorGroup.compile_wiring), for enumeration and
    logical groups. *)
Definition fg_compile_enum {A} (junk : nat -> Z) (g : fgroup A)
    (vars_to_starts : list (variable * nat)) : res enum_wiring :=
  enum_compile_wiring junk (fg_factor_edges_num_states g) (fg_vars g) (fg_configs g)
    vars_to_starts (fg_num_factors g).
Definition fg_compile_logical {A} (junk : nat -> Z) (g : fgroup A)
    (vars_to_starts : list (variable * nat)) : res logical_wiring :=
  logical_compile_wiring junk (fg_factor_edges_num_states g) (fg_vars g)
    (fg_factor_sizes g) vars_to_starts (type_offset (fg_type g)).
