(** * The same program run twice, with objects at other addresses. *)
From Verif Require Import NumPy FGraph BPState BP SpecFGraph SpecWiring.
Local Open Scope nat_scope.

(** Variable groups that were constructed with the same arguments. Their ids, from which
    the hashes of the variables are derived, may differ. *)
Definition same_group (v v' : vgroup) : Prop :=
  match v, v' with
  | VA a, VA b => va_shape a = va_shape b /\ va_num_states a = va_num_states b
  | VD a, VD b => vd_names a = vd_names b /\ vd_num_states a = vd_num_states b
  | _, _ => False
  end.

Section Ids.
  Context {A : Type}.
  (** The variable groups of the two runs. *)
  Variables vgs vgs' : list vgroup.

  (** The variable at the same place. *)
  Definition same_var (x x' : variable) : Prop :=
    exists k, nth_error (all_vars vgs) k = Some x /\ nth_error (all_vars vgs') k = Some x'.

  Definition same_fgroup (h h' : fgroup A) : Prop :=
    fg_kind h = fg_kind h' /\ fg_type h = fg_type h' /\ fg_configs h = fg_configs h' /\
    fg_log_potentials h = fg_log_potentials h' /\ Forall2 (Forall2 same_var) (fg_vars h) (fg_vars h').
  Definition same_factor (f f' : factor A) : Prop :=
    match f, f' with
    | FEnum e, FEnum e' => Forall2 same_var (ef_variables e) (ef_variables e') /\
        ef_configs e = ef_configs e' /\ ef_log_potentials e = ef_log_potentials e'
    | FLogical l, FLogical l' => lf_type l = lf_type l' /\ Forall2 same_var (lf_variables l) (lf_variables l')
    | _, _ => False
    end.
  Inductive same_arg : add_arg A -> add_arg A -> Prop :=
  | sa_factor id id' f f' : same_factor f f' -> same_arg (AFactor id f) (AFactor id' f')
  | sa_group h h' : same_fgroup h h' -> same_arg (AGroup h) (AGroup h')
  | sa_nil : same_arg (AList []) (AList [])
  | sa_cons a a' l l' : same_arg a a' -> same_arg (AList l) (AList l') -> same_arg (AList (a :: l)) (AList (a' :: l'))
  | sa_other : same_arg AOther AOther.

  (** The graphs of two runs of the same program: the constructor followed by any calls of
      add_factors, failing or not. *)
  Inductive same_built : fgraph A -> fgraph A -> Prop :=
  | sb_one v v' : vgs = [v] -> vgs' = [v'] -> same_built (FactorGraph (GOne v)) (FactorGraph (GOne v'))
  | sb_list : same_built (FactorGraph (GsList vgs)) (FactorGraph (GsList vgs'))
  | sb_tuple : same_built (FactorGraph (GsTuple vgs)) (FactorGraph (GsTuple vgs'))
  | sb_add g g' a a' : same_built g g' -> same_arg a a' -> same_built (fst (add_factors a g)) (fst (add_factors a' g')).

  (** Keys of evidence updates. *)
  Definition same_key (k k' : ev_key) : Prop :=
    match k, k' with
    | EGroup v, EGroup v' => exists i, nth_error vgs i = Some v /\ nth_error vgs' i = Some v'
    | EVar x, EVar x' => same_var x x'
    | EOther, EOther => True
    | _, _ => False
    end.
  Definition same_item {K D} (S : K -> K -> Prop) (u u' : K * D) : Prop := S (fst u) (fst u') /\ snd u = snd u'.
End Ids.

(** The factor group at the same place in two graphs. *)
Definition same_place {A} (g g' : fgraph A) (h h' : fgroup A) : Prop :=
  exists i, nth_error (all_groups (gr_groups g)) i = Some h /\ nth_error (all_groups (gr_groups g')) i = Some h'.

(** Both calls succeed, or both raise the same kind of error. *)
Definition both {X X'} (P : X -> X' -> Prop) (r : res X) (r' : res X') : Prop :=
  match r, r' with Ok x, Ok x' => P x x' | Raise e, Raise e' => e = e' | _, _ => False end.

(** What belief propagation uses of a compiled graph. *)
Definition same_compiled {A} (st st' : fg_state A) : Prop :=
  Forall2 same_group (st_variable_groups st) (st_variable_groups st') /\
  st_num_var_states st = st_num_var_states st' /\
  st_total_factor_num_states st = st_total_factor_num_states st' /\
  st_msgs_range st = st_msgs_range st' /\ st_pots_range st = st_pots_range st' /\
  st_log_potentials st = st_log_potentials st' /\ st_wiring st = st_wiring st'.

(** A whole use of a graph: compile it, take the default state, write updates, run, and
    read the beliefs, the MAP states and the marginals of the groups in order. *)
Definition outcome {A} `{Num A} (junk : nat -> Z) (g : fgraph A) (T : A)
    (lu : list (fgroup A * ndarray A)) (mu : list (variable * ndarray A)) (eu : list (ev_key * gdata A))
    (n : nat) (d : A) : res (list (gdata (ext A)) * list (gdata nat) * list (gdata A)) :=
  st <- compile_fg_state junk g ;; bs <- default_bp_state (0, st) ;; c <- BP bs T ;;
  a <- bp_init c (Some lu) (Some mu) (Some eu) ;;
  b <- get_beliefs c (run_bp c a n d) ;;
  m <- decode_map_states b ;; p <- get_marginals b ;;
  Ok (map snd b, map snd m, map snd p).
