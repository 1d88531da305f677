(** * Model of pgmax/infer/bp_state.py: log potentials, messages and evidence. *)
From Verif Require Export FGraph.
Local Open Scope nat_scope.

(** [xs.at[a:b].set(vals)]: the slice is clipped to the array; [vals] must have the
    length of the slice, or be a scalar or a length-1 vector (broadcast); anything else
    raises ValueError. *)
Definition at_slice_set {A} (xs : list A) (a b : nat) (v : ndarray A) : res (list A) :=
  let a' := Nat.min a (length xs) in
  let n := Nat.min b (length xs) - a' in
  match shape v with
  | [] => match data v with
          | x :: _ => Ok (blit a' (repeat x n) xs)
          | [] => Raise ValueError
          end
  | [k] => if k =? n then Ok (blit a' (data v) xs)
           else if k =? 1 then
             match data v with
             | x :: _ => Ok (blit a' (repeat x n) xs)
             | [] => Raise ValueError
             end
           else Raise ValueError
  | _ => Raise ValueError
  end.

(** A flat vector as an array. *)
Definition vec {A} (xs : list A) : ndarray A := mkArr [length xs] xs.

(** ** Log potentials *)
(** pgmax/infer/bp_state.py:42-78 (update_log_potentials). The dictionary of updates is
    given as the list of its items in iteration order. *)
Definition update_log_potentials_step {A} (st : fg_state A) (lp : list A)
    (u : fgroup A * ndarray A) : res (list A) :=
  let '(g, d) := u in
  match dget Z.eqb (fg_id g) (st_group_pots_starts st) with
  | None => Raise ValueError
  | Some start =>
      flat <- fg_flatten g d ;;
      if negb (length flat =? length (fg_log_potentials g)) then Raise ValueError
      else at_slice_set lp start (start + length flat) (vec flat)
  end.
Definition update_log_potentials {A} (st : fg_state A) (lp : list A)
    (updates : list (fgroup A * ndarray A)) : res (list A) :=
  foldM (update_log_potentials_step st) updates lp.

(** LogPotentials, FToVMessages and Evidence objects: the FactorGraphState object they
    refer to and their flat value. *)
Record container (A : Type) := { c_state : state_obj A; c_value : list A }.
Arguments c_state {A} c.
Arguments c_value {A} c.
Definition set_value {A} (c : container A) (v : list A) : container A :=
  {| c_state := c_state c; c_value := v |}.

(** pgmax/infer/bp_state.py:96-106 (LogPotentials.__post_init__) *)
Definition LogPotentials {A} (so : state_obj A) (value : option (ndarray A))
    : res (container A) :=
  match value with
  | None => Ok {| c_state := so; c_value := st_log_potentials (snd so) |}
  | Some v => if shape_eqb (shape v) [length (st_log_potentials (snd so))]
              then Ok {| c_state := so; c_value := data v |} else Raise ValueError
  end.
(** pgmax/infer/bp_state.py:108-125 (LogPotentials.__getitem__) *)
Definition LogPotentials_getitem {A} (c : container A) (g : fgroup A) : res (list A) :=
  match dget Z.eqb (fg_id g) (st_group_pots_starts (snd (c_state c))) with
  | Some start => Ok (slice (c_value c) start (start + length (fg_log_potentials g)))
  | None => Raise ValueError
  end.
(** pgmax/infer/bp_state.py:127-148 (LogPotentials.__setitem__) *)
Definition LogPotentials_setitem {A} (c : container A) (g : fgroup A) (d : ndarray A)
    : res (container A) :=
  v <- update_log_potentials (snd (c_state c)) (c_value c) [(g, d)] ;;
  Ok (set_value c v).

(** ** Factor-to-variable messages *)
(** [np.concatenate] of the var_states_for_edges of all types
    (pgmax/infer/bp_state.py:179-184, pgmax/infer/bp.py:87-89). *)
Definition all_var_states_for_edges (w : wirings) : list Z :=
  ew_var_states_for_edges (w_enum w) ++ lw_var_states_for_edges (w_or w)
  ++ lw_var_states_for_edges (w_and w).

(** pgmax/infer/bp_state.py:151-195 (update_ftov_msgs) *)
Definition update_ftov_msgs_step {A} `{Num A} (st : fg_state A) (msgs : list A)
    (u : variable * ndarray A) : res (list A) :=
  let '(v, d) := u in
  match dget var_eqb v (st_vars_to_starts st) with
  | None => Raise ValueError
  | Some vstart =>
      if negb (shape_eqb (shape d) [snd v]) then Raise ValueError
      else
        let starts := nonzero_eq (all_var_states_for_edges (st_wiring st)) (Z.of_nat vstart) in
        let k := nofZ (Z.of_nat (length starts)) in
        foldM (fun msgs start =>
                 at_slice_set msgs start (start + snd v)
                   (mkArr (shape d) (map (fun x => ndiv x k) (data d))))
              starts msgs
  end.
Definition update_ftov_msgs {A} `{Num A} (st : fg_state A) (msgs : list A)
    (updates : list (variable * ndarray A)) : res (list A) :=
  foldM (update_ftov_msgs_step st) updates msgs.

(** pgmax/infer/bp_state.py:212-224 (FToVMessages.__post_init__) *)
Definition FToVMessages {A} `{Num A} (so : state_obj A) (value : option (ndarray A))
    : res (container A) :=
  match value with
  | None => Ok {| c_state := so; c_value := repeat n0 (st_total_factor_num_states (snd so)) |}
  | Some v => if shape_eqb (shape v) [st_total_factor_num_states (snd so)]
              then Ok {| c_state := so; c_value := data v |} else Raise ValueError
  end.
(** pgmax/infer/bp_state.py:226-249 (FToVMessages.__setitem__) *)
Definition FToVMessages_setitem {A} `{Num A} (c : container A) (v : variable) (d : ndarray A)
    : res (container A) :=
  x <- update_ftov_msgs (snd (c_state c)) (c_value c) [(v, d)] ;; Ok (set_value c x).

(** ** Evidence *)
(** Keys of an evidence update: a variable group, a variable, or anything else. The
    test [name in fg_state.variable_groups] compares hashes; that the hash of a tuple
    could coincide with a group's hash is ignored. *)
Inductive ev_key := EGroup (g : vgroup) | EVar (v : variable) | EOther.
(** The data: structured (for groups) or an array (for variables). *)
Definition gdata_array {A} (d : gdata A) : res (ndarray A) :=
  match d with DArr a => Ok a | DMap _ => Raise TypeError end.

(** pgmax/infer/bp_state.py:252-284 (update_evidence). A group not in the graph is
    looked up in [vars_to_starts], where it is absent. *)
Definition update_evidence_step {A} (st : fg_state A) (ev : list A)
    (u : ev_key * gdata A) : res (list A) :=
  let '(k, d) := u in
  match k with
  | EGroup g =>
      if existsb (vg_eqb g) (st_variable_groups st) then
        match vg_variables g with
        | [] => Raise IndexError
        | first_variable :: _ =>
            match dget var_eqb first_variable (st_vars_to_starts st) with
            | None => Raise KeyError
            | Some start =>
                flat <- vg_flatten g d ;;
                at_slice_set ev start (start + length flat) (vec flat)
            end
        end
      else Raise ValueError
  | EVar v =>
      match dget var_eqb v (st_vars_to_starts st) with
      | None => Raise ValueError
      | Some start =>
          a <- gdata_array d ;; at_slice_set ev start (start + snd v) a
      end
  | EOther => Raise ValueError
  end.
Definition update_evidence {A} (st : fg_state A) (ev : list A)
    (updates : list (ev_key * gdata A)) : res (list A) :=
  foldM (update_evidence_step st) updates ev.

(** pgmax/infer/bp_state.py:301-311 (Evidence.__post_init__) *)
Definition Evidence {A} `{Num A} (so : state_obj A) (value : option (ndarray A))
    : res (container A) :=
  match value with
  | None => Ok {| c_state := so; c_value := repeat n0 (st_num_var_states (snd so)) |}
  | Some v => if shape_eqb (shape v) [st_num_var_states (snd so)]
              then Ok {| c_state := so; c_value := data v |} else Raise ValueError
  end.
(** pgmax/infer/bp_state.py:313-325 (Evidence.__getitem__) *)
Definition Evidence_getitem {A} (c : container A) (v : variable) : res (list A) :=
  match dget var_eqb v (st_vars_to_starts (snd (c_state c))) with
  | Some start => Ok (slice (c_value c) start (start + snd v))
  | None => Raise KeyError
  end.
(** pgmax/infer/bp_state.py:327-352 (Evidence.__setitem__) *)
Definition Evidence_setitem {A} (c : container A) (k : ev_key) (d : gdata A)
    : res (container A) :=
  x <- update_evidence (snd (c_state c)) (c_value c) [(k, d)] ;; Ok (set_value c x).

(** ** BPState *)
Record bp_state (A : Type) := {
  bs_log_potentials : container A;
  bs_ftov_msgs : container A;
  bs_evidence : container A
}.
Arguments bs_log_potentials {A} b.
Arguments bs_ftov_msgs {A} b.
Arguments bs_evidence {A} b.

(** pgmax/infer/bp_state.py:374-380 (BPState.__post_init__). FactorGraphState is a
    dataclass with eq=False: [!=] compares object identities. *)
Definition same_state {A} (c d : container A) : bool := fst (c_state c) =? fst (c_state d).
Definition BPState {A} (lp ms ev : container A) : res (bp_state A) :=
  if negb (same_state lp ms) || negb (same_state ms ev) then Raise ValueError
  else Ok {| bs_log_potentials := lp; bs_ftov_msgs := ms; bs_evidence := ev |}.
(** pgmax/infer/bp_state.py:382-384 (BPState.fg_state) *)
Definition bs_fg_state {A} (b : bp_state A) : fg_state A := snd (c_state (bs_log_potentials b)).

(** pgmax/fgraph/fgraph.py:319-331 (FactorGraph.bp_state), after [fg_state] has been
    obtained. *)
Definition default_bp_state {A} `{Num A} (so : state_obj A) : res (bp_state A) :=
  lp <- LogPotentials so None ;; ms <- FToVMessages so None ;; ev <- Evidence so None ;;
  BPState lp ms ev.
