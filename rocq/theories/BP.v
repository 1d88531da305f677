(** * Model of the message passing code: pgmax/infer/bp.py, pgmax/infer/bp_utils.py,
      pgmax/factor/enum.py:251-315, pgmax/factor/logical.py:274-438.

    Arrays that are combined elementwise are assumed to have equal lengths ([map2]
    stops at the shorter one, where JAX would raise or broadcast a length-1 array); the
    theorems establish or assume the lengths. *)
From Verif Require Export BPState.
Local Open Scope nat_scope.

Section BP.
  Context {A : Type} `{Num A}.

  Definition vadd := map2 (@nadd A _).
  Definition vsub := map2 (@nsub A _).

  (** pgmax/infer/bp_utils.py:30-40 (get_max): the window of [max_len] entries at
      [start], with positions beyond the segment replaced by NEG_INF. *)
  Definition get_max (max_len : nat) (data : list A) (start : Z) (len : nat) : A :=
    jmax (map2 (fun i x => if i <? len then x else NEG_INF)
               (seq 0 max_len) (dynamic_slice data start max_len)).

  (** pgmax/infer/bp_utils.py:11-49 (segment_max_opt). The first start index is
      [int(NEG_INF)]. *)
  Definition segment_max_opt (data : list A) (segments_lengths : list nat) (max_len : nat)
      : list A :=
    let start_indices :=
      removelast ((-100000)%Z :: map Z.of_nat (cumsum segments_lengths)) in
    let expanded_data := data ++ repeat n0 max_len in
    map2 (get_max max_len expanded_data) start_indices segments_lengths.

  (** pgmax/infer/bp.py:305-332 (normalize_and_clip_msgs) *)
  Definition normalize_and_clip_msgs (msgs : list A) (edges_num_states : list nat)
      (max_msg_size : nat) : list A :=
    let maxes := segment_max_opt msgs edges_num_states max_msg_size in
    let m1 := vsub msgs (jnp_repeat n0 maxes edges_num_states (length msgs)) in
    map (fun x => nmax (nofZ (-1000)) x) m1.

  (** pgmax/infer/bp.py:279-302 (pass_var_to_fac_messages) *)
  Definition pass_var_to_fac_messages (ftov_msgs evidence : list A)
      (var_states_for_edges : list Z) : list A :=
    let var_sums_arr := scatter nadd evidence var_states_for_edges ftov_msgs in
    vsub (gather n0 var_sums_arr var_states_for_edges) ftov_msgs.

  (** pgmax/factor/enum.py:251-315 (pass_enum_fac_to_var_messages). [jnp.exp(NEG_INF)]
      is exactly 0.0 in float32 and float64; it is modelled by 0. *)
  Definition exp_NEG_INF : A := n0.
  Definition pass_enum_fac_to_var_messages (vtof_msgs : list A)
      (factor_configs_edge_states : list (Z * Z)) (log_potentials : list A)
      (num_val_configs : nat) (temperature : A) : list A :=
    let cfg := map fst factor_configs_edge_states in
    let est := map snd factor_configs_edge_states in
    let fac_config_summary_sum :=
      vadd (scatter nadd (repeat n0 num_val_configs) cfg (gather n0 vtof_msgs est))
           log_potentials in
    let summary_of_rows := gather n0 fac_config_summary_sum cfg in
    let maxes := scatter nmax (repeat NEG_INF (length vtof_msgs)) est summary_of_rows in
    let ftov_msgs := vsub maxes vtof_msgs in
    if neqb temperature n0 then ftov_msgs
    else
      let exps := map2 (fun s m => nexp (ndiv (nsub s m) temperature))
                       summary_of_rows (gather n0 maxes est) in
      vadd ftov_msgs
        (map (fun x => nmul temperature (nln x))
             (scatter nadd (repeat exp_NEG_INF (length vtof_msgs)) est exps)).

  (** pgmax/factor/logical.py:274-303 (get_maxes_and_argmaxes). Positions are integers;
      the initial argmax is int(NEG_INF) = -100000. *)
  Definition get_maxes_and_argmaxes (data : list A) (labels : list Z) (num_labels : nat)
      : list A * list Z :=
    let num_obs := length data in
    let maxes := scatter nmax (repeat NEG_INF num_labels) labels data in
    let only_maxes_pos :=
      map2 (fun i b => (Z.of_nat i - Z.of_nat num_obs * (if negb b then 1 else 0))%Z)
           (seq 0 num_obs) (map2 neqb data (gather n0 maxes labels)) in
    let argmaxes := scatter Z.max (repeat (-100000)%Z num_labels) labels only_maxes_pos in
    (maxes, argmaxes).

  (** jax.nn.sigmoid, jax.nn.log_sigmoid *)
  Definition sigmoid (x : A) : A := ndiv n1 (nadd n1 (nexp (nopp x))).
  Definition log_sigmoid (x : A) : A := nopp (nln (nadd n1 (nexp (nopp x)))).

  (** pgmax/factor/logical.py:392-398 (g) *)
  Definition g_fun (temperature x : A) : A :=
    if neqb x n0 then n0
    else nadd x (nmul temperature (nln (nsub n1 (nexp (ndiv (nopp x) temperature))))).

  (** pgmax/factor/logical.py:352-389: max-product messages (to parents, to children). *)
  Definition logical_max_product (parents_tof_msgs children_tof_msgs : list A)
      (factor_indices : list Z) (num_factors : nat) : list A * list A :=
    let first := snd (get_maxes_and_argmaxes parents_tof_msgs factor_indices num_factors) in
    let second :=
      snd (get_maxes_and_argmaxes
             (scatter_set parents_tof_msgs first (repeat NEG_INF (length first)))
             factor_indices num_factors) in
    let pos := map (nmax n0) parents_tof_msgs in
    let sum_pos := scatter nadd (repeat n0 num_factors) factor_indices pos in
    let at_first := gather n0 parents_tof_msgs first in
    let at_second := gather n0 parents_tof_msgs second in
    let parents_msgs :=
      map2 nmin
        (vsub (vadd (gather n0 children_tof_msgs factor_indices)
                    (gather n0 sum_pos factor_indices)) pos)
        (map (fun x => nmax n0 (nopp x)) (gather n0 at_first factor_indices)) in
    let parents_msgs :=
      scatter_set parents_msgs first
        (map2 nmin
           (vsub (vadd children_tof_msgs sum_pos) (gather n0 pos first))
           (map (fun x => nmax n0 (nopp x)) at_second)) in
    let children_msgs := vadd sum_pos (map (nmin n0) at_first) in
    (parents_msgs, children_msgs).

  (** pgmax/factor/logical.py:390-420: messages at a temperature other than 0. *)
  Definition logical_sum_product (temperature : A)
      (parents_tof_msgs children_tof_msgs : list A)
      (factor_indices : list Z) (num_factors : nat) : list A * list A :=
    let ls := map (fun p => nmul (nopp temperature) (log_sigmoid (ndiv (nopp p) temperature)))
                  parents_tof_msgs in
    let sum_ls := scatter nadd (repeat n0 num_factors) factor_indices ls in
    let gs := map (g_fun temperature) (vsub (gather n0 sum_ls factor_indices) ls) in
    let parents_msgs :=
      map2 (fun g c =>
              nmul (nopp temperature)
                (nln (nadd (sigmoid (ndiv g temperature))
                           (nmul (sigmoid (ndiv (nopp g) temperature))
                                 (nexp (ndiv (nopp c) temperature))))))
           gs (gather n0 children_tof_msgs factor_indices) in
    (parents_msgs, map (g_fun temperature) sum_ls).

  (** pgmax/factor/logical.py:306-438 (pass_logical_fac_to_var_messages) *)
  Definition pass_logical_fac_to_var_messages (vtof_msgs : list A)
      (parents_edge_states : list (Z * Z)) (children_edge_states : list Z)
      (edge_states_offset : Z) (temperature : A) : list A :=
    let num_factors := length children_edge_states in
    let factor_indices := map fst parents_edge_states in
    let pst := map snd parents_edge_states in
    let pst_other := map (fun i => (i + edge_states_offset)%Z) pst in
    let cst_other := map (fun i => (i + edge_states_offset)%Z) children_edge_states in
    let parents_tof_msgs := vsub (gather n0 vtof_msgs pst_other) (gather n0 vtof_msgs pst) in
    let children_tof_msgs :=
      vsub (gather n0 vtof_msgs cst_other) (gather n0 vtof_msgs children_edge_states) in
    let pc :=
      if neqb temperature n0
      then logical_max_product parents_tof_msgs children_tof_msgs factor_indices num_factors
      else logical_sum_product temperature parents_tof_msgs children_tof_msgs
             factor_indices num_factors in
    let parents_msgs := fst pc in
    let children_msgs := snd pc in
    (** Special case: factors with a single parent (logical.py:422-429) *)
    let num_parents := bincount factor_indices num_factors in
    let first_elements := map Z.of_nat (starts num_parents) in
    let parents_msgs :=
      scatter_set parents_msgs first_elements
        (map2 (fun n cp => if n =? 1 then fst cp else snd cp)
           num_parents (combine children_tof_msgs (gather n0 parents_msgs first_elements))) in
    let ftov_msgs := repeat n0 (length vtof_msgs) in
    let ftov_msgs := scatter_set ftov_msgs pst_other parents_msgs in
    scatter_set ftov_msgs cst_other children_msgs.

  (** ** The functions returned by BP(bp_state, temperature) *)
  (** pgmax/infer/bp.py:81-106: what the closures capture. *)
  Record bp_ctx := {
    bc_state : bp_state A;
    bc_temperature : A;
    bc_edges_num_states : list nat;
    bc_max_msg_size : nat;
    bc_var_states_for_edges : list Z
  }.
  Definition all_edges_num_states (w : wirings) : list nat :=
    ew_edges_num_states (w_enum w) ++ lw_edges_num_states (w_or w)
    ++ lw_edges_num_states (w_and w).
  (** pgmax/infer/bp.py:70-106 (BP). [np.max] of an empty array raises ValueError. *)
  Definition BP (bs : bp_state A) (temperature : A) : res bp_ctx :=
    let w := st_wiring (bs_fg_state bs) in
    let ens := all_edges_num_states w in
    match ens with
    | [] => Raise ValueError
    | _ => Ok {| bc_state := bs; bc_temperature := temperature;
                 bc_edges_num_states := ens; bc_max_msg_size := nat_max ens;
                 bc_var_states_for_edges := all_var_states_for_edges w |}
    end.

  (** pgmax/infer/bp_state.py:14-39 (BPArrays) *)
  Record bp_arrays := {
    ba_log_potentials : list A;
    ba_ftov_msgs : list A;
    ba_evidence : list A
  }.

  (** pgmax/infer/bp.py:108-151 (update) *)
  Definition bp_update (c : bp_ctx) (arrs : option bp_arrays)
      (lp_up : option (list (fgroup A * ndarray A)))
      (ms_up : option (list (variable * ndarray A)))
      (ev_up : option (list (ev_key * gdata A))) : res bp_arrays :=
    let st := bs_fg_state (bc_state c) in
    let a := match arrs with
             | Some a => a
             | None => {| ba_log_potentials := c_value (bs_log_potentials (bc_state c));
                          ba_ftov_msgs := c_value (bs_ftov_msgs (bc_state c));
                          ba_evidence := c_value (bs_evidence (bc_state c)) |}
             end in
    lp <- match lp_up with
          | Some u => update_log_potentials st (ba_log_potentials a) u
          | None => Ok (ba_log_potentials a) end ;;
    ms <- match ms_up with
          | Some u => update_ftov_msgs st (ba_ftov_msgs a) u
          | None => Ok (ba_ftov_msgs a) end ;;
    ev <- match ev_up with
          | Some u => update_evidence st (ba_evidence a) u
          | None => Ok (ba_evidence a) end ;;
    Ok {| ba_log_potentials := lp; ba_ftov_msgs := ms; ba_evidence := ev |}.
  (** pgmax/infer/bp.py:270: [init = functools.partial(update, None)]. *)
  Definition bp_init (c : bp_ctx) := bp_update c None.

  (** One iteration's factor-to-variable messages, pgmax/infer/bp.py:177-195. *)
  Definition pass_fac_to_var_messages (st : fg_state A) (temperature : A)
      (log_potentials vtof_msgs : list A) : list A :=
    let w := st_wiring st in
    let seg (r : nat * nat) := slice vtof_msgs (fst r) (snd r) in
    let out := repeat n0 (length vtof_msgs) in
    let re := pt_enum (st_msgs_range st) in
    let pe := pt_enum (st_pots_range st) in
    let out := blit (fst re)
                 (pass_enum_fac_to_var_messages (seg re)
                    (ew_factor_configs_edge_states (w_enum w))
                    (slice log_potentials (fst pe) (snd pe))
                    (ew_num_val_configs (w_enum w)) temperature) out in
    let ro := pt_or (st_msgs_range st) in
    let out := blit (fst ro)
                 (pass_logical_fac_to_var_messages (seg ro)
                    (lw_parents_edge_states (w_or w)) (lw_children_edge_states (w_or w))
                    (lw_edge_states_offset (w_or w)) temperature) out in
    let ra := pt_and (st_msgs_range st) in
    blit (fst ra)
      (pass_logical_fac_to_var_messages (seg ra)
         (lw_parents_edge_states (w_and w)) (lw_children_edge_states (w_and w))
         (lw_edge_states_offset (w_and w)) temperature) out.

  (** pgmax/infer/bp.py:175-203 (the scanned update). *)
  Definition bp_step (c : bp_ctx) (log_potentials evidence : list A) (damping : A)
      (msgs : list A) : list A :=
    let vtof := pass_var_to_fac_messages msgs evidence (bc_var_states_for_edges c) in
    let ftov := pass_fac_to_var_messages (bs_fg_state (bc_state c)) (bc_temperature c)
                  log_potentials vtof in
    let delta := vsub ftov msgs in
    let msgs' := vadd msgs (map (nmul (nsub n1 damping)) delta) in
    normalize_and_clip_msgs msgs' (bc_edges_num_states c) (bc_max_msg_size c).

  (** pgmax/infer/bp.py:153-209 (run_bp); [jax.lax.scan] over [num_iters] steps. *)
  Definition run_bp (c : bp_ctx) (a : bp_arrays) (num_iters : nat) (damping : A) : bp_arrays :=
    let m0 := normalize_and_clip_msgs (ba_ftov_msgs a) (bc_edges_num_states c)
                (bc_max_msg_size c) in
    {| ba_log_potentials := ba_log_potentials a;
       ba_ftov_msgs :=
         Nat.iter num_iters (bp_step c (ba_log_potentials a) (ba_evidence a) damping) m0;
       ba_evidence := ba_evidence a |}.

  (** pgmax/infer/bp.py:211-229 (to_bp_state). The flat arrays of a BPArrays are
      vectors. *)
  Definition to_bp_state (c : bp_ctx) (a : bp_arrays) : res (bp_state A) :=
    let so := c_state (bs_log_potentials (bc_state c)) in
    lp <- LogPotentials so (Some (vec (ba_log_potentials a))) ;;
    ms <- FToVMessages so (Some (vec (ba_ftov_msgs a))) ;;
    ev <- Evidence so (Some (vec (ba_evidence a))) ;;
    BPState lp ms ev.

  (** ** Beliefs *)
  (** Numbers extended with -inf, for the padding of beliefs. *)
  Inductive ext := NInf | Fin (x : A).

  (** [xs[start : start+n]] as a vector. *)
  Definition beliefs_step (flat : list ext)
      (st : res (nat * list (vgroup * gdata ext))) (g : vgroup)
      : res (nat * list (vgroup * gdata ext)) :=
    s <- st ;;
    let n := list_sum (vg_num_states g) in
    d <- vg_unflatten NInf g (vec (slice flat (fst s) (fst s + n))) ;;
    Ok (fst s + n, dset vg_eqb g d (snd s)).
  (** pgmax/infer/bp.py:231-249 (unflatten_beliefs) *)
  Definition unflatten_beliefs (flat : list ext) (gs : list vgroup)
      : res (list (vgroup * gdata ext)) :=
    r <- fold_left (beliefs_step flat) gs (Ok (0, [])) ;; Ok (snd r).
  (** pgmax/infer/bp.py:251-267 (get_beliefs). The returned dictionary passes through
      jax.jit, which may reorder its keys. *)
  Definition flat_beliefs (c : bp_ctx) (a : bp_arrays) : list A :=
    scatter nadd (ba_evidence a) (bc_var_states_for_edges c) (ba_ftov_msgs a).
  Definition get_beliefs (c : bp_ctx) (a : bp_arrays) : res (list (vgroup * gdata ext)) :=
    unflatten_beliefs (map Fin (flat_beliefs c a))
      (st_variable_groups (bs_fg_state (bc_state c))).

  (** *** MAP states *)
  Definition ext_ltb (x y : ext) : bool :=
    match x, y with
    | NInf, NInf => false
    | NInf, Fin _ => true
    | Fin _, NInf => false
    | Fin a, Fin b => nltb a b
    end.
  (** [jnp.argmax]: first position of the maximum. *)
  Fixpoint argmax_from (best : ext) (besti i : nat) (xs : list ext) : nat :=
    match xs with
    | [] => besti
    | x :: r => if ext_ltb best x then argmax_from x i (S i) r
                else argmax_from best besti (S i) r
    end.
  Definition argmax (xs : list ext) : nat :=
    match xs with [] => 0 | x :: r => argmax_from x 0 1 r end.
  (** Apply a function to the vectors along the last axis; a 0-dimensional array or an
      empty last axis raises ValueError. *)
  Definition along_last {B} (f : list ext -> B) (a : ndarray ext) : res (ndarray B) :=
    match rev (shape a) with
    | [] => Raise ValueError
    | 0 :: _ => Raise ValueError
    | m :: r => Ok (mkArr (rev r) (map f (rows (prod (rev r)) m (data a))))
    end.
  (** [jax.tree_util.tree_map] over a dictionary of beliefs. *)
  Definition map_gdata {B} (f : ndarray ext -> res (ndarray B)) (d : gdata ext)
      : res (gdata B) :=
    match d with
    | DArr a => x <- f a ;; Ok (DArr x)
    | DMap m => x <- mapM (fun kv => y <- f (snd kv) ;; Ok (fst kv, y)) m ;; Ok (DMap x)
    end.
  Definition map_beliefs {B} (f : ndarray ext -> res (ndarray B))
      (b : list (vgroup * gdata ext)) : res (list (vgroup * gdata B)) :=
    mapM (fun kv => y <- map_gdata f (snd kv) ;; Ok (fst kv, y)) b.
  (** pgmax/infer/bp.py:335-345 (decode_map_states) *)
  Definition decode_map_states (b : list (vgroup * gdata ext)) : res (list (vgroup * gdata nat)) :=
    map_beliefs (along_last argmax) b.

  (** *** Marginals *)
  Definition ext_max (x y : ext) : ext := if ext_ltb x y then y else x.
  Definition ext_exp_sub (x : ext) (m : A) : A :=
    match x with NInf => n0 | Fin a => nexp (nsub a m) end.
  (** jax.scipy.special.logsumexp along a vector with at least one finite entry:
      [log(sum(exp(x - max))) + max]. A vector of only -inf (NaN in JAX) gives 0. *)
  Definition logsumexp (xs : list ext) : A :=
    match fold_left ext_max xs NInf with
    | NInf => n0
    | Fin m => nadd (nln (nsum (map (fun x => ext_exp_sub x m) xs))) m
    end.
  (** pgmax/infer/bp.py:348-360 (get_marginals): same shape as the beliefs. *)
  Definition marginals_row (xs : list ext) : list A :=
    let l := logsumexp xs in map (fun x => ext_exp_sub x l) xs.
  Definition marginals_array (a : ndarray ext) : res (ndarray A) :=
    r <- along_last marginals_row a ;; Ok (mkArr (shape a) (concat (data r))).
  Definition get_marginals (b : list (vgroup * gdata ext)) : res (list (vgroup * gdata A)) :=
    map_beliefs marginals_array b.
End BP.
Arguments ext : clear implicits.
Arguments bp_ctx : clear implicits.
Arguments bp_arrays : clear implicits.
