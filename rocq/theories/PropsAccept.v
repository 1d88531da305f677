(** * Property C49: accepted arguments and default states. *)
From Verif Require Import FGraph BPState BP SpecVGroup SpecFactor SpecFGraph SpecAdd SpecWiring SpecState SpecAccept.
From Verif Require Import LemAccept PropsEvidence PropsState.
From Coq Require Import Lia QArith.
Local Close Scope Q_scope.
Local Open Scope nat_scope.

(** ** C49 *)
(** An NDVarArray is built exactly when it has at most 10^9 cells and [num_states] is an
    integer or an integer array of its shape; its variables are then numbered
    consecutively and have the numbers of states asked for. *)
Theorem C49_array :
  forall id ns shp, wf_ns ns ->
  ((Z.of_nat (cells shp) <= 1000000000)%Z /\ states_fit ns shp ->
     exists v, NDVarArray id ns shp = Ok v /\ va_shape v = shp /\
       va_variables v = map (fun i => (id mod 2 ^ 32 * 1000000000 + Z.of_nat i, requested ns i)%Z) (seq 0 (cells shp))) /\
  (~ ((Z.of_nat (cells shp) <= 1000000000)%Z /\ states_fit ns shp) -> NDVarArray id ns shp = Raise ValueError).
Proof. exact C49_varray_lemma. Qed.
Print Assumptions C49_array.

Theorem C49_dict :
  forall id ns names, wf_ns ns ->
  (states_fit ns [length names] ->
     exists v, VarDict id ns names = Ok v /\ vd_names v = names /\
       vd_variables v = map (fun i => (id mod 2 ^ 32 * 1000000000 + Z.of_nat i, requested ns i)%Z) (seq 0 (length names))) /\
  (~ states_fit ns [length names] -> VarDict id ns names = Raise ValueError).
Proof. exact C49_vdict_lemma. Qed.
Print Assumptions C49_dict.

(** Groups are the same key of a dictionary exactly when their ids agree modulo 2^32. *)
Theorem C49_equality :
  forall g h, vg_eqb g h = true <-> (vg_id g mod 2 ^ 32 = vg_id h mod 2 ^ 32)%Z.
Proof. exact C49_equality_lemma. Qed.
Print Assumptions C49_equality.

(** A logical factor group needs a factor; nothing else is checked. *)
Theorem C49_logical_group :
  forall (A : Type) t id vars,
  (vars = [] -> LogicalFactorGroup (A := A) t id vars = Raise ValueError) /\
  (vars <> [] -> exists g, LogicalFactorGroup (A := A) t id vars = Ok g /\
     fg_id g = id /\ fg_kind g = KLogical /\ fg_type g = t /\ fg_vars g = vars /\ fg_log_potentials g = []).
Proof. exact (fun A => @C49_logical_group_lemma A). Qed.
Print Assumptions C49_logical_group.

(** Adding an object that is no factor, no factor group and no list raises an
    UnboundLocalError; inside a list the elements before it have been added. *)
Theorem C49_add :
  forall (A : Type) (l1 l2 : list (add_arg A)) g g1,
  add_factors AOther g = (g, Raise UnboundLocalError) /\
  (add_factors (AList l1) g = (g1, Ok tt) ->
   add_factors (AList (l1 ++ AOther :: l2)) g = (g1, Raise UnboundLocalError)).
Proof. exact (fun A => @C49_add_lemma A). Qed.
Print Assumptions C49_add.

(** A graph built from a tuple of groups never compiles, whatever happened before. *)
Theorem C49_tuple :
  forall (A : Type) (ops : list (op A)) i g junk,
  no_direct_offsets ops -> distinct_ids (graphs_after ops) -> nth_error (graphs_after ops) i = Some g ->
  gr_is_list g = false ->
  compile_fg_state junk g = Raise AssertionError /\
  snd (step (world_after ops) (OFgState i junk)) = Raise AssertionError /\
  snd (step (world_after ops) (OBpState i junk)) = Raise AssertionError.
Proof. exact (fun A => @C49_tuple_lemma A). Qed.
Print Assumptions C49_tuple.

(** The state a graph starts with: the log potentials of its groups, zero messages and
    zero evidence. *)
Theorem C49_default :
  forall (A : Type) (HN : Num A) gs (g : fgraph A) junk st n,
  groups_ok gs -> reachable gs g -> compile_fg_state junk g = Ok st -> wf_groups (gr_groups g) ->
  NoDup (map fg_id (all_groups (gr_groups g))) ->
  exists bs, default_bp_state (n, st) = Ok bs /\ bs_fg_state bs = st /\
    (forall h, In h (all_groups (gr_groups g)) -> LogPotentials_getitem (bs_log_potentials bs) h = Ok (fg_log_potentials h)) /\
    (forall x, In x (all_vars gs) -> Evidence_getitem (bs_evidence bs) x = Ok (repeat n0 (snd x))) /\
    (forall e x, nth_error (all_edges (gr_groups g)) e = Some x ->
       message (all_edges (gr_groups g)) (c_value (bs_ftov_msgs bs)) e = repeat n0 (snd x)).
Proof. exact (fun A HN => @C49_default_lemma A HN). Qed.
Print Assumptions C49_default.

Example C49_array_nonvacuous :
  let ns := NsIntArray (mkArr [2; 2] [2; 3; 4; 5]) in
  wf_ns ns /\ Z.le (Z.of_nat (cells [2; 2])) 1000000000 /\ states_fit ns [2; 2] /\ ~ states_fit ns [4] /\
  NDVarArray 3 ns [2; 2] = Ok {| va_id := 3; va_shape := [2; 2]; va_num_states := [2; 3; 4; 5] |} /\
  NDVarArray 3 ns [4] = Raise ValueError /\ VarDict 3 ns [7; 8; 9; 10]%Z = Raise ValueError.
Proof. cbv zeta. repeat split; try discriminate; vm_compute; discriminate. Qed.

(** The limit is inclusive; no array of that size is computed here. *)
Example C49_limit : forall id n m, (Z.of_nat m = 1000000000)%Z ->
  (exists v, NDVarArray id (NsScalar n) [m] = Ok v) /\ NDVarArray id (NsScalar n) [S m] = Raise ValueError.
Proof.
  intros id n m Hm. split.
  - destruct (proj1 (C49_array id (NsScalar n) [m] I)) as [v [E _]]; [split; [cbn [cells]; lia|exact I]|]. now exists v.
  - apply (C49_array id (NsScalar n) [S m] I). intros [X _]. cbn [cells] in X. lia.
Qed.

Example C49_add_nonvacuous :
  exists g1, add_factors (AList [AGroup y_enum]) (FactorGraph (GsList ex_gs)) = (g1, Ok tt) /\
    gr_groups g1 = PT [y_enum] [] [] /\
    add_factors (AList [AGroup y_enum; AOther; AGroup y_or]) (FactorGraph (GsList ex_gs)) = (g1, Raise UnboundLocalError).
Proof. eexists. split; [reflexivity|]. split; reflexivity. Qed.

Example C49_tuple_nonvacuous :
  let ops := [ONew (GsTuple ex_gs); OAdd 0 (AGroup y_enum); ONew (GsList ex_gs); OFgState 1 (fun _ => 0%Z)] in
  no_direct_offsets ops /\ distinct_ids (graphs_after ops) /\
  exists g, nth_error (graphs_after ops) 0 = Some g /\ gr_is_list g = false /\ all_groups (gr_groups g) = [y_enum].
Proof.
  cbv zeta. split; [|split].
  - intros i H. cbn in H. intuition discriminate.
  - split.
    + intros g g' h h' [<-|[<-|[]]] [<-|[<-|[]]]; cbn; intuition congruence.
    + intros g g' v v' [<-|[<-|[]]] [<-|[<-|[]]]; cbn; intros Hv Hv'; intuition subst; try reflexivity; discriminate.
  - eexists. split; [reflexivity|]. split; reflexivity.
Qed.

Example C49_default_nonvacuous :
  groups_ok ex_gs /\ reachable ex_gs y_graph /\ wf_groups (gr_groups y_graph) /\
  NoDup (map fg_id (all_groups (gr_groups y_graph))) /\ length (all_edges (gr_groups y_graph)) = 8 /\
  exists st, compile_fg_state (fun _ => 0%Z) y_graph = Ok st.
Proof.
  split; [exact ex_gs_ok|]. split; [exact y_reach|]. split; [exact y_wf|]. split; [exact y_ids|]. split; [reflexivity|].
  destruct y_compiles as [st [E _]]. now exists st.
Qed.

Example C49_logical_group_nonvacuous :
  exists g, LogicalFactorGroup (A := nat) TAnd 5 [[(0%Z, 2); (1%Z, 2)]] = Ok g /\ fg_type g = TAnd /\ fg_vars g = [[(0%Z, 2); (1%Z, 2)]].
Proof. eexists. split; [reflexivity|]. split; reflexivity. Qed.
