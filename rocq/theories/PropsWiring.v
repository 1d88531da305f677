(** * Properties C11 (groups), C18, C20-C22: offsets and compiled wirings. *)
From Verif Require Import FGraph Lists SpecVGroup SpecFactor SpecFGraph SpecAdd SpecWiring LemWiring LemGraph.
From Coq Require Import Lia QArith.
Local Close Scope Q_scope.
Local Open Scope nat_scope.

(** Variables of the examples: binary [xa xb xc], ternary [xt]. *)
Definition xa : variable := (10%Z, 2).
Definition xb : variable := (11%Z, 2).
Definition xc : variable := (12%Z, 2).
Definition xt : variable := (13%Z, 3).
Definition x_starts : list (variable * nat) := [(xa, 0); (xb, 2); (xc, 4); (xt, 6)].

(** ** C11: the group constructors do not check the variables *)
Theorem C11_group_unchecked :
  forall (A : Type) junk t id vars starts,
  vars <> [] -> known starts (concat vars) -> (forall vs, In vs vars -> 2 <= length vs) ->
  exists (g : fgroup A) w, LogicalFactorGroup t id vars = Ok g /\ fg_compile_logical junk g starts = Ok w /\
    lw_edges_num_states w = map snd (concat vars) /\
    length (lw_var_states_for_edges w) = 2 * length (concat vars).
Proof. exact (fun A => @C11_accept_lemma A). Qed.
Print Assumptions C11_group_unchecked.

(** The two sizes disagree as soon as one variable has three states. *)
Example C11_group_mismatch : forall junk,
  exists (g : fgroup Q) w, LogicalFactorGroup TOr 1 [[xa; xt]] = Ok g /\ fg_compile_logical junk g x_starts = Ok w /\
    list_sum (lw_edges_num_states w) = 5 /\ length (lw_var_states_for_edges w) = 4.
Proof.
  intros junk. destruct (C11_group_unchecked Q junk TOr 1 [[xa; xt]] x_starts) as [g [w [H1 [H2 [H3 H4]]]]].
  - discriminate.
  - intros x [<-|[<-|[]]]; [now exists 0|now exists 6].
  - intros vs [<-|[]]. simpl. lia.
  - exists g, w. rewrite H3, H4. auto.
Qed.

(** ** C18: ranges *)
Theorem C18_ranges :
  forall (A : Type) (groups : per_type (list (fgroup A))),
  let o := compute_offsets groups in
  (forall t, pt_get t (of_msgs_range o) =
     (type_start group_states t groups, type_start group_states t groups + total group_states (pt_get t groups))) /\
  (forall t, pt_get t (of_pots_range o) =
     (type_start group_pots t groups, type_start group_pots t groups + total group_pots (pt_get t groups))) /\
  of_total_states o = total group_states (all_groups groups) /\
  of_total_configs o = total group_pots (all_groups groups) /\
  (NoDup (map fg_id (all_groups groups)) -> forall i g, nth_error (all_groups groups) i = Some g ->
     dget Z.eqb (fg_id g) (of_group_msgs_starts o) = Some (total group_states (firstn i (all_groups groups))) /\
     dget Z.eqb (fg_id g) (of_group_pots_starts o) = Some (total group_pots (firstn i (all_groups groups)))) /\
  (forall k, ~ In k (map fg_id (all_groups groups)) ->
     dget Z.eqb k (of_group_msgs_starts o) = None /\ dget Z.eqb k (of_group_pots_starts o) = None).
Proof. exact (fun A => @compute_offsets_spec A). Qed.
Print Assumptions C18_ranges.

(** Every group owns a block inside its type's range, blocks of different groups are
    disjoint, and the block of potentials holds the group's potentials. *)
Theorem C18_blocks :
  forall (A : Type) (groups : per_type (list (fgroup A))),
  NoDup (map fg_id (all_groups groups)) ->
  let o := compute_offsets groups in
  (forall t g, In g (pt_get t groups) -> exists m p,
     dget Z.eqb (fg_id g) (of_group_msgs_starts o) = Some m /\
     dget Z.eqb (fg_id g) (of_group_pots_starts o) = Some p /\
     fst (pt_get t (of_msgs_range o)) <= m /\ m + group_states g <= snd (pt_get t (of_msgs_range o)) /\
     fst (pt_get t (of_pots_range o)) <= p /\ p + group_pots g <= snd (pt_get t (of_pots_range o)) /\
     slice (concat (pt_values (compile_log_potentials groups))) p (p + group_pots g) = fg_log_potentials g) /\
  (forall g g' m m' p p', In g (all_groups groups) -> In g' (all_groups groups) -> g <> g' ->
     dget Z.eqb (fg_id g) (of_group_msgs_starts o) = Some m -> dget Z.eqb (fg_id g') (of_group_msgs_starts o) = Some m' ->
     dget Z.eqb (fg_id g) (of_group_pots_starts o) = Some p -> dget Z.eqb (fg_id g') (of_group_pots_starts o) = Some p' ->
     (m + group_states g <= m' \/ m' + group_states g' <= m) /\
     (p + group_pots g <= p' \/ p' + group_pots g' <= p)).
Proof. exact (fun A => @C18_blocks_lemma A). Qed.
Print Assumptions C18_blocks.

(** In a graph built by add_factors no group occurs twice, so identities are distinct
    whenever different group objects have different identities. *)
Theorem C18_ids :
  forall (A : Type) vgs (g : fgraph A), reachable vgs g ->
  (forall h, In h (all_groups (gr_groups g)) -> fg_vars h <> []) ->
  (forall h h', In h (all_groups (gr_groups g)) -> In h' (all_groups (gr_groups g)) -> fg_id h = fg_id h' -> h = h') ->
  NoDup (map fg_id (all_groups (gr_groups g))).
Proof. exact (fun A => @reachable_ids A). Qed.
Print Assumptions C18_ids.

(** The ranges fit the compiled wirings and the flat potentials. *)
Theorem C18_sizes :
  forall (A : Type) junk (g : fgraph A) s,
  wf_groups (gr_groups g) -> compile_fg_state junk g = Ok s ->
  let size r := snd r - fst r in
  let w := st_wiring s in
  let msgs t := size (pt_get t (st_msgs_range s)) in
  let pots t := size (pt_get t (st_pots_range s)) in
  (list_sum (ew_edges_num_states (w_enum w)) = msgs TEnum /\ length (ew_var_states_for_edges (w_enum w)) = msgs TEnum) /\
  (list_sum (lw_edges_num_states (w_or w)) = msgs TOr /\ length (lw_var_states_for_edges (w_or w)) = msgs TOr) /\
  (list_sum (lw_edges_num_states (w_and w)) = msgs TAnd /\ length (lw_var_states_for_edges (w_and w)) = msgs TAnd) /\
  st_total_factor_num_states s = msgs TEnum + msgs TOr + msgs TAnd /\
  ew_num_val_configs (w_enum w) = pots TEnum /\
  length (st_log_potentials s) = pots TEnum + pots TOr + pots TAnd /\
  (forall t, slice (st_log_potentials s) (fst (pt_get t (st_pots_range s))) (snd (pt_get t (st_pots_range s)))
             = concat (map fg_log_potentials (pt_get t (gr_groups g)))).
Proof. exact (fun A => @C18_state_lemma A). Qed.
Print Assumptions C18_sizes.

(** A graph with two enumeration groups, one OR group and one AND group. *)
Definition x_enum1 : fgroup Z :=
  {| fg_id := 1; fg_kind := KEnum; fg_type := TEnum; fg_vars := [[xa; xt]; [xb; xt]];
     fg_configs := mkArr [3; 2] [0; 0; 1; 1; 1; 2]%Z; fg_log_potentials := [5; 6; 7; 8; 9; 10]%Z |}.
Definition x_enum2 : fgroup Z :=
  {| fg_id := 2; fg_kind := KEnum; fg_type := TEnum; fg_vars := [[xc]];
     fg_configs := mkArr [2; 1] [0; 1]%Z; fg_log_potentials := [11; 12]%Z |}.
Definition x_or : fgroup Z :=
  {| fg_id := 3; fg_kind := KLogical; fg_type := TOr; fg_vars := [[xa; xb; xc]];
     fg_configs := mkArr [] []; fg_log_potentials := [] |}.
Definition x_or2 : fgroup Z :=
  {| fg_id := 4; fg_kind := KLogical; fg_type := TOr; fg_vars := [[xa; xb]; [xb; xc]];
     fg_configs := mkArr [] []; fg_log_potentials := [] |}.
Definition x_and : fgroup Z :=
  {| fg_id := 5; fg_kind := KLogical; fg_type := TAnd; fg_vars := [[xa; xb; xc]; [xb; xc]];
     fg_configs := mkArr [] []; fg_log_potentials := [] |}.
Definition x_groups : per_type (list (fgroup Z)) := PT [x_enum1; x_enum2] [x_or; x_or2] [x_and].

Lemma x_wf : wf_groups x_groups.
Proof.
  assert (HL : forall vs, In vs [[xa; xt]; [xb; xt]] -> legal_configs vs (fg_configs x_enum1) 3).
  { intros vs Hvs. split; [destruct Hvs as [<-|[<-|[]]]; reflexivity|].
    intros r u x Hr Hu.
    assert (Hu2 : u < 2) by (assert (E : length vs = 2) by (destruct Hvs as [<-|[<-|[]]]; reflexivity); rewrite <- E; apply nth_error_Some; congruence).
    destruct Hvs as [<-|[<-|[]]]; destruct r as [|[|[|]]]; try lia; destruct u as [|[|]]; try lia; injection Hu as <-; vm_compute; split; congruence. }
  assert (HL2 : forall vs, In vs [[xc]] -> legal_configs vs (fg_configs x_enum2) 2).
  { intros vs [<-|[]]. split; [reflexivity|]. intros [|[|]] [|[|]] x Hr Hu; try lia; try discriminate; injection Hu as <-; vm_compute; split; congruence. }
  intros t g Hg. destruct t; cbn in Hg; destruct Hg as [<-|Hg].
  - split; [reflexivity|]. split; [|discriminate]. exists 3. split; [reflexivity|exact HL].
  - destruct Hg as [<-|[]]. split; [reflexivity|]. split; [|discriminate]. exists 2. split; [reflexivity|exact HL2].
  - split; [reflexivity|]. split; [|discriminate]. intros vs [<-|[]]. split; [simpl; lia|]. intros x [<-|[<-|[<-|[]]]]; reflexivity.
  - destruct Hg as [<-|[]]. split; [reflexivity|]. split; [|discriminate].
    intros vs [<-|[<-|[]]]; (split; [simpl; lia|]); intros x [<-|[<-|[]]]; reflexivity.
  - split; [reflexivity|]. split; [|discriminate].
    intros vs [<-|[<-|[]]]; (split; [simpl; lia|]); [intros x [<-|[<-|[<-|[]]]]|intros x [<-|[<-|[]]]]; reflexivity.
  - destruct Hg.
Qed.
Lemma x_known : known_groups x_starts x_groups.
Proof.
  intros g Hg x Hx.
  assert (H : forall y, In y [xa; xb; xc; xt] -> exists s, dget var_eqb y x_starts = Some s).
  { intros y [<-|[<-|[<-|[<-|[]]]]]; eexists; reflexivity. }
  apply H. cbn in Hg. repeat (destruct Hg as [<-|Hg]; [cbn in Hx; cbn; tauto|]). destruct Hg.
Qed.
Example C18_nonvacuous :
  wf_groups x_groups /\ NoDup (map fg_id (all_groups x_groups)) /\
  of_msgs_range (compute_offsets x_groups) = PT (0, 12) (12, 26) (26, 36) /\
  of_pots_range (compute_offsets x_groups) = PT (0, 8) (8, 8) (8, 8) /\
  of_group_msgs_starts (compute_offsets x_groups) = [(1%Z, 0); (2%Z, 10); (3%Z, 12); (4%Z, 18); (5%Z, 26)] /\
  of_group_pots_starts (compute_offsets x_groups) = [(1%Z, 0); (2%Z, 6); (3%Z, 8); (4%Z, 8); (5%Z, 8)].
Proof.
  split; [exact x_wf|]. split; [|repeat split; reflexivity].
  cbn. repeat constructor; cbn; intros H; repeat (destruct H as [H|H]; [discriminate|]); exact H.
Qed.

(** ** C20: enumeration wirings *)
(** [ew_ideal] lists the rows of all factors as [(number of the configuration, start of the
    edge + state)] (see [sf_row]) whatever the grouping and whatever the contents of
    uninitialised memory. *)
Theorem C20_enum_wiring :
  forall (A : Type) junk starts (gs : list (fgroup A)),
  Forall arity_ok gs ->
  (known starts (concat (concat (map fg_vars gs))) -> Forall has_rows gs ->
     compile_all_enum junk starts gs = Ok (ew_ideal starts (flat_map group_factors gs))) /\
  (known starts (concat (concat (map fg_vars gs))) -> ~ Forall has_rows gs ->
     compile_all_enum junk starts gs = Raise IndexError) /\
  (~ known starts (concat (concat (map fg_vars gs))) -> compile_all_enum junk starts gs = Raise KeyError).
Proof. exact (fun A => @enum_wirings_spec A). Qed.
Print Assumptions C20_enum_wiring.

(** Entry of the var-states array: state [s] of edge [e] is state [s] of the edge's variable. *)
Theorem C20_var_states :
  forall starts es e s x, nth_error es e = Some x -> s < snd x ->
  nth (edge_start es e + s) (edge_var_states starts es) (-1)%Z = Z.of_nat (start_of starts x + s).
Proof. exact C20_var_states_lemma. Qed.
Print Assumptions C20_var_states.

(** The number of configurations stored in the wiring. *)
Theorem C20_num_configs :
  forall (A : Type) starts (fs : list (sfactor A)), last_ok fs ->
  ew_num_val_configs (ew_ideal starts fs) = list_sum (map (fun F => length (sf_configs F)) fs).
Proof. exact (fun A => @num_val_configs_ideal A). Qed.
Print Assumptions C20_num_configs.

(** Uninitialised memory is never read, for any graph whatsoever. *)
Theorem C20_no_junk :
  forall (A : Type) j1 j2 starts (groups : per_type (list (fgroup A))),
  compile_wirings j1 starts groups = compile_wirings j2 starts groups.
Proof. exact (fun A => @compile_wirings_junk A). Qed.
Print Assumptions C20_no_junk.

(** Without the arity condition: only the total number of variables is checked, and the
    edges are taken by position. *)
Theorem C20_only_total_checked :
  forall (A : Type) junk (g : fgroup A) starts nc k,
  shape (fg_configs g) = [nc; k] -> known starts (concat (fg_vars g)) ->
  (length (concat (fg_vars g)) = length (fg_vars g) * k ->
     fg_compile_enum junk g starts = Ok {| ew_edges_num_states := map snd (concat (fg_vars g));
       ew_var_states_for_edges := edge_var_states starts (concat (fg_vars g));
       ew_factor_configs_edge_states := rows_by_position g nc k |}) /\
  (length (concat (fg_vars g)) <> length (fg_vars g) * k -> fg_compile_enum junk g starts = Raise ValueError).
Proof. exact (fun A => @fg_compile_enum_raw A). Qed.
Print Assumptions C20_only_total_checked.

(** Configurations that are not a matrix cannot be unpacked. *)
Theorem C20_dimensions :
  forall (A : Type) junk (g : fgroup A) starts,
  known starts (concat (fg_vars g)) -> length (shape (fg_configs g)) <> 2 -> fg_compile_enum junk g starts = Raise ValueError.
Proof. exact (fun A => @fg_compile_enum_dims A). Qed.
Print Assumptions C20_dimensions.
(** Such a group is built without complaint. *)
Example C20_dimensions_nonvacuous :
  exists g : fgroup Q, EnumFactorGroup 9 [[xa]] (mkArr [2] [0; 1]%Z) None = Ok g /\
    known x_starts (concat (fg_vars g)) /\ fg_compile_enum (fun _ => 77%Z) g x_starts = Raise ValueError.
Proof. eexists. split; [reflexivity|]. split; [|reflexivity]. intros x [<-|[]]. eexists. vm_compute. reflexivity. Qed.

Example C20_nonvacuous :
  Forall arity_ok [x_enum1; x_enum2] /\ Forall has_rows [x_enum1; x_enum2] /\
  compile_all_enum (fun _ => 77%Z) x_starts [x_enum1; x_enum2]
  = Ok {| ew_edges_num_states := [2; 3; 2; 3; 2];
          ew_var_states_for_edges := [0; 1; 6; 7; 8; 2; 3; 6; 7; 8; 4; 5]%Z;
          ew_factor_configs_edge_states :=
            [(0, 0); (0, 2); (1, 1); (1, 3); (2, 1); (2, 4);
             (3, 5); (3, 7); (4, 6); (4, 8); (5, 6); (5, 9); (6, 10); (7, 11)]%Z |}.
Proof.
  split; [apply (wf_enum x_groups x_wf)|]. split; [|reflexivity].
  constructor; [|constructor; [|constructor]]; (split; [discriminate|]); cbn; lia.
Qed.

(** A group whose two factors have one and three variables is accepted with two-column
    configurations: the second variable of "factor 0" is the first variable of factor 1. *)
Example C20_misaligned_accepted :
  exists g : fgroup Q,
    EnumFactorGroup 9 [[xa]; [xb; xc; xt]] (mkArr [1; 2] [0; 1]%Z) None = Ok g /\
    compile_all_enum (fun _ => 77%Z) x_starts [g]
    = Ok {| ew_edges_num_states := [2; 2; 2; 3];
            ew_var_states_for_edges := [0; 1; 2; 3; 4; 5; 6; 7; 8]%Z;
            ew_factor_configs_edge_states := [(0, 0); (0, 3); (1, 4); (1, 7)]%Z |}.
Proof. eexists. split; reflexivity. Qed.

(** ** C21: logical wirings *)
Theorem C21_logical_wiring :
  forall (A : Type) junk starts t (gs : list (fgroup A)),
  (forall g, In g gs -> fg_type g = t /\ fg_vars g <> [] /\ logical_ok (fg_vars g)) ->
  known starts (concat (concat (map fg_vars gs))) ->
  (all_but_last_single (map fg_vars gs) ->
     compile_all_logical junk starts gs = Ok (lw_type starts t (concat (map fg_vars gs)))) /\
  (~ all_but_last_single (map fg_vars gs) -> compile_all_logical junk starts gs = Raise ValueError).
Proof. exact (fun A => @logical_wirings_spec A). Qed.
Print Assumptions C21_logical_wiring.

(** The whole graph compiles exactly when all parts do. *)
Theorem C21_graph_compiles :
  forall (A : Type) junk starts (groups : per_type (list (fgroup A))) w,
  wf_groups groups ->
  (compile_wirings junk starts groups = Ok w <->
   known_groups starts groups /\ Forall has_rows (pt_enum groups) /\
   all_but_last_single (map fg_vars (pt_or groups)) /\ all_but_last_single (map fg_vars (pt_and groups)) /\
   w = {| w_enum := ew_ideal starts (enum_factors groups);
          w_or := lw_type starts TOr (logical_factors TOr groups);
          w_and := lw_type starts TAnd (logical_factors TAnd groups) |}).
Proof. exact (fun A => @compile_wirings_iff A). Qed.
Print Assumptions C21_graph_compiles.

Example C21_nonvacuous :
  compile_all_logical (fun _ => 77%Z) x_starts [x_or; x_or2]
  = Ok {| lw_edges_num_states := [2; 2; 2; 2; 2; 2; 2];
          lw_var_states_for_edges := [0; 1; 2; 3; 4; 5; 0; 1; 2; 3; 2; 3; 4; 5]%Z;
          lw_parents_edge_states := [(0, 0); (0, 2); (1, 6); (2, 10)]%Z;
          lw_children_edge_states := [4; 8; 12]%Z;
          lw_edge_states_offset := 1 |} /\
  compile_all_logical (fun _ => 77%Z) x_starts [x_or2; x_or] = Raise ValueError /\
  (exists w, compile_wirings (fun _ => 77%Z) x_starts x_groups = Ok w /\
     lw_parents_edge_states (w_and w) = [(0, 1); (0, 3); (1, 7)]%Z /\
     lw_children_edge_states (w_and w) = [5; 9]%Z /\ lw_edge_states_offset (w_and w) = (-1)%Z).
Proof.
  split; [reflexivity|]. split; [reflexivity|]. eexists. split; [vm_compute; reflexivity|]. repeat split; reflexivity.
Qed.

(** ** C22: grouping does not matter *)
(** Two graphs with the same factors in the same order have the same wiring and the same
    potentials, however the factors are grouped. *)
Theorem C22_factors_determine_wiring :
  forall (A : Type) j1 j2 starts (groups groups' : per_type (list (fgroup A))),
  wf_groups groups -> wf_groups groups' ->
  enum_factors groups = enum_factors groups' ->
  logical_factors TOr groups = logical_factors TOr groups' ->
  logical_factors TAnd groups = logical_factors TAnd groups' ->
  pt_enum (compile_log_potentials groups) = pt_enum (compile_log_potentials groups') /\
  (forall w w', compile_wirings j1 starts groups = Ok w -> compile_wirings j2 starts groups' = Ok w' -> w = w').
Proof. exact (fun A => @C22_factors_lemma A). Qed.
Print Assumptions C22_factors_determine_wiring.

(** Adding the factors of a group one by one. *)
Theorem C22_enum_one_by_one :
  forall (A : Type) j1 j2 starts (g : fgroup A) fs ids,
  fg_type g = TEnum -> valid_group g -> fg_vars g <> [] -> distinct_sets (fg_vars g) ->
  known starts (concat (fg_vars g)) -> fg_factors g = Ok fs -> length ids = length fs ->
  compile_all_enum j1 starts (map2 SingleFactorGroup ids fs) = compile_all_enum j2 starts [g] /\
  concat (map fg_log_potentials (map2 SingleFactorGroup ids fs)) = fg_log_potentials g.
Proof. exact (fun A => @C22_enum_lemma A). Qed.
Print Assumptions C22_enum_one_by_one.

Theorem C22_logical_one_by_one :
  forall (A : Type) j1 j2 starts (g : fgroup A) fs ids,
  fg_type g <> TEnum -> valid_group g -> fg_vars g <> [] -> distinct_sets (fg_vars g) ->
  known starts (concat (fg_vars g)) -> fg_factors g = Ok fs -> length ids = length fs ->
  exists w, compile_all_logical j1 starts (map2 SingleFactorGroup ids fs) = Ok w /\
            compile_all_logical j2 starts [g] = Ok w /\
            concat (map fg_log_potentials (map2 SingleFactorGroup ids fs)) = [].
Proof. exact (fun A => @C22_logical_lemma A). Qed.
Print Assumptions C22_logical_one_by_one.

Example C22_nonvacuous :
  exists fs, fg_factors x_enum1 = Ok fs /\ length fs = 2 /\
    compile_all_enum (fun _ => 1%Z) x_starts (map2 SingleFactorGroup [20; 21]%Z fs)
    = compile_all_enum (fun _ => 2%Z) x_starts [x_enum1] /\
    concat (map fg_log_potentials (map2 SingleFactorGroup [20; 21]%Z fs)) = fg_log_potentials x_enum1.
Proof. eexists. split; [vm_compute; reflexivity|]. repeat split; reflexivity. Qed.
