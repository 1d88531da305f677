(** * Property C52: dictionaries and registered classes through jax.jit. *)
From Verif Require Import FGraph BPState BP Jit SpecVGroup SpecFGraph SpecFactor SpecWiring SpecState SpecBeliefs SpecJit.
From Verif Require Import LemFGraph LemEvidence LemState LemJit PropsEvidence PropsState ExJit.
From Coq Require Import Lia Permutation Sorting.Sorted QArith String.
Import ListNotations.
Local Close Scope Q_scope.
Local Open Scope nat_scope.

(** [py_sort] is a sorting function, so the theorems below apply to it. *)
Theorem C52_sorting : sorts py_sort.
Proof. exact py_sort_sorts. Qed.
Print Assumptions C52_sorting.

(** ** Updates *)
(** The compiled updates agree with the functions they compile, when no variable is written
    twice. *)
Theorem C52_evidence :
  forall srt hash_var (A : Type) gs (g : fgraph A) junk st (ev : list A) us,
  sorts srt -> groups_ok gs -> (forall x, In x (all_vars gs) -> 0 < snd x) ->
  reachable gs g -> compile_fg_state junk g = Ok st -> List.length ev = st_num_var_states st ->
  Forall (update_ok gs) us -> ForallOrdPairs disjoint_updates us -> Forall (fun u => names_once (snd u)) us ->
  forall ev', jit_update_evidence srt hash_var st ev us = Ok ev' <-> update_evidence st ev us = Ok ev'.
Proof. exact (fun srt hash_var A => @C52_evidence_lemma srt hash_var A). Qed.
Print Assumptions C52_evidence.

Theorem C52_log_potentials :
  forall srt (A : Type) (g : fgraph A) junk st (lp : list A) us,
  sorts srt -> compile_fg_state junk g = Ok st -> NoDup (map fg_id (all_groups (gr_groups g))) ->
  List.length lp = List.length (st_log_potentials st) ->
  Forall (fun u => lp_key_ok (all_groups (gr_groups g)) (fst u)) us ->
  ForallOrdPairs (fun u v => fg_id (fst u) <> fg_id (fst v)) us ->
  forall lp', jit_update_log_potentials srt st lp us = Ok lp' <-> update_log_potentials st lp us = Ok lp'.
Proof. exact (fun srt A => @C52_log_potentials_lemma srt A). Qed.
Print Assumptions C52_log_potentials.

Theorem C52_messages :
  forall srt (A : Type) `(Num A) gs (g : fgraph A) junk st (ms : list A) us,
  sorts srt -> groups_ok gs -> reachable gs g -> compile_fg_state junk g = Ok st -> wf_groups (gr_groups g) ->
  List.length ms = st_total_factor_num_states st ->
  Forall (fun u => wf_arr (snd u)) us -> NoDup (map fst us) ->
  forall ms', jit_update_ftov_msgs srt st ms us = Ok ms' <-> update_ftov_msgs st ms us = Ok ms'.
Proof. exact (fun srt A HN => @C52_messages_lemma srt A HN). Qed.
Print Assumptions C52_messages.

(** When all keys are of one kind, the order of insertion is forgotten, also by failing
    updates. *)
Theorem C52_order :
  forall srt hash_var (A : Type) `(Num A) (st : fg_state A),
  sorts srt ->
  (forall ev us us', group_keys us \/ variable_keys us -> Permutation us us' ->
     jit_update_evidence srt hash_var st ev us = jit_update_evidence srt hash_var st ev us') /\
  (forall lp us us', ForallOrdPairs (fun u v => fg_id (fst u) <> fg_id (fst v)) us -> Permutation us us' ->
     jit_update_log_potentials srt st lp us = jit_update_log_potentials srt st lp us') /\
  (forall ms us us', NoDup (map fst us) -> Permutation us us' ->
     jit_update_ftov_msgs srt st ms us = jit_update_ftov_msgs srt st ms us').
Proof. exact (fun srt hash_var A HN => @C52_order_lemma srt hash_var A HN). Qed.
Print Assumptions C52_order.

(** A dictionary with a group and one of its variables: hashes decide whose value stays. *)
Theorem C52_overlap :
  forall srt hash_var (A : Type) gs (g : fgraph A) junk st n (ev : list A) gr d v i a us,
  sorts srt -> groups_ok gs -> reachable gs g -> compile_fg_state junk g = Ok st ->
  List.length ev = st_num_var_states st ->
  good_write gs (EGroup gr, d) -> good_write gs (EVar v, DArr a) -> names_once d ->
  position v (vg_variables gr) = Some i ->
  us = [(EGroup gr, d); (EVar v, DArr a)] \/ us = [(EVar v, DArr a); (EGroup gr, d)] ->
  hash_var v <> vg_hash (vg_id gr) ->
  exists ev', jit_update_evidence srt hash_var st ev us = Ok ev' /\
    Evidence_getitem {| c_state := (n, st); c_value := ev' |} v
    = Ok (if (vg_hash (vg_id gr) <? hash_var v)%Z then data a else entry gr d i).
Proof. exact (fun srt hash_var A => @C52_overlap_lemma srt hash_var A). Qed.
Print Assumptions C52_overlap.

(** Hence the entry inserted last need not win, and compilation is visible. *)
Theorem C52_last_wins_refuted :
  ~ forall srt (A : Type) gs (g : fgraph A) junk st (ev : list A) us,
    sorts srt -> groups_ok gs -> reachable gs g -> compile_fg_state junk g = Ok st ->
    List.length ev = st_num_var_states st -> Forall (good_write gs) us -> NoDup (map fst us) ->
    jit_update_evidence srt hash_pair st ev us = update_evidence st ev us.
Proof. exact last_wins_refuted. Qed.
Print Assumptions C52_last_wins_refuted.

(** The hashes used by the witness are those CPython 3.11 computes. *)
Example C52_hash_values :
  hash_pair (1000000000%Z, 2%nat) = 5647660431303750708%Z /\ hash_pair (2000000000%Z, 2%nat) = (-6864482035445642317)%Z /\
  hash_pair (4294967295000000017%Z, 3%nat) = 2587648953219354812%Z /\ hash_pair (0%Z, 0%nat) = (-8458139203682520985)%Z /\
  hash_pair (12345678901234567890%Z, 5%nat) = (-553326907763152746)%Z.
Proof. vm_compute. repeat split. Qed.

(** The witness, and the same dictionary for a group with another id. Both orders of
    insertion give the same evidence, and the ids decide which. *)
Example C52_addresses :
  exists st, compile_fg_state (fun _ => 0%Z) (@FactorGraph Z (GsList ex_gs)) = Ok st /\
    (hash_pair (2000000000%Z, 2%nat) < vg_hash 2)%Z /\ (vg_hash 1 < hash_pair (1000000000%Z, 2%nat))%Z /\
    (let us := [(EGroup (VD ex_vd), DMap [(7%Z, mkArr [2] [30; 31]%Z)]); (EVar (2000000000%Z, 2), DArr (mkArr [2] [8; 9]%Z))] in
     update_evidence st (repeat 0%Z 7) us = Ok [0; 0; 0; 0; 0; 8; 9]%Z /\
     jit_update_evidence py_sort hash_pair st (repeat 0%Z 7) us = Ok [0; 0; 0; 0; 0; 30; 31]%Z /\
     jit_update_evidence py_sort hash_pair st (repeat 0%Z 7) (rev us) = Ok [0; 0; 0; 0; 0; 30; 31]%Z) /\
    (let us := [(EVar (1000000000%Z, 2), DArr (mkArr [2] [8; 9]%Z)); (EGroup (VA ex_va), DArr (mkArr [2; 3] [10; 11; 12; 20; 21; 22]%Z))] in
     update_evidence st (repeat 0%Z 7) us = Ok [10; 11; 20; 21; 22; 0; 0]%Z /\
     jit_update_evidence py_sort hash_pair st (repeat 0%Z 7) us = Ok [8; 9; 20; 21; 22; 0; 0]%Z /\
     jit_update_evidence py_sort hash_pair st (repeat 0%Z 7) (rev us) = Ok [8; 9; 20; 21; 22; 0; 0]%Z).
Proof. eexists. split; [vm_compute; reflexivity|]. repeat split; vm_compute; reflexivity. Qed.
Example C52_overlap_nonvacuous : Forall (good_write ex_gs) ex_overlap /\
  position (2000000000%Z, 2) (vg_variables (VD ex_vd)) = Some 0 /\ hash_pair (2000000000%Z, 2) <> vg_hash (vg_id (VD ex_vd)) /\
  names_once (DMap [(7%Z, mkArr [2] [30; 31]%Z)]).
Proof. split; [exact ex_overlap_good|]. split; [reflexivity|]. split; [vm_compute; discriminate|]. repeat constructor. simpl. tauto. Qed.

(** Updates in an order that sorting changes. *)
Example C52_evidence_nonvacuous :
  let us := [(EGroup (VD ex_vd), DMap [(7%Z, mkArr [2] [30; 31])]); (EGroup (VA ex_va), DArr (mkArr [2; 3] [10; 11; 12; 20; 21; 22]))] in
  Forall (update_ok ex_gs) us /\ ForallOrdPairs disjoint_updates us /\ Forall (fun u => names_once (snd u)) us /\ group_keys us /\
  (forall x, In x (all_vars ex_gs) -> 0 < snd x) /\
  map fst (jit_dict py_sort (ev_lt hash_pair) us) = rev (map fst us) /\
  exists st, compile_fg_state (fun _ => 0%Z) (@FactorGraph nat (GsList ex_gs)) = Ok st /\
    jit_update_evidence py_sort hash_pair st (repeat 0 7) us = Ok [10; 11; 20; 21; 22; 30; 31].
Proof.
  cbv zeta. split; [|split; [|split; [|split; [|split; [|split; [reflexivity|]]]]]].
  - constructor; [|constructor; [|constructor]]; (split; [left; simpl; tauto|]); [|reflexivity].
    intros x a [E|[]]. injection E as <- <-. reflexivity.
  - constructor; [|constructor; constructor]. constructor; [|constructor].
    intros x [[H|[]] H2]; simpl in H2; subst; destruct H2 as [H2|[H2|[]]]; discriminate.
  - constructor; [|constructor; [exact I|constructor]]. repeat constructor. simpl. tauto.
  - split.
    + intros u [<-|[<-|[]]]; eexists; reflexivity.
    + constructor; [|constructor; constructor]. constructor; [|constructor]. intros g h E1 E2. injection E1 as <-. injection E2 as <-. vm_compute. discriminate.
  - intros x Hx. repeat (destruct Hx as [<-|Hx]; [simpl; lia|]). destruct Hx.
  - eexists. split; [vm_compute; reflexivity|]. vm_compute. reflexivity.
Qed.
Example C52_updates_nonvacuous :
  let us := [(y_pair, mkArr [2; 2] (map q [30; 31; 32; 33]%Z)); (y_enum, mkArr [3] (map q [20; 21; 22]%Z))] in
  let ms := [(yc, mkArr [2] (map q [0; -6]%Z)); (ya, mkArr [2] (map q [-5; 0]%Z))] in
  Forall (fun u => lp_key_ok (all_groups (gr_groups y_graph)) (fst u)) us /\
  ForallOrdPairs (fun u v => fg_id (fst u) <> fg_id (fst v)) us /\
  Forall (fun u => wf_arr (snd u)) ms /\ NoDup (map fst ms) /\
  jit_dict py_sort fg_lt us = rev us /\ jit_dict py_sort var_lt ms = rev ms /\
  exists st, compile_fg_state (fun _ => 0%Z) y_graph = Ok st /\
    jit_update_log_potentials py_sort st (st_log_potentials st) us = Ok (map q [20; 21; 22; 20; 21; 22; 30; 31; 32; 33]%Z) /\
    exists ms', jit_update_ftov_msgs py_sort st (repeat 0%Q 18) ms = Ok ms' /\ update_ftov_msgs st (repeat 0%Q 18) ms = Ok ms'.
Proof.
  cbv zeta. split; [|split; [|split; [|split; [|split; [reflexivity|split; [reflexivity|]]]]]].
  - repeat constructor; left; simpl; tauto.
  - repeat constructor. discriminate.
  - repeat constructor.
  - repeat constructor; simpl; intuition discriminate.
  - eexists. split; [vm_compute; reflexivity|]. split; [vm_compute; reflexivity|]. eexists. split; [vm_compute; reflexivity|]. vm_compute. reflexivity.
Qed.

(** ** Results *)
(** Beliefs, decoded states and marginals have their groups in the order of the hashes, the
    names of a VarDict in increasing order, and the same rows. *)
Theorem C52_results :
  forall srt (A : Type) `(Num A) (c : bp_ctx A) a b,
  sorts srt -> get_beliefs c a = Ok b ->
  exists b', jit_get_beliefs srt c a = Ok b' /\
    StronglySorted (fun g h => (vg_hash (vg_id g) < vg_hash (vg_id h))%Z) (map fst b') /\
    Permutation (map fst b') (map fst b) /\
    (forall g m, In (g, DMap m) b' -> StronglySorted Z.lt (map fst m)) /\
    (forall gr d, dget vg_eqb gr b = Some d -> exists d', dget vg_eqb gr b' = Some d' /\ forall i, row gr d' i = row gr d i) /\
    (forall r, decode_map_states b = Ok r -> exists r', jit_decode_map_states srt b' = Ok r' /\ map fst r' = map fst b' /\
       forall gr d, dget vg_eqb gr r = Some d -> exists d', dget vg_eqb gr r' = Some d' /\ forall i, cell gr d' i = cell gr d i) /\
    (forall r, get_marginals b = Ok r -> exists r', jit_get_marginals srt b' = Ok r' /\ map fst r' = map fst b' /\
       forall gr d, dget vg_eqb gr r = Some d -> exists d', dget vg_eqb gr r' = Some d' /\ forall i, row gr d' i = row gr d i).
Proof. exact (fun srt A HN => @C52_results_lemma srt A HN). Qed.
Print Assumptions C52_results.

Example C52_results_nonvacuous :
  exists st bs c, compile_fg_state (fun _ => 0%Z) j_graph = Ok st /\ default_bp_state (0, st) = Ok bs /\ BP bs 0%Q = Ok c /\
    get_beliefs c j_arrays = Ok [(VD j_vd, DMap [(9%Z, mkArr [2] (map Fin [-1; 0]%Q)); (7%Z, mkArr [3] (map Fin [5; 4; 6]%Q))]);
                                 (VA j_va, DArr (mkArr [1; 2] (map Fin [0; 2]%Q)))] /\
    jit_get_beliefs py_sort c j_arrays
    = Ok [(VA j_va, DArr (mkArr [1; 2] (map Fin [0; 2]%Q)));
          (VD j_vd, DMap [(7%Z, mkArr [3] (map Fin [5; 4; 6]%Q)); (9%Z, mkArr [2] (map Fin [-1; 0]%Q))])] /\
    (b <- jit_get_beliefs py_sort c j_arrays ;; jit_decode_map_states py_sort b)
    = Ok [(VA j_va, DArr (mkArr [1] [1])); (VD j_vd, DMap [(7%Z, mkArr [] [2]); (9%Z, mkArr [] [1])])].
Proof. eexists _, _, _. split; [vm_compute; reflexivity|]. split; [vm_compute; reflexivity|]. split; [vm_compute; reflexivity|]. repeat split; vm_compute; reflexivity. Qed.

(** ** Registered classes *)
(** BPArrays: the leaves are in alphabetical order of the fields, and a function mapped over
    the leaves is applied to each field. *)
Theorem C52_arrays :
  forall srt (A B : Type) (f : list A -> list B) (a : bp_arrays A), sorts srt ->
  tree_flatten srt (bp_arrays_fields a)
  = ([ba_evidence a; ba_ftov_msgs a; ba_log_potentials a], ["evidence"; "ftov_msgs"; "log_potentials"]%string) /\
  bp_arrays_map srt f a
  = Ok {| ba_log_potentials := f (ba_log_potentials a); ba_ftov_msgs := f (ba_ftov_msgs a); ba_evidence := f (ba_evidence a) |}.
Proof. exact (fun srt A B => @C52_arrays_lemma srt A B). Qed.
Print Assumptions C52_arrays.

(** Wirings come back unchanged; those that the constructor accepted are accepted again. *)
Theorem C52_wirings :
  forall srt, sorts srt ->
  (forall w, let '(children, keys) := tree_flatten srt (enum_wiring_fields w) in enum_wiring_unflatten keys children = Ok w) /\
  (forall w w', LogicalWiring w' = Ok w ->
     let '(children, keys) := tree_flatten srt (logical_wiring_fields w) in logical_wiring_unflatten keys children = Ok w).
Proof. exact C52_wirings_lemma. Qed.
Print Assumptions C52_wirings.

Example C52_arrays_nonvacuous :
  bp_arrays_map py_sort (fun l => map S l) {| ba_log_potentials := [1]; ba_ftov_msgs := [2; 3]; ba_evidence := [4] |}
  = Ok {| ba_log_potentials := [2]; ba_ftov_msgs := [3; 4]; ba_evidence := [5] |} /\
  exists st, compile_fg_state (fun _ => 0%Z) y_graph = Ok st /\
    List.length (lw_parents_edge_states (w_or (st_wiring st))) = 1 /\
    LogicalWiring (w_or (st_wiring st)) = Ok (w_or (st_wiring st)).
Proof. split; [reflexivity|]. eexists. split; [vm_compute; reflexivity|]. split; vm_compute; reflexivity. Qed.
