(** * Properties C06-C09: layout of variables and evidence. *)
From Verif Require Import FGraph BPState SpecVGroup SpecFGraph LemFGraph LemEvidence.
From Coq Require Import Lia Permutation.
Local Open Scope nat_scope.

(** ** C06: variables own consecutive blocks *)
Theorem C06_layout_partition :
  forall (A : Type) gs (g : fgraph A), groups_ok gs -> reachable gs g ->
  (forall k x, nth_error (all_vars gs) k = Some x ->
     dget var_eqb x (gr_vars_to_starts g) = Some (list_sum (map snd (firstn k (all_vars gs))))) /\
  (forall x s, dget var_eqb x (gr_vars_to_starts g) = Some s ->
     In x (all_vars gs) /\ s + snd x <= gr_num_var_states g) /\
  (forall x y s t, dget var_eqb x (gr_vars_to_starts g) = Some s ->
     dget var_eqb y (gr_vars_to_starts g) = Some t -> x <> y -> s + snd x <= t \/ t + snd y <= s) /\
  (forall p, p < gr_num_var_states g -> exists x s,
     dget var_eqb x (gr_vars_to_starts g) = Some s /\ s <= p < s + snd x).
Proof. exact (fun A => @C06_lemma A). Qed.
Print Assumptions C06_layout_partition.

(** The compiled state has the same layout. *)
Theorem C06_compiled_layout :
  forall (A : Type) gs (g : fgraph A) junk st, groups_ok gs -> reachable gs g ->
  compile_fg_state junk g = Ok st ->
  st_variable_groups st = gs /\ st_vars_to_starts st = gr_vars_to_starts g /\
  st_num_var_states st = gr_num_var_states g /\
  st_num_var_states st = list_sum (map snd (all_vars gs)).
Proof. exact (fun A => @C06_compiled_lemma A). Qed.
Print Assumptions C06_compiled_layout.

(** Two groups used by the examples below: a 2-array with 2 and 3 states, and a
    dictionary with one variable of 2 states. *)
Definition ex_va : varray := {| va_id := 1; va_shape := [2]; va_num_states := [2; 3] |}.
Definition ex_vd : vdict := {| vd_id := 2; vd_names := [7]%Z; vd_num_states := [2] |}.
Definition ex_gs : list vgroup := [VA ex_va; VD ex_vd].

Example ex_gs_ok : groups_ok ex_gs.
Proof.
  split; [|split].
  - constructor; [exists 1%Z, (NsIntArray (mkArr [2] [2; 3])), [2]; now split|].
    constructor; [|constructor]. exists 2%Z, (NsScalar 2), [7]%Z. split; [exact I|].
    split; [repeat constructor; simpl; tauto|reflexivity].
  - constructor; [vm_compute; discriminate|]. constructor; [vm_compute; discriminate|constructor].
  - constructor; [|constructor; constructor]. constructor; [vm_compute; discriminate|constructor].
Qed.

Example C06_nonvacuous :
  let g := @FactorGraph nat (GsList ex_gs) in
  reachable ex_gs g /\ gr_num_var_states g = 7 /\
  gr_vars_to_starts g
  = [((1000000000%Z, 2), 0); ((1000000001%Z, 3), 2); ((2000000000%Z, 2), 5)] /\
  exists st, compile_fg_state (fun _ => 0%Z) g = Ok st.
Proof.
  split; [now apply reach_new|]. split; [reflexivity|]. split; [reflexivity|]. eexists. reflexivity.
Qed.

(** ** C07: evidence writes are read back and isolated *)
Theorem C07_write_read :
  forall (A : Type) gs (g : fgraph A) junk st n (ev : list A) us,
  groups_ok gs -> reachable gs g -> compile_fg_state junk g = Ok st ->
  length ev = st_num_var_states st -> Forall (good_write gs) us ->
  exists ev',
    update_evidence st ev us = Ok ev' /\
    foldM (fun c u => Evidence_setitem c (fst u) (snd u)) us {| c_state := (n, st); c_value := ev |}
    = Ok {| c_state := (n, st); c_value := ev' |} /\
    length ev' = length ev /\
    forall x, In x (all_vars gs) -> exists old,
      Evidence_getitem {| c_state := (n, st); c_value := ev |} x = Ok old /\ length old = snd x /\
      Evidence_getitem {| c_state := (n, st); c_value := ev' |} x = Ok (last_write us x old).
Proof. exact (fun A => @C07_lemma A). Qed.
Print Assumptions C07_write_read.

Example C07_nonvacuous :
  let us := [(EGroup (VA ex_va), DArr (mkArr [2; 3] [10; 11; 12; 20; 21; 22]));
             (EVar (1000000000%Z, 2), DArr (mkArr [2] [1; 2]));
             (EGroup (VD ex_vd), DMap [(7%Z, mkArr [2] [30; 31])])] in
  Forall (good_write ex_gs) us /\
  last_write us (1000000000%Z, 2) [0; 0] = [1; 2] /\
  last_write us (1000000001%Z, 3) [0; 0; 0] = [20; 21; 22] /\
  exists st, compile_fg_state (fun _ => 0%Z) (@FactorGraph nat (GsList ex_gs)) = Ok st /\
    update_evidence st (repeat 0 7) us = Ok [1; 2; 20; 21; 22; 30; 31].
Proof.
  cbv zeta. split; [|split; [reflexivity|split; [reflexivity|eexists; split; reflexivity]]].
  constructor; [|constructor; [|constructor; [|constructor]]].
  - split; [now left|]. split; [reflexivity|]. split; [discriminate|reflexivity].
  - split; [now left|]. now split.
  - split; [right; now left|]. split; [discriminate|]. split; [|split].
    + intros x a [E|[]]. injection E as <- <-. now left.
    + intros x a i [E|[]] Hi. injection E as <- <-.
      destruct i as [|[|i]]; [now split|discriminate|discriminate].
    + intros x [<-|[]]. eexists. reflexivity.
Qed.

(** Exactly the variables of the graph can be read and written. *)
Theorem C07_reads :
  forall (A : Type) gs (g : fgraph A) junk st n (ev : list A) x,
  groups_ok gs -> reachable gs g -> compile_fg_state junk g = Ok st -> length ev = st_num_var_states st ->
  (In x (all_vars gs) -> exists vals, Evidence_getitem {| c_state := (n, st); c_value := ev |} x = Ok vals /\ length vals = snd x) /\
  (~ In x (all_vars gs) -> Evidence_getitem {| c_state := (n, st); c_value := ev |} x = Raise KeyError /\
     forall a, update_evidence st ev [(EVar x, DArr a)] = Raise ValueError).
Proof. exact (fun A => @C07_reads_lemma A). Qed.
Print Assumptions C07_reads.

(** The first variable of the example graph, and one with another number of states. *)
Example C07_reads_nonvacuous :
  exists st, compile_fg_state (fun _ => 0%Z) (@FactorGraph nat (GsList ex_gs)) = Ok st /\
    In (1000000000%Z, 2) (all_vars ex_gs) /\ ~ In (1000000000%Z, 3) (all_vars ex_gs) /\
    Evidence_getitem {| c_state := (0, st); c_value := seq 0 7 |} (1000000000%Z, 2) = Ok [0; 1] /\
    Evidence_getitem {| c_state := (0, st); c_value := seq 0 7 |} (1000000000%Z, 3) = Raise KeyError.
Proof.
  eexists. split; [reflexivity|]. split; [now left|]. split; [|split; reflexivity].
  vm_compute. intuition discriminate.
Qed.

(** ** C08: writes with the wrong amount of data *)
(** One variable: exactly its number of states, or one value that is broadcast. *)
Theorem C08_variable_sizes :
  forall (A : Type) gs (g : fgraph A) junk st (ev : list A) v a,
  groups_ok gs -> reachable gs g -> compile_fg_state junk g = Ok st ->
  length ev = st_num_var_states st -> In v (all_vars gs) -> wf_arr a ->
  (forall ev', update_evidence st ev [(EVar v, DArr a)] = Ok ev' <->
     exists s vals, dget var_eqb v (st_vars_to_starts st) = Some s /\ ev' = blit s vals ev /\
       (shape a = [snd v] /\ vals = data a \/
        (shape a = [1] \/ shape a = []) /\ exists x, data a = [x] /\ vals = repeat x (snd v))) /\
  ((exists ev', update_evidence st ev [(EVar v, DArr a)] = Ok ev') <->
     shape a = [snd v] \/ shape a = [1] \/ shape a = []) /\
  (forall e, update_evidence st ev [(EVar v, DArr a)] = Raise e -> e = ValueError).
Proof. exact (fun A => @C08_var_lemma A). Qed.
Print Assumptions C08_variable_sizes.

(** How the other writes fail: a mapping for a variable, data for a group without
    variables, data the group cannot flatten, a group of another graph, and keys that
    are neither. *)
Theorem C08_errors :
  forall (A : Type) gs (g : fgraph A) junk st (ev : list A),
  groups_ok gs -> reachable gs g -> compile_fg_state junk g = Ok st ->
  (forall v m, In v (all_vars gs) -> update_evidence st ev [(EVar v, DMap m)] = Raise TypeError) /\
  (forall h d, In h gs -> vg_variables h = [] -> update_evidence st ev [(EGroup h, d)] = Raise IndexError) /\
  (forall h d e, In h gs -> vg_variables h <> [] -> vg_flatten h d = Raise e ->
     update_evidence st ev [(EGroup h, d)] = Raise e) /\
  (forall h d, (forall h', In h' gs -> (vg_id h mod 2 ^ 32 <> vg_id h' mod 2 ^ 32)%Z) ->
     update_evidence st ev [(EGroup h, d)] = Raise ValueError) /\
  (forall d, update_evidence st ev [(EOther, d)] = Raise ValueError).
Proof. exact (fun A => @C08_errors_lemma A). Qed.
Print Assumptions C08_errors.

(** The example groups and an array of shape (0,). *)
Example C08_errors_nonvacuous :
  let ve := {| va_id := 3; va_shape := [0]; va_num_states := [] |} in
  let gs := ex_gs ++ [VA ve] in
  groups_ok gs /\
  exists st, compile_fg_state (fun _ => 0%Z) (@FactorGraph nat (GsList gs)) = Ok st /\
    update_evidence st (seq 0 7) [(EVar (1000000000%Z, 2), DMap [])] = Raise TypeError /\
    update_evidence st (seq 0 7) [(EGroup (VA ve), DArr (mkArr [0] []))] = Raise IndexError /\
    update_evidence st (seq 0 7) [(EGroup (VA ex_va), DArr (mkArr [4] [1; 2; 3; 4]))] = Raise ValueError /\
    update_evidence st (seq 0 7) [(EGroup (VA {| va_id := 9; va_shape := [2]; va_num_states := [2; 3] |}), DArr (mkArr [5] [1; 2; 3; 4; 5]))]
    = Raise ValueError.
Proof.
  cbv zeta. split; [|eexists; split; [vm_compute; reflexivity|repeat split]].
  split; [|split].
  - constructor; [exists 1%Z, (NsIntArray (mkArr [2] [2; 3])), [2]; now split|].
    constructor; [exists 2%Z, (NsScalar 2), [7]%Z; split; [exact I|]; split; [repeat constructor; simpl; tauto|reflexivity]|].
    constructor; [|constructor]. exists 3%Z, (NsIntArray (mkArr [0] [])), [0]. now split.
  - repeat constructor; vm_compute; discriminate.
  - repeat constructor; vm_compute; discriminate.
Qed.

(** A whole NDVarArray with one value per variable: accepted; the values overwrite the
    first flat entries of the group, whatever variables and states these belong to. *)
Theorem C08_per_variable_overwrites :
  forall (A : Type) gs1 v gs2 (g : fgraph A) junk st (ev : list A) a,
  let gs := gs1 ++ VA v :: gs2 in
  groups_ok gs -> reachable gs g -> compile_fg_state junk g = Ok st ->
  length ev = st_num_var_states st -> wf_arr a ->
  va_num_states v <> [] -> (forall n, In n (va_num_states v) -> 0 < n) -> shape a = va_shape v ->
  exists ev', update_evidence st ev [(EGroup (VA v), DArr a)] = Ok ev' /\ length ev' = length ev /\
    forall p d, nth p ev' d =
      let s := list_sum (map snd (all_vars gs1)) in
      if (s <=? p) && (p <? s + cells (va_shape v)) then nth (p - s) (data a) d else nth p ev d.
Proof. exact (fun A => @C08_array_lemma A). Qed.
Print Assumptions C08_per_variable_overwrites.

(** So such data neither raises nor sets each variable from its own entry. *)
Theorem C08_per_variable_refuted :
  ~ (forall gs v (g : fgraph nat) junk st ev a ev' n i x,
       groups_ok gs -> reachable gs g -> compile_fg_state junk g = Ok st ->
       length ev = st_num_var_states st -> wf_arr a -> In (VA v) gs -> shape a = va_shape v ->
       update_evidence st ev [(EGroup (VA v), DArr a)] = Ok ev' ->
       nth_error (va_variables v) i = Some x ->
       exists old new, Evidence_getitem {| c_state := (n, st); c_value := ev |} x = Ok old /\
         Evidence_getitem {| c_state := (n, st); c_value := ev' |} x = Ok new /\
         forall y, In y new -> In y old \/ y = nth i (data a) 0).
Proof.
  intros H.
  destruct (compile_fg_state (fun _ => 0%Z) (@FactorGraph nat (GsList ex_gs))) as [st|] eqn:E; [|discriminate].
  assert (E' := E). vm_compute in E'. injection E' as E'.
  destruct (H ex_gs ex_va (FactorGraph (GsList ex_gs)) (fun _ => 0%Z) st
              (repeat 0 7) (mkArr [2] [8; 9]) [8; 9; 0; 0; 0; 0; 0] 0 0 (1000000000%Z, 2))
    as [old [new [H1 [H2 H3]]]]; try reflexivity.
  - exact ex_gs_ok.
  - now apply reach_new.
  - exact E.
  - now subst st.
  - now left.
  - now subst st.
  - subst st. vm_compute in H1, H2. injection H1 as <-. injection H2 as <-.
    destruct (H3 9) as [Hin|Heq]; [right; now left| |].
    + simpl in Hin. lia.
    + discriminate.
Qed.
Print Assumptions C08_per_variable_refuted.

(** ** C09: order of the entries of one update dictionary *)
Theorem C09_evidence_order :
  forall (A : Type) gs (g : fgraph A) junk st (ev : list A) us us',
  groups_ok gs -> (forall x, In x (all_vars gs) -> 0 < snd x) ->
  reachable gs g -> compile_fg_state junk g = Ok st -> length ev = st_num_var_states st ->
  Forall (update_ok gs) us -> ForallOrdPairs disjoint_updates us -> Permutation us us' ->
  forall ev', update_evidence st ev us = Ok ev' <-> update_evidence st ev us' = Ok ev'.
Proof. exact (fun A => @C09_lemma A). Qed.
Print Assumptions C09_evidence_order.

Example C09_nonvacuous :
  let us := [(EGroup (VA ex_va), DArr (mkArr [2; 3] [10; 11; 12; 20; 21; 22]));
             (EVar (2000000000%Z, 2), DArr (mkArr [1] [5]))] in
  Forall (update_ok ex_gs) us /\ ForallOrdPairs disjoint_updates us /\
  (forall x, In x (all_vars ex_gs) -> 0 < snd x) /\
  exists st, compile_fg_state (fun _ => 0%Z) (@FactorGraph nat (GsList ex_gs)) = Ok st /\
    update_evidence st (repeat 0 7) us = Ok [10; 11; 20; 21; 22; 5; 5].
Proof.
  cbv zeta. split; [|split; [|split]].
  - repeat constructor.
  - constructor; [|constructor; constructor]. constructor; [|constructor].
    intros x [[H|[H|[]]] H2]; simpl in H2; subst; discriminate.
  - intros x [<-|[<-|[<-|[]]]]; simpl; lia.
  - eexists. split; reflexivity.
Qed.

(** For overlapping entries (a group and one of its variables) the order matters. *)
Theorem C09_overlap_refuted :
  ~ (forall gs (g : fgraph nat) junk st ev us us',
       groups_ok gs -> reachable gs g -> compile_fg_state junk g = Ok st ->
       length ev = st_num_var_states st -> Forall (good_write gs) us ->
       NoDup (map fst us) -> Permutation us us' ->
       update_evidence st ev us = update_evidence st ev us').
Proof.
  intros H.
  set (us := [(EGroup (VA ex_va), DArr (mkArr [2; 3] [10; 11; 12; 20; 21; 22]));
              (EVar (1000000000%Z, 2), DArr (mkArr [2] [1; 2]))]).
  destruct (compile_fg_state (fun _ => 0%Z) (@FactorGraph nat (GsList ex_gs))) as [st|] eqn:E; [|discriminate].
  assert (H' : update_evidence st (repeat 0 7) us = update_evidence st (repeat 0 7) (rev us)).
  { eapply (H ex_gs (FactorGraph (GsList ex_gs))); [exact ex_gs_ok|now apply reach_new|exact E| | | |].
    - injection E as <-. reflexivity.
    - constructor; [|constructor; [|constructor]].
      + split; [now left|]. split; [reflexivity|]. split; [discriminate|reflexivity].
      + split; [now left|]. now split.
    - repeat constructor; simpl; intuition discriminate.
    - apply Permutation_rev. }
  injection E as <-. discriminate H'.
Qed.
Print Assumptions C09_overlap_refuted.
