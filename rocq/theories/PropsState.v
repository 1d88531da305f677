(** * Properties C09 (log potentials), C36-C38, C44 (BPState): belief propagation states. *)
From Verif Require Import FGraph BPState BP Lists SpecVGroup SpecFactor SpecFGraph SpecAdd SpecWiring SpecState.
From Verif Require Import LemFGraph LemEvidence LemGraph LemState PropsEvidence.
From Coq Require Import Lia Permutation QArith Reals.
Local Close Scope Q_scope.
Local Close Scope R_scope.
Local Open Scope nat_scope.

(** The graph of the examples, over the groups [ex_gs]: two enumeration factors in one
    group, a pairwise factor and an OR factor. *)
Definition ya : variable := (1000000000%Z, 2).
Definition yt : variable := (1000000001%Z, 3).
Definition yc : variable := (2000000000%Z, 2).
Definition q (z : Z) : Q := inject_Z z.
Definition y_enum : fgroup Q :=
  {| fg_id := 1; fg_kind := KEnum; fg_type := TEnum; fg_vars := [[ya; yt]; [yc; yt]];
     fg_configs := mkArr [3; 2] [0; 0; 1; 1; 1; 2]%Z; fg_log_potentials := map q [1; 2; 3; 4; 5; 6]%Z |}.
Definition y_pair : fgroup Q :=
  {| fg_id := 2; fg_kind := KPairwise 2 2; fg_type := TEnum; fg_vars := [[ya; yc]];
     fg_configs := mkArr [4; 2] [0; 0; 0; 1; 1; 0; 1; 1]%Z; fg_log_potentials := map q [7; 8; 9; 10]%Z |}.
Definition y_or : fgroup Q :=
  {| fg_id := 3; fg_kind := KLogical; fg_type := TOr; fg_vars := [[ya; yc]];
     fg_configs := mkArr [] []; fg_log_potentials := [] |}.
Definition y_graph : fgraph Q :=
  fst (add_factors (AList [AGroup y_enum; AGroup y_or; AGroup y_pair]) (FactorGraph (GsList ex_gs))).
Definition y_groups : per_type (list (fgroup Q)) := PT [y_enum; y_pair] [y_or] [].

Example y_built :
  EnumFactorGroup 1 [[ya; yt]; [yc; yt]] (mkArr [3; 2] [0; 0; 1; 1; 1; 2]%Z)
    (Some (true, mkArr [2; 3] (map q [1; 2; 3; 4; 5; 6]%Z))) = Ok y_enum /\
  PairwiseFactorGroup (fun _ => q 99) 2 [[ya; yc]] (Some (true, mkArr [2; 2] (map q [7; 8; 9; 10]%Z))) = Ok y_pair /\
  LogicalFactorGroup TOr 3 [[ya; yc]] = Ok y_or /\ gr_groups y_graph = y_groups.
Proof. repeat split. Qed.
Example y_reach : reachable ex_gs y_graph.
Proof. apply reach_add, reach_new. reflexivity. Qed.
Example y_compiles : exists st, compile_fg_state (fun _ => 0%Z) y_graph = Ok st /\
  length (st_log_potentials st) = 10 /\ st_total_factor_num_states st = 18 /\ st_num_var_states st = 7.
Proof. eexists. split; [vm_compute; reflexivity|]. vm_compute. auto. Qed.
Lemma y_enum_group : pots_group y_enum.
Proof.
  split; [reflexivity|]. split; [|split; [discriminate|split; [|exact I]]].
  - exists 3. split; [reflexivity|]. intros vs Hvs. split; [destruct Hvs as [<-|[<-|[]]]; reflexivity|].
    intros r u x Hr Hu.
    assert (Hu2 : u < 2) by (assert (E : length vs = 2) by (destruct Hvs as [<-|[<-|[]]]; reflexivity); rewrite <- E; apply nth_error_Some; congruence).
    destruct Hvs as [<-|[<-|[]]]; destruct r as [|[|[|]]]; try lia; destruct u as [|[|]]; try lia; injection Hu as <-; vm_compute; split; congruence.
  - constructor; [|constructor; constructor]. constructor; [|constructor]. intros S.
    destruct (proj1 (S ya) (or_introl eq_refl)) as [E|[E|[]]]; discriminate.
Qed.
Lemma y_pair_group : pots_group y_pair.
Proof.
  split; [reflexivity|]. split; [|split; [discriminate|split; [constructor; constructor|]]].
  - exists 4. split; [reflexivity|]. intros vs [<-|[]]. split; [reflexivity|].
    intros r u x Hr Hu.
    assert (Hu2 : u < length [ya; yc]) by (apply nth_error_Some; congruence). simpl in Hu2.
    destruct r as [|[|[|[|]]]]; try lia; destruct u as [|[|]]; try lia; injection Hu as <-; vm_compute; split; congruence.
  - split; [reflexivity|]. intros vs [<-|[]]. exists ya, yc. auto.
Qed.
Lemma y_wf : wf_groups (gr_groups y_graph).
Proof.
  intros t g Hg. change (gr_groups y_graph) with y_groups in Hg.
  destruct t; cbn in Hg; [destruct Hg as [<-|[<-|[]]]|destruct Hg as [<-|[]]|destruct Hg].
  - destruct y_enum_group as [H1 [H2 [H3 _]]]. auto.
  - destruct y_pair_group as [H1 [H2 [H3 _]]]. auto.
  - split; [reflexivity|]. split; [|discriminate]. intros vs [<-|[]]. split; [simpl; lia|]. intros x [<-|[<-|[]]]; reflexivity.
Qed.
Lemma y_ids : NoDup (map fg_id (all_groups (gr_groups y_graph))).
Proof. change (NoDup [1; 2; 3]%Z). repeat constructor; simpl; intuition discriminate. Qed.

(** ** C36: log potentials writes are read back and isolated *)
Theorem C36_write_read :
  forall (A : Type) (g : fgraph A) junk st n (lp : list A) us,
  compile_fg_state junk g = Ok st -> NoDup (map fg_id (all_groups (gr_groups g))) ->
  length lp = length (st_log_potentials st) -> Forall (good_lp_write (all_groups (gr_groups g))) us ->
  exists lp',
    update_log_potentials st lp us = Ok lp' /\
    foldM (fun c u => LogPotentials_setitem c (fst u) (snd u)) us {| c_state := (n, st); c_value := lp |}
    = Ok {| c_state := (n, st); c_value := lp' |} /\
    length lp' = length lp /\
    forall h, In h (all_groups (gr_groups g)) -> exists old,
      LogPotentials_getitem {| c_state := (n, st); c_value := lp |} h = Ok old /\
      length old = length (fg_log_potentials h) /\
      LogPotentials_getitem {| c_state := (n, st); c_value := lp' |} h = Ok (last_lp_write us h old).
Proof. exact (fun A => @C36_lemma A). Qed.
Print Assumptions C36_write_read.

Theorem C36_initial :
  forall (A : Type) (g : fgraph A) junk st n,
  compile_fg_state junk g = Ok st -> NoDup (map fg_id (all_groups (gr_groups g))) ->
  exists c, LogPotentials (n, st) None = Ok c /\
    forall h, In h (all_groups (gr_groups g)) -> LogPotentials_getitem c h = Ok (fg_log_potentials h).
Proof. exact (fun A => @C36_initial_lemma A). Qed.
Print Assumptions C36_initial.

(** Which writes are accepted, and how the others fail. *)
Theorem C36_accept :
  forall (A : Type) (g : fgraph A) junk st (lp : list A) h d,
  compile_fg_state junk g = Ok st -> NoDup (map fg_id (all_groups (gr_groups g))) ->
  length lp = length (st_log_potentials st) ->
  (In h (all_groups (gr_groups g)) -> pots_group h -> wf_arr d ->
     ((exists lp', update_log_potentials st lp [(h, d)] = Ok lp') <-> lp_values h d <> None) /\
     (forall e, update_log_potentials st lp [(h, d)] = Raise e -> e = ValueError)) /\
  (In h (all_groups (gr_groups g)) -> fg_kind h = KLogical \/ fg_kind h = KSingle ->
     update_log_potentials st lp [(h, d)] = Raise NotImplementedError) /\
  (~ In (fg_id h) (map fg_id (all_groups (gr_groups g))) ->
     update_log_potentials st lp [(h, d)] = Raise ValueError /\
     forall n, LogPotentials_getitem {| c_state := (n, st); c_value := lp |} h = Raise ValueError).
Proof. exact (fun A => @C36_accept_lemma A). Qed.
Print Assumptions C36_accept.

Example C36_nonvacuous :
  let us := [(y_enum, mkArr [3] (map q [20; 21; 22]%Z)); (y_pair, mkArr [2; 2] (map q [30; 31; 32; 33]%Z));
             (y_enum, mkArr [2; 3] (map q [40; 41; 42; 43; 44; 45]%Z))] in
  NoDup (map fg_id (all_groups (gr_groups y_graph))) /\
  Forall (good_lp_write (all_groups (gr_groups y_graph))) us /\
  (exists st, compile_fg_state (fun _ => 0%Z) y_graph = Ok st /\
     update_log_potentials st (st_log_potentials st) us = Ok (map q [40; 41; 42; 43; 44; 45; 30; 31; 32; 33]%Z) /\
     update_log_potentials st (st_log_potentials st) [(y_enum, mkArr [3] (map q [20; 21; 22]%Z))]
     = Ok (map q [20; 21; 22; 20; 21; 22; 7; 8; 9; 10]%Z) /\
     update_log_potentials st (st_log_potentials st) [(y_enum, mkArr [2] (map q [20; 21]%Z))] = Raise ValueError /\
     update_log_potentials st (st_log_potentials st) [(y_or, mkArr [0] [])] = Raise NotImplementedError).
Proof.
  cbv zeta. split; [exact y_ids|]. split.
  - constructor; [|constructor; [|constructor; [|constructor]]]; (split; [simpl; tauto|]);
      (split; [exact y_enum_group || exact y_pair_group|]); (split; [reflexivity|discriminate]).
  - eexists. split; [vm_compute; reflexivity|]. repeat split.
Qed.

(** ** C09: the order of a log potentials update *)
Theorem C09_log_potentials_order :
  forall (A : Type) (g : fgraph A) junk st (lp : list A) us us',
  compile_fg_state junk g = Ok st -> NoDup (map fg_id (all_groups (gr_groups g))) ->
  length lp = length (st_log_potentials st) ->
  Forall (fun u => lp_key_ok (all_groups (gr_groups g)) (fst u)) us ->
  ForallOrdPairs (fun u v => fg_id (fst u) <> fg_id (fst v)) us -> Permutation us us' ->
  forall lp', update_log_potentials st lp us = Ok lp' <-> update_log_potentials st lp us' = Ok lp'.
Proof. exact (fun A => @C09_lp_lemma A). Qed.
Print Assumptions C09_log_potentials_order.

Example C09_log_potentials_nonvacuous :
  let us := [(y_enum, mkArr [3] (map q [20; 21; 22]%Z)); (y_pair, mkArr [2; 2] (map q [30; 31; 32; 33]%Z))] in
  Forall (fun u => lp_key_ok (all_groups (gr_groups y_graph)) (fst u)) us /\
  ForallOrdPairs (fun u v => fg_id (fst u) <> fg_id (fst v)) us /\ Permutation us (rev us) /\
  exists st, compile_fg_state (fun _ => 0%Z) y_graph = Ok st /\
    update_log_potentials st (st_log_potentials st) (rev us) = Ok (map q [20; 21; 22; 20; 21; 22; 30; 31; 32; 33]%Z).
Proof.
  cbv zeta. split; [|split; [|split; [apply Permutation_rev|eexists; split; [vm_compute; reflexivity|reflexivity]]]].
  - repeat constructor; left; simpl; tauto.
  - repeat constructor. discriminate.
Qed.

(** ** C37: spreading beliefs into messages *)
Theorem C37_spread :
  forall (A : Type) (HN : Num A) gs (g : fgraph A) junk st n (msgs : list A) us,
  groups_ok gs -> reachable gs g -> compile_fg_state junk g = Ok st -> wf_groups (gr_groups g) ->
  length msgs = st_total_factor_num_states st -> Forall (good_msg_write (all_vars gs)) us ->
  let es := all_edges (gr_groups g) in
  exists msgs', update_ftov_msgs st msgs us = Ok msgs' /\
    foldM (fun c u => FToVMessages_setitem c (fst u) (snd u)) us {| c_state := (n, st); c_value := msgs |}
    = Ok {| c_state := (n, st); c_value := msgs' |} /\
    length msgs' = length msgs /\
    list_sum (map snd es) = length msgs /\
    forall e x, nth_error es e = Some x ->
      message es msgs' e = last_msg_write es us x (message es msgs e).
Proof. exact (fun A HN => @C37_lemma A HN). Qed.
Print Assumptions C37_spread.

(** Over the reals the messages to the variable add up to the data. *)
Theorem C37_sum :
  forall gs (g : fgraph R) junk st (msgs : list R) v d,
  groups_ok gs -> reachable gs g -> compile_fg_state junk g = Ok st -> wf_groups (gr_groups g) ->
  length msgs = st_total_factor_num_states st -> good_msg_write (all_vars gs) (v, d) ->
  let es := all_edges (gr_groups g) in
  edges_of es v <> [] ->
  exists msgs', update_ftov_msgs st msgs [(v, d)] = Ok msgs' /\
    forall s, fold_right Rplus 0%R (map (fun e => nth s (message es msgs' e) 0%R) (edges_of es v)) = nth s (data d) 0%R.
Proof. exact C37_sum_lemma. Qed.
Print Assumptions C37_sum.

Theorem C37_errors :
  forall (A : Type) (HN : Num A) gs (g : fgraph A) junk st (msgs : list A) v d,
  groups_ok gs -> reachable gs g -> compile_fg_state junk g = Ok st ->
  ~ In v (all_vars gs) \/ shape d <> [snd v] ->
  update_ftov_msgs st msgs [(v, d)] = Raise ValueError.
Proof. exact (fun A HN => @C37_errors_lemma A HN). Qed.
Print Assumptions C37_errors.

Example C37_nonvacuous :
  let us := [(ya, mkArr [2] (map q [3; 9]%Z)); (yt, mkArr [3] (map q [2; 4; 8]%Z))] in
  groups_ok ex_gs /\ reachable ex_gs y_graph /\ wf_groups (gr_groups y_graph) /\
  Forall (good_msg_write (all_vars ex_gs)) us /\
  edges_of (all_edges (gr_groups y_graph)) ya = [0; 4; 6] /\
  exists st ms, compile_fg_state (fun _ => 0%Z) y_graph = Ok st /\
    update_ftov_msgs st (repeat (q 100) 18) us = Ok ms /\
    map Qred ms = map q [1; 3; 1; 2; 4; 100; 100; 1; 2; 4; 1; 3; 100; 100; 1; 3; 100; 100]%Z.
Proof.
  cbv zeta. split; [exact ex_gs_ok|]. split; [exact y_reach|]. split; [exact y_wf|]. split.
  - repeat constructor; simpl; tauto.
  - split; [reflexivity|]. eexists. eexists. split; [vm_compute; reflexivity|]. split; vm_compute; reflexivity.
Qed.

(** ** C38: init, update and to_bp_state *)
Theorem C38_update :
  forall (A : Type) (HN : Num A) (c : bp_ctx A) arrs lu mu eu a',
  let st := bs_fg_state (bc_state c) in
  let bs := bc_state c in
  let a := match arrs with Some a => a | None =>
             {| ba_log_potentials := c_value (bs_log_potentials bs); ba_ftov_msgs := c_value (bs_ftov_msgs bs);
                ba_evidence := c_value (bs_evidence bs) |} end in
  (bp_update c arrs lu mu eu = Ok a' <->
     match lu with Some us => update_log_potentials st (ba_log_potentials a) us = Ok (ba_log_potentials a')
                 | None => ba_log_potentials a' = ba_log_potentials a end /\
     match mu with Some us => update_ftov_msgs st (ba_ftov_msgs a) us = Ok (ba_ftov_msgs a')
                 | None => ba_ftov_msgs a' = ba_ftov_msgs a end /\
     match eu with Some us => update_evidence st (ba_evidence a) us = Ok (ba_evidence a')
                 | None => ba_evidence a' = ba_evidence a end) /\
  (bp_update c arrs lu mu eu = Ok a' ->
     length (ba_log_potentials a') = length (ba_log_potentials a) /\
     length (ba_ftov_msgs a') = length (ba_ftov_msgs a) /\
     length (ba_evidence a') = length (ba_evidence a)).
Proof. exact (fun A HN => @C38_update_lemma A HN). Qed.
Print Assumptions C38_update.

Theorem C38_init :
  forall (A : Type) (HN : Num A) (c : bp_ctx A),
  let bs := bc_state c in
  bp_init c None None None = Ok {| ba_log_potentials := c_value (bs_log_potentials bs);
    ba_ftov_msgs := c_value (bs_ftov_msgs bs); ba_evidence := c_value (bs_evidence bs) |}.
Proof. reflexivity. Qed.
Print Assumptions C38_init.

Theorem C38_to_bp_state :
  forall (A : Type) (HN : Num A) (c : bp_ctx A) (a : bp_arrays A),
  let so := c_state (bs_log_potentials (bc_state c)) in
  let ok := length (ba_log_potentials a) = length (st_log_potentials (snd so)) /\
            length (ba_ftov_msgs a) = st_total_factor_num_states (snd so) /\
            length (ba_evidence a) = st_num_var_states (snd so) in
  (forall bs, to_bp_state c a = Ok bs <-> ok /\
     bs = {| bs_log_potentials := {| c_state := so; c_value := ba_log_potentials a |};
             bs_ftov_msgs := {| c_state := so; c_value := ba_ftov_msgs a |};
             bs_evidence := {| c_state := so; c_value := ba_evidence a |} |}) /\
  (forall e, to_bp_state c a = Raise e -> e = ValueError /\ ~ ok).
Proof. exact (fun A HN => @C38_to_state_lemma A HN). Qed.
Print Assumptions C38_to_bp_state.

Example C38_nonvacuous :
  exists st bs c a, compile_fg_state (fun _ => 0%Z) y_graph = Ok st /\ default_bp_state (5, st) = Ok bs /\
    BP bs (q 0) = Ok c /\
    bp_init c None (Some [(ya, mkArr [2] (map q [3; 9]%Z))]) None = Ok a /\
    ba_log_potentials a = st_log_potentials st /\ ba_evidence a = repeat (q 0) 7 /\
    (exists bs', to_bp_state c a = Ok bs' /\ c_value (bs_ftov_msgs bs') = ba_ftov_msgs a) /\
    to_bp_state c {| ba_log_potentials := []; ba_ftov_msgs := ba_ftov_msgs a; ba_evidence := ba_evidence a |} = Raise ValueError.
Proof.
  do 4 eexists. do 3 (split; [vm_compute; reflexivity|]).
  split; [vm_compute; reflexivity|]. split; [reflexivity|]. split; [reflexivity|]. split; [eexists; split; vm_compute; reflexivity|].
  vm_compute. reflexivity.
Qed.

(** ** C44: components of a BPState *)
Theorem C44_same_object :
  forall (A : Type) (lp ms ev : container A),
  ((exists bs, BPState lp ms ev = Ok bs) <->
     fst (c_state lp) = fst (c_state ms) /\ fst (c_state ms) = fst (c_state ev)) /\
  (forall bs, BPState lp ms ev = Ok bs ->
     bs_log_potentials bs = lp /\ bs_ftov_msgs bs = ms /\ bs_evidence bs = ev) /\
  (forall e, BPState lp ms ev = Raise e -> e = ValueError).
Proof. exact (fun A => @C44_bpstate_lemma A). Qed.
Print Assumptions C44_same_object.

Example C44_same_object_nonvacuous :
  exists st lp ms ev ev', compile_fg_state (fun _ => 0%Z) y_graph = Ok st /\
    LogPotentials (5, st) None = Ok lp /\ FToVMessages (5, st) None = Ok ms /\
    Evidence (5, st) None = Ok ev /\ Evidence (6, st) None = Ok ev' /\
    BPState lp ms ev' = Raise ValueError /\ exists bs, BPState lp ms ev = Ok bs.
Proof.
  do 5 eexists. split; [vm_compute; reflexivity|]. do 4 (split; [vm_compute; reflexivity|]).
  split; [vm_compute; reflexivity|]. eexists. vm_compute. reflexivity.
Qed.
