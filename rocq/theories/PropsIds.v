(** * C70: nothing a client sees depends on the ids (addresses) of its objects. *)
From Verif Require Import NumPy Lists FGroup FGraph BPState BP SpecVGroup SpecFGraph SpecWiring SpecIds.
From Verif Require Import LemNum LemIds PropsEvidence PropsState.
From Coq Require Import QArith.
Local Close Scope Q_scope.
Local Open Scope nat_scope.

(** Two runs of the same program accept and reject the same additions of factors. *)
Theorem C70_additions :
  forall (A : Type) vgs vgs', groups_ok vgs -> groups_ok vgs' ->
  forall (g g' : fgraph A) a a', same_built vgs vgs' g g' -> same_arg vgs vgs' a a' ->
  snd (add_factors a g) = snd (add_factors a' g').
Proof. exact (fun A => @C70_additions_lemma A). Qed.
Print Assumptions C70_additions.

(** Their graphs compile to the same arrays, or fail alike. *)
Theorem C70_compiled :
  forall (A : Type) vgs vgs', groups_ok vgs -> groups_ok vgs' -> Forall2 same_group vgs vgs' ->
  forall (g g' : fgraph A), same_built vgs vgs' g g' ->
  forall junk, both same_compiled (compile_fg_state junk g) (compile_fg_state junk g').
Proof. exact (fun A => @C70_compiled_lemma A). Qed.
Print Assumptions C70_compiled.

(** Updates of evidence, messages and log potentials give the same arrays, or fail alike. *)
Theorem C70_updates :
  forall (A : Type) (HN : Num A) vgs vgs', groups_ok vgs -> groups_ok vgs' -> Forall2 same_group vgs vgs' ->
  forall (g g' : fgraph A) junk, same_built vgs vgs' g g' ->
  forall st st', compile_fg_state junk g = Ok st -> compile_fg_state junk g' = Ok st' ->
  (forall ev us us', Forall2 (same_item (same_key vgs vgs')) us us' -> update_evidence st ev us = update_evidence st' ev us') /\
  (forall ms us us', Forall2 (same_item (same_var vgs vgs')) us us' -> update_ftov_msgs st ms us = update_ftov_msgs st' ms us') /\
  (NoDup (map fg_id (all_groups (gr_groups g))) -> NoDup (map fg_id (all_groups (gr_groups g'))) ->
   forall lp us us', Forall2 (same_item (same_place g g')) us us' -> update_log_potentials st lp us = update_log_potentials st' lp us').
Proof. exact (fun A HN => @C70_updates_lemma A HN). Qed.
Print Assumptions C70_updates.

(** Runs are equal, in any arithmetic, and the beliefs of the groups are equal and in the
    same order. *)
Theorem C70_runs :
  forall (A : Type) (HN : Num A) vgs vgs', groups_ok vgs -> groups_ok vgs' -> Forall2 same_group vgs vgs' ->
  forall (g g' : fgraph A) junk, same_built vgs vgs' g g' ->
  forall st st' bs bs' T, compile_fg_state junk g = Ok st -> compile_fg_state junk g' = Ok st' ->
  bs_fg_state bs = st -> bs_fg_state bs' = st' ->
  both (fun c c' =>
    (forall a n d, run_bp c a n d = run_bp c' a n d) /\
    (forall a, both (Forall2 (same_item same_group)) (get_beliefs c a) (get_beliefs c' a))) (BP bs T) (BP bs' T).
Proof. exact (fun A HN => @C70_runs_lemma A HN). Qed.
Print Assumptions C70_runs.

(** A whole program: compile, write updates, run, read beliefs, MAP states and marginals. *)
Theorem C70_program :
  forall (A : Type) (HN : Num A) vgs vgs', groups_ok vgs -> groups_ok vgs' -> Forall2 same_group vgs vgs' ->
  forall (g g' : fgraph A) junk, same_built vgs vgs' g g' ->
  NoDup (map fg_id (all_groups (gr_groups g))) -> NoDup (map fg_id (all_groups (gr_groups g'))) ->
  forall T lu lu' mu mu' eu eu' n d,
  Forall2 (same_item (same_place g g')) lu lu' -> Forall2 (same_item (same_var vgs vgs')) mu mu' ->
  Forall2 (same_item (same_key vgs vgs')) eu eu' ->
  outcome junk g T lu mu eu n d = outcome junk g' T lu' mu' eu' n d.
Proof. exact (fun A HN => @C70_program_lemma A HN). Qed.
Print Assumptions C70_program.

(** The graph of the examples with its groups at other addresses: the dictionary comes
    before the array in memory, and the factor groups are in another order. *)
Definition z_gs : list vgroup :=
  [VA {| va_id := 9; va_shape := [2]; va_num_states := [2; 3] |}; VD {| vd_id := 4; vd_names := [7]%Z; vd_num_states := [2] |}].
Definition za : variable := (9000000000%Z, 2).
Definition zt : variable := (9000000001%Z, 3).
Definition zc : variable := (4000000000%Z, 2).
Definition z_enum : fgroup Q :=
  {| fg_id := 30; fg_kind := KEnum; fg_type := TEnum; fg_vars := [[za; zt]; [zc; zt]];
     fg_configs := fg_configs y_enum; fg_log_potentials := fg_log_potentials y_enum |}.
Definition z_pair : fgroup Q :=
  {| fg_id := 10; fg_kind := KPairwise 2 2; fg_type := TEnum; fg_vars := [[za; zc]];
     fg_configs := fg_configs y_pair; fg_log_potentials := fg_log_potentials y_pair |}.
Definition z_or : fgroup Q :=
  {| fg_id := 20; fg_kind := KLogical; fg_type := TOr; fg_vars := [[za; zc]];
     fg_configs := mkArr [] []; fg_log_potentials := [] |}.
Definition z_graph : fgraph Q :=
  fst (add_factors (AList [AGroup z_enum; AGroup z_or; AGroup z_pair]) (FactorGraph (GsList z_gs))).
Example C70_nonvacuous :
  groups_ok ex_gs /\ groups_ok z_gs /\ Forall2 same_group ex_gs z_gs /\ same_built ex_gs z_gs y_graph z_graph /\
  NoDup (map fg_id (all_groups (gr_groups y_graph))) /\ NoDup (map fg_id (all_groups (gr_groups z_graph))) /\
  (exists a a', same_arg ex_gs z_gs a a' /\ snd (add_factors a y_graph) = Raise ValueError) /\
  exists lu lu' mu mu' eu eu' r, Forall2 (same_item (same_place y_graph z_graph)) lu lu' /\
    Forall2 (same_item (same_var ex_gs z_gs)) mu mu' /\ Forall2 (same_item (same_key ex_gs z_gs)) eu eu' /\
    outcome (fun _ => 0%Z) y_graph (q 0) lu mu eu 2 (q 0) = Ok r /\
    snd (fst r) = [DArr (mkArr [2] [1; 2]); DMap [(7%Z, mkArr [] [1])]] /\ length lu = 1 /\ length mu = 1 /\ length eu = 2.
Proof.
  assert (Va : same_var ex_gs z_gs ya za) by (exists 0; split; reflexivity).
  assert (Vt : same_var ex_gs z_gs yt zt) by (exists 1; split; reflexivity).
  assert (Vc : same_var ex_gs z_gs yc zc) by (exists 2; split; reflexivity).
  assert (F1 : same_fgroup ex_gs z_gs y_enum z_enum) by (repeat (split; [reflexivity|]); repeat constructor; assumption).
  assert (F2 : same_fgroup ex_gs z_gs y_pair z_pair) by (repeat (split; [reflexivity|]); repeat constructor; assumption).
  assert (F3 : same_fgroup ex_gs z_gs y_or z_or) by (repeat (split; [reflexivity|]); repeat constructor; assumption).
  split; [exact ex_gs_ok|]. split.
  { split; [|split].
    - constructor; [exists 9%Z, (NsIntArray (mkArr [2] [2; 3])), [2]; now split|].
      constructor; [|constructor]. exists 4%Z, (NsScalar 2), [7]%Z. split; [exact I|].
      split; [repeat constructor; simpl; tauto|reflexivity].
    - constructor; [vm_compute; discriminate|]. constructor; [vm_compute; discriminate|constructor].
    - repeat constructor. vm_compute. discriminate. }
  split; [repeat constructor|]. split; [apply sb_add; [constructor|repeat (constructor; try assumption)]|].
  split; [exact y_ids|]. split; [change (NoDup [30; 10; 20]%Z); repeat constructor; simpl; intuition discriminate|].
  split; [exists (AGroup y_or), (AGroup z_or); split; [now constructor|reflexivity]|].
  exists [(y_enum, mkArr [3] (map q [1; 2; 9]%Z))], [(z_enum, mkArr [3] (map q [1; 2; 9]%Z))].
  exists [(yt, mkArr [3] (map q [1; 0; 1]%Z))], [(zt, mkArr [3] (map q [1; 0; 1]%Z))].
  exists [(EGroup (nth 1 ex_gs (VA ex_va)), DMap [(7%Z, mkArr [2] (map q [1; 2]%Z))]); (EVar ya, DArr (mkArr [2] (map q [0; 3]%Z)))].
  exists [(EGroup (nth 1 z_gs (VA ex_va)), DMap [(7%Z, mkArr [2] (map q [1; 2]%Z))]); (EVar za, DArr (mkArr [2] (map q [0; 3]%Z)))].
  eexists. split; [constructor; [split; [exists 0; split; reflexivity|reflexivity]|constructor]|].
  split; [constructor; [split; [exact Vt|reflexivity]|constructor]|].
  split; [constructor; [split; [exists 1; split; reflexivity|reflexivity]|constructor; [split; [exact Va|reflexivity]|constructor]]|].
  split; [vm_compute; reflexivity|]. split; [vm_compute; reflexivity|]. split; [reflexivity|]. split; reflexivity.
Qed.

(** The ids must differ modulo 2^32. Two groups 4 GiB apart are equal for the library: the
    program that works with ids 1 and 2 loses a group with ids 1 and 1 + 2^32. *)
Definition col_gs (id : Z) : list vgroup :=
  [VA {| va_id := 1; va_shape := [1]; va_num_states := [2] |}; VA {| va_id := id; va_shape := [1]; va_num_states := [2] |}].
Definition col_group (id : Z) : fgroup Q :=
  {| fg_id := 1; fg_kind := KEnum; fg_type := TEnum;
     fg_vars := [[nth 0 (all_vars (col_gs id)) (0%Z, 0); nth 1 (all_vars (col_gs id)) (0%Z, 0)]];
     fg_configs := mkArr [2; 2] [0; 1; 1; 0]%Z; fg_log_potentials := map q [0; 1]%Z |}.
Definition col_graph (id : Z) : fgraph Q := fst (add_factors (AGroup (col_group id)) (FactorGraph (GsList (col_gs id)))).
Theorem C70_collision_refuted :
  ~ (forall (A : Type) (HN : Num A) vgs vgs', groups_ok vgs -> Forall constructed vgs' -> Forall2 same_group vgs vgs' ->
  forall (g g' : fgraph A) junk, same_built vgs vgs' g g' ->
  NoDup (map fg_id (all_groups (gr_groups g))) -> NoDup (map fg_id (all_groups (gr_groups g'))) ->
  forall T n d, outcome junk g T [] [] [] n d = outcome junk g' T [] [] [] n d).
Proof.
  intros H. assert (C : forall id, (vg_hash id <? 2 ^ 63)%Z = true -> Forall constructed (col_gs id)).
  { intros id Hid. constructor; [exists 1%Z, (NsScalar 2), [1]; split; [exact I|reflexivity]|].
    constructor; [|constructor]. exists id, (NsScalar 2), [1]. split; [exact I|]. unfold NDVarArray, VarGroup_post_init. rewrite Hid. reflexivity. }
  specialize (H Q QNum (col_gs 2) (col_gs (1 + 2 ^ 32))).
  specialize (fun h => H h (C (1 + 2 ^ 32)%Z eq_refl)).
  assert (G : groups_ok (col_gs 2)).
  { split; [apply C; reflexivity|]. split; [repeat constructor; vm_compute; discriminate|]. repeat constructor. vm_compute. discriminate. }
  assert (S : same_built (col_gs 2) (col_gs (1 + 2 ^ 32)) (col_graph 2) (col_graph (1 + 2 ^ 32))).
  { apply sb_add; [constructor|]. constructor. repeat (split; [reflexivity|]). constructor; [|constructor].
    constructor; [exists 0; split; reflexivity|]. constructor; [exists 1; split; reflexivity|constructor]. }
  specialize (H G ltac:(repeat constructor) _ _ (fun _ => 0%Z) S).
  specialize (H ltac:(change (NoDup [1%Z]); repeat constructor; simpl; tauto) ltac:(change (NoDup [1%Z]); repeat constructor; simpl; tauto) (q 0) 1 (q 0)).
  apply (f_equal (fun r => match r with Ok x => length (snd (fst x)) | Raise _ => 0 end)) in H. vm_compute in H. discriminate.
Qed.
Print Assumptions C70_collision_refuted.
