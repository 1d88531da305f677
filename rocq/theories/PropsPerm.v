(** * Property C43: order and grouping of factors. *)
From Verif Require Import NumPy Lists VGroup FGraph BPState BP SpecVGroup SpecFGraph SpecFactor SpecAdd SpecWiring SpecState SpecBP SpecText SpecBeliefs SpecPerm.
From Verif Require Import LemRun LemPerm ExBP PropsRun.
From Coq Require Import Reals Lra Lia Permutation.
Local Open Scope nat_scope.

(** ** C43 *)
(** Programs that build graphs from the same factors, in any order and in any groups, run
    belief propagation with the same evidence and obtain the same beliefs. Logical factors
    may even be replaced by enumerations of their configurations. *)
Theorem C43_order :
  forall arg l l' (g g' : fgraph R) T c c' eu a a',
  groups_ok (arg_groups arg) -> (forall fg, In fg (l ++ l') -> valid_group fg /\ fg_vars fg <> []) ->
  built_from arg l g -> built_from arg l' g' ->
  Permutation (flat_map (factors_of 0%R) l) (flat_map (factors_of 0%R) l') ->
  fresh_bp g T c -> fresh_bp g' T c' -> bp_init c None None eu = Ok a -> bp_init c' None None eu = Ok a' ->
  let fs := graph_factors 0%R (gr_groups g) in
  forall B P D K d n,
  moderate fs (fun f k => nth k (sf_pots (factor_at fs f)) 0%R) (length fs) (read_ev (gr_vars_to_starts g) (ba_evidence a)) B P D K ->
  (0 <= T)%R -> (0 <= d <= 1)%R -> supported (map snd (sf_edges fs)) ->
  get_beliefs c' (run_bp c' a' n d) = get_beliefs c (run_bp c a n d).
Proof. exact C43_lemma. Qed.
Print Assumptions C43_order.

(** The same for two graphs however they were built. *)
Theorem C43_graphs :
  forall vgs (g g' : fgraph R) T c c' eu a a',
  groups_ok vgs -> reachable vgs g -> reachable vgs g' -> wf_groups (gr_groups g) -> wf_groups (gr_groups g') ->
  Permutation (graph_factors 0%R (gr_groups g)) (graph_factors 0%R (gr_groups g')) ->
  fresh_bp g T c -> fresh_bp g' T c' -> bp_init c None None eu = Ok a -> bp_init c' None None eu = Ok a' ->
  let fs := graph_factors 0%R (gr_groups g) in
  forall B P D K d n,
  moderate fs (fun f k => nth k (sf_pots (factor_at fs f)) 0%R) (length fs) (read_ev (gr_vars_to_starts g) (ba_evidence a)) B P D K ->
  (0 <= T)%R -> (0 <= d <= 1)%R -> supported (map snd (sf_edges fs)) ->
  get_beliefs c' (run_bp c' a' n d) = get_beliefs c (run_bp c a n d).
Proof. exact C43_graphs_lemma. Qed.
Print Assumptions C43_graphs.

(** With any arrays: if factors correspond (with their current potentials) and so do the
    initial messages, then so do the messages of every run, and beliefs are equal. *)
Theorem C43_run :
  forall vgs (g g' : fgraph R) T (c c' : bp_ctx R),
  groups_ok vgs -> reachable vgs g -> reachable vgs g' -> wf_groups (gr_groups g) -> wf_groups (gr_groups g') ->
  bp_of g T c -> bp_of g' T c' ->
  let fs := graph_factors 0%R (gr_groups g) in
  let fs' := graph_factors 0%R (gr_groups g') in
  let lens := map snd (sf_edges fs) in
  let lens' := map snd (sf_edges fs') in
  let evs := read_ev (gr_vars_to_starts g) in
  forall a a' p, arrays_of c a -> arrays_of c' a' ->
  let pots := graph_pots (gr_groups g) (ba_log_potentials a) in
  let pots' := graph_pots (gr_groups g') (ba_log_potentials a') in
  ba_evidence a' = ba_evidence a -> matching fs fs' pots pots' p ->
  forall d n, carried fs p (read_msgs fs (ba_ftov_msgs a)) (read_msgs fs' (ba_ftov_msgs a')) ->
  supported lens ->
  (forall i, i <= n -> above_floor lens (unnormalised c a d i) /\ above_floor lens' (unnormalised c' a' d i)) ->
  (forall i, i < n ->
     in_range fs pots (length (enum_factors (gr_groups g))) T
       (var_to_fac fs (evs (ba_evidence a)) (text_bp fs pots T d (evs (ba_evidence a)) (read_msgs fs (ba_ftov_msgs a)) i)) /\
     in_range fs' pots' (length (enum_factors (gr_groups g'))) T
       (var_to_fac fs' (evs (ba_evidence a)) (text_bp fs' pots' T d (evs (ba_evidence a)) (read_msgs fs' (ba_ftov_msgs a')) i))) ->
  carried fs p (read_msgs fs (ba_ftov_msgs (run_bp c a n d))) (read_msgs fs' (ba_ftov_msgs (run_bp c' a' n d))) /\
  get_beliefs c' (run_bp c' a' n d) = get_beliefs c (run_bp c a n d).
Proof. exact C43_run_lemma. Qed.
Print Assumptions C43_run.

(** With hypotheses about the inputs only. *)
Theorem C43_bounded :
  forall vgs (g g' : fgraph R) T (c c' : bp_ctx R),
  groups_ok vgs -> reachable vgs g -> reachable vgs g' -> wf_groups (gr_groups g) -> wf_groups (gr_groups g') ->
  bp_of g T c -> bp_of g' T c' ->
  let fs := graph_factors 0%R (gr_groups g) in
  let fs' := graph_factors 0%R (gr_groups g') in
  let lens := map snd (sf_edges fs) in
  let lens' := map snd (sf_edges fs') in
  let evs := read_ev (gr_vars_to_starts g) in
  forall a a' p, arrays_of c a -> arrays_of c' a' ->
  let pots := graph_pots (gr_groups g) (ba_log_potentials a) in
  let pots' := graph_pots (gr_groups g') (ba_log_potentials a') in
  ba_evidence a' = ba_evidence a -> matching fs fs' pots pots' p ->
  forall B P D K d n, carried fs p (read_msgs fs (ba_ftov_msgs a)) (read_msgs fs' (ba_ftov_msgs a')) ->
  moderate fs pots (length fs) (evs (ba_evidence a)) B P D K ->
  (0 <= T)%R -> (0 <= d <= 1)%R -> supported lens -> above_floor lens (ba_ftov_msgs a) -> above_floor lens' (ba_ftov_msgs a') ->
  carried fs p (read_msgs fs (ba_ftov_msgs (run_bp c a n d))) (read_msgs fs' (ba_ftov_msgs (run_bp c' a' n d))) /\
  get_beliefs c' (run_bp c' a' n d) = get_beliefs c (run_bp c a n d).
Proof. exact C43_bounded_lemma. Qed.
Print Assumptions C43_bounded.

(** The factors of a graph are those of the groups added, whatever the order. *)
Theorem C43_factors :
  forall (A : Type) (zero : A) arg l g, built_from arg l g ->
  Permutation (graph_factors zero (gr_groups g)) (flat_map (factors_of zero) l).
Proof. exact (fun A => @built_factors A). Qed.
Print Assumptions C43_factors.

(** Whether all groups are accepted does not depend on the order. *)
Theorem C43_accepted :
  forall (A : Type) arg (l : list (fgroup A)),
  snd (add_factors (AList (map AGroup l)) (FactorGraph arg)) = Ok tt <-> forall t, distinct_sets (sets_of_type t l).
Proof. exact (fun A => @C43_accepted_lemma A). Qed.
Print Assumptions C43_accepted.
Theorem C43_accepted_order :
  forall (A : Type) arg (l l' : list (fgroup A)), Permutation l l' ->
  snd (add_factors (AList (map AGroup l)) (FactorGraph arg)) = Ok tt <->
  snd (add_factors (AList (map AGroup l')) (FactorGraph arg)) = Ok tt.
Proof. exact (fun A => @C43_accepted_order_lemma A). Qed.
Print Assumptions C43_accepted_order.

(** The example graph, and one built from the same factors in another order: the two
    enumeration factors in separate groups and the OR factor enumerated. *)
Section Other.
  Context {A : Type} (p : Z -> A).
  Definition ex2_first : fgroup A :=
    {| fg_id := 11; fg_kind := KEnum; fg_type := TEnum; fg_vars := [[b0; b4]];
       fg_configs := mkArr [4; 2] [0; 0; 0; 2; 1; 1; 1; 2]%Z; fg_log_potentials := map p [1; -2; 3; 0]%Z |}.
  Definition ex2_second : fgroup A :=
    {| fg_id := 12; fg_kind := KEnum; fg_type := TEnum; fg_vars := [[b1; b4]];
       fg_configs := mkArr [4; 2] [0; 0; 0; 2; 1; 1; 1; 2]%Z; fg_log_potentials := map p [4; -1; 2; 2]%Z |}.
  Definition ex2_or : fgroup A :=
    {| fg_id := 13; fg_kind := KEnum; fg_type := TEnum; fg_vars := [[b0; b1; b2]];
       fg_configs := mkArr [4; 3] [0; 0; 0; 1; 0; 1; 0; 1; 1; 1; 1; 1]%Z; fg_log_potentials := map p [0; 0; 0; 0]%Z |}.
  Definition ex_list : list (fgroup A) := [ex_and; ex_enum p; ex_or].
  Definition ex2_list : list (fgroup A) := [ex2_second; ex2_or; ex_and; ex2_first].
  Definition ex2_graph : fgraph A := fst (add_factors (AList (map AGroup ex2_list)) (FactorGraph (GsList ex_vgs))).
  Definition ex2_state : fg_state A :=
    ltac:(let r := eval vm_compute in (compile_fg_state (fun _ => 0%Z) ex2_graph) in
          match r with Ok ?s => exact s end).
  Lemma ex2_compiles : compile_fg_state (fun _ => 0%Z) ex2_graph = Ok ex2_state.
  Proof. vm_compute. reflexivity. Qed.
End Other.
Definition ex_updates : list (ev_key * gdata R) := [(EVar b1, DArr (vec [-1; 2]%R)); (EVar b4, DArr (vec [2; -2; 1]%R))].
Definition ex_evidence : list R := [0; 0; -1; 2; 0; 0; 0; 0; 2; -2; 1]%R.
Lemma ex2_built : built_from (GsList ex_vgs) (ex_list IZR) ex_g /\ built_from (GsList ex_vgs) (ex2_list IZR) (ex2_graph IZR).
Proof. split; reflexivity. Qed.
Lemma ex2_perm : Permutation (flat_map (factors_of 0%R) (ex_list IZR)) (flat_map (factors_of 0%R) (ex2_list IZR)).
Proof.
  set (x0 := SF [b0; b4] [[0; 0]; [0; 2]; [1; 1]; [1; 2]]%Z (map IZR [1; -2; 3; 0]%Z)).
  set (x1 := SF [b1; b4] [[0; 0]; [0; 2]; [1; 1]; [1; 2]]%Z (map IZR [4; -1; 2; 2]%Z)).
  set (x2 := SF [b0; b1; b2] [[0; 0; 0]; [1; 0; 1]; [0; 1; 1]; [1; 1; 1]]%Z (repeat 0%R 4)).
  set (x3 := SF [b1; b2; b3] [[0; 0; 0]; [1; 0; 0]; [0; 1; 0]; [1; 1; 1]]%Z (repeat 0%R 4)).
  change (Permutation [x3; x0; x1; x2] [x1; x2; x3; x0]).
  apply (Permutation_app_comm [x3; x0] [x1; x2]).
Qed.
Lemma ex2_fresh T : fresh_bp ex_g T (ex_c T) /\ exists c', fresh_bp (ex2_graph IZR) T c' /\
  bp_init (ex_c T) None None (Some ex_updates) = Ok (ex_arrays IZR (repeat 0%R 22) ex_evidence) /\
  exists a', bp_init c' None None (Some ex_updates) = Ok a'.
Proof.
  split; [exists (fun _ => 0%Z), (ex_state IZR), 5, (ex_bs IZR); split; [exact (ex_compiles IZR)|]; split; [exact (ex_bs_default IZR)|reflexivity]|].
  destruct (BP {| bs_log_potentials := {| c_state := (6, ex2_state IZR); c_value := st_log_potentials (ex2_state IZR) |};
       bs_ftov_msgs := {| c_state := (6, ex2_state IZR); c_value := repeat 0%R 22 |};
       bs_evidence := {| c_state := (6, ex2_state IZR); c_value := repeat 0%R 11 |} |} T) as [c'|e] eqn:E; [|discriminate].
  exists c'. split; [exists (fun _ => 0%Z), (ex2_state IZR), 6; eexists; split; [exact (ex2_compiles IZR)|]; split; [reflexivity|exact E]|].
  split; [reflexivity|]. injection E as <-. eexists. reflexivity.
Qed.
Lemma ex2_moderate : moderate ex_rfs (fun f k => nth k (sf_pots (factor_at ex_rfs f)) 0%R) (length ex_rfs)
  (read_ev (gr_vars_to_starts ex_g) ex_evidence) 10 10 10 3.
Proof.
  split; [|split; [|split; [|split; [|split; [|split]]]]].
  - intros x s _ _. unfold read_ev. generalize (start_of (gr_vars_to_starts ex_g) x + s). intros i. unfold ex_evidence.
    do 11 (destruct i as [|i]; [cbn; lra|]). destruct i; cbn; lra.
  - intros f k Hf _. assert (Hf4 : f < 4) by exact Hf. change ex_rfs with (ex_fs IZR 0%R).
    destruct f as [|[|[|[|]]]]; [| | | |lia]; cbn [factor_at ex_fs nth sf_pots]; (do 4 (destruct k as [|k]; [cbn; lra|])); destruct k; cbn; lra.
  - intros x. unfold slots_of. eapply Nat.le_trans; [apply filter_length_le|]. vm_compute. lia.
  - intros f Hf. assert (Hf4 : f < 4) by exact Hf. destruct f as [|[|[|[|]]]]; [| | | |lia]; vm_compute; lia.
  - intros f u s Hf Hu Hs. assert (Hf4 : f < 4) by exact Hf. change ex_rfs with (ex_fs IZR 0%R) in *.
    destruct f as [|[|[|[|]]]]; [| | | |lia]; (destruct u as [|[|[|]]]; try (exfalso; vm_compute in Hu; lia));
      (destruct s as [|[|[|]]]; try (exfalso; vm_compute in Hs; lia); vm_compute; discriminate).
  - cbn [INR]. lra.
  - cbn [INR]. lra.
Qed.
Lemma ex2_valid fg : In fg (ex_list IZR ++ ex2_list IZR) -> valid_group fg /\ fg_vars fg <> [].
Proof.
  assert (V2 : forall vs id, In vs [[b0; b4]; [b1; b4]] -> forall lp, length lp = 4 -> valid_group (A:=R)
    {| fg_id := id; fg_kind := KEnum; fg_type := TEnum; fg_vars := [vs]; fg_configs := mkArr [4; 2] [0; 0; 0; 2; 1; 1; 1; 2]%Z; fg_log_potentials := lp |}).
  { intros vs id Hvs lp Hl. exists 4. split; [exact Hl|]. intros ws [<-|[]]. split; [destruct Hvs as [<-|[<-|[]]]; reflexivity|].
    intros r u x Hr Hu. assert (Hu2 : u < 2) by (assert (E : length vs = 2) by (destruct Hvs as [<-|[<-|[]]]; reflexivity); rewrite <- E; apply nth_error_Some; congruence).
    destruct Hvs as [<-|[<-|[]]]; destruct r as [|[|[|[|]]]]; try lia; destruct u as [|[|]]; try lia; injection Hu as <-; vm_compute; split; congruence. }
  intros H. cbn [ex_list ex2_list app In] in H. split; [|repeat (destruct H as [<-|H]; [discriminate|]); destruct H].
  destruct H as [<-|[<-|[<-|[<-|[<-|[<-|[<-|[]]]]]]]].
  - apply (ex_wf IZR TAnd). now left.
  - apply (ex_wf IZR TEnum). now left.
  - apply (ex_wf IZR TOr). now left.
  - apply V2; [right; now left|reflexivity].
  - exists 4. split; [reflexivity|]. intros vs [<-|[]]. split; [reflexivity|]. intros r u x Hr Hu.
    assert (Hu3 : u < 3) by (change 3 with (length [b0; b1; b2]); apply nth_error_Some; congruence).
    destruct r as [|[|[|[|]]]]; try lia; destruct u as [|[|[|]]]; try lia; injection Hu as <-; vm_compute; split; congruence.
  - apply (ex_wf IZR TAnd). now left.
  - apply V2; [now left|reflexivity].
Qed.
Example C43_nonvacuous : forall T d n, (0 <= T)%R -> (0 <= d <= 1)%R ->
  exists c' a', fresh_bp (ex2_graph IZR) T c' /\ bp_init c' None None (Some ex_updates) = Ok a' /\
  get_beliefs c' (run_bp c' a' n d) = get_beliefs (ex_c T) (run_bp (ex_c T) (ex_arrays IZR (repeat 0%R 22) ex_evidence) n d).
Proof.
  intros T d n HT Hd. destruct (ex2_fresh T) as [F1 [c' [F2 [I1 [a' I2]]]]]. destruct ex2_built as [B1 B2]. exists c', a'. split; [exact F2|]. split; [exact I2|].
  exact (C43_order (GsList ex_vgs) _ _ _ _ T (ex_c T) c' _ _ a' ex_vgs_ok ex2_valid B1 B2 ex2_perm F1 F2 I1 I2 10%R 10%R 10 3 d n ex2_moderate HT Hd ex_supported).
Qed.
