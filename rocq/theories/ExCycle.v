(** * A cycle for the examples: three binary variables and three pairwise factors, two with
    equal states preferred and one with different states preferred. *)
From Verif Require Import NumPy FGroup FGraph BPState BP Lists SpecVGroup SpecFactor SpecFGraph SpecAdd SpecWiring SpecState SpecBP SpecText SpecStable SpecConv.
From Verif Require Import LemFGraph LemGraph LemNum LemNorm LemRun LemIter LemTransfer LemConv ExBP.
From Coq Require Import Lia QArith Qreals Reals Lra.
Local Close Scope Q_scope.
Local Close Scope R_scope.
Local Open Scope nat_scope.

Definition cy_vg : varray := {| va_id := 1; va_shape := [3]; va_num_states := [2; 2; 2] |}.
Definition cy_vgs : list vgroup := [VA cy_vg].
Definition cy_pots_z : list Z := [4; 0; 0; 4; 4; 0; 0; 4; 0; 4; 4; 0]%Z.
Section Graph.
  Context {A : Type} (p : Z -> A).
  Definition cy_pair : fgroup A :=
    {| fg_id := 1; fg_kind := KPairwise 2 2; fg_type := TEnum; fg_vars := [[b0; b1]; [b1; b2]; [b2; b0]];
       fg_configs := mkArr [4; 2] [0; 0; 0; 1; 1; 0; 1; 1]%Z; fg_log_potentials := map p cy_pots_z |}.
  Definition cy_graph : fgraph A := fst (add_factors (AGroup cy_pair) (FactorGraph (GsList cy_vgs))).
  Definition cy_state : fg_state A :=
    ltac:(let r := eval vm_compute in (compile_fg_state (fun _ => 0%Z) cy_graph) in
          match r with Ok ?s => exact s end).
  Lemma cy_compiles : compile_fg_state (fun _ => 0%Z) cy_graph = Ok cy_state.
  Proof. vm_compute. reflexivity. Qed.
  Lemma cy_reach : reachable cy_vgs cy_graph.
  Proof. apply reach_add, reach_new. reflexivity. Qed.
  Lemma cy_wf : wf_groups (gr_groups cy_graph).
  Proof.
    intros t g Hg. change (gr_groups cy_graph) with (PT [cy_pair] [] []) in Hg. destruct t; cbn in Hg; try destruct Hg as [<-|[]]; try destruct Hg.
    split; [reflexivity|]. split; [|discriminate]. exists 4. split; [reflexivity|].
    intros vs Hvs. split; [destruct Hvs as [<-|[<-|[<-|[]]]]; reflexivity|]. intros r u x Hr Hu.
    assert (Hu2 : u < 2) by (assert (E : length vs = 2) by (destruct Hvs as [<-|[<-|[<-|[]]]]; reflexivity); rewrite <- E; apply nth_error_Some; congruence).
    destruct Hvs as [<-|[<-|[<-|[]]]]; destruct r as [|[|[|[|]]]]; try lia; destruct u as [|[|]]; try lia; injection Hu as <-; vm_compute; split; congruence.
  Qed.
  Context `{Num A}.
  Lemma cy_built : PairwiseFactorGroup (fun _ => p 99) 1 [[b0; b1]; [b1; b2]; [b2; b0]] (Some (true, mkArr [3; 2; 2] (map p cy_pots_z))) = Ok cy_pair.
  Proof. reflexivity. Qed.
  Definition cy_bs : bp_state A :=
    {| bs_log_potentials := {| c_state := (5, cy_state); c_value := st_log_potentials cy_state |};
       bs_ftov_msgs := {| c_state := (5, cy_state); c_value := repeat n0 12 |};
       bs_evidence := {| c_state := (5, cy_state); c_value := repeat n0 6 |} |}.
  Definition cy_ctx (T : A) : bp_ctx A :=
    {| bc_state := cy_bs; bc_temperature := T; bc_edges_num_states := [2; 2; 2; 2; 2; 2];
       bc_max_msg_size := 2; bc_var_states_for_edges := [0; 1; 2; 3; 2; 3; 4; 5; 4; 5; 0; 1]%Z |}.
  Lemma cy_bp_of T : bp_of cy_graph T (cy_ctx T).
  Proof. exists (fun _ => 0%Z), cy_bs. split; [exact cy_compiles|reflexivity]. Qed.
  Definition cy_arrays (msgs ev : list A) : bp_arrays A :=
    {| ba_log_potentials := map p cy_pots_z; ba_ftov_msgs := msgs; ba_evidence := ev |}.
  Lemma cy_arrays_of T msgs ev : length msgs = 12 -> length ev = 6 -> arrays_of (cy_ctx T) (cy_arrays msgs ev).
  Proof. intros H1 H2. repeat split; assumption. Qed.
End Graph.
Lemma cy_vgs_ok : groups_ok cy_vgs.
Proof.
  split; [|split].
  - constructor; [|constructor]. exists 1%Z, (NsIntArray (mkArr [3] [2; 2; 2])), [3]. now split.
  - constructor; [vm_compute; discriminate|constructor].
  - constructor; constructor.
Qed.

Lemma Q2R_map l : map Q2R (map inject_Z l) = map IZR l.
Proof. rewrite map_map. apply map_ext. exact Q2R_ofZ. Qed.
Definition cy_g : fgraph R := cy_graph IZR.
Definition cy_c (T : R) : bp_ctx R := cy_ctx IZR T.
Definition cy_a (ev : list R) : bp_arrays R := cy_arrays IZR (repeat 0%R 12) ev.
Definition cy_rfs : list (sfactor R) := graph_factors 0%R (gr_groups cy_g).
Lemma cy_given T ev : length ev = 6 -> groups_ok cy_vgs /\ reachable cy_vgs cy_g /\ wf_groups (gr_groups cy_g) /\ bp_of cy_g T (cy_c T) /\ arrays_of (cy_c T) (cy_a ev).
Proof.
  intros He. split; [exact cy_vgs_ok|]. split; [apply cy_reach|]. split; [apply cy_wf|]. split; [apply cy_bp_of|]. now apply cy_arrays_of.
Qed.
Lemma cy_supported : supported (map snd (sf_edges cy_rfs)).
Proof. split; [vm_compute; discriminate|]. intros n Hn. vm_compute in Hn. repeat (destruct Hn as [<-|Hn]; [lia|]). destruct Hn. Qed.
Lemma cy_degrees : degrees cy_rfs 2 2.
Proof.
  split.
  - intros x. unfold slots_of. assert (E : slots cy_rfs = [(0,0);(0,1);(1,0);(1,1);(2,0);(2,1)]) by reflexivity. rewrite E.
    cbn [filter fst snd]. change (var_at cy_rfs 0 0) with b0. change (var_at cy_rfs 0 1) with b1. change (var_at cy_rfs 1 0) with b1.
    change (var_at cy_rfs 1 1) with b2. change (var_at cy_rfs 2 0) with b2. change (var_at cy_rfs 2 1) with b0.
    destruct (var_eqb b0 x) eqn:E0; [apply LemFGraph.var_eqb_eq in E0; subst x; vm_compute; lia|].
    destruct (var_eqb b1 x) eqn:E1; [apply LemFGraph.var_eqb_eq in E1; subst x; vm_compute; lia|].
    destruct (var_eqb b2 x) eqn:E2; [apply LemFGraph.var_eqb_eq in E2; subst x; vm_compute; lia|]. cbn. lia.
  - intros f Hf. assert (Hf3 : f < 3) by exact Hf. destruct f as [|[|[|]]]; try lia; vm_compute; lia.
Qed.
Lemma cy_pots_bounds lp f k : lp = map IZR cy_pots_z -> (0 <= graph_pots (gr_groups cy_g) lp f k <= 4)%R.
Proof.
  intros ->. unfold graph_pots, read_pots. destruct (f <? _); [|lra]. generalize (sf_first_config (enum_factors (gr_groups cy_g)) f + k). intros i.
  do 12 (destruct i as [|i]; [cbn; lra|]). destruct i; cbn; lra.
Qed.
Lemma cy_within : pots_within cy_rfs (graph_pots (gr_groups cy_g) (map IZR cy_pots_z)) 4.
Proof. intros f k k' _ _ _. pose proof (cy_pots_bounds _ f k eq_refl). pose proof (cy_pots_bounds _ f k' eq_refl). lra. Qed.
Lemma cy_moderate ev : (forall i, (-10 <= nth i ev 0 <= 10)%R) ->
  moderate cy_rfs (graph_pots (gr_groups cy_g) (map IZR cy_pots_z)) (length (enum_factors (gr_groups cy_g))) (read_ev (gr_vars_to_starts cy_g) ev) 10 10 6 2.
Proof.
  intros He. split; [|split; [|split; [|split; [|split; [|split]]]]].
  - intros x s _ _. apply He.
  - intros f k _ _. pose proof (cy_pots_bounds _ f k eq_refl). lra.
  - intros x. pose proof (proj1 cy_degrees x). lia.
  - intros f Hf. assert (Hf3 : f < 3) by exact Hf. destruct f as [|[|[|]]]; try lia; vm_compute; lia.
  - intros f u s Hf Hu Hs. assert (Hf3 : f < 3) by exact Hf.
    destruct f as [|[|[|]]]; try lia; (destruct u as [|[|]]; [| |exfalso; vm_compute in Hu; lia]);
      (destruct s as [|[|]]; try (exfalso; vm_compute in Hs; lia); vm_compute; discriminate).
  - cbn [INR]. lra.
  - cbn [INR]. lra.
Qed.
Lemma cy_above m : above_floor (map snd (sf_edges cy_rfs)) m.
Proof. intros e He. left. assert (e < 6) by exact He. do 6 (destruct e as [|e]; [reflexivity|]). lia. Qed.
Lemma cy_all : all_configs cy_rfs /\ forall f, f < length cy_rfs -> arity cy_rfs f = 2.
Proof.
  apply C56_pairwise_lemma; [reflexivity|reflexivity|]. change (pt_enum (gr_groups cy_g)) with [cy_pair IZR]. intros gr [<-|[]].
  exists (fun _ => IZR 99), 1%Z, [[b0; b1]; [b1; b2]; [b2; b0]], (Some (true, mkArr [3; 2; 2] (map IZR cy_pots_z))). split; [reflexivity|apply cy_built].
Qed.
(** At temperature 0 without damping a message travels along the cycle, returns negated
    after three iterations and is back after six. *)
Definition cy_start_z : list Z := [0; 0; 0; -1; 0; 0; 0; 0; 0; 0; 0; 0]%Z.
Definition cy_half_z : list Z := [0; 0; -1; 0; 0; 0; 0; 0; 0; 0; 0; 0]%Z.
Definition cy_flat : bp_arrays R := cy_a (map IZR (repeat 0%Z 6)).
Lemma cy_transfer m n q : ba_ftov_msgs (run_bp (cy_ctx inject_Z 0%Q) (cy_arrays inject_Z (map inject_Z m) (map inject_Z (repeat 0%Z 6))) n 0%Q) = map inject_Z q ->
  ba_ftov_msgs (run_bp (cy_c 0) (with_msgs cy_flat (map IZR m)) n 0%R) = map IZR q.
Proof.
  intros E. assert (S : same_ctx (cy_ctx inject_Z 0%Q) (cy_c 0)) by (repeat split).
  pose proof (f_equal ba_ftov_msgs (run_Q _ _ (cy_arrays inject_Z (map inject_Z m) (map inject_Z (repeat 0%Z 6))) n 0%Q S)) as H.
  change (map Q2R (ba_ftov_msgs (run_bp (cy_ctx inject_Z 0%Q) (cy_arrays inject_Z (map inject_Z m) (map inject_Z (repeat 0%Z 6))) n 0%Q))
    = ba_ftov_msgs (run_bp (cy_c 0) (Build_bp_arrays (map Q2R (map inject_Z cy_pots_z)) (map Q2R (map inject_Z m)) (map Q2R (map inject_Z (repeat 0%Z 6)))) n (Q2R 0))) in H.
  rewrite E, !Q2R_map, RMicromega.Q2R_0 in H. symmetry. exact H.
Qed.
Lemma cy_flat_given : moderate cy_rfs (graph_pots (gr_groups cy_g) (ba_log_potentials cy_flat)) (length (enum_factors (gr_groups cy_g))) (read_ev (gr_vars_to_starts cy_g) (ba_evidence cy_flat)) 10 10 6 2.
Proof. apply cy_moderate. intros i. do 6 (destruct i as [|i]; [cbn; lra|]). destruct i; cbn; lra. Qed.
Lemma cy_later m n k : length m = 12 -> ba_ftov_msgs (run_bp (cy_c 0) (with_msgs cy_flat m) (n + k) 0%R)
  = ba_ftov_msgs (run_bp (cy_c 0) (with_msgs cy_flat (ba_ftov_msgs (run_bp (cy_c 0) (with_msgs cy_flat m) n 0%R))) k 0%R).
Proof.
  intros L. destruct (cy_given 0 (map IZR (repeat 0%Z 6)) eq_refl) as [H1 [H2 [H3 [H4 _]]]].
  assert (H5 : arrays_of (cy_c 0) (with_msgs cy_flat m)) by now apply cy_arrays_of.
  rewrite <- (C31_bounded_lemma cy_vgs cy_g 0 (cy_c 0) (with_msgs cy_flat m) 10 10 6 2 0 H1 H2 H3 H4 H5 cy_flat_given (Rle_refl 0)); [reflexivity|lra|exact cy_supported|apply cy_above].
Qed.
Lemma cy_oscillates k :
  ba_ftov_msgs (run_bp (cy_c 0) (with_msgs cy_flat (map IZR cy_start_z)) (k * 6) 0%R) = map IZR cy_start_z /\
  ba_ftov_msgs (run_bp (cy_c 0) (with_msgs cy_flat (map IZR cy_start_z)) (k * 6 + 3) 0%R) = map IZR cy_half_z.
Proof.
  assert (H0 : ba_ftov_msgs (run_bp (cy_c 0) (with_msgs cy_flat (map IZR cy_start_z)) (k * 6) 0%R) = map IZR cy_start_z).
  { induction k as [|k IH].
    - apply cy_transfer. vm_compute. reflexivity.
    - replace (S k * 6) with (k * 6 + 6) by lia. rewrite cy_later by reflexivity. rewrite IH. apply cy_transfer. vm_compute. reflexivity. }
  split; [exact H0|]. rewrite cy_later by reflexivity. rewrite H0. apply cy_transfer. vm_compute. reflexivity.
Qed.
Lemma C56_zero_temperature_refuted_lemma : ~ (forall vgs (g : fgraph R) (c : bp_ctx R),
  groups_ok vgs -> reachable vgs g -> wf_groups (gr_groups g) -> bp_of g 0%R c ->
  let fs := graph_factors 0%R (gr_groups g) in
  let lens := map snd (sf_edges fs) in
  all_configs fs -> supported lens -> degrees fs 2 2 ->
  forall a B P D1 K1, arrays_of c a ->
  moderate fs (graph_pots (gr_groups g) (ba_log_potentials a)) (length (enum_factors (gr_groups g)))
    (read_ev (gr_vars_to_starts g) (ba_evidence a)) B P D1 K1 ->
  above_floor lens (ba_ftov_msgs a) ->
  exists l, forall eps, (0 < eps)%R -> exists N, forall n i, N <= n ->
    (Rabs (nth i (ba_ftov_msgs (run_bp c a n 0%R)) 0 - nth i l 0) < eps)%R).
Proof.
  intros H. destruct (cy_given 0 (map IZR (repeat 0%Z 6)) eq_refl) as [H1 [H2 [H3 [H4 _]]]].
  destruct (H cy_vgs cy_g (cy_c 0) H1 H2 H3 H4 (proj1 cy_all) cy_supported cy_degrees (with_msgs cy_flat (map IZR cy_start_z)) 10%R 10%R 6 2) as [l Hl];
    [now apply cy_arrays_of|exact cy_flat_given|apply cy_above|].
  destruct (Hl (1 / 2)%R ltac:(lra)) as [N HN]. destruct (cy_oscillates N) as [E1 E2].
  pose proof (HN (N * 6) 3 ltac:(lia)) as A1. pose proof (HN (N * 6 + 3) 3 ltac:(lia)) as A2. rewrite E1 in A1. rewrite E2 in A2.
  cbn in A1, A2. apply Rabs_def2 in A1. apply Rabs_def2 in A2. lra.
Qed.
