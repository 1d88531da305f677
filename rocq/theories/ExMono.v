(** * Attractive models for the examples: the triangle with equal states preferred by every
    factor, and one variable with three states. *)
From Verif Require Import NumPy FGroup FGraph BPState BP Lists SpecVGroup SpecFactor SpecFGraph SpecAdd SpecWiring SpecState SpecBP SpecText SpecStable SpecBeliefs SpecConv SpecMono.
From Verif Require Import LemFGraph LemGraph LemNum LemNorm LemRun LemIter LemTransfer LemConv ExBP ExCycle.
From Coq Require Import Lia QArith Qreals Reals Lra.
Local Close Scope Q_scope.
Local Close Scope R_scope.
Local Open Scope nat_scope.

(** ** The triangle *)
Definition at_pots_z : list Z := [4; 0; 0; 4; 4; 0; 0; 4; 4; 0; 0; 4]%Z.
Definition at_a (msgs ev : list R) : bp_arrays R := {| ba_log_potentials := map IZR at_pots_z; ba_ftov_msgs := msgs; ba_evidence := ev |}.
Lemma at_pots_bounds f k : (0 <= graph_pots (gr_groups cy_g) (map IZR at_pots_z) f k <= 4)%R.
Proof.
  unfold graph_pots, read_pots. destruct (f <? _); [|lra]. generalize (sf_first_config (enum_factors (gr_groups cy_g)) f + k). intros i.
  do 12 (destruct i as [|i]; [cbn; lra|]). destruct i; cbn; lra.
Qed.
Lemma at_moderate ev : (forall i, (-10 <= nth i ev 0 <= 10)%R) ->
  moderate cy_rfs (graph_pots (gr_groups cy_g) (map IZR at_pots_z)) (length (enum_factors (gr_groups cy_g))) (read_ev (gr_vars_to_starts cy_g) ev) 10 10 6 2.
Proof.
  intros He. destruct (cy_moderate ev He) as [M1 [_ M2]]. split; [exact M1|]. split; [|exact M2].
  intros f k _ _. pose proof (at_pots_bounds f k). lra.
Qed.
Lemma at_attractive : attractive cy_rfs (graph_pots (gr_groups cy_g) (map IZR at_pots_z)).
Proof.
  intros f k k' Hf Hk Hk'. assert (Hf3 : f < 3) by exact Hf.
  assert (Hk4 : k < 4) by (destruct f as [|[|[|]]]; [exact Hk..|lia]). assert (Hk4' : k' < 4) by (destruct f as [|[|[|]]]; [exact Hk'..|lia]).
  pose (up := fun i j : nat => if (i =? j) || (j =? 0) then i else if i =? 0 then j else 3).
  pose (dn := fun i j : nat => if (i =? j) || (j =? 3) then i else if i =? 3 then j else 0).
  exists (up k k'), (dn k k').
  destruct k as [|[|[|[|]]]]; try lia; destruct k' as [|[|[|[|]]]]; try lia; destruct f as [|[|[|]]]; try lia;
    (split; [vm_compute; lia|]); (split; [vm_compute; lia|]);
    (split; [intros u Hu; destruct u as [|[|]]; [split; vm_compute; reflexivity|split; vm_compute; reflexivity|exfalso; vm_compute in Hu; lia]|cbn; lra]).
Qed.
Lemma cy_binary : binary cy_rfs.
Proof.
  intros f u Hf Hu. assert (Hf3 : f < 3) by exact Hf.
  destruct f as [|[|[|]]]; try lia; (destruct u as [|[|]]; [reflexivity|reflexivity|exfalso; vm_compute in Hu; lia]).
Qed.
Lemma cy_distinct : distinct cy_rfs.
Proof.
  intros f k k' Hf Hk Hk' H. assert (Hf3 : f < 3) by exact Hf.
  assert (Hk4 : k < 4) by (destruct f as [|[|[|]]]; [exact Hk..|lia]). assert (Hk4' : k' < 4) by (destruct f as [|[|[|]]]; [exact Hk'..|lia]).
  assert (Ha2 : 1 < arity cy_rfs f) by (destruct f as [|[|[|]]]; try lia; vm_compute; lia).
  pose proof (H 0 ltac:(lia)) as H0. pose proof (H 1 Ha2) as H1.
  destruct f as [|[|[|]]]; try lia; destruct k as [|[|[|[|]]]]; try lia; destruct k' as [|[|[|[|]]]]; try lia; vm_compute in H0, H1; try reflexivity; discriminate.
Qed.
Lemma cy_states : (forall gr k, In gr cy_vgs -> In k (vg_num_states gr) -> 0 < k) /\ forall gr, In gr cy_vgs -> one_state gr = false.
Proof.
  split; [intros gr n [<-|[]] Hn; repeat (destruct Hn as [<-|Hn]; [lia|]); destruct Hn|]. intros gr [<-|[]]. reflexivity.
Qed.
Definition at_lo : list R := [0; -1000; 0; -1000; 0; -1000; 0; -1000; 0; -1000; 0; -1000]%R.
Definition at_hi : list R := [-1000; 0; -1000; 0; -1000; 0; -1000; 0; -1000; 0; -1000; 0]%R.
Lemma at_lowest : msg_eq cy_rfs (read_msgs cy_rfs at_lo) lowest.
Proof.
  intros f u s Hf Hu Hs. rewrite (cy_binary f u Hf Hu) in Hs. assert (Hf3 : f < 3) by exact Hf.
  destruct f as [|[|[|]]]; try lia; (destruct u as [|[|]]; [| |exfalso; vm_compute in Hu; lia]); (destruct s as [|[|]]; [reflexivity|reflexivity|lia]).
Qed.
Lemma at_highest : msg_eq cy_rfs (read_msgs cy_rfs at_hi) highest.
Proof.
  intros f u s Hf Hu Hs. rewrite (cy_binary f u Hf Hu) in Hs. assert (Hf3 : f < 3) by exact Hf.
  destruct f as [|[|[|]]]; try lia; (destruct u as [|[|]]; [| |exfalso; vm_compute in Hu; lia]); (destruct s as [|[|]]; [reflexivity|reflexivity|lia]).
Qed.

Lemma at_transfer m n q : ba_ftov_msgs (run_bp (cy_ctx inject_Z 0%Q) {| ba_log_potentials := map inject_Z at_pots_z; ba_ftov_msgs := map inject_Z m; ba_evidence := map inject_Z (repeat 0%Z 6) |} n 0%Q) = map inject_Z q ->
  ba_ftov_msgs (run_bp (cy_c 0) (at_a (map IZR m) (map IZR (repeat 0%Z 6))) n 0%R) = map IZR q.
Proof.
  intros E. assert (S : same_ctx (cy_ctx inject_Z 0%Q) (cy_c 0)) by (repeat split).
  pose proof (f_equal ba_ftov_msgs (run_Q _ _ {| ba_log_potentials := map inject_Z at_pots_z; ba_ftov_msgs := map inject_Z m; ba_evidence := map inject_Z (repeat 0%Z 6) |} n 0%Q S)) as H.
  change (map Q2R (ba_ftov_msgs (run_bp (cy_ctx inject_Z 0%Q) {| ba_log_potentials := map inject_Z at_pots_z; ba_ftov_msgs := map inject_Z m; ba_evidence := map inject_Z (repeat 0%Z 6) |} n 0%Q))
    = ba_ftov_msgs (run_bp (cy_c 0) (Build_bp_arrays (map Q2R (map inject_Z at_pots_z)) (map Q2R (map inject_Z m)) (map Q2R (map inject_Z (repeat 0%Z 6)))) n (Q2R 0))) in H.
  rewrite E, !Q2R_map, RMicromega.Q2R_0 in H. symmetry. exact H.
Qed.

(** ** Three states *)
Section Graph.
  Context {A : Type} (p : Z -> A).
  Definition th_enum : fgroup A :=
    {| fg_id := 1; fg_kind := KEnum; fg_type := TEnum; fg_vars := [[b4]];
       fg_configs := mkArr [3; 1] [0; 1; 2]%Z; fg_log_potentials := map p [0; 0; 0]%Z |}.
  Definition th_graph : fgraph A := fst (add_factors (AGroup th_enum) (FactorGraph (GsList ex_vgs))).
  Definition th_state : fg_state A :=
    ltac:(let r := eval vm_compute in (compile_fg_state (fun _ => 0%Z) th_graph) in
          match r with Ok ?s => exact s end).
  Lemma th_compiles : compile_fg_state (fun _ => 0%Z) th_graph = Ok th_state.
  Proof. vm_compute. reflexivity. Qed.
  Lemma th_reach : reachable ex_vgs th_graph.
  Proof. apply reach_add, reach_new. reflexivity. Qed.
  Lemma th_wf : wf_groups (gr_groups th_graph).
  Proof.
    intros t g Hg. change (gr_groups th_graph) with (PT [th_enum] [] []) in Hg. destruct t; cbn in Hg; try destruct Hg as [<-|[]]; try destruct Hg.
    split; [reflexivity|]. split; [|discriminate]. exists 3. split; [reflexivity|].
    intros vs [<-|[]]. split; [reflexivity|]. intros r u x Hr Hu.
    destruct u as [|[|]]; [|discriminate Hu|discriminate Hu]. injection Hu as <-. destruct r as [|[|[|]]]; try lia; vm_compute; split; congruence.
  Qed.
  Context `{Num A}.
  Lemma th_built : EnumFactorGroup 1 [[b4]] (mkArr [3; 1] [0; 1; 2]%Z) (Some (true, mkArr [3] (map p [0; 0; 0]%Z))) = Ok th_enum.
  Proof. reflexivity. Qed.
  Definition th_bs : bp_state A :=
    {| bs_log_potentials := {| c_state := (5, th_state); c_value := st_log_potentials th_state |};
       bs_ftov_msgs := {| c_state := (5, th_state); c_value := repeat n0 3 |};
       bs_evidence := {| c_state := (5, th_state); c_value := repeat n0 11 |} |}.
  Definition th_ctx (T : A) : bp_ctx A :=
    {| bc_state := th_bs; bc_temperature := T; bc_edges_num_states := [3];
       bc_max_msg_size := 3; bc_var_states_for_edges := [8; 9; 10]%Z |}.
  Lemma th_bp_of T : bp_of th_graph T (th_ctx T).
  Proof. exists (fun _ => 0%Z), th_bs. split; [exact th_compiles|reflexivity]. Qed.
  Definition th_arrays (msgs : list A) : bp_arrays A :=
    {| ba_log_potentials := map p [0; 0; 0]%Z; ba_ftov_msgs := msgs; ba_evidence := repeat n0 11 |}.
  Lemma th_arrays_of T msgs : length msgs = 3 -> arrays_of (th_ctx T) (th_arrays msgs).
  Proof. intros H1. repeat split; assumption. Qed.
End Graph.
Definition th_g : fgraph R := th_graph IZR.
Definition th_c : bp_ctx R := th_ctx IZR 0%R.
Definition th_fs : list (sfactor R) := graph_factors 0%R (gr_groups th_g).
Lemma th_pots lp f k : lp = map IZR [0; 0; 0]%Z -> graph_pots (gr_groups th_g) lp f k = 0%R.
Proof.
  intros ->. unfold graph_pots, read_pots. destruct (f <? _); [|lra]. generalize (sf_first_config (enum_factors (gr_groups th_g)) f + k). intros i.
  do 3 (destruct i as [|i]; [cbn; lra|]). destruct i; cbn; lra.
Qed.
Lemma th_ev x s : read_ev (gr_vars_to_starts th_g) (repeat 0%R 11) x s = 0%R.
Proof. unfold read_ev. apply nth_repeat. Qed.
Lemma th_supported : supported (map snd (sf_edges th_fs)).
Proof. split; [vm_compute; discriminate|]. intros n Hn. vm_compute in Hn. repeat (destruct Hn as [<-|Hn]; [lia|]). destruct Hn. Qed.
Lemma th_above m : above_floor (map snd (sf_edges th_fs)) m.
Proof. intros e He. left. assert (He1 : e < 1) by exact He. destruct e; [reflexivity|lia]. Qed.
Lemma th_moderate m : moderate th_fs (graph_pots (gr_groups th_g) (ba_log_potentials (th_arrays IZR m))) (length (enum_factors (gr_groups th_g)))
  (read_ev (gr_vars_to_starts th_g) (ba_evidence (th_arrays IZR m))) 10 10 1 1.
Proof.
  split; [|split; [|split; [|split; [|split; [|split]]]]].
  - intros x s _ _. change (ba_evidence (th_arrays IZR m)) with (repeat 0%R 11). rewrite th_ev. lra.
  - intros f k _ _. rewrite th_pots by reflexivity. lra.
  - intros x. unfold slots_of. assert (E : slots th_fs = [(0,0)]) by reflexivity. rewrite E. cbn [filter]. destruct (var_eqb _ _); cbn; lia.
  - intros f Hf. assert (Hf3 : f < 1) by exact Hf. destruct f as [|]; try lia; vm_compute; lia.
  - intros f u s Hf Hu Hs. assert (Hf3 : f < 1) by exact Hf.
    destruct f as [|]; try lia; (destruct u as [|]; [|exfalso; vm_compute in Hu; lia]);
      (destruct s as [|[|[|]]]; try (exfalso; vm_compute in Hs; lia); vm_compute; discriminate).
  - cbn [INR]. lra.
  - cbn [INR]. lra.
Qed.
Lemma th_attractive : attractive th_fs (graph_pots (gr_groups th_g) (map IZR [0; 0; 0]%Z)).
Proof.
  intros f k k' Hf Hk Hk'. assert (Hf3 : f < 1) by exact Hf. destruct f as [|]; [|lia].
  assert (Hk4 : k < 3) by exact Hk. assert (Hk4' : k' < 3) by exact Hk'.
  exists (Nat.max k k'), (Nat.min k k'). rewrite !th_pots by reflexivity. split; [change (Nat.max k k' < 3); lia|]. split; [change (Nat.min k k' < 3); lia|]. split; [|lra].
  intros u Hu. destruct u as [|]; [|exfalso; vm_compute in Hu; lia].
  destruct k as [|[|[|]]]; try lia; destruct k' as [|[|[|]]]; try lia; split; vm_compute; reflexivity.
Qed.
