(** * Property C57: what fixed points of belief propagation mean. *)
From Verif Require Import NumPy FGroup FGraph BPState BP Lists SpecVGroup SpecFactor SpecFGraph SpecAdd SpecWiring SpecState SpecBP SpecText SpecBeliefs SpecTree SpecStable SpecConv SpecFix.
From Verif Require Import LemFix ExBP ExCycle ExFix.
From Coq Require Import Reals Lra Lia.
Local Close Scope R_scope.
Local Open Scope nat_scope.

(** Messages only move score around: whatever they are, the score of an assignment is the sum of
    the beliefs of its states and, for every factor, the belief of its configuration minus the
    beliefs of its states. *)
Theorem C57_reparametrise :
  forall vgs (g : fgraph R) T (c : bp_ctx R),
  groups_ok vgs -> reachable vgs g -> wf_groups (gr_groups g) -> bp_of g T c ->
  forall a, arrays_of c a ->
  (forall gr n, In gr vgs -> In n (vg_num_states gr) -> 0 < n) ->
  let fs := graph_factors 0%R (gr_groups g) in
  let pots := graph_pots (gr_groups g) (ba_log_potentials a) in
  let ev := read_ev (gr_vars_to_starts g) (ba_evidence a) in
  let m := read_msgs fs (ba_ftov_msgs a) in
  let xs := all_vars vgs in
  exists r b, get_beliefs c a = Ok r /\ belief_table vgs r b /\
    forall st cf, joint fs xs st cf -> joint_score fs pots ev xs st cf =
      (rsum (map (fun x => b x (st x)) xs) + rsum (map (fun f => config_belief fs pots b m f (cf f)
         - rsum (map (fun u => b (var_at fs f u) (st (var_at fs f u))) (seq 0 (arity fs f)))) (seq 0 (length fs))))%R.
Proof. exact C57_reparametrise_lemma. Qed.
Print Assumptions C57_reparametrise.

(** At a fixed point at a positive temperature the beliefs of a variable and of its factors
    agree: the probability of a state is that of the configurations with the state. *)
Theorem C57_marginals :
  forall vgs (g : fgraph R) T (c : bp_ctx R),
  groups_ok vgs -> reachable vgs g -> wf_groups (gr_groups g) -> bp_of g T c ->
  forall a, arrays_of c a ->
  (forall gr n, In gr vgs -> In n (vg_num_states gr) -> 0 < n) ->
  let fs := graph_factors 0%R (gr_groups g) in
  let pots := graph_pots (gr_groups g) (ba_log_potentials a) in
  let ev := read_ev (gr_vars_to_starts g) (ba_evidence a) in
  let lens := map snd (sf_edges fs) in
  let m := read_msgs fs (ba_ftov_msgs a) in
  forall B P D K d, moderate fs pots (length (enum_factors (gr_groups g))) ev B P D K ->
  (0 <= T)%R -> (0 <= d < 1)%R -> supported lens -> above_floor lens (ba_ftov_msgs a) ->
  ba_ftov_msgs (run_bp c a 1 d) = ba_ftov_msgs a ->
  (0 < T)%R ->
  exists r b, get_beliefs c a = Ok r /\ belief_table vgs r b /\
    forall f u, f < length fs -> u < arity fs f -> (forall s, s < snd (var_at fs f u) -> (-1000 < m f u s)%R) ->
    forall s, s < snd (var_at fs f u) ->
      gibbs (fun s => b (var_at fs f u) s / T)%R (snd (var_at fs f u)) s = rsum (map (config_prob fs pots T b m f) (choices fs f u s)).
Proof. exact C57_marginals_lemma. Qed.
Print Assumptions C57_marginals.

(** At temperature 1 these are the marginals the code returns. *)
Theorem C57_marginals_one :
  forall vgs (g : fgraph R) T (c : bp_ctx R),
  groups_ok vgs -> reachable vgs g -> wf_groups (gr_groups g) -> bp_of g T c ->
  forall a, arrays_of c a ->
  (forall gr n, In gr vgs -> In n (vg_num_states gr) -> 0 < n) ->
  let fs := graph_factors 0%R (gr_groups g) in
  let pots := graph_pots (gr_groups g) (ba_log_potentials a) in
  let ev := read_ev (gr_vars_to_starts g) (ba_evidence a) in
  let lens := map snd (sf_edges fs) in
  let m := read_msgs fs (ba_ftov_msgs a) in
  forall B P D K d, moderate fs pots (length (enum_factors (gr_groups g))) ev B P D K ->
  (0 <= T)%R -> (0 <= d < 1)%R -> supported lens -> above_floor lens (ba_ftov_msgs a) ->
  ba_ftov_msgs (run_bp c a 1 d) = ba_ftov_msgs a ->
  T = 1%R ->
  (forall gr, In gr vgs -> one_state gr = false) ->
  exists r q b, get_beliefs c a = Ok r /\ get_marginals r = Ok q /\ belief_table vgs r b /\
    forall gr y i f u, In gr vgs -> dget vg_eqb gr q = Some y -> f < length fs -> u < arity fs f ->
    nth_error (vg_variables gr) i = Some (var_at fs f u) -> (forall s, s < snd (var_at fs f u) -> (-1000 < m f u s)%R) ->
    forall s, s < snd (var_at fs f u) -> nth_error (row gr y i) s = Some (rsum (map (config_prob fs pots 1 b m f) (choices fs f u s))).
Proof. exact C57_marginals_one_lemma. Qed.
Print Assumptions C57_marginals_one.

(** At temperature 0 the belief of a state is that of the best configuration with the state, up
    to a constant for the variable and the factor. *)
Theorem C57_max :
  forall vgs (g : fgraph R) T (c : bp_ctx R),
  groups_ok vgs -> reachable vgs g -> wf_groups (gr_groups g) -> bp_of g T c ->
  forall a, arrays_of c a ->
  (forall gr n, In gr vgs -> In n (vg_num_states gr) -> 0 < n) ->
  let fs := graph_factors 0%R (gr_groups g) in
  let pots := graph_pots (gr_groups g) (ba_log_potentials a) in
  let ev := read_ev (gr_vars_to_starts g) (ba_evidence a) in
  let lens := map snd (sf_edges fs) in
  let m := read_msgs fs (ba_ftov_msgs a) in
  forall B P D K d, moderate fs pots (length (enum_factors (gr_groups g))) ev B P D K ->
  (0 <= T)%R -> (0 <= d < 1)%R -> supported lens -> above_floor lens (ba_ftov_msgs a) ->
  ba_ftov_msgs (run_bp c a 1 d) = ba_ftov_msgs a ->
  T = 0%R ->
  exists r b, get_beliefs c a = Ok r /\ belief_table vgs r b /\
    forall f u, f < length fs -> u < arity fs f -> exists k : R, forall s, s < snd (var_at fs f u) ->
      (forall c, In c (choices fs f u s) -> (config_belief fs pots b m f c <= b (var_at fs f u) s + k)%R) /\
      ((-1000 < m f u s)%R -> exists c, In c (choices fs f u s) /\ config_belief fs pots b m f c = (b (var_at fs f u) s + k)%R).
Proof. exact C57_max_lemma. Qed.
Print Assumptions C57_max.

(** The condition on messages holds when the factors list all configurations and their
    potentials are within less than 1000. *)
Theorem C57_floor :
  forall vgs (g : fgraph R) T (c : bp_ctx R),
  groups_ok vgs -> reachable vgs g -> wf_groups (gr_groups g) -> bp_of g T c ->
  forall a, arrays_of c a ->
  let fs := graph_factors 0%R (gr_groups g) in
  let pots := graph_pots (gr_groups g) (ba_log_potentials a) in
  let ev := read_ev (gr_vars_to_starts g) (ba_evidence a) in
  let lens := map snd (sf_edges fs) in
  let m := read_msgs fs (ba_ftov_msgs a) in
  forall B P D K d, moderate fs pots (length (enum_factors (gr_groups g))) ev B P D K ->
  (0 <= T)%R -> (0 <= d < 1)%R -> supported lens -> above_floor lens (ba_ftov_msgs a) ->
  ba_ftov_msgs (run_bp c a 1 d) = ba_ftov_msgs a ->
  forall w, all_configs fs -> pots_within fs pots w ->
  forall f u s, f < length fs -> u < arity fs f -> s < snd (var_at fs f u) -> (- w <= m f u s)%R.
Proof. exact C57_floor_lemma. Qed.
Print Assumptions C57_floor.

(** At a fixed point of max-product with a unique best state for every variable, the decoded
    states form an assignment. No change of the states of a set of variables consisting of trees
    and single loops gives a larger score. *)
Theorem C57_optimal :
  forall vgs (g : fgraph R) T (c : bp_ctx R),
  groups_ok vgs -> reachable vgs g -> wf_groups (gr_groups g) -> bp_of g T c ->
  forall a, arrays_of c a ->
  (forall gr n, In gr vgs -> In n (vg_num_states gr) -> 0 < n) ->
  let fs := graph_factors 0%R (gr_groups g) in
  let pots := graph_pots (gr_groups g) (ba_log_potentials a) in
  let ev := read_ev (gr_vars_to_starts g) (ba_evidence a) in
  let lens := map snd (sf_edges fs) in
  let m := read_msgs fs (ba_ftov_msgs a) in
  let xs := all_vars vgs in
  forall B P D K d, moderate fs pots (length (enum_factors (gr_groups g))) ev B P D K ->
  (0 <= T)%R -> (0 <= d < 1)%R -> supported lens -> above_floor lens (ba_ftov_msgs a) ->
  ba_ftov_msgs (run_bp c a 1 d) = ba_ftov_msgs a ->
  T = 0%R ->
  (forall gr, In gr vgs -> one_state gr = false) ->
  (forall f, f < length fs -> 0 < arity fs f) ->
  exists r q b st, get_beliefs c a = Ok r /\ decode_map_states r = Ok q /\ belief_table vgs r b /\ state_table vgs q st /\
  ((forall x s, In x xs -> s < snd x -> s <> st x -> (b x s < b x (st x))%R) ->
   (forall f u, f < length fs -> u < arity fs f -> (-1000 < m f u (st (var_at fs f u)))%R) ->
   exists cf, joint fs xs st cf /\ forall S st' cf', loosely_coupled fs S -> joint fs xs st' cf' ->
     (forall x, In x xs -> S x = false -> st' x = st x) -> (joint_score fs pots ev xs st' cf' <= joint_score fs pots ev xs st cf)%R).
Proof. exact C57_optimal_lemma. Qed.
Print Assumptions C57_optimal.

(** Forests are such sets. In graphs with at most two factors at a variable and two variables in a
    factor (chains and cycles) all sets are. *)
Theorem C57_trees : forall A (fs : list (sfactor A)) S, forest fs S -> loosely_coupled fs (member S).
Proof. exact @forest_loose. Qed.
Print Assumptions C57_trees.
Theorem C57_loops : forall A (fs : list (sfactor A)) S, degrees fs 2 2 -> loosely_coupled fs S.
Proof. exact @degrees_loose. Qed.
Print Assumptions C57_loops.

(** So on chains and cycles the decoded states of a fixed point have the largest score. *)
Theorem C57_loop_map :
  forall vgs (g : fgraph R) T (c : bp_ctx R),
  groups_ok vgs -> reachable vgs g -> wf_groups (gr_groups g) -> bp_of g T c ->
  forall a, arrays_of c a ->
  (forall gr n, In gr vgs -> In n (vg_num_states gr) -> 0 < n) ->
  let fs := graph_factors 0%R (gr_groups g) in
  let pots := graph_pots (gr_groups g) (ba_log_potentials a) in
  let ev := read_ev (gr_vars_to_starts g) (ba_evidence a) in
  let lens := map snd (sf_edges fs) in
  let m := read_msgs fs (ba_ftov_msgs a) in
  let xs := all_vars vgs in
  forall B P D K d, moderate fs pots (length (enum_factors (gr_groups g))) ev B P D K ->
  (0 <= T)%R -> (0 <= d < 1)%R -> supported lens -> above_floor lens (ba_ftov_msgs a) ->
  ba_ftov_msgs (run_bp c a 1 d) = ba_ftov_msgs a ->
  T = 0%R ->
  (forall gr, In gr vgs -> one_state gr = false) ->
  (forall f, f < length fs -> 0 < arity fs f) ->
  degrees fs 2 2 ->
  exists r q b st, get_beliefs c a = Ok r /\ decode_map_states r = Ok q /\ belief_table vgs r b /\ state_table vgs q st /\
  ((forall x s, In x xs -> s < snd x -> s <> st x -> (b x s < b x (st x))%R) ->
   (forall f u, f < length fs -> u < arity fs f -> (-1000 < m f u (st (var_at fs f u)))%R) ->
   exists cf, joint fs xs st cf /\ forall st' cf', joint fs xs st' cf' -> (joint_score fs pots ev xs st' cf' <= joint_score fs pots ev xs st cf)%R).
Proof. exact C57_loop_map_lemma. Qed.
Print Assumptions C57_loop_map.

(** It cannot be left out: on a clique of four variables there is a fixed point whose decoded
    states have score 12 where 16 is possible. *)
Theorem C57_global_refuted : ~ (forall vgs (g : fgraph R) (c : bp_ctx R),
  groups_ok vgs -> reachable vgs g -> wf_groups (gr_groups g) -> bp_of g 0%R c ->
  forall a, arrays_of c a ->
  (forall gr n, In gr vgs -> In n (vg_num_states gr) -> 0 < n) ->
  let fs := graph_factors 0%R (gr_groups g) in
  let pots := graph_pots (gr_groups g) (ba_log_potentials a) in
  let ev := read_ev (gr_vars_to_starts g) (ba_evidence a) in
  let lens := map snd (sf_edges fs) in
  let m := read_msgs fs (ba_ftov_msgs a) in
  let xs := all_vars vgs in
  forall B P D K, moderate fs pots (length (enum_factors (gr_groups g))) ev B P D K ->
  supported lens -> above_floor lens (ba_ftov_msgs a) ->
  ba_ftov_msgs (run_bp c a 1 0%R) = ba_ftov_msgs a ->
  (forall gr, In gr vgs -> one_state gr = false) -> (forall f, f < length fs -> 0 < arity fs f) ->
  forall r q b st, get_beliefs c a = Ok r -> decode_map_states r = Ok q -> belief_table vgs r b -> state_table vgs q st ->
  (forall x s, In x xs -> s < snd x -> s <> st x -> (b x s < b x (st x))%R) ->
  (forall f u, f < length fs -> u < arity fs f -> (-1000 < m f u (st (var_at fs f u)))%R) ->
  exists cf, joint fs xs st cf /\ forall st' cf', joint fs xs st' cf' -> (joint_score fs pots ev xs st' cf' <= joint_score fs pots ev xs st cf)%R).
Proof. exact C57_global_refuted_lemma. Qed.
Print Assumptions C57_global_refuted.

(** The clique: the decoded states are all 1. No assignment that keeps a variable in state 1
    has a larger score; setting all variables to 0 does. *)
Example C57_optimal_nonvacuous : exists r q st cf, get_beliefs (kq_c 0) kq_a = Ok r /\ decode_map_states r = Ok q /\ state_table kq_vgs q st /\
  (forall x, In x (all_vars kq_vgs) -> st x = 1) /\ joint kq_rfs (all_vars kq_vgs) st cf /\
  (forall st' cf', joint kq_rfs (all_vars kq_vgs) st' cf' -> (exists x, In x (all_vars kq_vgs) /\ st' x = 1) -> (kq_score st' cf' <= kq_score st cf)%R) /\
  (kq_score st cf < kq_score (fun _ => 0%nat) (fun _ => 0%nat))%R.
Proof.
  destruct (kq_given 0) as [H1 [H2 [H3 [H4 H5]]]].
  assert (Har : forall f, f < length kq_rfs -> 0 < arity kq_rfs f) by (intros f Hf; rewrite kq_arity by exact Hf; lia).
  destruct (C57_optimal kq_vgs kq_g 0%R (kq_c 0) H1 H2 H3 H4 kq_a H5 kq_pos 10%R 10%R 12 2 0%R kq_moderate (Rle_refl 0) ltac:(lra) kq_supported (kq_above _) kq_fix eq_refl kq_not_one Har)
    as [r [q [b [st [Er [Eq [Tr [Tq O]]]]]]]].
  pose proof (kq_states r q st Er Eq Tq) as S1. destruct (O (kq_hyps r q b st Er Eq Tr Tq) (fun f u _ _ => kq_msgs f u _)) as [cf [J O']].
  exists r, q, st, cf. do 5 (split; [assumption|]). split.
  - intros st' cf' J' [x [Hx E]]. apply (O' (fun y => negb (st' y =? 1)) st' cf'); [|exact J'|].
    + apply kq_loose. exists x. split; [exact Hx|]. now rewrite E.
    + intros y Hy F. apply Bool.negb_false_iff, Nat.eqb_eq in F. now rewrite F, S1.
  - pose proof (kq_ones st cf S1). rewrite (proj2 kq_zeros). lra.
Qed.
(** Two variables of the clique form a tree, three do not. *)
Example C57_trees_nonvacuous : forest kq_rfs [b1; b0] /\ loosely_coupled kq_rfs (member [b1; b0]) /\ ~ loosely_coupled kq_rfs (fun _ => true).
Proof.
  assert (F : forest kq_rfs [b1; b0]).
  { apply forest_add; [apply forest_add; [apply forest_nil| | |]| | |].
    - intros [].
    - intros f u u' H H'. vm_compute in H, H'. intuition congruence.
    - intros f u f' u' _ _ [v [_ []]].
    - intros [E|[]]. discriminate.
    - intros f u u' H H'. vm_compute in H, H'. intuition congruence.
    - intros f u f' u' H H' [v [Hv Tv]] [v' [Hv' Tv']]. vm_compute in H, H'.
      destruct H as [E|[E|[E|[]]]], H' as [E'|[E'|[E'|[]]]]; injection E as <- <-; injection E' as <- <-; try reflexivity;
        exfalso; destruct v as [|[|v]]; try (vm_compute in Hv; lia); destruct v' as [|[|v']]; try (vm_compute in Hv'; lia); vm_compute in Tv, Tv';
        destruct Tv as [Tv|[]]; destruct Tv' as [Tv'|[]]; discriminate. }
  split; [exact F|]. split; [now apply C57_trees|]. intros [w [W0 [W1 W2]]].
  pose proof (W1 0 ltac:(cbn; lia)) as A0. pose proof (W1 1 ltac:(cbn; lia)) as A1. pose proof (W1 2 ltac:(cbn; lia)) as A2.
  pose proof (W1 3 ltac:(cbn; lia)) as A3. pose proof (W1 4 ltac:(cbn; lia)) as A4. pose proof (W1 5 ltac:(cbn; lia)) as A5.
  pose proof (W2 b0 eq_refl) as C0. pose proof (W2 b1 eq_refl) as C1. pose proof (W2 b2 eq_refl) as C2. pose proof (W2 b3 eq_refl) as C3.
  change (slots_of kq_rfs b0) with [(0,0); (1,0); (2,0)] in C0. change (slots_of kq_rfs b1) with [(0,1); (3,0); (4,0)] in C1.
  change (slots_of kq_rfs b2) with [(1,1); (3,1); (5,0)] in C2. change (slots_of kq_rfs b3) with [(2,1); (4,1); (5,1)] in C3.
  rewrite kq_arity in A0, A1, A2, A3, A4, A5 by (cbn; lia). cbn [seq filter] in A0, A1, A2, A3, A4, A5.
  unfold rsum in *. cbn [map fold_right fst snd] in *. lra.
Qed.
(** Any assignment, any messages. *)
Example C57_reparametrise_nonvacuous : exists r b, get_beliefs (kq_c 0) kq_a = Ok r /\ belief_table kq_vgs r b /\
  (16 = rsum (map (fun x => b x 0%nat) (all_vars kq_vgs)) + rsum (map (fun f =>
    config_belief kq_rfs (graph_pots (gr_groups kq_g) (ba_log_potentials kq_a)) b (read_msgs kq_rfs (ba_ftov_msgs kq_a)) f 0%nat
    - rsum (map (fun u => b (var_at kq_rfs f u) 0%nat) (seq 0 (arity kq_rfs f)))) (seq 0 (length kq_rfs))))%R.
Proof.
  destruct (kq_given 0) as [H1 [H2 [H3 [H4 H5]]]].
  destruct (C57_reparametrise kq_vgs kq_g 0%R (kq_c 0) H1 H2 H3 H4 kq_a H5 kq_pos) as [r [b [Er [Tr E]]]]. exists r, b. do 2 (split; [assumption|]).
  destruct kq_zeros as [J S]. rewrite <- S. exact (E _ _ J).
Qed.
(** The triangle at any positive temperature with any evidence: the fixed point that belief
    propagation converges to by C56, and its beliefs. *)
Example C57_marginals_nonvacuous : forall T ev, (0 < T)%R -> length ev = 6 -> (forall i, (-10 <= nth i ev 0 <= 10)%R) ->
  exists l r b, get_beliefs (cy_c T) (with_msgs (cy_a ev) l) = Ok r /\ belief_table cy_vgs r b /\
  forall f u s, f < length cy_rfs -> u < arity cy_rfs f -> s < snd (var_at cy_rfs f u) ->
    gibbs (fun s => b (var_at cy_rfs f u) s / T)%R (snd (var_at cy_rfs f u)) s
    = rsum (map (config_prob cy_rfs (graph_pots (gr_groups cy_g) (map IZR cy_pots_z)) T b (read_msgs cy_rfs l) f) (choices cy_rfs f u s)).
Proof.
  intros T ev HT He Hb. destruct (cy_given T ev He) as [H1 [H2 [H3 [H4 H5]]]].
  destruct (LemConv.C56_converges_lemma cy_vgs cy_g T (cy_c T) H1 H2 H3 H4 (proj1 cy_all) cy_supported 2 2 0%R 4%R cy_degrees HT ltac:(lra) ltac:(lra)
    (LemConv.cycle_gain 2 2 4%R T (le_n 2) (le_n 2) HT ltac:(lra)) (cy_a ev) 10%R 10%R 6 2 H5 (cy_moderate ev Hb) cy_within) as [l [[L F] [E _]]].
  assert (Ha : arrays_of (cy_c T) (with_msgs (cy_a ev) l)) by (apply cy_arrays_of; [exact L|exact He]).
  assert (Hpos : forall gr n, In gr cy_vgs -> In n (vg_num_states gr) -> 0 < n) by (intros gr n [<-|[]] Hn; repeat (destruct Hn as [<-|Hn]; [lia|]); destruct Hn).
  destruct (C57_marginals cy_vgs cy_g T (cy_c T) H1 H2 H3 H4 (with_msgs (cy_a ev) l) Ha Hpos 10%R 10%R 6 2 0%R (cy_moderate ev Hb) ltac:(lra) ltac:(lra) cy_supported F (E 1) HT)
    as [r [b [Er [Tr C]]]].
  exists l, r, b. do 2 (split; [assumption|]). intros f u s Hf Hu Hs. apply (C f u Hf Hu); [|exact Hs].
  intros t Ht. pose proof (C57_floor cy_vgs cy_g T (cy_c T) H1 H2 H3 H4 (with_msgs (cy_a ev) l) Ha 10%R 10%R 6 2 0%R (cy_moderate ev Hb) ltac:(lra) ltac:(lra) cy_supported F (E 1)
    4%R (proj1 cy_all) cy_within f u t Hf Hu Ht). lra.
Qed.
Example C57_loops_nonvacuous : forall S, loosely_coupled cy_rfs S.
Proof. intros S. apply C57_loops, cy_degrees. Qed.
(** The triangle at temperature 0 with evidence: the decoded states are all 0, which no
    assignment beats. *)
Example C57_loop_map_nonvacuous : exists r q st cf, get_beliefs (cy_c 0) tri_a = Ok r /\ decode_map_states r = Ok q /\ state_table cy_vgs q st /\
  (forall x, In x (all_vars cy_vgs) -> st x = 0) /\ joint tri_rfs (all_vars cy_vgs) st cf /\
  forall st' cf', joint tri_rfs (all_vars cy_vgs) st' cf' ->
    let score := joint_score tri_rfs (graph_pots (gr_groups cy_g) (ba_log_potentials tri_a)) (read_ev (gr_vars_to_starts cy_g) (ba_evidence tri_a)) (all_vars cy_vgs) in
    (score st' cf' <= score st cf)%R.
Proof.
  destruct tri_given as [H1 [H2 [H3 [H4 H5]]]].
  destruct (C57_loop_map cy_vgs cy_g 0%R (cy_c 0) H1 H2 H3 H4 tri_a H5 tri_pos 10%R 10%R 6 2 0%R tri_moderate (Rle_refl 0) ltac:(lra) cy_supported (cy_above _) tri_fix eq_refl tri_not_one tri_arity cy_degrees)
    as [r [q [b [st [Er [Eq [Tr [Tq O]]]]]]]].
  pose proof (tri_states r q st Er Eq Tq) as S0. destruct (O (tri_hyps r q b st Er Eq Tr Tq) (fun f u _ _ => tri_msgs f u _)) as [cf [J O']].
  exists r, q, st, cf. do 5 (split; [assumption|]). exact O'.
Qed.
