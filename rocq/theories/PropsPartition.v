(** * Property C72: the partition function on acyclic graphs. *)
From Verif Require Import NumPy Lists VGroup FGraph BPState BP SpecVGroup SpecFGraph SpecFactor SpecWiring SpecState SpecBP SpecText SpecBeliefs SpecTree SpecSum SpecFix SpecBound.
From Verif Require Import LemSpread LemPartition ExBP ExTree ExPartition PropsBeliefs PropsTree.
From Coq Require Import Reals Lra Lia.
Local Close Scope R_scope.
Local Open Scope nat_scope.

(** Undamped sum-product on an acyclic graph: after as many iterations as there are factors, the
    Bethe free energy computed from the beliefs and messages is the temperature times the logarithm of
    the total weight of all assignments. *)
Theorem C72_partition :
  forall vgs (g : fgraph R) T (c : bp_ctx R),
  groups_ok vgs -> reachable vgs g -> wf_groups (gr_groups g) -> bp_of g T c ->
  forall a, arrays_of c a ->
  let fs := graph_factors 0%R (gr_groups g) in
  let pots := graph_pots (gr_groups g) (ba_log_potentials a) in
  let ev := read_ev (gr_vars_to_starts g) (ba_evidence a) in
  let lens := map snd (sf_edges fs) in
  let xs := all_vars vgs in
  let text := text_bp fs pots T 0 ev (read_msgs fs (ba_ftov_msgs a)) in
  forall n,
  T <> 0%R ->
  (forall gr k, In gr vgs -> In k (vg_num_states gr) -> 0 < k) ->
  acyclic fs -> (forall f, f < length fs -> 0 < arity fs f) ->
  length fs <= n ->
  (forall i, i < n -> unclipped fs (fac_to_var fs pots T (var_to_fac fs ev (text i)))) ->
  supported lens ->
  (forall i, i <= n -> above_floor lens (unnormalised c a 0 i)) ->
  (forall i, i < n -> in_range fs pots (length (enum_factors (gr_groups g))) T (var_to_fac fs ev (text i))) ->
  exists r b, get_beliefs c (run_bp c a n 0%R) = Ok r /\ belief_table vgs r b /\
    (T * ln (partition_sum fs pots T ev xs) = bethe fs pots T b (read_msgs fs (ba_ftov_msgs (run_bp c a n 0%R))) xs)%R.
Proof. exact C72_partition_lemma. Qed.
Print Assumptions C72_partition.

(** With hypotheses about the inputs only. *)
Theorem C72_small :
  forall vgs (g : fgraph R) T (c : bp_ctx R),
  groups_ok vgs -> reachable vgs g -> wf_groups (gr_groups g) -> bp_of g T c ->
  forall a, arrays_of c a ->
  let fs := graph_factors 0%R (gr_groups g) in
  let pots := graph_pots (gr_groups g) (ba_log_potentials a) in
  let ev := read_ev (gr_vars_to_starts g) (ba_evidence a) in
  let lens := map snd (sf_edges fs) in
  (0 < T)%R ->
  (forall gr k, In gr vgs -> In k (vg_num_states gr) -> 0 < k) ->
  acyclic fs -> (forall f, f < length fs -> 0 < arity fs f) ->
  forall B P D K P' B' M' N', moderate fs pots (length (enum_factors (gr_groups g))) ev B P D K ->
  small fs T pots ev (read_msgs fs (ba_ftov_msgs a)) P' B' M' N' ->
  supported lens -> above_floor lens (ba_ftov_msgs a) ->
  forall n, length fs <= n ->
  exists r b, get_beliefs c (run_bp c a n 0%R) = Ok r /\ belief_table vgs r b /\
    (T * ln (partition_sum fs pots T ev (all_vars vgs)) = bethe fs pots T b (read_msgs fs (ba_ftov_msgs (run_bp c a n 0%R))) (all_vars vgs))%R.
Proof. exact C72_small_lemma. Qed.
Print Assumptions C72_small.

(** The same for textbook belief propagation on any list of factors. *)
Theorem C72_textbook :
  forall A (fs : list (sfactor A)) pots T ev xs m n,
  T <> 0%R -> acyclic fs -> configs_ok fs -> covered fs -> (forall f, f < length fs -> 0 < arity fs f) ->
  NoDup xs -> incl (sf_edges fs) xs -> (forall x, In x xs -> 0 < snd x) ->
  length fs <= n ->
  (forall i, i < n -> unclipped fs (fac_to_var fs pots T (var_to_fac fs ev (text_bp fs pots T 0 ev m i)))) ->
  (T * ln (partition_sum fs pots T ev xs) = bethe fs pots T (text_belief fs ev (text_bp fs pots T 0 ev m n)) (text_bp fs pots T 0 ev m n) xs)%R.
Proof. exact @C72_text_lemma. Qed.
Print Assumptions C72_textbook.

(** Fixed points on graphs with cycles do not give it: two binary variables in two factors that
    prefer equal states have total weight 20, but messages 0 are a fixed point with the free
    energy of weight 16. *)
Theorem C72_cyclic_refuted : ~ (forall (fs : list (sfactor R)) pots T ev xs m,
  T <> 0%R -> configs_ok fs -> covered fs -> (forall f, f < length fs -> 0 < arity fs f) ->
  NoDup xs -> incl (sf_edges fs) xs -> (forall x, In x xs -> 0 < snd x) ->
  msg_eq fs (text_step fs pots T 0 ev m) m ->
  (T * ln (partition_sum fs pots T ev xs) = bethe fs pots T (text_belief fs ev m) m xs)%R).
Proof. exact pr_refuted. Qed.
Print Assumptions C72_cyclic_refuted.

(** The hypotheses hold for a tree with both kinds of factors. *)
Example C72_nonvacuous : forall T n, (0 < T <= 1)%R -> 3 <= n -> exists r b, get_beliefs (tr_c T) (run_bp (tr_c T) tr_a n 0%R) = Ok r /\ belief_table ex_vgs r b /\
  (T * ln (partition_sum tr_rfs tr_pots T tr_ev (all_vars ex_vgs)) = bethe tr_rfs tr_pots T b (read_msgs tr_rfs (ba_ftov_msgs (run_bp (tr_c T) tr_a n 0%R))) (all_vars ex_vgs))%R.
Proof.
  intros T n HT Hn. destruct (tr_given T) as [H1 [H2 [H3 [H4 H5]]]].
  exact (C72_small ex_vgs tr_g T (tr_c T) H1 H2 H3 H4 tr_a H5 ltac:(lra) ex_pos (tr_acyclic IZR 0%R) tr_arity 10%R 10%R 10 2 6%R 7%R 5%R 4 tr_moderate (tr_small T ltac:(lra)) tr_supported tr_above n Hn).
Qed.
(** The sums for the two variables. *)
Example partition_computed : partition_sum pr_fs pr_pots 1 pr_ev [pr_x; pr_y] = 20%R /\
  bethe pr_fs pr_pots 1 (text_belief pr_fs pr_ev pr_m) pr_m [pr_x; pr_y] = ln 16.
Proof. split; [exact pr_partition|exact pr_bethe]. Qed.
