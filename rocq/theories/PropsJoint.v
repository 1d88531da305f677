(** * Property C73: joint marginals of factors on acyclic graphs. *)
From Verif Require Import NumPy Lists VGroup FGraph BPState BP SpecVGroup SpecFGraph SpecFactor SpecWiring SpecState SpecBP SpecText SpecBeliefs SpecTree SpecSum SpecFix SpecJoint.
From Verif Require Import LemSpread LemJoint ExBP ExTree PropsBeliefs PropsTree PropsSum.
From Coq Require Import Reals Lra Lia.
Local Close Scope R_scope.
Local Open Scope nat_scope.

(** Undamped sum-product on an acyclic graph: after as many iterations as there are factors, the
    probabilities of the configurations of a factor that follow from the beliefs and messages are
    their probabilities in the model: joint marginals of the variables of the factor. *)
Theorem C73_joint :
  forall vgs (g : fgraph R) T (c : bp_ctx R),
  groups_ok vgs -> reachable vgs g -> wf_groups (gr_groups g) -> bp_of g T c ->
  forall a, arrays_of c a ->
  let fs := graph_factors 0%R (gr_groups g) in
  let pots := graph_pots (gr_groups g) (ba_log_potentials a) in
  let ev := read_ev (gr_vars_to_starts g) (ba_evidence a) in
  let lens := map snd (sf_edges fs) in
  let xs := all_vars vgs in
  let text := text_bp fs pots T 0 ev (read_msgs fs (ba_ftov_msgs a)) in
  forall n,
  T <> 0%R ->
  (forall gr k, In gr vgs -> In k (vg_num_states gr) -> 0 < k) ->
  acyclic fs -> (forall f, f < length fs -> 0 < arity fs f) ->
  length fs <= n ->
  (forall i, i < n -> unclipped fs (fac_to_var fs pots T (var_to_fac fs ev (text i)))) ->
  supported lens ->
  (forall i, i <= n -> above_floor lens (unnormalised c a 0 i)) ->
  (forall i, i < n -> in_range fs pots (length (enum_factors (gr_groups g))) T (var_to_fac fs ev (text i))) ->
  exists r b, get_beliefs c (run_bp c a n 0%R) = Ok r /\ belief_table vgs r b /\
    forall F j, F < length fs -> j < length (sf_configs (factor_at fs F)) ->
      config_marginal fs pots T ev xs F j = config_prob fs pots T b (read_msgs fs (ba_ftov_msgs (run_bp c a n 0%R))) F j.
Proof. exact C73_joint_lemma. Qed.
Print Assumptions C73_joint.

(** With hypotheses about the inputs only. *)
Theorem C73_small :
  forall vgs (g : fgraph R) T (c : bp_ctx R),
  groups_ok vgs -> reachable vgs g -> wf_groups (gr_groups g) -> bp_of g T c ->
  forall a, arrays_of c a ->
  let fs := graph_factors 0%R (gr_groups g) in
  let pots := graph_pots (gr_groups g) (ba_log_potentials a) in
  let ev := read_ev (gr_vars_to_starts g) (ba_evidence a) in
  let lens := map snd (sf_edges fs) in
  (0 < T)%R ->
  (forall gr k, In gr vgs -> In k (vg_num_states gr) -> 0 < k) ->
  acyclic fs -> (forall f, f < length fs -> 0 < arity fs f) ->
  forall B P D K P' B' M' N', moderate fs pots (length (enum_factors (gr_groups g))) ev B P D K ->
  small fs T pots ev (read_msgs fs (ba_ftov_msgs a)) P' B' M' N' ->
  supported lens -> above_floor lens (ba_ftov_msgs a) ->
  forall n, length fs <= n ->
  exists r b, get_beliefs c (run_bp c a n 0%R) = Ok r /\ belief_table vgs r b /\
    forall F j, F < length fs -> j < length (sf_configs (factor_at fs F)) ->
      config_marginal fs pots T ev (all_vars vgs) F j = config_prob fs pots T b (read_msgs fs (ba_ftov_msgs (run_bp c a n 0%R))) F j.
Proof. exact C73_small_lemma. Qed.
Print Assumptions C73_small.

(** The same for textbook belief propagation on any list of factors. *)
Theorem C73_textbook :
  forall A (fs : list (sfactor A)) pots T ev xs m n,
  T <> 0%R -> acyclic fs -> configs_ok fs -> covered fs -> (forall f, f < length fs -> 0 < arity fs f) ->
  NoDup xs -> incl (sf_edges fs) xs -> (forall x, In x xs -> 0 < snd x) ->
  length fs <= n ->
  (forall i, i < n -> unclipped fs (fac_to_var fs pots T (var_to_fac fs ev (text_bp fs pots T 0 ev m i)))) ->
  forall F j, F < length fs -> j < length (sf_configs (factor_at fs F)) ->
  config_marginal fs pots T ev xs F j = config_prob fs pots T (text_belief fs ev (text_bp fs pots T 0 ev m n)) (text_bp fs pots T 0 ev m n) F j.
Proof. exact @C73_text_lemma. Qed.
Print Assumptions C73_textbook.

(** The hypotheses hold for a tree with both kinds of factors. *)
Example C73_nonvacuous : forall T n, (0 < T <= 1)%R -> 3 <= n -> exists r b, get_beliefs (tr_c T) (run_bp (tr_c T) tr_a n 0%R) = Ok r /\ belief_table ex_vgs r b /\
  forall F j, F < length tr_rfs -> j < length (sf_configs (factor_at tr_rfs F)) ->
    config_marginal tr_rfs tr_pots T tr_ev (all_vars ex_vgs) F j = config_prob tr_rfs tr_pots T b (read_msgs tr_rfs (ba_ftov_msgs (run_bp (tr_c T) tr_a n 0%R))) F j.
Proof.
  intros T n HT Hn. destruct (tr_given T) as [H1 [H2 [H3 [H4 H5]]]].
  exact (C73_small ex_vgs tr_g T (tr_c T) H1 H2 H3 H4 tr_a H5 ltac:(lra) ex_pos (tr_acyclic IZR 0%R) tr_arity 10%R 10%R 10 2 6%R 7%R 5%R 4 tr_moderate (tr_small T ltac:(lra)) tr_supported tr_above n Hn).
Qed.
Example C73_nonvacuous_some : 0 < length tr_rfs /\ 1 < length (sf_configs (factor_at tr_rfs 0)) /\ 1 < arity tr_rfs 0.
Proof. vm_compute. lia. Qed.
(** The specification on two binary variables that must be equal, with weights 3 and 1. *)
Example config_marginal_computed : config_marginal two_fs two_pots 1 (fun _ _ => 0%R) [two_x; two_y] 0 1 = (1 / 4)%R.
Proof.
  assert (E3 : exp (ln 3 / 1) = 3%R) by (unfold Rdiv; rewrite Rinv_1, Rmult_1_r; apply exp_ln; lra).
  assert (E0 : exp (0 / 1) = 1%R) by (unfold Rdiv; rewrite Rmult_0_l; apply exp_0).
  assert (E00 : exp ((0 + (0 + 0)) / 1) = 1%R) by (replace ((0 + (0 + 0)) / 1)%R with 0%R by field; apply exp_0).
  unfold config_marginal, config_weight, state_weight, agree. unfold two_x, two_y. cbn -[exp ln Rdiv]. change (Pos.to_nat 1) with 1. cbn -[exp ln Rdiv]. rewrite E3, E0, E00. field.
Qed.
