(** * Property C74: max-marginals of the configurations of factors on acyclic graphs. *)
From Verif Require Import NumPy Lists VGroup FGraph BPState BP SpecVGroup SpecFGraph SpecFactor SpecWiring SpecState SpecBP SpecText SpecBeliefs SpecTree SpecFix SpecMaxJoint.
From Verif Require Import LemSpread LemMaxJoint ExBP ExTree PropsBeliefs PropsTree PropsSum.
From Coq Require Import Reals Lra Lia.
Local Close Scope R_scope.
Local Open Scope nat_scope.

(** Undamped max-product on an acyclic graph: after as many iterations as there are factors, the
    beliefs of the configurations of a factor that follow from the beliefs and messages are, up to
    one constant per factor, the largest scores of assignments with these configurations. *)
Theorem C74_max :
  forall vgs (g : fgraph R) (c : bp_ctx R),
  groups_ok vgs -> reachable vgs g -> wf_groups (gr_groups g) -> bp_of g 0%R c ->
  forall a, arrays_of c a ->
  let fs := graph_factors 0%R (gr_groups g) in
  let pots := graph_pots (gr_groups g) (ba_log_potentials a) in
  let ev := read_ev (gr_vars_to_starts g) (ba_evidence a) in
  let lens := map snd (sf_edges fs) in
  let xs := all_vars vgs in
  let text := text_bp fs pots 0 0 ev (read_msgs fs (ba_ftov_msgs a)) in
  forall n,
  (forall gr k, In gr vgs -> In k (vg_num_states gr) -> 0 < k) ->
  acyclic fs -> (forall f, f < length fs -> 0 < arity fs f) ->
  length fs <= n ->
  (forall i, i < n -> unclipped fs (fac_to_var_max fs pots (var_to_fac fs ev (text i)))) ->
  supported lens ->
  (forall i, i <= n -> above_floor lens (unnormalised c a 0 i)) ->
  (forall i, i < n -> in_range fs pots (length (enum_factors (gr_groups g))) 0 (var_to_fac fs ev (text i))) ->
  exists r b, get_beliefs c (run_bp c a n 0%R) = Ok r /\ belief_table vgs r b /\
    forall F, F < length fs -> exists k : R, forall j, j < length (sf_configs (factor_at fs F)) ->
      config_max fs pots ev xs F j (config_belief fs pots b (read_msgs fs (ba_ftov_msgs (run_bp c a n 0%R))) F j + k)%R.
Proof. exact C74_max_lemma. Qed.
Print Assumptions C74_max.

(** With hypotheses about the inputs only. A configuration of largest belief belongs to an
    assignment of largest score. *)
Theorem C74_small :
  forall vgs (g : fgraph R) (c : bp_ctx R),
  groups_ok vgs -> reachable vgs g -> wf_groups (gr_groups g) -> bp_of g 0%R c ->
  forall a, arrays_of c a ->
  let fs := graph_factors 0%R (gr_groups g) in
  let pots := graph_pots (gr_groups g) (ba_log_potentials a) in
  let ev := read_ev (gr_vars_to_starts g) (ba_evidence a) in
  let lens := map snd (sf_edges fs) in
  (forall gr k, In gr vgs -> In k (vg_num_states gr) -> 0 < k) ->
  acyclic fs -> (forall f, f < length fs -> 0 < arity fs f) ->
  forall B P D K P' B' M' N', moderate fs pots (length (enum_factors (gr_groups g))) ev B P D K ->
  small fs 0 pots ev (read_msgs fs (ba_ftov_msgs a)) P' B' M' N' ->
  supported lens -> above_floor lens (ba_ftov_msgs a) ->
  forall n, length fs <= n ->
  exists r b, get_beliefs c (run_bp c a n 0%R) = Ok r /\ belief_table vgs r b /\
    let belief := config_belief fs pots b (read_msgs fs (ba_ftov_msgs (run_bp c a n 0%R))) in
    forall F, F < length fs ->
      (exists k : R, forall j, j < length (sf_configs (factor_at fs F)) -> config_max fs pots ev (all_vars vgs) F j (belief F j + k)%R) /\
      forall j, j < length (sf_configs (factor_at fs F)) ->
        (forall i, i < length (sf_configs (factor_at fs F)) -> (belief F i <= belief F j)%R) ->
        exists st cf, joint fs (all_vars vgs) st cf /\ cf F = j /\
          forall st' cf', joint fs (all_vars vgs) st' cf' -> (joint_score fs pots ev (all_vars vgs) st' cf' <= joint_score fs pots ev (all_vars vgs) st cf)%R.
Proof. exact C74_small_lemma. Qed.
Print Assumptions C74_small.

(** The same for textbook belief propagation on any list of factors. *)
Theorem C74_textbook :
  forall A (fs : list (sfactor A)) pots ev xs m n,
  acyclic fs -> configs_ok fs -> covered fs -> (forall f, f < length fs -> 0 < arity fs f) ->
  NoDup xs -> incl (sf_edges fs) xs -> (forall x, In x xs -> 0 < snd x) ->
  length fs <= n ->
  (forall i, i < n -> unclipped fs (fac_to_var_max fs pots (var_to_fac fs ev (text_bp fs pots 0 0 ev m i)))) ->
  forall F, F < length fs -> exists k : R, forall c, c < length (sf_configs (factor_at fs F)) ->
    config_max fs pots ev xs F c (config_belief fs pots (text_belief fs ev (text_bp fs pots 0 0 ev m n)) (text_bp fs pots 0 0 ev m n) F c + k)%R.
Proof. exact @C74_text_lemma. Qed.
Print Assumptions C74_textbook.

(** The hypotheses hold for a tree with both kinds of factors. *)
Example C74_nonvacuous : forall n, 3 <= n -> exists r b, get_beliefs (tr_c 0) (run_bp (tr_c 0) tr_a n 0%R) = Ok r /\ belief_table ex_vgs r b /\
  forall F, F < length tr_rfs -> exists k : R, forall j, j < length (sf_configs (factor_at tr_rfs F)) ->
    config_max tr_rfs tr_pots tr_ev (all_vars ex_vgs) F j (config_belief tr_rfs tr_pots b (read_msgs tr_rfs (ba_ftov_msgs (run_bp (tr_c 0) tr_a n 0%R))) F j + k)%R.
Proof.
  intros n Hn. destruct (tr_given 0) as [H1 [H2 [H3 [H4 H5]]]].
  destruct (C74_small ex_vgs tr_g (tr_c 0) H1 H2 H3 H4 tr_a H5 ex_pos (tr_acyclic IZR 0%R) tr_arity 10%R 10%R 10 2 6%R 7%R 5%R 4 tr_moderate (tr_small 0 ltac:(lra)) tr_supported tr_above n Hn)
    as [r [b [Er [Tr H]]]].
  exists r, b. split; [exact Er|]. split; [exact Tr|]. intros F HF. exact (proj1 (H F HF)).
Qed.
Example C74_nonvacuous_some : 0 < length tr_rfs /\ 1 < length (sf_configs (factor_at tr_rfs 0)) /\ 1 < arity tr_rfs 0.
Proof. vm_compute. lia. Qed.
(** The specification on two binary variables that must be equal. *)
Example config_max_computed : config_max two_fs two_pots (fun _ s => if s =? 0 then 0%R else 2%R) [two_x; two_y] 0 1 4%R.
Proof.
  split.
  - exists (fun _ => 1), (fun _ => 1). split; [split|split; [reflexivity|]].
    + intros x [<-|[<-|[]]]; cbn; lia.
    + intros f Hf. assert (f = 0) by (cbn in Hf; lia). subst f. split; [cbn; lia|]. intros u Hu. destruct u as [|[|u]]; [reflexivity|reflexivity|cbn in Hu; lia].
    + unfold joint_score. cbn. lra.
  - intros st cf [Hst Hc] E. destruct (Hc 0 ltac:(cbn; lia)) as [_ H]. pose proof (H 0 ltac:(cbn; lia)) as H0. pose proof (H 1 ltac:(cbn; lia)) as H1.
    rewrite E in H0, H1. change (1 = st two_x) in H0. change (1 = st two_y) in H1.
    unfold joint_score. cbn [map rsum fold_right seq length two_fs]. rewrite <- H0, <- H1, E. cbn. lra.
Qed.
