(** * Property C71: bounds on scores from beliefs and messages. *)
From Verif Require Import NumPy FGroup FGraph BPState BP Lists SpecVGroup SpecFactor SpecFGraph SpecAdd SpecWiring SpecState SpecBP SpecText SpecBeliefs SpecTree SpecFix SpecBound.
From Verif Require Import LemBound ExBP ExCycle ExFix ExBound.
From Coq Require Import Reals Lra Lia.
Local Close Scope R_scope.
Local Open Scope nat_scope.

(** Whatever the messages are, and however the variables share their beliefs out to their
    factors, no assignment has a larger score than the best kept beliefs and the best residuals
    of the configurations together. No convergence is needed. *)
Theorem C71_bound :
  forall vgs (g : fgraph R) T (c : bp_ctx R),
  groups_ok vgs -> reachable vgs g -> wf_groups (gr_groups g) -> bp_of g T c ->
  forall a, arrays_of c a ->
  (forall gr n, In gr vgs -> In n (vg_num_states gr) -> 0 < n) ->
  let fs := graph_factors 0%R (gr_groups g) in
  let pots := graph_pots (gr_groups g) (ba_log_potentials a) in
  let ev := read_ev (gr_vars_to_starts g) (ba_evidence a) in
  let m := read_msgs fs (ba_ftov_msgs a) in
  let xs := all_vars vgs in
  exists r b, get_beliefs c a = Ok r /\ belief_table vgs r b /\
    forall w X F, residuals_below fs pots b m w F -> (forall x s, In x xs -> s < snd x -> (share_left fs w x * b x s <= X x)%R) ->
    forall st cf, joint fs xs st cf -> (joint_score fs pots ev xs st cf <= rsum (map X xs) + rsum (map F (seq 0 (length fs))))%R.
Proof. exact C71_bound_lemma. Qed.
Print Assumptions C71_bound.

(** So the decoded states miss the largest score by at most what the residuals of their
    configurations miss of the best ones. *)
Theorem C71_gap :
  forall vgs (g : fgraph R) T (c : bp_ctx R),
  groups_ok vgs -> reachable vgs g -> wf_groups (gr_groups g) -> bp_of g T c ->
  forall a, arrays_of c a ->
  (forall gr n, In gr vgs -> In n (vg_num_states gr) -> 0 < n) ->
  let fs := graph_factors 0%R (gr_groups g) in
  let pots := graph_pots (gr_groups g) (ba_log_potentials a) in
  let ev := read_ev (gr_vars_to_starts g) (ba_evidence a) in
  let m := read_msgs fs (ba_ftov_msgs a) in
  let xs := all_vars vgs in
  (forall gr, In gr vgs -> one_state gr = false) ->
  exists r q b st, get_beliefs c a = Ok r /\ decode_map_states r = Ok q /\ belief_table vgs r b /\ state_table vgs q st /\
    forall w F, residuals_below fs pots b m w F -> (forall x, In x xs -> (0 <= share_left fs w x)%R) ->
    forall cf, joint fs xs st cf -> forall st' cf', joint fs xs st' cf' ->
    (joint_score fs pots ev xs st' cf' - joint_score fs pots ev xs st cf <= rsum (map (fun f => F f - residual fs pots b m w f (cf f)) (seq 0 (length fs))))%R.
Proof. exact C71_gap_lemma. Qed.
Print Assumptions C71_gap.

(** If no factor has a configuration with a larger residual, the decoded states have the
    largest score. If moreover all variables keep a share of their beliefs and have a unique best
    state, no other states have that score. *)
Theorem C71_optimal :
  forall vgs (g : fgraph R) T (c : bp_ctx R),
  groups_ok vgs -> reachable vgs g -> wf_groups (gr_groups g) -> bp_of g T c ->
  forall a, arrays_of c a ->
  (forall gr n, In gr vgs -> In n (vg_num_states gr) -> 0 < n) ->
  let fs := graph_factors 0%R (gr_groups g) in
  let pots := graph_pots (gr_groups g) (ba_log_potentials a) in
  let ev := read_ev (gr_vars_to_starts g) (ba_evidence a) in
  let m := read_msgs fs (ba_ftov_msgs a) in
  let xs := all_vars vgs in
  (forall gr, In gr vgs -> one_state gr = false) ->
  exists r q b st, get_beliefs c a = Ok r /\ decode_map_states r = Ok q /\ belief_table vgs r b /\ state_table vgs q st /\
    forall w cf, joint fs xs st cf -> residuals_below fs pots b m w (fun f => residual fs pots b m w f (cf f)) ->
    ((forall x, In x xs -> (0 <= share_left fs w x)%R) ->
     forall st' cf', joint fs xs st' cf' -> (joint_score fs pots ev xs st' cf' <= joint_score fs pots ev xs st cf)%R) /\
    ((forall x, In x xs -> (0 < share_left fs w x)%R) -> (forall x s, In x xs -> s < snd x -> s <> st x -> (b x s < b x (st x))%R) ->
     forall st' cf', joint fs xs st' cf' -> (joint_score fs pots ev xs st cf <= joint_score fs pots ev xs st' cf')%R -> forall x, In x xs -> st' x = st x).
Proof. exact C71_optimal_lemma. Qed.
Print Assumptions C71_optimal.

(** On the clique of four variables the bound with a third of the belief for each of the three
    factors of a variable is 16, at the fixed point whose decoded states have score 12. It is
    attained. *)
Example C71_bound_nonvacuous : (forall st cf, joint kq_rfs (all_vars kq_vgs) st cf -> (kq_score st cf <= 16)%R) /\
  joint kq_rfs (all_vars kq_vgs) (fun _ => 0) (fun _ => 0) /\ kq_score (fun _ => 0) (fun _ => 0) = 16%R.
Proof.
  destruct (kq_given 0) as [H1 [H2 [H3 [H4 H5]]]]. split; [|exact kq_zeros]. intros st cf J.
  destruct (C71_bound kq_vgs kq_g 0%R (kq_c 0) H1 H2 H3 H4 kq_a H5 kq_pos) as [r [b [Er [Tr O]]]].
  pose proof (kq_beliefs r b Er Tr) as Hb.
  assert (E : (rsum (map (fun _ : variable => 0%R) (all_vars kq_vgs)) + rsum (map (fun _ : nat => (8 / 3)%R) (seq 0 (length kq_rfs))))%R = 16%R)
    by (rewrite kq_vars; change (length kq_rfs) with 6; unfold rsum; cbn [map seq fold_right]; lra).
  rewrite <- E. apply (O (fun _ _ => (1 / 3)%R) (fun _ => 0%R) (fun _ => (8 / 3)%R)); [| |exact J].
  - intros f k Hf Hk. assert (Hf6 : f < 6) by exact Hf. rewrite (kq_nconfigs f Hf6) in Hk.
    destruct (kq_residual kq_a b (-2) 0 (-5) 0 (1 / 3) eq_refl Hb kq_a_msgs f Hf6) as [E0 [E1 [E2 E3]]].
    destruct k as [|[|[|[|]]]]; [rewrite E0|rewrite E1|rewrite E2|rewrite E3|lia]; lra.
  - intros x s Hx _. rewrite (kq_share (1 / 3) x Hx). lra.
Qed.
(** There the decoded states miss 4 at most, which is what they miss. *)
Example C71_gap_nonvacuous : exists r q st, get_beliefs (kq_c 0) kq_a = Ok r /\ decode_map_states r = Ok q /\ state_table kq_vgs q st /\
  joint kq_rfs (all_vars kq_vgs) st (fun _ => 3) /\
  (forall st' cf', joint kq_rfs (all_vars kq_vgs) st' cf' -> (kq_score st' cf' - kq_score st (fun _ => 3%nat) <= 4)%R) /\
  (4 <= kq_score (fun _ => 0%nat) (fun _ => 0%nat) - kq_score st (fun _ => 3%nat))%R.
Proof.
  destruct (kq_given 0) as [H1 [H2 [H3 [H4 H5]]]].
  destruct (C71_gap kq_vgs kq_g 0%R (kq_c 0) H1 H2 H3 H4 kq_a H5 kq_pos kq_not_one) as [r [q [b [st [Er [Eq [Tr [Tq O]]]]]]]].
  pose proof (kq_beliefs r b Er Tr) as Hb. pose proof (kq_states r q st Er Eq Tq) as Hs.
  assert (J : joint kq_rfs (all_vars kq_vgs) st (fun _ => 3)).
  { split; [intros x Hx; rewrite (Hs x Hx); rewrite kq_vars in Hx; destruct Hx as [<-|[<-|[<-|[<-|[]]]]]; cbn; lia|].
    intros f Hf. assert (Hf6 : f < 6) by exact Hf. split; [rewrite (kq_nconfigs f Hf6); lia|]. intros u Hu. rewrite (kq_arity f Hf) in Hu.
    rewrite Hs; [|rewrite kq_vars; do 6 (destruct f as [|f]; [destruct u as [|[|]]; [vm_compute; tauto|vm_compute; tauto|lia]|]); lia].
    do 6 (destruct f as [|f]; [destruct u as [|[|]]; [reflexivity|reflexivity|lia]|]). lia. }
  exists r, q, st. do 4 (split; [assumption|]). split.
  - intros st' cf' J'.
    pose proof (O (fun _ _ => (1 / 3)%R) (fun _ => (8 / 3)%R)) as G. eapply Rle_trans; [apply (G) with (cf := fun _ => 3); [| |exact J|exact J']|].
    + intros f k Hf Hk. assert (Hf6 : f < 6) by exact Hf. rewrite (kq_nconfigs f Hf6) in Hk.
      destruct (kq_residual kq_a b (-2) 0 (-5) 0 (1 / 3) eq_refl Hb kq_a_msgs f Hf6) as [E0 [E1 [E2 E3]]].
      destruct k as [|[|[|[|]]]]; [rewrite E0|rewrite E1|rewrite E2|rewrite E3|lia]; lra.
    + intros x Hx. rewrite (kq_share (1 / 3) x Hx). lra.
    + change (length kq_rfs) with 6. rewrite (LemNum.rsum_ext _ (fun _ => (2 / 3)%R)).
      * unfold rsum. cbn [map seq fold_right]. lra.
      * intros f Hf. apply in_seq in Hf. destruct (kq_residual kq_a b (-2) 0 (-5) 0 (1 / 3) eq_refl Hb kq_a_msgs f ltac:(lia)) as [_ [_ [_ E3]]]. rewrite E3. lra.
  - pose proof (kq_ones st (fun _ => 3) Hs). rewrite (proj2 kq_zeros). lra.
Qed.
(** At the other fixed point the decoded states are certified to be the only best ones. *)
Example C71_optimal_nonvacuous : ba_ftov_msgs (run_bp (kq_c 0) kq_h 1 0%R) = ba_ftov_msgs kq_h /\
  exists r q st, get_beliefs (kq_c 0) kq_h = Ok r /\ decode_map_states r = Ok q /\ state_table kq_vgs q st /\
  (forall x, In x (all_vars kq_vgs) -> st x = 0) /\ joint kq_rfs (all_vars kq_vgs) st (fun _ => 0) /\
  (forall st' cf', joint kq_rfs (all_vars kq_vgs) st' cf' -> (kq_score st' cf' <= kq_score st (fun _ => 0%nat))%R) /\
  (forall st' cf', joint kq_rfs (all_vars kq_vgs) st' cf' -> (kq_score st (fun _ => 0%nat) <= kq_score st' cf')%R -> forall x, In x (all_vars kq_vgs) -> st' x = 0).
Proof.
  split; [exact kq_h_fix|]. destruct (kq_given 0) as [H1 [H2 [H3 [H4 _]]]].
  destruct (C71_optimal kq_vgs kq_g 0%R (kq_c 0) H1 H2 H3 H4 kq_h (kq_h_arrays 0) kq_pos kq_not_one) as [r [q [b [st [Er [Eq [Tr [Tq O]]]]]]]].
  pose proof (kq_h_beliefs r b Er Tr) as Hb. pose proof (kq_h_states r q st Er Eq Tq) as Hs.
  assert (J : joint kq_rfs (all_vars kq_vgs) st (fun _ => 0)).
  { split; [intros x Hx; rewrite (Hs x Hx); rewrite kq_vars in Hx; destruct Hx as [<-|[<-|[<-|[<-|[]]]]]; cbn; lia|].
    intros f Hf. assert (Hf6 : f < 6) by exact Hf. split; [rewrite (kq_nconfigs f Hf6); lia|]. intros u Hu. rewrite (kq_arity f Hf) in Hu.
    rewrite Hs; [|rewrite kq_vars; do 6 (destruct f as [|f]; [destruct u as [|[|]]; [vm_compute; tauto|vm_compute; tauto|lia]|]); lia].
    do 6 (destruct f as [|f]; [destruct u as [|[|]]; [reflexivity|reflexivity|lia]|]). lia. }
  destruct (O (fun _ _ => (3 / 10)%R) (fun _ => 0) J) as [O1 O2].
  { intros f k Hf Hk. assert (Hf6 : f < 6) by exact Hf. rewrite (kq_nconfigs f Hf6) in Hk.
    destruct (kq_residual kq_h b 0 (-2) 1 (-6) (3 / 10) eq_refl Hb kq_h_msgs f Hf6) as [E0 [E1 [E2 E3]]]. cbv beta.
    rewrite E0. destruct k as [|[|[|[|]]]]; [rewrite E0|rewrite E1|rewrite E2|rewrite E3|lia]; lra. }
  exists r, q, st. do 5 (split; [assumption|]). split.
  - apply O1. intros x Hx. rewrite (kq_share (3 / 10) x Hx). lra.
  - intros st' cf' J' Hle x Hx. rewrite <- (Hs x Hx). apply (O2) with (cf' := cf'); [| |exact J'|exact Hle|exact Hx].
    + intros y Hy. rewrite (kq_share (3 / 10) y Hy). lra.
    + intros y s Hy Hlt Hne. rewrite (Hs y Hy) in *. destruct (Hb y Hy) as [B0 B1].
      assert (E2 : snd y = 2) by (rewrite kq_vars in Hy; destruct Hy as [<-|[<-|[<-|[<-|[]]]]]; reflexivity). rewrite E2 in Hlt. destruct s as [|[|]]; [contradiction|lra|lia].
Qed.
