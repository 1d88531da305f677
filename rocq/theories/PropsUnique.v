(** * Property C42 (continued): a unique best assignment is decoded. *)
From Verif Require Import NumPy Lists VGroup FGraph BPState BP SpecVGroup SpecFGraph SpecFactor SpecWiring SpecState SpecBP SpecText SpecBeliefs SpecTree SpecFix.
From Verif Require Import LemSpread LemUnique ExBP ExTree PropsBeliefs PropsTree.
From Coq Require Import Reals Lra Lia.
Local Close Scope R_scope.
Local Open Scope nat_scope.

(** Undamped max-product on an acyclic graph: if all assignments with other states have a smaller
    score than [st], then the decoded states are those of [st], for all variables together. *)
Theorem C42_unique :
  forall vgs (g : fgraph R) (c : bp_ctx R),
  groups_ok vgs -> reachable vgs g -> wf_groups (gr_groups g) -> bp_of g 0%R c ->
  forall a, arrays_of c a ->
  let fs := graph_factors 0%R (gr_groups g) in
  let pots := graph_pots (gr_groups g) (ba_log_potentials a) in
  let ev := read_ev (gr_vars_to_starts g) (ba_evidence a) in
  let lens := map snd (sf_edges fs) in
  let xs := all_vars vgs in
  (forall gr k, In gr vgs -> In k (vg_num_states gr) -> 0 < k) ->
  acyclic fs -> (forall f, f < length fs -> 0 < arity fs f) ->
  forall B P D K P' B' M' N', moderate fs pots (length (enum_factors (gr_groups g))) ev B P D K ->
  small fs 0 pots ev (read_msgs fs (ba_ftov_msgs a)) P' B' M' N' ->
  supported lens -> above_floor lens (ba_ftov_msgs a) ->
  (forall gr, In gr vgs -> one_state gr = false) ->
  forall st cf, joint fs xs st cf ->
  (forall st' cf', joint fs xs st' cf' -> (exists x, In x xs /\ st' x <> st x) -> (joint_score fs pots ev xs st' cf' < joint_score fs pots ev xs st cf)%R) ->
  forall n, length fs <= n ->
  exists b q, get_beliefs c (run_bp c a n 0%R) = Ok b /\ decode_map_states b = Ok q /\ map fst q = vgs /\ state_table vgs q st.
Proof. exact C42_unique_lemma. Qed.
Print Assumptions C42_unique.

(** The best assignment of a tree with both kinds of factors. *)
Definition un_st (x : variable) : nat := if var_eqb x b2 || var_eqb x b3 then 1 else 0.
Definition un_cf (f : nat) : nat := match f with 2 => 2 | _ => 0 end.
Example un_joint : joint tr_rfs (all_vars ex_vgs) un_st un_cf.
Proof.
  split.
  - intros x Hx. vm_compute in Hx. destruct Hx as [<-|[<-|[<-|[<-|[<-|[]]]]]]; vm_compute; lia.
  - intros f Hf. change (f < 3) in Hf. destruct f as [|[|[|f]]]; [| | |lia]; (split; [vm_compute; lia|]); intros u Hu;
      destruct u as [|[|[|u]]]; try reflexivity; exfalso; vm_compute in Hu; lia.
Qed.
Example un_best : forall st cf, joint tr_rfs (all_vars ex_vgs) st cf -> (exists x, In x (all_vars ex_vgs) /\ st x <> un_st x) ->
  (joint_score tr_rfs tr_pots tr_ev (all_vars ex_vgs) st cf < joint_score tr_rfs tr_pots tr_ev (all_vars ex_vgs) un_st un_cf)%R.
Proof.
  intros st cf [Hst Hc] [x [Hx Hne]].
  destruct (Hc 0 ltac:(vm_compute; lia)) as [L0 S0]. destruct (Hc 1 ltac:(vm_compute; lia)) as [L1 S1]. destruct (Hc 2 ltac:(vm_compute; lia)) as [L2 S2].
  change (cf 0 < 4) in L0. change (cf 1 < 4) in L1. change (cf 2 < 4) in L2.
  pose proof (S0 0 ltac:(vm_compute; lia)) as A0. pose proof (S0 1 ltac:(vm_compute; lia)) as A4.
  pose proof (S1 0 ltac:(vm_compute; lia)) as B1. pose proof (S1 1 ltac:(vm_compute; lia)) as B4.
  pose proof (S2 0 ltac:(vm_compute; lia)) as C1. pose proof (S2 1 ltac:(vm_compute; lia)) as C2. pose proof (S2 2 ltac:(vm_compute; lia)) as C3.
  clear S0 S1 S2 Hc Hst.
  change (var_at tr_rfs 0 0) with b0 in A0. change (var_at tr_rfs 0 1) with b4 in A4. change (var_at tr_rfs 1 0) with b1 in B1. change (var_at tr_rfs 1 1) with b4 in B4.
  change (var_at tr_rfs 2 0) with b1 in C1. change (var_at tr_rfs 2 1) with b2 in C2. change (var_at tr_rfs 2 2) with b3 in C3.
  unfold joint_score. change (all_vars ex_vgs) with [b0; b1; b2; b3; b4] in *. change (seq 0 (length tr_rfs)) with [0; 1; 2].
  cbn [map].
  assert (Hd : ~ (st b0 = 0 /\ st b1 = 0 /\ st b2 = 1 /\ st b3 = 1 /\ st b4 = 0)).
  { intros [E0 [E1 [E2 [E3 E4]]]]. apply Hne. destruct Hx as [<-|[<-|[<-|[<-|[<-|[]]]]]]; [rewrite E0|rewrite E1|rewrite E2|rewrite E3|rewrite E4]; reflexivity. }
  clear x Hx Hne. revert Hd A0 A4 B1 B4 C1 C2 C3. generalize (st b0) (st b1) (st b2) (st b3) (st b4). intros t0 t1 t2 t3 t4 Hd A0 A4 B1 B4 C1 C2 C3.
  destruct (cf 0) as [|[|[|[|k0]]]]; [| | | |lia]; (destruct (cf 1) as [|[|[|[|k1]]]]; [| | | |lia]); (destruct (cf 2) as [|[|[|[|k2]]]]; [| | | |lia]);
    vm_compute in A0, A4, B1, B4, C1, C2, C3; try congruence; subst t0 t1 t2 t3 t4; try (exfalso; apply Hd; repeat split; reflexivity); cbn; lra.
Qed.
Example C42_unique_nonvacuous : forall n, 3 <= n -> exists b q,
  get_beliefs (tr_c 0) (run_bp (tr_c 0) tr_a n 0%R) = Ok b /\ decode_map_states b = Ok q /\ map fst q = ex_vgs /\ state_table ex_vgs q un_st.
Proof.
  intros n Hn. destruct (tr_given 0) as [H1 [H2 [H3 [H4 H5]]]].
  refine (C42_unique ex_vgs tr_g (tr_c 0) H1 H2 H3 H4 tr_a H5 ex_pos (tr_acyclic IZR 0%R) tr_arity 10%R 10%R 10 2 6%R 7%R 5%R 4 tr_moderate (tr_small 0 ltac:(lra)) tr_supported tr_above _ un_st un_cf un_joint un_best n Hn).
  intros gr [<-|[]]. reflexivity.
Qed.
