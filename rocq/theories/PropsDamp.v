(** * Property C58: damped belief propagation on acyclic graphs. *)
From Verif Require Import NumPy Lists VGroup FGraph BPState BP SpecVGroup SpecFGraph SpecFactor SpecWiring SpecState SpecBP SpecText SpecBeliefs SpecTree SpecSum SpecStable SpecConv SpecFix SpecDamp.
From Verif Require Import LemDamp ExBP ExTree PropsBeliefs PropsTree.
From Coq Require Import Reals Lra Lia QArith Qabs.
Local Close Scope Q_scope.
Local Close Scope R_scope.
Local Open Scope nat_scope.

(** On an acyclic graph, at any temperature and with any clipping, one array of messages is a
    fixed point for every damping. Undamped runs reach it after as many iterations as there are
    factors. Damped runs approach it geometrically from any initial messages, and no other
    messages repeat. *)
Theorem C58_converges :
  forall vgs (g : fgraph R) T (c : bp_ctx R),
  groups_ok vgs -> reachable vgs g -> wf_groups (gr_groups g) -> bp_of g T c ->
  forall a, arrays_of c a ->
  let fs := graph_factors 0%R (gr_groups g) in
  let pots := graph_pots (gr_groups g) (ba_log_potentials a) in
  let ev := read_ev (gr_vars_to_starts g) (ba_evidence a) in
  let lens := map snd (sf_edges fs) in
  forall B P D1 K1 D K, moderate fs pots (length (enum_factors (gr_groups g))) ev B P D1 K1 ->
  (0 <= T)%R -> supported lens -> degrees fs D K -> acyclic fs ->
  let start m := length m = length (ba_ftov_msgs a) /\ above_floor lens m in
  let run d m n := ba_ftov_msgs (run_bp c (with_msgs a m) n d) in
  let bound := tree_bound D K (length fs) in
  exists l, start l /\ (forall d n, (0 <= d <= 1)%R -> run d l n = l) /\
    (forall m n, start m -> length fs <= n -> run 0%R m n = l) /\
    (forall d th m n i, (0 <= d <= 1)%R -> (0 < th <= 1)%R -> start m -> (Rabs (nth i (run d m n) 0 - nth i l 0) <= bound d th n)%R) /\
    (forall d m n, (0 <= d < 1)%R -> start m -> 0 < n -> run d m n = m -> m = l).
Proof. exact C58_converges_lemma. Qed.
Print Assumptions C58_converges.

(** The bound tends to 0 for any damping below 1. *)
Theorem C58_rate :
  forall D K F d th, (0 <= d < 1)%R -> (0 < th < 1)%R ->
  forall eps, (0 < eps)%R -> exists N, forall n, N <= n -> (tree_bound D K F d th n < eps)%R.
Proof. exact C58_rate_lemma. Qed.
Print Assumptions C58_rate.

(** Inputs small enough not to be clipped from initial messages 0, and temperature 0: the
    beliefs after [n] damped iterations are the max-marginals up to a constant per variable and
    an error that tends to 0. The initial messages are arbitrary. *)
Theorem C58_beliefs :
  forall vgs (g : fgraph R) T (c : bp_ctx R),
  groups_ok vgs -> reachable vgs g -> wf_groups (gr_groups g) -> bp_of g T c ->
  forall a, arrays_of c a ->
  let fs := graph_factors 0%R (gr_groups g) in
  let pots := graph_pots (gr_groups g) (ba_log_potentials a) in
  let ev := read_ev (gr_vars_to_starts g) (ba_evidence a) in
  let lens := map snd (sf_edges fs) in
  let xs := all_vars vgs in
  forall B P D1 K1 D K, moderate fs pots (length (enum_factors (gr_groups g))) ev B P D1 K1 ->
  (0 <= T)%R -> supported lens -> degrees fs D K -> acyclic fs ->
  let start m := length m = length (ba_ftov_msgs a) /\ above_floor lens m in
  let bound := tree_bound D K (length fs) in
  (forall gr k, In gr vgs -> In k (vg_num_states gr) -> 0 < k) -> (forall f, f < length fs -> 0 < arity fs f) ->
  forall P' B' N', small fs T pots ev (fun _ _ _ => 0%R) P' B' 0 N' ->
  T = 0%R -> forall d th m n, (0 <= d <= 1)%R -> (0 < th <= 1)%R -> start m ->
  exists r b, get_beliefs c (run_bp c (with_msgs a m) n d) = Ok r /\ belief_table vgs r b /\
    forall x, In x xs -> exists (mm : nat -> R) (k : R), forall s, s < snd x ->
      max_marginal fs pots ev xs x s (mm s) /\ (Rabs (b x s - (mm s + k)) <= INR D * bound d th n)%R.
Proof. exact C58_beliefs_lemma. Qed.
Print Assumptions C58_beliefs.

(** A state whose max-marginal leads by more than the error is decoded. *)
Theorem C58_map :
  forall vgs (g : fgraph R) T (c : bp_ctx R),
  groups_ok vgs -> reachable vgs g -> wf_groups (gr_groups g) -> bp_of g T c ->
  forall a, arrays_of c a ->
  let fs := graph_factors 0%R (gr_groups g) in
  let pots := graph_pots (gr_groups g) (ba_log_potentials a) in
  let ev := read_ev (gr_vars_to_starts g) (ba_evidence a) in
  let lens := map snd (sf_edges fs) in
  let xs := all_vars vgs in
  forall B P D1 K1 D K, moderate fs pots (length (enum_factors (gr_groups g))) ev B P D1 K1 ->
  (0 <= T)%R -> supported lens -> degrees fs D K -> acyclic fs ->
  let start m := length m = length (ba_ftov_msgs a) /\ above_floor lens m in
  let bound := tree_bound D K (length fs) in
  (forall gr k, In gr vgs -> In k (vg_num_states gr) -> 0 < k) -> (forall f, f < length fs -> 0 < arity fs f) ->
  forall P' B' N', small fs T pots ev (fun _ _ _ => 0%R) P' B' 0 N' ->
  (forall gr, In gr vgs -> one_state gr = false) ->
  T = 0%R -> forall d th m n, (0 <= d <= 1)%R -> (0 < th <= 1)%R -> start m ->
  exists r q st, get_beliefs c (run_bp c (with_msgs a m) n d) = Ok r /\ decode_map_states r = Ok q /\ state_table vgs q st /\
    forall x s v, In x xs -> s < snd x -> max_marginal fs pots ev xs x s v ->
      (forall t w, t < snd x -> t <> s -> max_marginal fs pots ev xs x t w -> (w + INR D * bound d th n < v)%R) -> st x = s.
Proof. exact C58_map_lemma. Qed.
Print Assumptions C58_map.

(** A unique best assignment is decoded after finitely many damped iterations, the same number
    for all initial messages. *)
Theorem C58_decodes :
  forall vgs (g : fgraph R) T (c : bp_ctx R),
  groups_ok vgs -> reachable vgs g -> wf_groups (gr_groups g) -> bp_of g T c ->
  forall a, arrays_of c a ->
  let fs := graph_factors 0%R (gr_groups g) in
  let pots := graph_pots (gr_groups g) (ba_log_potentials a) in
  let ev := read_ev (gr_vars_to_starts g) (ba_evidence a) in
  let lens := map snd (sf_edges fs) in
  let xs := all_vars vgs in
  forall B P D1 K1 D K, moderate fs pots (length (enum_factors (gr_groups g))) ev B P D1 K1 ->
  (0 <= T)%R -> supported lens -> degrees fs D K -> acyclic fs ->
  let start m := length m = length (ba_ftov_msgs a) /\ above_floor lens m in
  (forall gr k, In gr vgs -> In k (vg_num_states gr) -> 0 < k) -> (forall f, f < length fs -> 0 < arity fs f) ->
  forall P' B' N', small fs T pots ev (fun _ _ _ => 0%R) P' B' 0 N' ->
  (forall gr, In gr vgs -> one_state gr = false) ->
  T = 0%R -> forall d best cfb, (0 <= d < 1)%R -> joint fs xs best cfb ->
  (forall st cf, joint fs xs st cf -> (joint_score fs pots ev xs st cf <= joint_score fs pots ev xs best cfb)%R /\
     ((exists x, In x xs /\ st x <> best x) -> (joint_score fs pots ev xs st cf < joint_score fs pots ev xs best cfb)%R)) ->
  exists N, forall m n, start m -> N <= n ->
  exists r q, get_beliefs c (run_bp c (with_msgs a m) n d) = Ok r /\ decode_map_states r = Ok q /\
    forall gr, In gr vgs -> exists y, dget vg_eqb gr q = Some y /\
      forall i x, nth_error (vg_variables gr) i = Some x -> cell gr y i = [best x].
Proof. exact C58_decodes_lemma. Qed.
Print Assumptions C58_decodes.

(** Temperature 1: the marginals after [n] damped iterations are the marginals of the Gibbs
    distribution up to a factor that tends to 1. *)
Theorem C58_marginals :
  forall vgs (g : fgraph R) T (c : bp_ctx R),
  groups_ok vgs -> reachable vgs g -> wf_groups (gr_groups g) -> bp_of g T c ->
  forall a, arrays_of c a ->
  let fs := graph_factors 0%R (gr_groups g) in
  let pots := graph_pots (gr_groups g) (ba_log_potentials a) in
  let ev := read_ev (gr_vars_to_starts g) (ba_evidence a) in
  let lens := map snd (sf_edges fs) in
  let xs := all_vars vgs in
  forall B P D1 K1 D K, moderate fs pots (length (enum_factors (gr_groups g))) ev B P D1 K1 ->
  (0 <= T)%R -> supported lens -> degrees fs D K -> acyclic fs ->
  let start m := length m = length (ba_ftov_msgs a) /\ above_floor lens m in
  let bound := tree_bound D K (length fs) in
  (forall gr k, In gr vgs -> In k (vg_num_states gr) -> 0 < k) -> (forall f, f < length fs -> 0 < arity fs f) ->
  forall P' B' N', small fs T pots ev (fun _ _ _ => 0%R) P' B' 0 N' ->
  (forall gr, In gr vgs -> one_state gr = false) ->
  T = 1%R -> forall d th m n, (0 <= d <= 1)%R -> (0 < th <= 1)%R -> start m ->
  exists r q, get_beliefs c (run_bp c (with_msgs a m) n d) = Ok r /\ get_marginals r = Ok q /\
    forall gr, In gr vgs -> exists y, dget vg_eqb gr q = Some y /\ forall i x s, nth_error (vg_variables gr) i = Some x -> s < snd x ->
      exists p, nth_error (row gr y i) s = Some p /\
        (exp (- (INR D * bound d th n)) * marginal fs pots 1 ev xs x s <= p <= exp (INR D * bound d th n) * marginal fs pots 1 ev xs x s)%R.
Proof. exact C58_marginals_lemma. Qed.
Print Assumptions C58_marginals.

(** The hypotheses hold for a tree with both kinds of factors. *)
Lemma tr_degrees : degrees tr_rfs 2 3.
Proof.
  split.
  - intros x. change (slots_of tr_rfs x) with (filter (fun fu => var_eqb (var_at tr_rfs (fst fu) (snd fu)) x) [(0, 0); (0, 1); (1, 0); (1, 1); (2, 0); (2, 1); (2, 2)]).
    cbn [filter fst snd]. change (var_at tr_rfs 0 0) with b0. change (var_at tr_rfs 0 1) with b4. change (var_at tr_rfs 1 0) with b1. change (var_at tr_rfs 1 1) with b4.
    change (var_at tr_rfs 2 0) with b1. change (var_at tr_rfs 2 1) with b2. change (var_at tr_rfs 2 2) with b3.
    destruct (var_eqb b0 x) eqn:E0; [apply LemFGraph.var_eqb_eq in E0; subst x; vm_compute; lia|]. destruct (var_eqb b4 x) eqn:E4; [apply LemFGraph.var_eqb_eq in E4; subst x; vm_compute; lia|].
    destruct (var_eqb b1 x) eqn:E1; [apply LemFGraph.var_eqb_eq in E1; subst x; vm_compute; lia|]. destruct (var_eqb b2 x), (var_eqb b3 x); cbn; lia.
  - intros f Hf. assert (Hf3 : f < 3) by exact Hf. destruct f as [|[|[|]]]; [vm_compute; lia..|lia].
Qed.
Lemma tr_small_0 T : (0 <= T <= 1)%R -> small tr_rfs T tr_pots tr_ev (fun _ _ _ => 0%R) 6 7 0 4.
Proof.
  intros HT. destruct (tr_small T HT) as [_ [S2 [S3 [S4 [_ [S6 S7]]]]]]. split; [lra|]. do 3 (split; [assumption|]). split; [intros; lra|]. split; [assumption|].
  revert S7. pose proof (pos_INR (length (slots tr_rfs))) as Hs. generalize (INR (length tr_rfs) * (6 + T * ln (INR 4)))%R. intros z Hz. lra.
Qed.
(** From any initial messages, with damping 1/2 and rate 3/4. The constant is [2000 (2 / (1/2))^3]. *)
Example C58_converges_nonvacuous : forall T, (0 <= T)%R -> exists l, forall m n i, length m = 16 -> above_floor (map snd (sf_edges tr_rfs)) m ->
  (Rabs (nth i (ba_ftov_msgs (run_bp (tr_c T) (with_msgs tr_a m) n (1/2)%R)) 0 - nth i l 0) <= 128000 * (3/4) ^ n)%R /\
  ba_ftov_msgs (run_bp (tr_c T) (with_msgs tr_a m) (3 + n) 0%R) = l.
Proof.
  intros T HT. destruct (tr_given T) as [H1 [H2 [H3 [H4 H5]]]].
  destruct (C58_converges ex_vgs tr_g T (tr_c T) H1 H2 H3 H4 tr_a H5 10%R 10%R 10 2 2 3 tr_moderate HT tr_supported tr_degrees (tr_acyclic IZR 0%R)) as [l [_ [_ [E [C _]]]]].
  exists l. intros m n i L F. split; [|apply E; [now split|change (3 <= 3 + n); lia]].
  eapply Rle_trans; [apply (C (1/2)%R (1/2)%R m n i); [lra|lra|now split]|]. change (tree_bound 2 3 3 (1 / 2) (1 / 2) n <= 128000 * (3 / 4) ^ n)%R. unfold tree_bound, reach_cost.
  replace (Rmax 1 (INR (3 - 1) * INR (2 - 1))) with 2%R by (change (INR (3 - 1)) with (1 + 1)%R; change (INR (2 - 1)) with 1%R; rewrite Rmax_right; lra).
  replace (2000 * (2 / (1 / 2)) ^ 3)%R with 128000%R by (cbn; field). replace (1 / 2 + (1 - 1 / 2) * (1 / 2))%R with (3 / 4)%R by field. lra.
Qed.
(** The best assignment. *)
Definition tr_top (x : variable) : nat := if var_eqb x b2 || var_eqb x b3 then 1 else 0.
Definition tr_top_cf (f : nat) : nat := match f with 2 => 2 | _ => 0 end.
Lemma tr_top_joint : joint tr_rfs (all_vars ex_vgs) tr_top tr_top_cf /\ joint_score tr_rfs tr_pots tr_ev (all_vars ex_vgs) tr_top tr_top_cf = 10%R.
Proof.
  split.
  - split; [intros x Hx; vm_compute in Hx; destruct Hx as [<-|[<-|[<-|[<-|[<-|[]]]]]]; vm_compute; lia|].
    intros f Hf. assert (Hf3 : f < 3) by exact Hf. destruct f as [|[|[|]]]; [..|lia]; (split; [vm_compute; lia|]); intros u Hu; vm_compute in Hu; destruct u as [|[|[|]]]; try reflexivity; lia.
  - unfold joint_score. change (all_vars ex_vgs) with [b0; b1; b2; b3; b4]. change (length tr_rfs) with 3. cbn [map seq]. unfold rsum. cbn [fold_right]. cbv -[IZR Rplus]. lra.
Qed.
Lemma tr_top_unique st cf : joint tr_rfs (all_vars ex_vgs) st cf ->
  (joint_score tr_rfs tr_pots tr_ev (all_vars ex_vgs) st cf <= 10)%R /\
  ((exists x, In x (all_vars ex_vgs) /\ st x <> tr_top x) -> (joint_score tr_rfs tr_pots tr_ev (all_vars ex_vgs) st cf < 10)%R).
Proof.
  intros [_ C].
  assert (C0 : cf 0 < 4 /\ forall u, u < 2 -> config_at_slot tr_rfs 0 (cf 0) u = st (var_at tr_rfs 0 u)) by exact (C 0 ltac:(change (length tr_rfs) with 3; lia)).
  assert (C1 : cf 1 < 4 /\ forall u, u < 2 -> config_at_slot tr_rfs 1 (cf 1) u = st (var_at tr_rfs 1 u)) by exact (C 1 ltac:(change (length tr_rfs) with 3; lia)).
  assert (C2 : cf 2 < 4 /\ forall u, u < 3 -> config_at_slot tr_rfs 2 (cf 2) u = st (var_at tr_rfs 2 u)) by exact (C 2 ltac:(change (length tr_rfs) with 3; lia)).
  destruct C0 as [L0 C0]. destruct C1 as [L1 C1]. destruct C2 as [L2 C2].
  assert (E00 := C0 0 ltac:(lia)). assert (E01 := C0 1 ltac:(lia)). assert (E10 := C1 0 ltac:(lia)). assert (E11 := C1 1 ltac:(lia)).
  assert (E20 := C2 0 ltac:(lia)). assert (E21 := C2 1 ltac:(lia)). assert (E22 := C2 2 ltac:(lia)). clear C C0 C1 C2.
  change (var_at tr_rfs 0 0) with b0 in *. change (var_at tr_rfs 0 1) with b4 in *. change (var_at tr_rfs 1 0) with b1 in *. change (var_at tr_rfs 1 1) with b4 in *.
  change (var_at tr_rfs 2 0) with b1 in *. change (var_at tr_rfs 2 1) with b2 in *. change (var_at tr_rfs 2 2) with b3 in *.
  unfold joint_score. change (all_vars ex_vgs) with [b0; b1; b2; b3; b4]. change (length tr_rfs) with 3. cbn [map seq]. unfold rsum. cbn [fold_right].
  rewrite <- E11 in E01. rewrite <- E20 in E10. rewrite <- E00, <- E11, <- E20, <- E21, <- E22.
  assert (Hx : forall x, In x [b0; b1; b2; b3; b4] -> x = b0 \/ x = b1 \/ x = b2 \/ x = b3 \/ x = b4) by (intros x [<-|[<-|[<-|[<-|[<-|[]]]]]]; tauto).
  destruct (cf 0) as [|[|[|[|]]]]; [..|lia]; (destruct (cf 1) as [|[|[|[|]]]]; [..|lia]); try (exfalso; vm_compute in E01; discriminate);
    (destruct (cf 2) as [|[|[|[|]]]]; [..|lia]); try (exfalso; vm_compute in E10; discriminate);
    vm_compute in E00, E11, E20, E21, E22;
    (split; [cbv -[IZR Rplus Rle]; lra|]); intros [x [Hi Hne]];
    first [cbv -[IZR Rplus Rlt]; lra|exfalso; apply Hne; destruct (Hx x Hi) as [->|[->|[->|[->| ->]]]]; [exact (eq_sym E00)|exact (eq_sym E20)|exact (eq_sym E21)|exact (eq_sym E22)|exact (eq_sym E11)]].
Qed.
(** With damping 1/2 it is decoded from any initial messages. *)
Example C58_decodes_nonvacuous : exists N, forall m n, length m = 16 -> above_floor (map snd (sf_edges tr_rfs)) m -> N <= n ->
  exists r q y, get_beliefs (tr_c 0) (run_bp (tr_c 0) (with_msgs tr_a m) n (1/2)%R) = Ok r /\ decode_map_states r = Ok q /\ dget vg_eqb (VA ex_vg) q = Some y /\
    map (cell (VA ex_vg) y) [0; 1; 2; 3; 4] = [[0]; [0]; [1]; [1]; [0]].
Proof.
  destruct (tr_given 0) as [H1 [H2 [H3 [H4 H5]]]]. destruct tr_top_joint as [J E].
  destruct (C58_decodes ex_vgs tr_g 0%R (tr_c 0) H1 H2 H3 H4 tr_a H5 10%R 10%R 10 2 2 3 tr_moderate (Rle_refl 0) tr_supported tr_degrees (tr_acyclic IZR 0%R) ex_pos tr_arity 6%R 7%R 4 (tr_small_0 0 ltac:(lra)) ex_not_one
    eq_refl (1/2)%R tr_top tr_top_cf ltac:(lra) J) as [N HN].
  { intros st cf J'. pose proof (tr_top_unique st cf J') as U. rewrite <- E in U. exact U. }
  exists N. intros m n L F Hn. destruct (HN m n (conj L F) Hn) as [r [q [Er [Eq D]]]]. destruct (D (VA ex_vg) (or_introl eq_refl)) as [y [Ey C]].
  exists r, q, y. do 3 (split; [assumption|]). cbn [map]. rewrite (C 0 b0 eq_refl), (C 1 b1 eq_refl), (C 2 b2 eq_refl), (C 3 b3 eq_refl), (C 4 b4 eq_refl). reflexivity.
Qed.
Example C58_beliefs_nonvacuous : forall m n, length m = 16 -> above_floor (map snd (sf_edges tr_rfs)) m ->
  exists r b, get_beliefs (tr_c 0) (run_bp (tr_c 0) (with_msgs tr_a m) n (1/2)%R) = Ok r /\ belief_table ex_vgs r b /\ exists (mm : nat -> R) (k : R), forall s, s < 3 ->
    max_marginal tr_rfs tr_pots tr_ev (all_vars ex_vgs) b4 s (mm s) /\ (Rabs (b b4 s - (mm s + k)) <= INR 2 * tree_bound 2 3 3 (1/2) (1/2) n)%R.
Proof.
  intros m n L F. destruct (tr_given 0) as [H1 [H2 [H3 [H4 H5]]]].
  destruct (C58_beliefs ex_vgs tr_g 0%R (tr_c 0) H1 H2 H3 H4 tr_a H5 10%R 10%R 10 2 2 3 tr_moderate (Rle_refl 0) tr_supported tr_degrees (tr_acyclic IZR 0%R) ex_pos tr_arity 6%R 7%R 4 (tr_small_0 0 ltac:(lra))
    eq_refl (1/2)%R (1/2)%R m n ltac:(lra) ltac:(lra) (conj L F)) as [r [b [Er [Tr D]]]].
  exists r, b. do 2 (split; [assumption|]). apply (D b4). vm_compute. tauto.
Qed.
Example C58_marginals_nonvacuous : forall m n, length m = 16 -> above_floor (map snd (sf_edges tr_rfs)) m ->
  exists r q y, get_beliefs (tr_c 1) (run_bp (tr_c 1) (with_msgs tr_a m) n (1/2)%R) = Ok r /\ get_marginals r = Ok q /\ dget vg_eqb (VA ex_vg) q = Some y /\
    forall s, s < 3 -> exists p, nth_error (row (VA ex_vg) y 4) s = Some p /\
      (exp (- (INR 2 * tree_bound 2 3 3 (1/2) (1/2) n)) * marginal tr_rfs tr_pots 1 tr_ev (all_vars ex_vgs) b4 s <= p
       <= exp (INR 2 * tree_bound 2 3 3 (1/2) (1/2) n) * marginal tr_rfs tr_pots 1 tr_ev (all_vars ex_vgs) b4 s)%R.
Proof.
  intros m n L F. destruct (tr_given 1) as [H1 [H2 [H3 [H4 H5]]]].
  destruct (C58_marginals ex_vgs tr_g 1%R (tr_c 1) H1 H2 H3 H4 tr_a H5 10%R 10%R 10 2 2 3 tr_moderate ltac:(lra) tr_supported tr_degrees (tr_acyclic IZR 0%R) ex_pos tr_arity 6%R 7%R 4 (tr_small_0 1 ltac:(lra)) ex_not_one
    eq_refl (1/2)%R (1/2)%R m n ltac:(lra) ltac:(lra) (conj L F)) as [r [q [Er [Eq D]]]].
  destruct (D (VA ex_vg) (or_introl eq_refl)) as [y [Ey C]]. exists r, q, y. do 3 (split; [assumption|]). intros s Hs. exact (C 4 b4 s eq_refl Hs).
Qed.
(** The same with rational numbers: beliefs after 3 and 20 iterations. The exact ones, which
    undamped runs have after 3, are in [C42_computed]. *)
Example C58_computed :
  let near x y := match x, y with Fin p, Fin q => Qle_bool (Qabs.Qabs (p - q)) (1 # 50) | NInf, NInf => true | _, _ => false end in
  let beliefs n d := match get_beliefs (tr_ctx inject_Z 0%Q) (run_bp (tr_ctx inject_Z 0%Q) (tr_arrays inject_Z (map inject_Z tr_msgs_z) (map inject_Z ex_ev_z)) n d) with
    | Ok [(_, DArr b)] => data b | _ => [] end in
  forallb (fun p => near (fst p) (snd p)) (combine (beliefs 20 (1 # 2)%Q) (beliefs 3 0%Q)) = true /\
  forallb (fun p => near (fst p) (snd p)) (combine (beliefs 3 (1 # 2)%Q) (beliefs 3 0%Q)) = false /\ length (beliefs 20 (1 # 2)%Q) = 15 /\ length (beliefs 3 0%Q) = 15.
Proof. vm_compute. repeat split. Qed.
