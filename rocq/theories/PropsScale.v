(** * Property C63: temperature, potentials and evidence have a common unit. *)
From Verif Require Import NumPy Lists VGroup FGraph BPState BP SpecVGroup SpecFGraph SpecFactor SpecAdd SpecWiring SpecState SpecBP SpecText SpecBeliefs SpecConv SpecScale.
From Verif Require Import LemFGraph LemRun LemBeliefs LemScale ExBP ExCycle PropsClamp.
From Coq Require Import Reals Lra Lia QArith.
Local Close Scope Q_scope.
Local Close Scope R_scope.
Local Open Scope nat_scope.

(** ** C63 *)
(** Temperature, potentials, evidence and initial messages multiplied by [k]: so are all
    messages, as long as none of them is clipped in either run. *)
Theorem C63_messages :
  forall vgs (g : fgraph R) T k (c c' : bp_ctx R), (0 < k)%R ->
  groups_ok vgs -> reachable vgs g -> wf_groups (gr_groups g) -> bp_of g T c -> bp_of g (k * T)%R c' ->
  forall a, arrays_of c a -> arrays_of c' (times k a) ->
  let fs := graph_factors 0%R (gr_groups g) in
  let pots b := graph_pots (gr_groups g) (ba_log_potentials b) in
  let ne := length (enum_factors (gr_groups g)) in
  let lens := map snd (sf_edges fs) in
  let ev b := read_ev (gr_vars_to_starts g) (ba_evidence b) in
  let msgs b := read_msgs fs (ba_ftov_msgs b) in
  forall d B P B' P' D K D' K', (0 <= T)%R -> (0 <= d <= 1)%R ->
  moderate fs (pots a) ne (ev a) B P D K -> moderate fs (pots (times k a)) ne (ev (times k a)) B' P' D' K' ->
  supported lens -> above_floor lens (ba_ftov_msgs a) -> above_floor lens (ba_ftov_msgs (times k a)) ->
  forall n, (forall i, i <= n -> unclipped fs k (msgs (run_bp c a i d))) ->
  forall f u s, f < length fs -> u < arity fs f -> s < snd (var_at fs f u) ->
  msgs (run_bp c' (times k a) n d) f u s = (k * msgs (run_bp c a n d) f u s)%R.
Proof. exact C63_messages_lemma. Qed.
Print Assumptions C63_messages.

(** ... and the beliefs. The decoded states are the same. With [k = 1 / T] the marginals of the
    second run are proportional to [exp (belief / T)]: [get_marginals] does not use the
    temperature of the run. *)
Theorem C63_beliefs :
  forall vgs (g : fgraph R) T k (c c' : bp_ctx R), (0 < k)%R ->
  groups_ok vgs -> reachable vgs g -> wf_groups (gr_groups g) -> bp_of g T c -> bp_of g (k * T)%R c' ->
  forall a, arrays_of c a -> arrays_of c' (times k a) ->
  let fs := graph_factors 0%R (gr_groups g) in
  let pots b := graph_pots (gr_groups g) (ba_log_potentials b) in
  let ne := length (enum_factors (gr_groups g)) in
  let lens := map snd (sf_edges fs) in
  let ev b := read_ev (gr_vars_to_starts g) (ba_evidence b) in
  let msgs b := read_msgs fs (ba_ftov_msgs b) in
  forall d B P B' P' D K D' K', (0 <= T)%R -> (0 <= d <= 1)%R ->
  moderate fs (pots a) ne (ev a) B P D K -> moderate fs (pots (times k a)) ne (ev (times k a)) B' P' D' K' ->
  supported lens -> above_floor lens (ba_ftov_msgs a) -> above_floor lens (ba_ftov_msgs (times k a)) ->
  forall n, (forall i, i <= n -> unclipped fs k (msgs (run_bp c a i d))) ->
  (forall gr j, In gr vgs -> In j (vg_num_states gr) -> 0 < j) -> (forall gr, In gr vgs -> one_state gr = false) ->
  exists b q b' q' r', get_beliefs c (run_bp c a n d) = Ok b /\ decode_map_states b = Ok q /\
    get_beliefs c' (run_bp c' (times k a) n d) = Ok b' /\ decode_map_states b' = Ok q' /\ get_marginals b' = Ok r' /\
  forall gr, In gr vgs -> exists e y e' y' z',
    dget vg_eqb gr b = Some e /\ dget vg_eqb gr q = Some y /\ dget vg_eqb gr b' = Some e' /\ dget vg_eqb gr q' = Some y' /\ dget vg_eqb gr r' = Some z' /\
  forall i x, nth_error (vg_variables gr) i = Some x -> exists bel pad, row gr e i = map (fun s => Fin (bel s)) (seq 0 (snd x)) ++ repeat NInf pad /\
    row gr e' i = map (fun s => Fin (k * bel s)%R) (seq 0 (snd x)) ++ repeat NInf pad /\
    row gr z' i = map (gibbs (fun s => k * bel s)%R (snd x)) (seq 0 (snd x)) ++ repeat 0%R pad /\
    cell gr y' i = cell gr y i.
Proof. exact C63_beliefs_lemma. Qed.
Print Assumptions C63_beliefs.

(** When nothing is clipped: factors with all configurations send messages that differ by no
    more than their potentials do. *)
Theorem C63_range :
  forall vgs (g : fgraph R) T (c : bp_ctx R),
  groups_ok vgs -> reachable vgs g -> wf_groups (gr_groups g) -> bp_of g T c ->
  forall a, arrays_of c a ->
  let fs := graph_factors 0%R (gr_groups g) in
  let pots := graph_pots (gr_groups g) (ba_log_potentials a) in
  let ne := length (enum_factors (gr_groups g)) in
  let lens := map snd (sf_edges fs) in
  let ev := read_ev (gr_vars_to_starts g) (ba_evidence a) in
  let msgs b := read_msgs fs (ba_ftov_msgs b) in
  forall d B P D K, (0 <= T)%R -> (0 <= d <= 1)%R ->
  moderate fs pots ne ev B P D K -> supported lens -> above_floor lens (ba_ftov_msgs a) ->
  forall w, all_configs fs -> pots_within fs pots w -> msgs_range fs (msgs a) w ->
  forall n f u s, f < length fs -> u < arity fs f -> s < snd (var_at fs f u) ->
  (- w <= msgs (run_bp c a n d) f u s <= 0)%R.
Proof. exact C63_range_lemma. Qed.
Print Assumptions C63_range.

(** ** Examples *)
(** The triangle at any temperature, with everything tripled. *)
Definition ex13_a : bp_arrays R := cy_a [1; 0; 0; 3; 0; 2]%R.
Lemma ex13_bound j : (-10 <= nth j (ba_evidence ex13_a) 0 <= 10)%R.
Proof. do 6 (destruct j as [|j]; [cbn; lra|]); destruct j; cbn; lra. Qed.
Lemma ex13_moderate3 : moderate cy_rfs (graph_pots (gr_groups cy_g) (ba_log_potentials (times 3 ex13_a))) (length (enum_factors (gr_groups cy_g))) (read_ev (gr_vars_to_starts cy_g) (ba_evidence (times 3 ex13_a))) 30 30 6 2.
Proof.
  destruct (cy_moderate (ba_evidence ex13_a) ex13_bound) as [M1 [M2 [M3 [M4 [M5 _]]]]]. split; [|split; [|split; [exact M3|split; [exact M4|split; [exact M5|split; cbn [INR]; lra]]]]].
  - intros x s Hx Hs. specialize (M1 x s Hx Hs). unfold read_ev in *. cbn [times ba_evidence]. rewrite nth_times. lra.
  - intros f j Hf Hj. specialize (M2 f j Hf Hj). unfold graph_pots, read_pots in *. cbn [times ba_log_potentials].
    change (ba_log_potentials ex13_a) with (map IZR cy_pots_z). destruct (f <? _); [|lra]. rewrite nth_times. lra.
Qed.
Lemma ex13_start : msgs_range cy_rfs (read_msgs cy_rfs (ba_ftov_msgs ex13_a)) 4.
Proof.
  intros f u s s' _ _ _ _. unfold read_msgs. cbn [ex13_a cy_a cy_arrays ba_ftov_msgs].
  assert (E : forall i, nth i (repeat 0%R 12) 0%R = 0%R) by (intros i; do 12 (destruct i as [|i]; [reflexivity|]); destruct i; reflexivity). rewrite !E. lra.
Qed.
Lemma ex13_given T : groups_ok cy_vgs /\ reachable cy_vgs cy_g /\ wf_groups (gr_groups cy_g) /\ bp_of cy_g T (cy_c T) /\ arrays_of (cy_c T) ex13_a /\ arrays_of (cy_c T) (times 3 ex13_a).
Proof. destruct (cy_given T [1; 0; 0; 3; 0; 2]%R eq_refl) as [H1 [H2 [H3 [H4 H5]]]]. do 5 (split; [assumption|]). repeat split. Qed.
Example C63_range_nonvacuous : forall T d n, (0 <= T)%R -> (0 <= d <= 1)%R ->
  forall f u s, f < 3 -> u < arity cy_rfs f -> s < snd (var_at cy_rfs f u) -> (- 4 <= read_msgs cy_rfs (ba_ftov_msgs (run_bp (cy_c T) ex13_a n d)) f u s <= 0)%R.
Proof.
  intros T d n HT Hd. destruct (ex13_given T) as [H1 [H2 [H3 [H4 [H5 H6]]]]].
  exact (C63_range cy_vgs cy_g T (cy_c T) H1 H2 H3 H4 ex13_a H5 d 10%R 10%R 6 2 HT Hd (cy_moderate _ ex13_bound) cy_supported (cy_above _) 4%R (proj1 cy_all) cy_within ex13_start n).
Qed.
Lemma ex13_unclipped T d i : (0 <= T)%R -> (0 <= d <= 1)%R -> unclipped cy_rfs 3 (read_msgs cy_rfs (ba_ftov_msgs (run_bp (cy_c T) ex13_a i d))).
Proof. intros HT Hd f u s Hf Hu Hs. pose proof (C63_range_nonvacuous T d i HT Hd f u s Hf Hu Hs). lra. Qed.
Example C63_messages_nonvacuous : forall T d n, (0 <= T)%R -> (0 <= d <= 1)%R ->
  forall f u s, f < 3 -> u < arity cy_rfs f -> s < snd (var_at cy_rfs f u) ->
  read_msgs cy_rfs (ba_ftov_msgs (run_bp (cy_c (3 * T)) (times 3 ex13_a) n d)) f u s = (3 * read_msgs cy_rfs (ba_ftov_msgs (run_bp (cy_c T) ex13_a n d)) f u s)%R.
Proof.
  intros T d n HT Hd. destruct (ex13_given T) as [H1 [H2 [H3 [H4 [H5 _]]]]]. destruct (ex13_given (3 * T)%R) as [_ [_ [_ [H6 [_ H7]]]]].
  exact (C63_messages cy_vgs cy_g T 3%R (cy_c T) (cy_c (3 * T)%R) ltac:(lra) H1 H2 H3 H4 H6 ex13_a H5 H7 d 10%R 10%R 30%R 30%R 6 2 6 2 HT Hd
    (cy_moderate _ ex13_bound) ex13_moderate3 cy_supported (cy_above _) (cy_above _) n (fun i _ => ex13_unclipped T d i HT Hd)).
Qed.
Example C63_beliefs_nonvacuous : forall T d n, (0 <= T)%R -> (0 <= d <= 1)%R -> exists b q b' q' y y',
  get_beliefs (cy_c T) (run_bp (cy_c T) ex13_a n d) = Ok b /\ decode_map_states b = Ok q /\
  get_beliefs (cy_c (3 * T)) (run_bp (cy_c (3 * T)) (times 3 ex13_a) n d) = Ok b' /\ decode_map_states b' = Ok q' /\
  dget vg_eqb (VA cy_vg) q = Some y /\ dget vg_eqb (VA cy_vg) q' = Some y' /\ cell (VA cy_vg) y' 1 = cell (VA cy_vg) y 1.
Proof.
  intros T d n HT Hd. destruct (ex13_given T) as [H1 [H2 [H3 [H4 [H5 _]]]]]. destruct (ex13_given (3 * T)%R) as [_ [_ [_ [H6 [_ H7]]]]].
  destruct (C63_beliefs cy_vgs cy_g T 3%R (cy_c T) (cy_c (3 * T)%R) ltac:(lra) H1 H2 H3 H4 H6 ex13_a H5 H7 d 10%R 10%R 30%R 30%R 6 2 6 2 HT Hd
    (cy_moderate _ ex13_bound) ex13_moderate3 cy_supported (cy_above _) (cy_above _) n (fun i _ => ex13_unclipped T d i HT Hd)) as [b [q [b' [q' [r' [E1 [E2 [E3 [E4 [_ H]]]]]]]]]].
  - intros gr j [<-|[]] Hj. repeat (destruct Hj as [<-|Hj]; [lia|]). destruct Hj.
  - intros gr [<-|[]]. reflexivity.
  - destruct (H (VA cy_vg) (or_introl eq_refl)) as [e [y [e' [y' [z' [F1 [F2 [F3 [F4 [_ G]]]]]]]]]]. exists b, q, b', q', y, y'. do 6 (split; [assumption|]).
    destruct (G 1 b1 eq_refl) as [bel [pad [_ [_ [_ X]]]]]. exact X.
Qed.

(** Clipped messages do not scale: potentials 0 and 2000 give the same message as half of them. *)
Theorem C63_clipped_refuted : ~ (forall vgs (g : fgraph R) T k (c c' : bp_ctx R), (0 < k)%R ->
  groups_ok vgs -> reachable vgs g -> wf_groups (gr_groups g) -> bp_of g T c -> bp_of g (k * T)%R c' ->
  forall a, arrays_of c a -> arrays_of c' (times k a) ->
  let fs := graph_factors 0%R (gr_groups g) in
  let pots b := graph_pots (gr_groups g) (ba_log_potentials b) in
  let ne := length (enum_factors (gr_groups g)) in
  let lens := map snd (sf_edges fs) in
  let ev b := read_ev (gr_vars_to_starts g) (ba_evidence b) in
  let msgs b := read_msgs fs (ba_ftov_msgs b) in
  forall d B P B' P' D K D' K', (0 <= T)%R -> (0 <= d <= 1)%R ->
  moderate fs (pots a) ne (ev a) B P D K -> moderate fs (pots (times k a)) ne (ev (times k a)) B' P' D' K' ->
  supported lens -> above_floor lens (ba_ftov_msgs a) -> above_floor lens (ba_ftov_msgs (times k a)) ->
  forall n f u s, f < length fs -> u < arity fs f -> s < snd (var_at fs f u) ->
  msgs (run_bp c' (times k a) n d) f u s = (k * msgs (run_bp c a n d) f u s)%R).
Proof.
  intros H. destruct (ex12_bp 0%R 2000%R) as [c [H4 H5]].
  assert (E : times (1 / 2) (ex12_a 0 2000) = ex12_a 0 1000).
  { unfold times, ex12_a. cbn [ba_log_potentials ba_ftov_msgs ba_evidence map repeat]. rewrite !Rmult_0_r. f_equal. f_equal. f_equal. lra. }
  assert (H5' : arrays_of c (ex12_a 0 1000)) by exact H5.
  specialize (H ex_vgs ex12_g 0%R (1 / 2)%R c c ltac:(lra) ex_vgs_ok (ex12_reach IZR) (ex12_wf IZR) H4). rewrite Rmult_0_r in H. specialize (H H4 (ex12_a 0 2000) H5). cbv zeta in H. rewrite E in H.
  specialize (H H5' 0%R 1000%R 0%R 1000%R 0%R 1 1 1 1 (Rle_refl _) ltac:(lra) (ex12_moderate 0 2000 ltac:(lra) ltac:(lra)) (ex12_moderate 0 1000 ltac:(lra) ltac:(lra)) ex12_supported (ex12_above 0 2000) (ex12_above 0 1000)
    1 0 0 0 ltac:(cbn; lia) ltac:(cbn; lia) ltac:(cbn; lia)).
  rewrite (proj1 (ex12_msg c 0 2000 ltac:(lra) ltac:(lra) H4 H5)), (proj1 (ex12_msg c 0 1000 ltac:(lra) ltac:(lra) H4 H5')) in H. lra.
Qed.
Print Assumptions C63_clipped_refuted.
