(** * Property C56: convergence of belief propagation. *)
From Verif Require Import NumPy FGroup FGraph BPState BP Lists SpecVGroup SpecFactor SpecFGraph SpecAdd SpecWiring SpecState SpecBP SpecText SpecStable SpecBeliefs SpecConv.
From Verif Require Import LemConv ExBP ExCycle.
From Coq Require Import Reals Lra Lia QArith.
Local Close Scope Q_scope.
Local Close Scope R_scope.
Local Open Scope nat_scope.

(** The factors list all configurations, their potentials are within [w], a variable is in at
    most [D] factors and a factor has at most [K] variables. When the gain is below 1, two runs
    from different messages approach each other. *)
Theorem C56_approach :
  forall vgs (g : fgraph R) T (c : bp_ctx R),
  groups_ok vgs -> reachable vgs g -> wf_groups (gr_groups g) -> bp_of g T c ->
  let fs := graph_factors 0%R (gr_groups g) in
  let lens := map snd (sf_edges fs) in
  all_configs fs -> supported lens ->
  forall D K d w, degrees fs D K -> (0 < T)%R -> (0 <= w)%R -> (0 <= d < 1)%R -> (gain D K w T < 1)%R ->
  forall a B P D1 K1, arrays_of c a ->
  let pots := graph_pots (gr_groups g) (ba_log_potentials a) in
  moderate fs pots (length (enum_factors (gr_groups g))) (read_ev (gr_vars_to_starts g) (ba_evidence a)) B P D1 K1 ->
  forall m m', pots_within fs pots w ->
  length m = length (ba_ftov_msgs a) /\ above_floor lens m ->
  length m' = length (ba_ftov_msgs a) /\ above_floor lens m' ->
  forall n i, (Rabs (nth i (ba_ftov_msgs (run_bp c (with_msgs a m) n d)) 0
                   - nth i (ba_ftov_msgs (run_bp c (with_msgs a m') n d)) 0) <= 2000 * rate D K d w T ^ n)%R.
Proof. exact C56_approach_lemma. Qed.
Print Assumptions C56_approach.

(** There is one fixed point: every run converges to it, and no other messages repeat. *)
Theorem C56_converges :
  forall vgs (g : fgraph R) T (c : bp_ctx R),
  groups_ok vgs -> reachable vgs g -> wf_groups (gr_groups g) -> bp_of g T c ->
  let fs := graph_factors 0%R (gr_groups g) in
  let lens := map snd (sf_edges fs) in
  all_configs fs -> supported lens ->
  forall D K d w, degrees fs D K -> (0 < T)%R -> (0 <= w)%R -> (0 <= d < 1)%R -> (gain D K w T < 1)%R ->
  forall a B P D1 K1, arrays_of c a ->
  let pots := graph_pots (gr_groups g) (ba_log_potentials a) in
  moderate fs pots (length (enum_factors (gr_groups g))) (read_ev (gr_vars_to_starts g) (ba_evidence a)) B P D1 K1 ->
  pots_within fs pots w ->
  let start m := length m = length (ba_ftov_msgs a) /\ above_floor lens m in
  let run m n := ba_ftov_msgs (run_bp c (with_msgs a m) n d) in
  exists l, start l /\ (forall n, run l n = l) /\
    (forall m, start m -> forall n i, (Rabs (nth i (run m n) 0 - nth i l 0) <= 2000 * rate D K d w T ^ n)%R) /\
    (forall m n, start m -> 0 < n -> run m n = m -> m = l).
Proof. exact C56_converges_lemma. Qed.
Print Assumptions C56_converges.

(** The rate is below 1, so the bounds above tend to 0. *)
Theorem C56_rate :
  forall D K d w T, (0 < T)%R -> (0 <= w)%R -> (0 <= d < 1)%R -> (gain D K w T < 1)%R ->
  (0 <= rate D K d w T < 1)%R /\
  forall eps, (0 < eps)%R -> exists N, forall n, N <= n -> (2000 * rate D K d w T ^ n < eps)%R.
Proof. exact C56_rate_lemma. Qed.
Print Assumptions C56_rate.

(** Chains and cycles: with at most two factors at a variable and two variables in a factor
    the gain is below 1 at every positive temperature. *)
Theorem C56_cycle :
  forall D K w T, D <= 2 -> K <= 2 -> (0 < T)%R -> (0 <= w)%R -> (gain D K w T < 1)%R.
Proof. exact cycle_gain. Qed.
Print Assumptions C56_cycle.

(** High temperature: the gain is below 1 as soon as T exceeds 2w(D-1)(K-1). *)
Theorem C56_hot :
  forall D K w T, (0 < T)%R -> (0 <= w)%R -> (2 * w * INR (K - 1) * INR (D - 1) < T)%R -> (gain D K w T < 1)%R.
Proof. exact C56_hot_lemma. Qed.
Print Assumptions C56_hot.

(** Groups built by PairwiseFactorGroup list all configurations. *)
Theorem C56_pairwise :
  forall (G : per_type (list (fgroup R))), pt_or G = [] -> pt_and G = [] ->
  (forall gr, In gr (pt_enum G) -> exists junk id vars mat, (match mat with Some (_, p) => wf_arr p | None => True end) /\
     PairwiseFactorGroup junk id vars mat = Ok gr) ->
  let fs := graph_factors 0%R G in all_configs fs /\ forall f, f < length fs -> arity fs f = 2.
Proof. exact C56_pairwise_lemma. Qed.
Print Assumptions C56_pairwise.

(** Once the error is below the lead of the best state at the fixed point, decoding after [n]
    iterations gives the states decoded at the fixed point. *)
Theorem C56_decode :
  forall vgs (g : fgraph R) T (c : bp_ctx R),
  groups_ok vgs -> reachable vgs g -> wf_groups (gr_groups g) -> bp_of g T c ->
  let fs := graph_factors 0%R (gr_groups g) in
  let lens := map snd (sf_edges fs) in
  all_configs fs -> supported lens ->
  forall D K d w, degrees fs D K -> (0 < T)%R -> (0 <= w)%R -> (0 <= d < 1)%R -> (gain D K w T < 1)%R ->
  forall a B P D1 K1, arrays_of c a ->
  let pots := graph_pots (gr_groups g) (ba_log_potentials a) in
  moderate fs pots (length (enum_factors (gr_groups g))) (read_ev (gr_vars_to_starts g) (ba_evidence a)) B P D1 K1 ->
  forall l, pots_within fs pots w ->
  length l = length (ba_ftov_msgs a) /\ above_floor lens l -> ba_ftov_msgs (run_bp c (with_msgs a l) 1 d) = l ->
  (forall gr n, In gr vgs -> In n (vg_num_states gr) -> 0 < n) -> (forall gr, In gr vgs -> one_state gr = false) ->
  exists r q, get_beliefs c (with_msgs a l) = Ok r /\ decode_map_states r = Ok q /\
  forall m n, length m = length (ba_ftov_msgs a) /\ above_floor lens m ->
  exists r' q', get_beliefs c (run_bp c (with_msgs a m) n d) = Ok r' /\ decode_map_states r' = Ok q' /\
  forall gr, In gr vgs -> exists b y y', dget vg_eqb gr r = Some b /\ dget vg_eqb gr q = Some y /\ dget vg_eqb gr q' = Some y' /\
    forall i x s bs, nth_error (vg_variables gr) i = Some x -> s < snd x -> nth_error (row gr b i) s = Some (Fin bs) ->
    (forall t bt, t < snd x -> t <> s -> nth_error (row gr b i) t = Some (Fin bt) ->
       (bt + INR D * (2000 * rate D K d w T ^ n) < bs)%R) ->
    cell gr y i = [s] /\ cell gr y' i = [s].
Proof. exact C56_decode_lemma. Qed.
Print Assumptions C56_decode.

(** Fixed points for nearby evidence and potentials are near. *)
Theorem C56_inputs :
  forall vgs (g : fgraph R) T (c : bp_ctx R),
  groups_ok vgs -> reachable vgs g -> wf_groups (gr_groups g) -> bp_of g T c ->
  let fs := graph_factors 0%R (gr_groups g) in
  let lens := map snd (sf_edges fs) in
  let pots b := graph_pots (gr_groups g) (ba_log_potentials b) in
  let evs b := read_ev (gr_vars_to_starts g) (ba_evidence b) in
  let ne := length (enum_factors (gr_groups g)) in
  all_configs fs -> supported lens ->
  forall D K d w, degrees fs D K -> (0 < T)%R -> (0 <= w)%R -> (0 <= d < 1)%R -> (gain D K w T < 1)%R ->
  forall a a' B P D1 K1 B' P' D2 K2 e p l l',
  arrays_of c a -> arrays_of c a' -> moderate fs (pots a) ne (evs a) B P D1 K1 -> moderate fs (pots a') ne (evs a') B' P' D2 K2 ->
  pots_within fs (pots a) w -> (0 <= e)%R -> (0 <= p)%R -> ev_spread fs (evs a) (evs a') e -> pots_spread fs (pots a) (pots a') p ->
  length l = length (ba_ftov_msgs a) -> above_floor lens l -> ba_ftov_msgs (run_bp c (with_msgs a l) 1 d) = l ->
  length l' = length (ba_ftov_msgs a') -> above_floor lens l' -> ba_ftov_msgs (run_bp c (with_msgs a' l') 1 d) = l' ->
  forall i, (Rabs (nth i l 0 - nth i l' 0) <= (p + mixing w T * INR (K - 1) * e) / (1 - gain D K w T))%R.
Proof. exact C56_inputs_lemma. Qed.
Print Assumptions C56_inputs.

(** A triangle with two attractive and one repulsive factor: convergence at every positive
    temperature, for any damping below 1, evidence and initial messages. *)
Example C56_nonvacuous : forall T d ev, (0 < T)%R -> (0 <= d < 1)%R -> length ev = 6 -> (forall i, (-10 <= nth i ev 0 <= 10)%R) ->
  exists l, length l = 12 /\ ba_ftov_msgs (run_bp (cy_c T) (with_msgs (cy_a ev) l) 1 d) = l /\
    forall m, length m = 12 -> forall eps, (0 < eps)%R -> exists N, forall n i, N <= n ->
      (Rabs (nth i (ba_ftov_msgs (run_bp (cy_c T) (with_msgs (cy_a ev) m) n d)) 0 - nth i l 0) < eps)%R.
Proof.
  intros T d ev HT Hd He Hb. destruct (cy_given T ev He) as [H1 [H2 [H3 [H4 H5]]]].
  assert (Hg : (gain 2 2 4 T < 1)%R) by (apply C56_cycle; [lia|lia|exact HT|lra]).
  destruct (C56_converges cy_vgs cy_g T (cy_c T) H1 H2 H3 H4 (proj1 cy_all) cy_supported 2 2 d 4%R cy_degrees HT ltac:(lra) Hd Hg
    (cy_a ev) 10%R 10%R 6 2 H5 (cy_moderate ev Hb) cy_within) as [l [[L _] [Fx [Hl _]]]].
  exists l. split; [exact L|]. split; [exact (Fx 1)|]. intros m Hm eps Heps.
  destruct (C56_rate 2 2 d 4%R T HT ltac:(lra) Hd Hg) as [_ [N HN]%(fun H => H eps Heps)]. exists N. intros n i Hn.
  eapply Rle_lt_trans; [apply (Hl m (conj Hm (cy_above m)) n i)|]. now apply HN.
Qed.
(** Two inputs on the triangle. *)
Example C56_inputs_nonvacuous : forall T l l', (0 < T)%R ->
  let a := cy_a [1; 0; 0; 0; 0; 2]%R in let a' := cy_a [1; 0; 0; 1/10; 0; 2]%R in
  length l = 12 -> ba_ftov_msgs (run_bp (cy_c T) (with_msgs a l) 1 (1 / 2)%R) = l ->
  length l' = 12 -> ba_ftov_msgs (run_bp (cy_c T) (with_msgs a' l') 1 (1 / 2)%R) = l' ->
  forall i, (Rabs (nth i l 0 - nth i l' 0) <= mixing 4 T * (1 / 10) / (1 - mixing 4 T))%R.
Proof.
  intros T l l' HT a a' L E L' E' i.
  destruct (cy_given T [1; 0; 0; 0; 0; 2]%R eq_refl) as [H1 [H2 [H3 [H4 H5]]]]. destruct (cy_given T [1; 0; 0; 1/10; 0; 2]%R eq_refl) as [_ [_ [_ [_ H5']]]].
  assert (Hg : (gain 2 2 4 T < 1)%R) by (apply C56_cycle; [lia|lia|exact HT|lra]).
  assert (B1 : forall j, (-10 <= nth j [1; 0; 0; 0; 0; 2]%R 0 <= 10)%R) by (intros j; do 6 (destruct j as [|j]; [cbn; lra|]); destruct j; cbn; lra).
  assert (B2 : forall j, (-10 <= nth j [1; 0; 0; 1/10; 0; 2]%R 0 <= 10)%R) by (intros j; do 6 (destruct j as [|j]; [cbn; lra|]); destruct j; cbn; lra).
  eapply Rle_trans; [apply (C56_inputs cy_vgs cy_g T (cy_c T) H1 H2 H3 H4 (proj1 cy_all) cy_supported 2 2 (1 / 2)%R 4%R cy_degrees HT ltac:(lra) ltac:(lra) Hg
    a a' 10%R 10%R 6 2 10%R 10%R 6 2 (1 / 10)%R 0%R l l' H5 H5' (cy_moderate _ B1) (cy_moderate _ B2) cy_within)|]; auto using cy_above; try lra.
  - intros x Hx. exists (- (1 / 10))%R. intros s Hs. assert (Ee : sf_edges cy_rfs = [b0; b1; b1; b2; b2; b0]) by reflexivity.
    change (graph_factors 0%R (gr_groups cy_g)) with cy_rfs in Hx. rewrite Ee in Hx.
    repeat (destruct Hx as [<-|Hx]; [change (s < 2) in Hs; destruct s as [|[|]]; [unfold read_ev; cbn; lra|unfold read_ev; cbn; lra|lia]|]). destruct Hx.
  - intros f _. exists 0%R. intros s _. change (ba_log_potentials a') with (ba_log_potentials a). lra.
  - unfold gain. cbn [INR Nat.sub]. apply Req_le. field. unfold gain in Hg. cbn [INR Nat.sub] in Hg. lra.
Qed.
(** Decoding on the triangle: with a lead of 1/100 at the fixed point the decoded states no
    longer change from some iteration on. *)
Example C56_decode_nonvacuous : forall T ev l, (0 < T)%R -> length ev = 6 -> (forall i, (-10 <= nth i ev 0 <= 10)%R) ->
  length l = 12 -> ba_ftov_msgs (run_bp (cy_c T) (with_msgs (cy_a ev) l) 1 (1 / 2)%R) = l ->
  exists r q N, get_beliefs (cy_c T) (with_msgs (cy_a ev) l) = Ok r /\ decode_map_states r = Ok q /\
  forall m n, length m = 12 -> N <= n ->
  exists r' q', get_beliefs (cy_c T) (run_bp (cy_c T) (with_msgs (cy_a ev) m) n (1 / 2)%R) = Ok r' /\ decode_map_states r' = Ok q' /\
  exists b y y', dget vg_eqb (VA cy_vg) r = Some b /\ dget vg_eqb (VA cy_vg) q = Some y /\ dget vg_eqb (VA cy_vg) q' = Some y' /\
    forall i x s bs, nth_error (vg_variables (VA cy_vg)) i = Some x -> s < snd x -> nth_error (row (VA cy_vg) b i) s = Some (Fin bs) ->
    (forall t bt, t < snd x -> t <> s -> nth_error (row (VA cy_vg) b i) t = Some (Fin bt) -> (bt + 1 / 100 <= bs)%R) ->
    cell (VA cy_vg) y i = [s] /\ cell (VA cy_vg) y' i = [s].
Proof.
  intros T ev l HT He Hb L E. destruct (cy_given T ev He) as [H1 [H2 [H3 [H4 H5]]]].
  assert (Hg : (gain 2 2 4 T < 1)%R) by (apply C56_cycle; [lia|lia|exact HT|lra]).
  destruct (C56_decode cy_vgs cy_g T (cy_c T) H1 H2 H3 H4 (proj1 cy_all) cy_supported 2 2 (1 / 2)%R 4%R cy_degrees HT ltac:(lra) ltac:(lra) Hg
    (cy_a ev) 10%R 10%R 6 2 H5 (cy_moderate ev Hb) l cy_within (conj L (cy_above l)) E) as [r [q [Er [Eq H]]]].
  { intros gr n [<-|[]] Hn. repeat (destruct Hn as [<-|Hn]; [lia|]). destruct Hn. }
  { intros gr [<-|[]]. reflexivity. }
  destruct (C56_rate 2 2 (1 / 2)%R 4%R T HT ltac:(lra) ltac:(lra) Hg) as [_ HR].
  destruct (HR (1 / 200)%R) as [N HN]; [lra|].
  exists r, q, N. do 2 (split; [assumption|]). intros m n Hm Hn. destruct (H m n (conj Hm (cy_above m))) as [r' [q' [Er' [Eq' H']]]].
  exists r', q'. do 2 (split; [assumption|]). destruct (H' (VA cy_vg) (or_introl eq_refl)) as [b [y [y' [Y1 [Y2 [Y3 Hc]]]]]].
  exists b, y, y'. do 3 (split; [assumption|]). intros i x s bs Hx Hs Hbs Hlead. apply (Hc i x s bs Hx Hs Hbs). intros t bt Ht Hts Hbt.
  specialize (Hlead t bt Ht Hts Hbt). specialize (HN n Hn). cbn [INR]. lra.
Qed.
(** Such fixed points exist by [C56_nonvacuous]. A grid: four factors per variable. *)
Example C56_hot_nonvacuous : (gain 4 2 1 8 < 1)%R.
Proof. apply C56_hot; cbn [INR Nat.sub]; lra. Qed.

(** At temperature 0 the same claim is false: on the triangle without damping a message
    travels along the cycle for ever and returns negated every third iteration. *)
Theorem C56_zero_temperature_refuted : ~ (forall vgs (g : fgraph R) (c : bp_ctx R),
  groups_ok vgs -> reachable vgs g -> wf_groups (gr_groups g) -> bp_of g 0%R c ->
  let fs := graph_factors 0%R (gr_groups g) in
  let lens := map snd (sf_edges fs) in
  all_configs fs -> supported lens -> degrees fs 2 2 ->
  forall a B P D1 K1, arrays_of c a ->
  moderate fs (graph_pots (gr_groups g) (ba_log_potentials a)) (length (enum_factors (gr_groups g)))
    (read_ev (gr_vars_to_starts g) (ba_evidence a)) B P D1 K1 ->
  above_floor lens (ba_ftov_msgs a) ->
  exists l, forall eps, (0 < eps)%R -> exists N, forall n i, N <= n ->
    (Rabs (nth i (ba_ftov_msgs (run_bp c a n 0%R)) 0 - nth i l 0) < eps)%R).
Proof. exact C56_zero_temperature_refuted_lemma. Qed.
Print Assumptions C56_zero_temperature_refuted.
