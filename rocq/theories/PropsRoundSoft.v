(** * Property C68: a rounded sum-product run on enumeration factors stays close to an exact
    one. C67 shows that this fails with OR and AND factors. *)
From Verif Require Import NumPy Lists VGroup FGraph BPState BP Rounded SpecVGroup SpecFGraph SpecFactor SpecWiring SpecState SpecBP SpecText SpecBeliefs SpecStable SpecConv SpecRounded SpecRoundErr SpecRoundSoft.
From Verif Require Import LemRun LemBeliefs LemStable LemRounded LemRoundErr LemRoundSoft LemSoftBel ExBP ExCycle PropsRounded PropsRoundErr.
From Coq Require Import Reals Lra Lia.
Local Close Scope R_scope.
Local Open Scope nat_scope.

(** ** C68 *)
(** Sum-product at temperature [T] on a graph of enumeration factors. The rounding function
    changes numbers up to [4 L + 2 L / T] by at most [e]; the computed exponential and
    logarithm are off by at most [e]. The rounded run at damping [d] is compared with the exact run at damping
    [1 - rnd (1 - d)], the one the code uses. After [n] iterations every message is within
    [soft_drift D K N T _ n * e] of the exact one. *)
Theorem C68_messages :
  forall rnd ex lg e L T N, is_rounding rnd -> rounds_within rnd e (4 * L + 2 * L / T) -> (0 <= e <= 1)%R -> (0 < T)%R -> accurate ex lg e N ->
  forall vgs (g : fgraph R) (c : bp_ctx R),
  groups_ok vgs -> reachable vgs g -> wf_groups (gr_groups g) -> bp_of g T c ->
  let fs := graph_factors 0%R (gr_groups g) in
  let ne := length (enum_factors (gr_groups g)) in
  forall a, arrays_of c a ->
  let pots := graph_pots (gr_groups g) (ba_log_potentials a) in
  let evs := read_ev (gr_vars_to_starts g) (ba_evidence a) in
  forall D K B P, soft_sized fs ne pots evs (read_msgs fs (ba_ftov_msgs a)) D K N T B P L e ->
  supported (map snd (sf_edges fs)) ->
  forall d, (0 <= d <= 1)%R ->
  let d' := (1 - rnd (1 - d))%R in
  forall n, msgs_near fs (read_msgs fs (ba_ftov_msgs (run_rounded rnd ex lg c a n d)))
                         (read_msgs fs (ba_ftov_msgs (run_bp c a n d'))) (soft_drift D K N T d' n * e).
Proof. exact C68_messages_lemma. Qed.
Print Assumptions C68_messages.

(** When [1 - d] is a number of the format the exact run has the same damping. *)
Theorem C68_damping :
  forall rnd ex lg e L T N, is_rounding rnd -> rounds_within rnd e (4 * L + 2 * L / T) -> (0 <= e <= 1)%R -> (0 < T)%R -> accurate ex lg e N ->
  forall vgs (g : fgraph R) (c : bp_ctx R),
  groups_ok vgs -> reachable vgs g -> wf_groups (gr_groups g) -> bp_of g T c ->
  let fs := graph_factors 0%R (gr_groups g) in
  let ne := length (enum_factors (gr_groups g)) in
  forall a, arrays_of c a ->
  let pots := graph_pots (gr_groups g) (ba_log_potentials a) in
  let evs := read_ev (gr_vars_to_starts g) (ba_evidence a) in
  forall D K B P, soft_sized fs ne pots evs (read_msgs fs (ba_ftov_msgs a)) D K N T B P L e ->
  supported (map snd (sf_edges fs)) ->
  forall d, (0 <= d <= 1)%R -> representable rnd (1 - d)%R ->
  forall n, msgs_near fs (read_msgs fs (ba_ftov_msgs (run_rounded rnd ex lg c a n d)))
                         (read_msgs fs (ba_ftov_msgs (run_bp c a n d))) (soft_drift D K N T d n * e).
Proof. exact C68_damping_lemma. Qed.
Print Assumptions C68_damping.

(** Every outgoing message of the rounded run has maximum 0: C47 with hypotheses about the
    inputs only. *)
Theorem C68_normalised :
  forall rnd ex lg e L T N, is_rounding rnd -> rounds_within rnd e (4 * L + 2 * L / T) -> (0 <= e <= 1)%R -> (0 < T)%R -> accurate ex lg e N ->
  forall vgs (g : fgraph R) (c : bp_ctx R),
  groups_ok vgs -> reachable vgs g -> wf_groups (gr_groups g) -> bp_of g T c ->
  let fs := graph_factors 0%R (gr_groups g) in
  let ne := length (enum_factors (gr_groups g)) in
  forall a, arrays_of c a ->
  let pots := graph_pots (gr_groups g) (ba_log_potentials a) in
  let evs := read_ev (gr_vars_to_starts g) (ba_evidence a) in
  forall D K B P, soft_sized fs ne pots evs (read_msgs fs (ba_ftov_msgs a)) D K N T B P L e ->
  supported (map snd (sf_edges fs)) ->
  forall d, (0 <= d <= 1)%R ->
  forall n, normal_msgs fs (read_msgs fs (ba_ftov_msgs (run_rounded rnd ex lg c a n d))).
Proof. exact C68_normalised_lemma. Qed.
Print Assumptions C68_normalised.

(** Beliefs computed in rounded arithmetic from the rounded run, against the exact ones. *)
Theorem C68_beliefs :
  forall rnd ex lg e L T N, is_rounding rnd -> rounds_within rnd e (4 * L + 2 * L / T) -> (0 <= e <= 1)%R -> (0 < T)%R -> accurate ex lg e N ->
  forall vgs (g : fgraph R) (c : bp_ctx R),
  groups_ok vgs -> reachable vgs g -> wf_groups (gr_groups g) -> bp_of g T c ->
  let fs := graph_factors 0%R (gr_groups g) in
  let ne := length (enum_factors (gr_groups g)) in
  forall a, arrays_of c a ->
  let pots := graph_pots (gr_groups g) (ba_log_potentials a) in
  let evs := read_ev (gr_vars_to_starts g) (ba_evidence a) in
  forall D K B P, soft_sized fs ne pots evs (read_msgs fs (ba_ftov_msgs a)) D K N T B P L e ->
  supported (map snd (sf_edges fs)) ->
  forall d, (0 <= d <= 1)%R ->
  let d' := (1 - rnd (1 - d))%R in
  (forall gr n, In gr vgs -> In n (vg_num_states gr) -> 0 < n) ->
  forall n, exists r r',
    @get_beliefs R (RoundNum rnd ex lg) c (run_rounded rnd ex lg c a n d) = Ok r /\ get_beliefs c (run_bp c a n d') = Ok r' /\
    map fst r = vgs /\ map fst r' = vgs /\
    forall gr, In gr vgs -> exists b b', dget vg_eqb gr r = Some b /\ dget vg_eqb gr r' = Some b' /\ per_state_shape gr b /\ per_state_shape gr b' /\
      forall i x s, nth_error (vg_variables gr) i = Some x -> s < snd x -> exists y y',
        nth_error (row gr b i) s = Some (Fin y) /\ nth_error (row gr b' i) s = Some (Fin y') /\
        (Rabs (y - y') <= INR D * (soft_drift D K N T d' n + 1) * e)%R.
Proof. exact C68_beliefs_lemma. Qed.
Print Assumptions C68_beliefs.

(** A variable whose best exact belief leads by more than the drift is decoded to the same
    state from both runs. *)
Theorem C68_decode :
  forall rnd ex lg e L T N, is_rounding rnd -> rounds_within rnd e (4 * L + 2 * L / T) -> (0 <= e <= 1)%R -> (0 < T)%R -> accurate ex lg e N ->
  forall vgs (g : fgraph R) (c : bp_ctx R),
  groups_ok vgs -> reachable vgs g -> wf_groups (gr_groups g) -> bp_of g T c ->
  let fs := graph_factors 0%R (gr_groups g) in
  let ne := length (enum_factors (gr_groups g)) in
  forall a, arrays_of c a ->
  let pots := graph_pots (gr_groups g) (ba_log_potentials a) in
  let evs := read_ev (gr_vars_to_starts g) (ba_evidence a) in
  forall D K B P, soft_sized fs ne pots evs (read_msgs fs (ba_ftov_msgs a)) D K N T B P L e ->
  supported (map snd (sf_edges fs)) ->
  forall d, (0 <= d <= 1)%R ->
  let d' := (1 - rnd (1 - d))%R in
  (forall gr n, In gr vgs -> In n (vg_num_states gr) -> 0 < n) ->
  forall n, (forall gr, In gr vgs -> one_state gr = false) ->
  exists r q r' q',
    @get_beliefs R (RoundNum rnd ex lg) c (run_rounded rnd ex lg c a n d) = Ok r /\ @decode_map_states R (RoundNum rnd ex lg) r = Ok q /\
    get_beliefs c (run_bp c a n d') = Ok r' /\ decode_map_states r' = Ok q' /\
    forall gr, In gr vgs -> exists b y y', dget vg_eqb gr r' = Some b /\ dget vg_eqb gr q = Some y /\ dget vg_eqb gr q' = Some y' /\
      forall i x s bs, nth_error (vg_variables gr) i = Some x -> s < snd x -> nth_error (row gr b i) s = Some (Fin bs) ->
      (forall t bt, t < snd x -> t <> s -> nth_error (row gr b i) t = Some (Fin bt) ->
        (bt + INR D * (soft_drift D K N T d' n + 2) * e < bs)%R) ->
      cell gr y i = [s] /\ cell gr y' i = [s].
Proof. exact C68_decode_lemma. Qed.
Print Assumptions C68_decode.

(** At high temperature (C56) rounding errors do not accumulate: one bound holds for every
    number of iterations. *)
Theorem C68_lasting :
  forall rnd ex lg e L T N, is_rounding rnd -> rounds_within rnd e (4 * L + 2 * L / T) -> (0 <= e <= 1)%R -> (0 < T)%R -> accurate ex lg e N ->
  forall vgs (g : fgraph R) (c : bp_ctx R),
  groups_ok vgs -> reachable vgs g -> wf_groups (gr_groups g) -> bp_of g T c ->
  let fs := graph_factors 0%R (gr_groups g) in
  let ne := length (enum_factors (gr_groups g)) in
  forall a, arrays_of c a ->
  let pots := graph_pots (gr_groups g) (ba_log_potentials a) in
  let evs := read_ev (gr_vars_to_starts g) (ba_evidence a) in
  forall D K B P, soft_sized fs ne pots evs (read_msgs fs (ba_ftov_msgs a)) D K N T B P L e ->
  supported (map snd (sf_edges fs)) ->
  forall d, (0 <= d <= 1)%R ->
  let d' := (1 - rnd (1 - d))%R in
  forall w, all_configs fs -> (0 <= w)%R -> pots_within fs pots w -> (gain D K w T < 1)%R -> (0 < rnd (1 - d))%R ->
  forall n, msgs_near fs (read_msgs fs (ba_ftov_msgs (run_rounded rnd ex lg c a n d)))
                         (read_msgs fs (ba_ftov_msgs (run_bp c a n d'))) (lasting_drift D K N T d' w * e).
Proof. exact C68_lasting_lemma. Qed.
Print Assumptions C68_lasting.

(** The rounded run approaches the fixed point of the exact iteration up to that bound. *)
Theorem C68_settles :
  forall rnd ex lg e L T N, is_rounding rnd -> rounds_within rnd e (4 * L + 2 * L / T) -> (0 <= e <= 1)%R -> (0 < T)%R -> accurate ex lg e N ->
  forall vgs (g : fgraph R) (c : bp_ctx R),
  groups_ok vgs -> reachable vgs g -> wf_groups (gr_groups g) -> bp_of g T c ->
  let fs := graph_factors 0%R (gr_groups g) in
  let ne := length (enum_factors (gr_groups g)) in
  forall a, arrays_of c a ->
  let pots := graph_pots (gr_groups g) (ba_log_potentials a) in
  let evs := read_ev (gr_vars_to_starts g) (ba_evidence a) in
  forall D K B P, soft_sized fs ne pots evs (read_msgs fs (ba_ftov_msgs a)) D K N T B P L e ->
  supported (map snd (sf_edges fs)) ->
  forall d, (0 <= d <= 1)%R ->
  let d' := (1 - rnd (1 - d))%R in
  forall w, all_configs fs -> (0 <= w)%R -> pots_within fs pots w -> (gain D K w T < 1)%R -> (0 < rnd (1 - d))%R ->
  exists l, length l = length (ba_ftov_msgs a) /\ (forall n, ba_ftov_msgs (run_bp c (with_msgs a l) n d') = l) /\
  forall n, msgs_near fs (read_msgs fs (ba_ftov_msgs (run_rounded rnd ex lg c a n d))) (read_msgs fs l)
                         (2000 * rate D K d' w T ^ n + lasting_drift D K N T d' w * e).
Proof. exact C68_settles_lemma. Qed.
Print Assumptions C68_settles.

(** ** Examples *)
(** The cycle of three pairwise factors at temperature 1; numbers, exponentials and
    logarithms are rounded down to multiples of 1/1024. *)
Lemma cy_accurate : accurate (fun x => floor_to 1024 (exp x)) (fun x => floor_to 1024 (ln x)) (1 / 1024) 4.
Proof. split; intros x _; [apply (ex_within (Rabs (exp x)))|apply (ex_within (Rabs (ln x)))]; apply Rle_refl. Qed.
Lemma cy_soft_sized ev : (forall i, (-10 <= nth i ev 0 <= 10)%R) ->
  soft_sized cy_rfs (length (enum_factors (gr_groups cy_g))) (graph_pots (gr_groups cy_g) (ba_log_potentials (cy_a ev)))
    (read_ev (gr_vars_to_starts cy_g) (ba_evidence (cy_a ev))) (read_msgs cy_rfs (ba_ftov_msgs (cy_a ev))) 2 2 4 1 10 10 30000 (1 / 1024).
Proof.
  intros He. destruct (cy_moderate ev He) as [M1 [M2 [_ [_ [M5 _]]]]]. split; [|split; [reflexivity|split; [|split]]].
  - split; [exact cy_degrees|]. split; [exact M5|]. split; [lra|]. split; [lra|]. split; [|split; [|split; [|split]]].
    + intros x s Hx Hs. apply Rabs_le. now apply M1.
    + intros f k Hf Hk. apply Rabs_le. pose proof (cy_pots_bounds (ba_log_potentials (cy_a ev)) f k eq_refl) as Hb. lra.
    + intros f u s Hf Hu Hs. unfold read_msgs. cbn [cy_a cy_arrays ba_ftov_msgs]. rewrite nth_repeat, Rabs_R0. lra.
    + cbn [INR]. lra.
    + lra.
  - intros f Hf. assert (Hf3 : f < 3) by exact Hf. destruct f as [|[|[|]]]; try lia; vm_compute; lia.
  - cbn [INR]. lra.
  - cbn [INR]. rewrite Rinv_1. lra.
Qed.
Example C68_nonvacuous : forall ev, length ev = 6 -> (forall i, (-10 <= nth i ev 0 <= 10)%R) ->
  let ex x := floor_to 1024 (exp x) in let lg x := floor_to 1024 (ln x) in
  msgs_near cy_rfs (read_msgs cy_rfs (ba_ftov_msgs (run_rounded (floor_to 1024) ex lg (cy_c 1) (cy_a ev) 3 (1 / 2)%R)))
    (read_msgs cy_rfs (ba_ftov_msgs (run_bp (cy_c 1) (cy_a ev) 3 (1 / 2)%R))) (152 / 1024).
Proof.
  intros ev Hl He ex lg. destruct (cy_given 1 ev Hl) as [H1 [H2 [H3 [H4 H5]]]].
  replace (152 / 1024)%R with (soft_drift 2 2 4 1 (1 / 2) 3 * (1 / 1024))%R by (unfold soft_drift, soft_error; cbn [INR Nat.sub]; lra).
  exact (C68_damping (floor_to 1024) ex lg (1 / 1024) 30000 1 4 (proj1 C47_roundings) (ex_within _) ltac:(lra) ltac:(lra) cy_accurate cy_vgs cy_g (cy_c 1) H1 H2 H3 H4 (cy_a ev) H5 2 2 10 10 (cy_soft_sized ev He) cy_supported (1 / 2)%R ltac:(lra) ex_half 3).
Qed.
(** Any number of iterations on the cycle. *)
Example C68_lasting_nonvacuous : forall ev, length ev = 6 -> (forall i, (-10 <= nth i ev 0 <= 10)%R) ->
  let ex x := floor_to 1024 (exp x) in let lg x := floor_to 1024 (ln x) in
  exists l, length l = 12 /\ (forall n, ba_ftov_msgs (run_bp (cy_c 1) (with_msgs (cy_a ev) l) n (1 / 2)%R) = l) /\
  forall n, msgs_near cy_rfs (read_msgs cy_rfs (ba_ftov_msgs (run_rounded (floor_to 1024) ex lg (cy_c 1) (cy_a ev) n (1 / 2)%R)))
    (read_msgs cy_rfs l) (2000 * rate 2 2 (1 / 2) 4 1 ^ n + lasting_drift 2 2 4 1 (1 / 2) 4 * (1 / 1024)).
Proof.
  intros ev Hl He ex lg. destruct (cy_given 1 ev Hl) as [H1 [H2 [H3 [H4 H5]]]]. pose proof ex_half as Hh. unfold representable in Hh.
  pose proof (C68_settles (floor_to 1024) ex lg (1 / 1024) 30000 1 4 (proj1 C47_roundings) (ex_within _) ltac:(lra) ltac:(lra) cy_accurate cy_vgs cy_g (cy_c 1) H1 H2 H3 H4 (cy_a ev) H5 2 2 10 10 (cy_soft_sized ev He) cy_supported (1 / 2)%R ltac:(lra)
    4%R (proj1 cy_all) ltac:(lra) cy_within (LemConv.cycle_gain 2 2 4%R 1%R (le_n 2) (le_n 2) ltac:(lra) ltac:(lra))) as H.
  cbv zeta in H. rewrite Hh in H. replace (1 - (1 - 1 / 2))%R with (1 / 2)%R in H by lra. destruct (H ltac:(lra)) as [l [L1 [L2 L3]]].
  exists l. split; [exact L1|]. split; [exact L2|exact L3].
Qed.
