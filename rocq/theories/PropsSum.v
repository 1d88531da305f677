(** * Property C45: exact marginals on acyclic graphs. *)
From Verif Require Import NumPy Lists VGroup FGraph BPState BP SpecVGroup SpecFGraph SpecFactor SpecWiring SpecState SpecBP SpecText SpecBeliefs SpecTree SpecSum.
From Verif Require Import LemSum LemSpread ExBP ExTree PropsBeliefs PropsTree.
From Coq Require Import Reals Lra Lia.
Local Close Scope R_scope.
Local Open Scope nat_scope.

(** ** C45 *)
(** Undamped sum-product at temperature 1 on an acyclic graph: after as many iterations as
    there are factors [get_marginals] returns the marginal probabilities. *)
Theorem C45_marginals :
  forall vgs (g : fgraph R) T (c : bp_ctx R),
  groups_ok vgs -> reachable vgs g -> wf_groups (gr_groups g) -> bp_of g T c ->
  forall a, arrays_of c a ->
  let fs := graph_factors 0%R (gr_groups g) in
  let pots := graph_pots (gr_groups g) (ba_log_potentials a) in
  let ev := read_ev (gr_vars_to_starts g) (ba_evidence a) in
  let lens := map snd (sf_edges fs) in
  let text := text_bp fs pots T 0 ev (read_msgs fs (ba_ftov_msgs a)) in
  forall n,
  T <> 0%R ->
  (forall gr k, In gr vgs -> In k (vg_num_states gr) -> 0 < k) ->
  acyclic fs -> (forall f, f < length fs -> 0 < arity fs f) ->
  length fs <= n ->
  (forall i, i < n -> unclipped fs (fac_to_var fs pots T (var_to_fac fs ev (text i)))) ->
  supported lens ->
  (forall i, i <= n -> above_floor lens (unnormalised c a 0 i)) ->
  (forall i, i < n -> in_range fs pots (length (enum_factors (gr_groups g))) T (var_to_fac fs ev (text i))) ->
  T = 1%R -> (forall gr, In gr vgs -> one_state gr = false) ->
  exists b r, get_beliefs c (run_bp c a n 0%R) = Ok b /\ get_marginals b = Ok r /\ map fst r = vgs /\
    forall gr, In gr vgs -> exists d, dget vg_eqb gr r = Some d /\ per_state_shape gr d /\
      forall i x, nth_error (vg_variables gr) i = Some x ->
        row gr d i = map (marginal fs pots T ev (all_vars vgs) x) (seq 0 (snd x)) ++ repeat 0%R (state_axis gr i - snd x).
Proof. exact C45_marginals_lemma. Qed.
Print Assumptions C45_marginals.

(** With hypotheses about the inputs only. *)
Theorem C45_small :
  forall vgs (g : fgraph R) (c : bp_ctx R),
  groups_ok vgs -> reachable vgs g -> wf_groups (gr_groups g) -> bp_of g 1%R c ->
  forall a, arrays_of c a ->
  let fs := graph_factors 0%R (gr_groups g) in
  let pots := graph_pots (gr_groups g) (ba_log_potentials a) in
  let ev := read_ev (gr_vars_to_starts g) (ba_evidence a) in
  let lens := map snd (sf_edges fs) in
  (forall gr k, In gr vgs -> In k (vg_num_states gr) -> 0 < k) ->
  (forall gr, In gr vgs -> one_state gr = false) ->
  acyclic fs -> (forall f, f < length fs -> 0 < arity fs f) ->
  forall B P D K P' B' M' N', moderate fs pots (length (enum_factors (gr_groups g))) ev B P D K ->
  small fs 1 pots ev (read_msgs fs (ba_ftov_msgs a)) P' B' M' N' ->
  supported lens -> above_floor lens (ba_ftov_msgs a) ->
  forall n, length fs <= n ->
  exists b r, get_beliefs c (run_bp c a n 0%R) = Ok b /\ get_marginals b = Ok r /\ map fst r = vgs /\
    forall gr, In gr vgs -> exists d, dget vg_eqb gr r = Some d /\ per_state_shape gr d /\
      forall i x, nth_error (vg_variables gr) i = Some x ->
        row gr d i = map (marginal fs pots 1 ev (all_vars vgs) x) (seq 0 (snd x)) ++ repeat 0%R (state_axis gr i - snd x).
Proof. exact C45_small_lemma. Qed.
Print Assumptions C45_small.

(** At any temperature but 0 the beliefs are, up to a constant per variable, the temperature
    times the logarithms of the masses of the states. *)
Theorem C45_beliefs :
  forall vgs (g : fgraph R) T (c : bp_ctx R),
  groups_ok vgs -> reachable vgs g -> wf_groups (gr_groups g) -> bp_of g T c ->
  forall a, arrays_of c a ->
  let fs := graph_factors 0%R (gr_groups g) in
  let pots := graph_pots (gr_groups g) (ba_log_potentials a) in
  let ev := read_ev (gr_vars_to_starts g) (ba_evidence a) in
  let lens := map snd (sf_edges fs) in
  let text := text_bp fs pots T 0 ev (read_msgs fs (ba_ftov_msgs a)) in
  forall n,
  T <> 0%R ->
  (forall gr k, In gr vgs -> In k (vg_num_states gr) -> 0 < k) ->
  acyclic fs -> (forall f, f < length fs -> 0 < arity fs f) ->
  length fs <= n ->
  (forall i, i < n -> unclipped fs (fac_to_var fs pots T (var_to_fac fs ev (text i)))) ->
  supported lens ->
  (forall i, i <= n -> above_floor lens (unnormalised c a 0 i)) ->
  (forall i, i < n -> in_range fs pots (length (enum_factors (gr_groups g))) T (var_to_fac fs ev (text i))) ->
  exists b, get_beliefs c (run_bp c a n 0%R) = Ok b /\ map fst b = vgs /\
    forall gr, In gr vgs -> exists d, dget vg_eqb gr b = Some d /\ per_state_shape gr d /\
      forall i x, nth_error (vg_variables gr) i = Some x -> exists k : R,
        (forall s, s < snd x -> (0 < mass fs pots T ev (all_vars vgs) x s)%R) /\
        row gr d i = map (fun s => Fin (T * ln (mass fs pots T ev (all_vars vgs) x s) + k)%R) (seq 0 (snd x)) ++ repeat NInf (state_axis gr i - snd x).
Proof. exact C45_beliefs_lemma. Qed.
Print Assumptions C45_beliefs.

(** The same for textbook belief propagation on any list of factors. *)
Theorem C45_textbook :
  forall A (fs : list (sfactor A)) pots T ev xs m n,
  T <> 0%R -> acyclic fs -> configs_ok fs -> covered fs -> (forall f, f < length fs -> 0 < arity fs f) ->
  NoDup xs -> incl (sf_edges fs) xs -> (forall x, In x xs -> 0 < snd x) ->
  length fs <= n ->
  (forall i, i < n -> unclipped fs (fac_to_var fs pots T (var_to_fac fs ev (text_bp fs pots T 0 ev m i)))) ->
  forall x, In x xs ->
    (forall s, s < snd x -> marginal fs pots T ev xs x s = gibbs (fun t => text_belief fs ev (text_bp fs pots T 0 ev m n) x t / T)%R (snd x) s) /\
    exists k : R, forall s, s < snd x -> (0 < mass fs pots T ev xs x s)%R /\
      text_belief fs ev (text_bp fs pots T 0 ev m n) x s = (T * ln (mass fs pots T ev xs x s) + k)%R.
Proof. exact @C45_text_lemma. Qed.
Print Assumptions C45_textbook.

(** The specification on two binary variables that must be equal, with weights 3 and 1. *)
Definition two_x : variable := (1%Z, 2).
Definition two_y : variable := (2%Z, 2).
Definition two_fs : list (sfactor R) := [SF [two_x; two_y] [[0; 0]; [1; 1]]%Z [ln 3; 0%R]].
Definition two_pots (f c : nat) : R := match c with 0 => ln 3 | _ => 0%R end.
Example marginal_computed : marginal two_fs two_pots 1 (fun _ _ => 0%R) [two_x; two_y] two_x 0 = (3 / 4)%R.
Proof.
  assert (E3 : exp (ln 3 / 1) = 3%R) by (unfold Rdiv; rewrite Rinv_1, Rmult_1_r; apply exp_ln; lra).
  assert (E0 : exp (0 / 1) = 1%R) by (unfold Rdiv; rewrite Rmult_0_l; apply exp_0).
  assert (E00 : exp ((0 + (0 + 0)) / 1) = 1%R) by (replace ((0 + (0 + 0)) / 1)%R with 0%R by field; apply exp_0).
  unfold marginal, mass, state_weight, agree. unfold two_x, two_y. cbn -[exp ln Rdiv]. change (Pos.to_nat 1) with 1. cbn -[exp ln Rdiv]. rewrite E3, E0, E00. field.
Qed.
(** The hypotheses hold for a tree with both kinds of factors. *)
Example C45_nonvacuous : forall n, 3 <= n -> exists b r d, get_beliefs (tr_c 1) (run_bp (tr_c 1) tr_a n 0%R) = Ok b /\
  get_marginals b = Ok r /\ dget vg_eqb (VA ex_vg) r = Some d /\
  row (VA ex_vg) d 4 = map (marginal tr_rfs tr_pots 1 tr_ev (all_vars ex_vgs) b4) [0; 1; 2].
Proof.
  intros n Hn. destruct (tr_given 1) as [H1 [H2 [H3 [H4 H5]]]].
  destruct (C45_small ex_vgs tr_g (tr_c 1) H1 H2 H3 H4 tr_a H5 ex_pos ex_not_one (tr_acyclic IZR 0%R) tr_arity 10%R 10%R 10 2 6%R 7%R 5%R 4 tr_moderate (tr_small 1 ltac:(lra)) tr_supported tr_above n Hn)
    as [b [r [Eb [Er [_ D]]]]].
  destruct (D (VA ex_vg) (or_introl eq_refl)) as [d [Ed [_ Rd]]]. exists b, r, d. split; [exact Eb|]. split; [exact Er|]. split; [exact Ed|]. exact (Rd 4 b4 eq_refl).
Qed.
Example C45_beliefs_nonvacuous : forall T n, (0 < T <= 1)%R -> 3 <= n -> exists b d, get_beliefs (tr_c T) (run_bp (tr_c T) tr_a n 0%R) = Ok b /\
  dget vg_eqb (VA ex_vg) b = Some d /\ exists k : R,
  row (VA ex_vg) d 4 = map (fun s => Fin (T * ln (mass tr_rfs tr_pots T tr_ev (all_vars ex_vgs) b4 s) + k)%R) [0; 1; 2].
Proof.
  intros T n HT Hn. destruct (tr_given T) as [H1 [H2 [H3 [H4 H5]]]].
  destruct (small_given ex_vgs tr_g T (tr_c T) H1 H2 H3 H4 tr_a H5 10%R 10%R 10 2 tr_moderate ltac:(lra) tr_supported tr_above (tr_acyclic IZR 0%R) 6%R 7%R 5%R 4 (tr_small T ltac:(lra)))
    as [G1 [G2 G3]].
  destruct (C45_beliefs ex_vgs tr_g T (tr_c T) H1 H2 H3 H4 tr_a H5 n ltac:(lra) ex_pos (tr_acyclic IZR 0%R) tr_arity Hn (fun i _ => G1 i) tr_supported (fun i _ => G2 i) (fun i _ => G3 i))
    as [b [Eb [_ D]]].
  destruct (D (VA ex_vg) (or_introl eq_refl)) as [d [Ed [_ Rd]]]. exists b, d. split; [exact Eb|]. split; [exact Ed|]. destruct (Rd 4 b4 eq_refl) as [k [_ R]]. exists k. exact R.
Qed.
