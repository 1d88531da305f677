(** * Property C53: runs at different temperatures. *)
From Verif Require Import NumPy Lists VGroup FGraph BPState BP SpecVGroup SpecFGraph SpecFactor SpecWiring SpecState SpecBP SpecText SpecBeliefs SpecStable SpecTemp.
From Verif Require Import LemRun LemTransfer LemBeliefs LemStable LemTemp ExBP PropsMsgs PropsRun PropsBeliefs PropsShift PropsStable.
From Coq Require Import Reals Lra Lia QArith Qreals.
Local Close Scope Q_scope.
Local Close Scope R_scope.
Local Open Scope nat_scope.

(** ** C53 *)
(** One update of an enumeration factor: the message grows with the temperature, and by at
    most the difference of temperatures times [ln] of the number of configurations. *)
Theorem C53_update :
  forall junk (g : fgraph R) st lp vt,
  wf_groups (gr_groups g) -> compile_fg_state junk g = Ok st ->
  length vt = st_total_factor_num_states st -> length lp = length (st_log_potentials st) ->
  let fs := graph_factors 0%R (gr_groups g) in
  forall T T' f u s, (0 <= T <= T')%R ->
  f < length (enum_factors (gr_groups g)) -> u < arity fs f -> s < snd (var_at fs f u) ->
  (exists c, In c (choices fs f u s) /\
     (T = 0%R -> (neg_inf <= score fs (graph_pots (gr_groups g) lp) (read_msgs fs vt) f c)%R)) ->
  let low := read_msgs fs (pass_fac_to_var_messages st T lp vt) f u s in
  (low <= read_msgs fs (pass_fac_to_var_messages st T' lp vt) f u s
       <= low + (T' - T) * ln (INR (length (choices fs f u s))))%R.
Proof. exact C53_update_lemma. Qed.
Print Assumptions C53_update.

(** Two runs on the same graph at temperatures [T] and [T'], with different inputs. *)
Theorem C53_messages :
  forall vgs (g : fgraph R) T T' (c c' : bp_ctx R),
  groups_ok vgs -> reachable vgs g -> wf_groups (gr_groups g) -> bp_of g T c -> bp_of g T' c' ->
  forall a a', arrays_of c a -> arrays_of c' a' ->
  let fs := graph_factors 0%R (gr_groups g) in
  let pots b := graph_pots (gr_groups g) (ba_log_potentials b) in
  let ne := length (enum_factors (gr_groups g)) in
  let lens := map snd (sf_edges fs) in
  let evs b := read_ev (gr_vars_to_starts g) (ba_evidence b) in
  let msgs b := read_msgs fs (ba_ftov_msgs b) in
  forall D K N d m e p, degrees fs D K -> choices_at_most fs N ->
  (0 <= T)%R -> (0 <= T')%R -> (0 <= d <= 1)%R -> (0 <= m)%R -> (0 <= e)%R -> (0 <= p)%R ->
  msgs_spread fs (msgs a) (msgs a') m -> (forall x, In x (all_vars vgs) -> spread (snd x) (evs a x) (evs a' x) e) ->
  pots_spread fs (pots a) (pots a') p ->
  forall B P B' P' D1 K1,
  moderate fs (pots a) ne (evs a) B P D1 K1 -> moderate fs (pots a') ne (evs a') B' P' D1 K1 ->
  supported lens -> above_floor lens (ba_ftov_msgs a) -> above_floor lens (ba_ftov_msgs a') ->
  forall n, msgs_near fs (msgs (run_bp c a n d)) (msgs (run_bp c' a' n d)) (temp_drift D K N d m e p T T' n).
Proof. exact C53_messages_lemma. Qed.
Print Assumptions C53_messages.

(** A variable whose best belief in one run leads by more than the drift of beliefs is
    decoded to the same state in both runs. *)
Theorem C53_decode :
  forall vgs (g : fgraph R) T T' (c c' : bp_ctx R),
  groups_ok vgs -> reachable vgs g -> wf_groups (gr_groups g) -> bp_of g T c -> bp_of g T' c' ->
  forall a a', arrays_of c a -> arrays_of c' a' ->
  let fs := graph_factors 0%R (gr_groups g) in
  let pots b := graph_pots (gr_groups g) (ba_log_potentials b) in
  let ne := length (enum_factors (gr_groups g)) in
  let lens := map snd (sf_edges fs) in
  let evs b := read_ev (gr_vars_to_starts g) (ba_evidence b) in
  let msgs b := read_msgs fs (ba_ftov_msgs b) in
  forall D K N d m e p, degrees fs D K -> choices_at_most fs N ->
  (0 <= T)%R -> (0 <= T')%R -> (0 <= d <= 1)%R -> (0 <= m)%R -> (0 <= e)%R -> (0 <= p)%R ->
  msgs_spread fs (msgs a) (msgs a') m -> (forall x, In x (all_vars vgs) -> spread (snd x) (evs a x) (evs a' x) e) ->
  pots_spread fs (pots a) (pots a') p ->
  forall B P B' P' D1 K1,
  moderate fs (pots a) ne (evs a) B P D1 K1 -> moderate fs (pots a') ne (evs a') B' P' D1 K1 ->
  supported lens -> above_floor lens (ba_ftov_msgs a) -> above_floor lens (ba_ftov_msgs a') ->
  (forall gr n, In gr vgs -> In n (vg_num_states gr) -> 0 < n) -> (forall gr, In gr vgs -> one_state gr = false) ->
  forall n, exists r q r' q',
    get_beliefs c (run_bp c a n d) = Ok r /\ decode_map_states r = Ok q /\
    get_beliefs c' (run_bp c' a' n d) = Ok r' /\ decode_map_states r' = Ok q' /\
  forall gr, In gr vgs -> exists b y y', dget vg_eqb gr r = Some b /\ dget vg_eqb gr q = Some y /\ dget vg_eqb gr q' = Some y' /\
    forall i x s bs, nth_error (vg_variables gr) i = Some x -> s < snd x -> nth_error (row gr b i) s = Some (Fin bs) ->
    (forall t bt, t < snd x -> t <> s -> nth_error (row gr b i) t = Some (Fin bt) ->
       (bt + (e + INR D * temp_drift D K N d m e p T T' n) < bs)%R) ->
    cell gr y i = [s] /\ cell gr y' i = [s].
Proof. exact C53_decode_lemma. Qed.
Print Assumptions C53_decode.

(** The messages after [n] iterations are continuous in the temperature, at 0 as well. *)
Theorem C53_limit :
  forall vgs (g : fgraph R) T (c : bp_ctx R),
  groups_ok vgs -> reachable vgs g -> wf_groups (gr_groups g) -> bp_of g T c ->
  forall a, arrays_of c a ->
  let fs := graph_factors 0%R (gr_groups g) in
  let pots := graph_pots (gr_groups g) (ba_log_potentials a) in
  let ne := length (enum_factors (gr_groups g)) in
  let lens := map snd (sf_edges fs) in
  let evs := read_ev (gr_vars_to_starts g) (ba_evidence a) in
  let msgs b := read_msgs fs (ba_ftov_msgs b) in
  forall d B P D1 K1, (0 <= T)%R -> (0 <= d <= 1)%R ->
  moderate fs pots ne evs B P D1 K1 -> supported lens -> above_floor lens (ba_ftov_msgs a) ->
  forall n eps, (0 < eps)%R -> exists tau, (0 < tau)%R /\
  forall T' c', (0 <= T')%R -> (Rabs (T - T') < tau)%R -> bp_of g T' c' -> arrays_of c' a ->
  msgs_near fs (msgs (run_bp c a n d)) (msgs (run_bp c' a n d)) eps.
Proof. exact C53_limit_lemma. Qed.
Print Assumptions C53_limit.

(** So is decoding, for the variables whose best belief leads by a fixed amount. *)
Theorem C53_decode_limit :
  forall vgs (g : fgraph R) T (c : bp_ctx R),
  groups_ok vgs -> reachable vgs g -> wf_groups (gr_groups g) -> bp_of g T c ->
  forall a, arrays_of c a ->
  let fs := graph_factors 0%R (gr_groups g) in
  let pots := graph_pots (gr_groups g) (ba_log_potentials a) in
  let ne := length (enum_factors (gr_groups g)) in
  let lens := map snd (sf_edges fs) in
  let evs := read_ev (gr_vars_to_starts g) (ba_evidence a) in
  forall d B P D1 K1, (0 <= T)%R -> (0 <= d <= 1)%R ->
  moderate fs pots ne evs B P D1 K1 -> supported lens -> above_floor lens (ba_ftov_msgs a) ->
  (forall gr n, In gr vgs -> In n (vg_num_states gr) -> 0 < n) -> (forall gr, In gr vgs -> one_state gr = false) ->
  forall n lead, (0 < lead)%R -> exists tau, (0 < tau)%R /\
  forall T' c', (0 <= T')%R -> (Rabs (T - T') < tau)%R -> bp_of g T' c' -> arrays_of c' a ->
  exists r q r' q',
    get_beliefs c (run_bp c a n d) = Ok r /\ decode_map_states r = Ok q /\
    get_beliefs c' (run_bp c' a n d) = Ok r' /\ decode_map_states r' = Ok q' /\
  forall gr, In gr vgs -> exists b y y', dget vg_eqb gr r = Some b /\ dget vg_eqb gr q = Some y /\ dget vg_eqb gr q' = Some y' /\
    forall i x s bs, nth_error (vg_variables gr) i = Some x -> s < snd x -> nth_error (row gr b i) s = Some (Fin bs) ->
    (forall t bt, t < snd x -> t <> s -> nth_error (row gr b i) t = Some (Fin bt) -> (bt + lead <= bs)%R) ->
    cell gr y i = [s] /\ cell gr y' i = [s].
Proof. exact C53_decode_limit_lemma. Qed.
Print Assumptions C53_decode_limit.

(** In the example graph at most three configurations agree with a state. *)
Lemma ex_choices : choices_at_most ex_rfs 3.
Proof.
  intros f u s Hf Hu Hs. assert (H : f < 4) by exact Hf.
  destruct f as [|[|[|[|f]]]]; try lia; (destruct u as [|[|[|u]]]; try (exfalso; vm_compute in Hu; lia)); (destruct s as [|[|[|s]]]; try (exfalso; vm_compute in Hs; lia)); vm_compute; lia.
Qed.
(** Two iterations at damping 1/2 from its fixed point: at temperature [T] the messages stay
    within 7/4 T ln 3 of it. *)
Lemma ex_temp_drift T : (0 <= T)%R -> temp_drift 3 3 3 (1 / 2) 0 0 0 0 T 2 = (7 / 4 * (T * ln 3))%R.
Proof.
  intros HT. unfold temp_drift. rewrite Rabs_left1 by lra. cbn [drift Nat.sub]. cbv zeta. replace (INR 3) with 3%R by (cbn; lra). replace (INR 2) with 2%R by (cbn; lra). lra.
Qed.
Example C53_nonvacuous : forall T, (0 <= T)%R ->
  msgs_near ex_rfs (read_msgs ex_rfs (map IZR ex_fix_z)) (read_msgs ex_rfs (ba_ftov_msgs (run_bp (ex_c T) ex_fixed 2 (1 / 2)%R))) (7 / 4 * (T * ln 3)).
Proof.
  intros T HT. destruct (ex_given T) as [H1 [H2 [H3 [H4 _]]]]. destruct (ex_given 0) as [_ [_ [_ [H5 _]]]]. rewrite <- (ex_temp_drift T HT).
  destruct (C32_fixed_nonvacuous 2 (1 / 2)%R ltac:(lra)) as [Ef _]. fold ex_fixed in Ef. apply (f_equal ba_ftov_msgs) in Ef.
  change (ba_ftov_msgs ex_fixed) with (map IZR ex_fix_z) in Ef. rewrite <- Ef.
  apply (C53_messages ex_vgs ex_g 0%R T (ex_c 0) (ex_c T) H1 H2 H3 H5 H4 ex_fixed ex_fixed) with (B := 10%R) (P := 10%R) (B' := 10%R) (P' := 10%R) (D1 := 10) (K1 := 2);
    try lra; try (now apply ex_arrays_of).
  - exact ex_degrees.
  - exact ex_choices.
  - intros f u _ _. apply spread_zero.
  - intros x _. apply spread_zero.
  - intros f _. apply spread_zero.
  - exact ex_moderate.
  - exact ex_moderate.
  - exact ex_supported.
  - exact ex_fixed_above.
  - exact ex_fixed_above.
Qed.
(** Its last variable, with beliefs -4, -3, -2, is decoded to state 2 at temperatures up to
    1/20. *)
Example C53_decode_nonvacuous : forall T, (0 <= T <= 1 / 20)%R -> exists r' q' y',
  get_beliefs (ex_c T) (run_bp (ex_c T) ex_fixed 2 (1 / 2)%R) = Ok r' /\ decode_map_states r' = Ok q' /\
  dget vg_eqb (VA ex_vg) q' = Some y' /\ cell (VA ex_vg) y' 4 = [2].
Proof.
  intros T HT. destruct (ex_given T) as [H1 [H2 [H3 [H4 _]]]]. destruct (ex_given 0) as [_ [_ [_ [H5 _]]]].
  assert (Ha : arrays_of (ex_c 0) ex_fixed) by (now apply ex_arrays_of). assert (Ha' : arrays_of (ex_c T) ex_fixed) by (now apply ex_arrays_of).
  destruct (C53_decode ex_vgs ex_g 0 T (ex_c 0) (ex_c T) H1 H2 H3 H5 H4 ex_fixed ex_fixed Ha Ha' 3 3 3 (1 / 2)%R 0%R 0%R 0%R ex_degrees ex_choices
    ltac:(lra) ltac:(lra) ltac:(lra) ltac:(lra) ltac:(lra) ltac:(lra) ltac:(intros f u _ _; apply spread_zero) ltac:(intros x _; apply spread_zero) ltac:(intros f _; apply spread_zero)
    10%R 10%R 10%R 10%R 10 2 ex_moderate ex_moderate ex_supported ex_fixed_above ex_fixed_above ex_pos ex_not_one 2)
    as [r [q [r' [q' [Er [_ [Er' [Eq' H]]]]]]]].
  destruct (H (VA ex_vg) (or_introl eq_refl)) as [b [y [y' [Eb [_ [Ey' C]]]]]].
  exists r', q', y'. split; [exact Er'|]. split; [exact Eq'|]. split; [exact Ey'|].
  destruct (C32_fixed_nonvacuous 2 (1 / 2)%R ltac:(lra)) as [Ef _]. fold ex_fixed in Ef. rewrite Ef in Er.
  destruct (C33_beliefs ex_vgs ex_g 0%R (ex_c 0) H1 H2 H3 H5 ex_fixed Ha ex_pos) as [r2 [Er2 [_ D]]]. rewrite Er in Er2. injection Er2 as <-.
  destruct (D (VA ex_vg) (or_introl eq_refl)) as [b2 [Eb2 [_ Rd]]]. rewrite Eb in Eb2. injection Eb2 as <-.
  assert (ER : row (VA ex_vg) b 4 = [Fin (-4); Fin (-3); Fin (-2)]%R).
  { rewrite (Rd 4 b4 eq_refl). cbn [b4 snd seq map app repeat state_axis ex_vg va_num_states nat_max fold_right Nat.max Nat.sub].
    repeat match goal with
    | |- ?l = ?l => reflexivity
    | |- _ :: _ = _ :: _ => apply f_equal2
    | |- Fin _ = Fin _ => apply f_equal; cbv -[IZR Rplus]; lra end. }
  apply (C 4 b4 2 (-2)%R eq_refl); [cbn; lia|rewrite ER; reflexivity|].
  assert (L : (ln 3 <= 2)%R).
  { rewrite <- (ln_exp 2). apply ln_le_mono; [lra|]. pose proof (exp_tangent 0 2) as X. rewrite exp_0 in X. lra. }
  assert (L0 : (0 <= ln 3)%R) by (rewrite <- ln_1; apply ln_le_mono; lra).
  assert (L1 : (T * ln 3 <= 1 / 20 * 2)%R) by (apply Rmult_le_compat; lra).
  intros t bt Ht Hne. rewrite ER, ex_temp_drift by lra.
  destruct t as [|[|[|t]]]; [| |lia|cbn in Ht; lia]; cbn [nth_error]; intros Hb; injection Hb as <-; cbn [INR]; lra.
Qed.
(** The message of [C24_nonvacuous], of a factor to a state with two configurations. *)
Example C53_update_nonvacuous : forall T T', (0 <= T <= T')%R ->
  let at_temp t := read_msgs ex_rfs (pass_fac_to_var_messages (ex_state IZR) t (ba_log_potentials ex_a) ex_vt) 0 1 2 in
  (at_temp T <= at_temp T' <= at_temp T + (T' - T) * ln (INR 2))%R.
Proof.
  intros T T' HT. cbv zeta. destruct C24_nonvacuous as [[H1 [H2 [H3 H4]]] [H5 [H6 [H7 [H8 [H9 _]]]]]].
  assert (X : exists k, In k (choices ex_rfs 0 1 2) /\ (T = 0%R -> (neg_inf <= score ex_rfs (graph_pots (gr_groups ex_g) (ba_log_potentials ex_a)) (read_msgs ex_rfs ex_vt) 0 k)%R))
    by (exists 1; split; [rewrite H8; now left|now intros _]).
  pose proof (C53_update (fun _ => 0%Z) ex_g (ex_state IZR) (ba_log_potentials ex_a) ex_vt H1 H2 H3 H4 T T' 0 1 2 HT H5 H6 H7 X) as Q. cbv zeta in Q.
  change (graph_factors 0%R (gr_groups ex_g)) with ex_rfs in Q. rewrite H8 in Q. exact Q.
Qed.
