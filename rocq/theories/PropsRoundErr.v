(** * Property C51: a rounded run stays close to an exact one. *)
From Verif Require Import NumPy Lists VGroup FGraph BPState BP Rounded SpecVGroup SpecFGraph SpecFactor SpecWiring SpecState SpecBP SpecText SpecBeliefs SpecStable SpecRounded SpecRoundErr.
From Verif Require Import LemRun LemBeliefs LemStable LemRounded LemRoundErr LemRoundBel ExBP PropsRun PropsBeliefs PropsShift PropsStable PropsRounded.
From Coq Require Import Reals Lra Lia.
Local Close Scope R_scope.
Local Open Scope nat_scope.

(** ** C51 *)
(** Max-product. The rounding function changes numbers up to [4 L] by at most [e]. The
    rounded run at damping [d] is compared with the exact run at damping
    [1 - rnd (1 - d)], the one the code uses. After [n] iterations every message is within
    [rounding_drift D K _ n * e] of the exact one. *)
Theorem C51_messages :
  forall rnd ex lg e L, is_rounding rnd -> rounds_within rnd e (4 * L) -> (0 <= e <= 1)%R ->
  forall vgs (g : fgraph R) (c : bp_ctx R),
  groups_ok vgs -> reachable vgs g -> wf_groups (gr_groups g) -> bp_of g 0%R c ->
  let fs := graph_factors 0%R (gr_groups g) in
  let ne := length (enum_factors (gr_groups g)) in
  forall a, arrays_of c a ->
  let pots := graph_pots (gr_groups g) (ba_log_potentials a) in
  let evs := read_ev (gr_vars_to_starts g) (ba_evidence a) in
  forall D K B P, sized fs ne pots evs (read_msgs fs (ba_ftov_msgs a)) D K B P L e ->
  supported (map snd (sf_edges fs)) ->
  forall d, (0 <= d <= 1)%R ->
  let d' := (1 - rnd (1 - d))%R in
  forall n, msgs_near fs (read_msgs fs (ba_ftov_msgs (run_rounded rnd ex lg c a n d)))
                         (read_msgs fs (ba_ftov_msgs (run_bp c a n d'))) (rounding_drift D K d' n * e).
Proof. exact C51_messages_lemma. Qed.
Print Assumptions C51_messages.

(** When [1 - d] is a number of the format the exact run has the same damping. *)
Theorem C51_damping :
  forall rnd ex lg e L, is_rounding rnd -> rounds_within rnd e (4 * L) -> (0 <= e <= 1)%R ->
  forall vgs (g : fgraph R) (c : bp_ctx R),
  groups_ok vgs -> reachable vgs g -> wf_groups (gr_groups g) -> bp_of g 0%R c ->
  let fs := graph_factors 0%R (gr_groups g) in
  let ne := length (enum_factors (gr_groups g)) in
  forall a, arrays_of c a ->
  let pots := graph_pots (gr_groups g) (ba_log_potentials a) in
  let evs := read_ev (gr_vars_to_starts g) (ba_evidence a) in
  forall D K B P, sized fs ne pots evs (read_msgs fs (ba_ftov_msgs a)) D K B P L e ->
  supported (map snd (sf_edges fs)) ->
  forall d, (0 <= d <= 1)%R -> representable rnd (1 - d)%R ->
  forall n, msgs_near fs (read_msgs fs (ba_ftov_msgs (run_rounded rnd ex lg c a n d)))
                         (read_msgs fs (ba_ftov_msgs (run_bp c a n d))) (rounding_drift D K d n * e).
Proof. exact C51_damping_lemma. Qed.
Print Assumptions C51_damping.

(** Every outgoing message of the rounded run has maximum 0: C47 with hypotheses about the
    inputs only. *)
Theorem C51_normalised :
  forall rnd ex lg e L, is_rounding rnd -> rounds_within rnd e (4 * L) -> (0 <= e <= 1)%R ->
  forall vgs (g : fgraph R) (c : bp_ctx R),
  groups_ok vgs -> reachable vgs g -> wf_groups (gr_groups g) -> bp_of g 0%R c ->
  let fs := graph_factors 0%R (gr_groups g) in
  let ne := length (enum_factors (gr_groups g)) in
  forall a, arrays_of c a ->
  let pots := graph_pots (gr_groups g) (ba_log_potentials a) in
  let evs := read_ev (gr_vars_to_starts g) (ba_evidence a) in
  forall D K B P, sized fs ne pots evs (read_msgs fs (ba_ftov_msgs a)) D K B P L e ->
  supported (map snd (sf_edges fs)) ->
  forall d, (0 <= d <= 1)%R ->
  forall n, normal_msgs fs (read_msgs fs (ba_ftov_msgs (run_rounded rnd ex lg c a n d))).
Proof. exact C51_normalised_lemma. Qed.
Print Assumptions C51_normalised.

(** Beliefs computed in rounded arithmetic from the rounded run, against the exact ones. *)
Theorem C51_beliefs :
  forall rnd ex lg e L, is_rounding rnd -> rounds_within rnd e (4 * L) -> (0 <= e <= 1)%R ->
  forall vgs (g : fgraph R) (c : bp_ctx R),
  groups_ok vgs -> reachable vgs g -> wf_groups (gr_groups g) -> bp_of g 0%R c ->
  let fs := graph_factors 0%R (gr_groups g) in
  let ne := length (enum_factors (gr_groups g)) in
  forall a, arrays_of c a ->
  let pots := graph_pots (gr_groups g) (ba_log_potentials a) in
  let evs := read_ev (gr_vars_to_starts g) (ba_evidence a) in
  forall D K B P, sized fs ne pots evs (read_msgs fs (ba_ftov_msgs a)) D K B P L e ->
  supported (map snd (sf_edges fs)) ->
  forall d, (0 <= d <= 1)%R ->
  let d' := (1 - rnd (1 - d))%R in
  (forall gr n, In gr vgs -> In n (vg_num_states gr) -> 0 < n) ->
  forall n, exists r r',
    @get_beliefs R (RoundNum rnd ex lg) c (run_rounded rnd ex lg c a n d) = Ok r /\ get_beliefs c (run_bp c a n d') = Ok r' /\
    map fst r = vgs /\ map fst r' = vgs /\
    forall gr, In gr vgs -> exists b b', dget vg_eqb gr r = Some b /\ dget vg_eqb gr r' = Some b' /\ per_state_shape gr b /\ per_state_shape gr b' /\
      forall i x s, nth_error (vg_variables gr) i = Some x -> s < snd x -> exists y y',
        nth_error (row gr b i) s = Some (Fin y) /\ nth_error (row gr b' i) s = Some (Fin y') /\
        (Rabs (y - y') <= INR D * (rounding_drift D K d' n + 1) * e)%R.
Proof. exact C51_beliefs_lemma. Qed.
Print Assumptions C51_beliefs.

(** A variable whose best exact belief leads by more than the drift is decoded to the same
    state from both runs. *)
Theorem C51_decode :
  forall rnd ex lg e L, is_rounding rnd -> rounds_within rnd e (4 * L) -> (0 <= e <= 1)%R ->
  forall vgs (g : fgraph R) (c : bp_ctx R),
  groups_ok vgs -> reachable vgs g -> wf_groups (gr_groups g) -> bp_of g 0%R c ->
  let fs := graph_factors 0%R (gr_groups g) in
  let ne := length (enum_factors (gr_groups g)) in
  forall a, arrays_of c a ->
  let pots := graph_pots (gr_groups g) (ba_log_potentials a) in
  let evs := read_ev (gr_vars_to_starts g) (ba_evidence a) in
  forall D K B P, sized fs ne pots evs (read_msgs fs (ba_ftov_msgs a)) D K B P L e ->
  supported (map snd (sf_edges fs)) ->
  forall d, (0 <= d <= 1)%R ->
  let d' := (1 - rnd (1 - d))%R in
  (forall gr n, In gr vgs -> In n (vg_num_states gr) -> 0 < n) ->
  forall n, (forall gr, In gr vgs -> one_state gr = false) ->
  exists r q r' q',
    @get_beliefs R (RoundNum rnd ex lg) c (run_rounded rnd ex lg c a n d) = Ok r /\ @decode_map_states R (RoundNum rnd ex lg) r = Ok q /\
    get_beliefs c (run_bp c a n d') = Ok r' /\ decode_map_states r' = Ok q' /\
    forall gr, In gr vgs -> exists b y y', dget vg_eqb gr r' = Some b /\ dget vg_eqb gr q = Some y /\ dget vg_eqb gr q' = Some y' /\
      forall i x s bs, nth_error (vg_variables gr) i = Some x -> s < snd x -> nth_error (row gr b i) s = Some (Fin bs) ->
      (forall t bt, t < snd x -> t <> s -> nth_error (row gr b i) t = Some (Fin bt) ->
        (bt + INR D * (rounding_drift D K d' n + 2) * e < bs)%R) ->
      cell gr y i = [s] /\ cell gr y' i = [s].
Proof. exact C51_decode_lemma. Qed.
Print Assumptions C51_decode.

(** ** Examples *)
(** Rounding down to multiples of 1/1024. *)
Lemma ex_within M : rounds_within (floor_to 1024) (1 / 1024) M.
Proof.
  intros x _. unfold floor_to. replace (INR 1024) with 1024%R by (rewrite INR_IZR_INZ; reflexivity).
  destruct (base_Int_part (x * 1024)) as [H1 H2]. apply Rabs_le. unfold Rdiv. lra.
Qed.
Lemma ex_sized : sized ex_rfs (length (enum_factors (gr_groups ex_g))) (graph_pots (gr_groups ex_g) (ba_log_potentials ex_fixed))
  (read_ev (gr_vars_to_starts ex_g) (ba_evidence ex_fixed)) (read_msgs ex_rfs (ba_ftov_msgs ex_fixed)) 3 3 10 10 45000 (1 / 1024).
Proof.
  destruct ex_moderate as [M1 _]. split; [exact ex_degrees|]. split; [|split; [lra|split; [lra|split; [|split; [|split; [|split]]]]]].
  - intros f u s Hf Hu Hs. assert (Hf4 : f < 4) by exact Hf.
    destruct f as [|[|[|[|f]]]]; try lia; (destruct u as [|[|[|u]]]; try (exfalso; vm_compute in Hu; lia)); (destruct s as [|[|[|s]]]; try (exfalso; vm_compute in Hs; lia); vm_compute; discriminate).
  - intros x s Hx Hs. apply Rabs_le. now apply M1.
  - intros f k Hf Hk. assert (f < 2) by exact Hf. apply Rabs_le. unfold graph_pots. destruct (f <? _); [|lra]. unfold read_pots.
    match goal with |- (_ <= nth ?i _ _ <= _)%R => generalize i end. intros i. do 8 (destruct i as [|i]; [cbn; lra|]); destruct i; cbn; lra.
  - intros f u s Hf Hu Hs. apply Rabs_le. unfold read_msgs. match goal with |- (_ <= nth ?i _ _ <= _)%R => generalize i end. intros i.
    do 22 (destruct i as [|i]; [cbn; lra|]). destruct i; cbn; lra.
  - cbn [INR]. lra.
  - lra.
Qed.
Lemma ex_half : representable (floor_to 1024) (1 - 1 / 2)%R.
Proof.
  unfold representable, floor_to. replace (INR 1024) with 1024%R by (rewrite INR_IZR_INZ; reflexivity).
  assert (E : Int_part ((1 - 1 / 2) * 1024) = 512%Z).
  { unfold Int_part. rewrite <- (tech_up ((1 - 1 / 2) * 1024) 513) by lra. reflexivity. }
  rewrite E. lra.
Qed.
(** Two iterations at damping 1/2 on the graph with enumeration, OR and AND factors. *)
Example C51_nonvacuous : forall ex lg,
  msgs_near ex_rfs (read_msgs ex_rfs (ba_ftov_msgs (run_rounded (floor_to 1024) ex lg (ex_c 0) ex_fixed 2 (1 / 2)%R)))
    (read_msgs ex_rfs (ba_ftov_msgs (run_bp (ex_c 0) ex_fixed 2 (1 / 2)%R))) (179 / 2048).
Proof.
  intros ex lg. destruct (ex_given 0) as [H1 [H2 [H3 [H4 _]]]].
  assert (Ha : arrays_of (ex_c 0) ex_fixed) by (now apply ex_arrays_of).
  replace (179 / 2048)%R with (rounding_drift 3 3 (1 / 2) 2 * (1 / 1024))%R by (cbn; lra).
  exact (C51_damping (floor_to 1024) ex lg (1 / 1024) 45000 (proj1 C47_roundings) (ex_within _) ltac:(lra) ex_vgs ex_g (ex_c 0) H1 H2 H3 H4 ex_fixed Ha 3 3 10 10 ex_sized ex_supported (1 / 2)%R ltac:(lra) ex_half 2).
Qed.
(** The last variable leads by 1 and is decoded to state 2 in rounded arithmetic. *)
Example C51_decode_nonvacuous : forall ex lg, exists r q y,
  @get_beliefs R (RoundNum (floor_to 1024) ex lg) (ex_c 0) (run_rounded (floor_to 1024) ex lg (ex_c 0) ex_fixed 2 (1 / 2)%R) = Ok r /\
  @decode_map_states R (RoundNum (floor_to 1024) ex lg) r = Ok q /\
  dget vg_eqb (VA ex_vg) q = Some y /\ cell (VA ex_vg) y 4 = [2].
Proof.
  intros ex lg. destruct (ex_given 0) as [H1 [H2 [H3 [H4 _]]]].
  assert (Ha : arrays_of (ex_c 0) ex_fixed) by (now apply ex_arrays_of).
  destruct (C51_decode (floor_to 1024) ex lg (1 / 1024) 45000 (proj1 C47_roundings) (ex_within _) ltac:(lra) ex_vgs ex_g (ex_c 0) H1 H2 H3 H4 ex_fixed Ha 3 3 10 10 ex_sized ex_supported (1 / 2)%R ltac:(lra) ex_pos 2 ex_not_one)
    as [r [q [r' [q' [Er [Eq [Er' [_ H]]]]]]]].
  destruct (H (VA ex_vg) (or_introl eq_refl)) as [b [y [y' [Eb [Ey [_ C]]]]]].
  exists r, q, y. split; [exact Er|]. split; [exact Eq|]. split; [exact Ey|].
  pose proof ex_half as Hh. unfold representable in Hh. rewrite Hh in Er', C. replace (1 - (1 - 1 / 2))%R with (1 / 2)%R in Er', C by lra.
  destruct (C32_fixed_nonvacuous 2 (1 / 2)%R ltac:(lra)) as [Ef _]. fold ex_fixed in Ef. rewrite Ef in Er'.
  destruct (C33_beliefs ex_vgs ex_g 0%R (ex_c 0) H1 H2 H3 H4 ex_fixed Ha ex_pos) as [r2 [Er2 [_ D]]]. rewrite Er' in Er2. injection Er2 as <-.
  destruct (D (VA ex_vg) (or_introl eq_refl)) as [b2 [Eb2 [_ Rd]]]. rewrite Eb in Eb2. injection Eb2 as <-.
  assert (ER : row (VA ex_vg) b 4 = [Fin (-4); Fin (-3); Fin (-2)]%R).
  { rewrite (Rd 4 b4 eq_refl). cbn [b4 snd seq map app repeat state_axis ex_vg va_num_states nat_max fold_right Nat.max Nat.sub].
    repeat match goal with
    | |- ?l = ?l => reflexivity
    | |- _ :: _ = _ :: _ => apply f_equal2
    | |- Fin _ = Fin _ => apply f_equal; cbv -[IZR Rplus]; lra end. }
  apply (C 4 b4 2 (-2)%R eq_refl); [cbn; lia|rewrite ER; reflexivity|].
  intros t bt Ht Hne. rewrite ER. replace (rounding_drift 3 3 (1 / 2) 2) with (179 / 2)%R by (cbn; lra).
  destruct t as [|[|[|t]]]; [| |lia|cbn in Ht; lia]; cbn [nth_error]; intros Hb; injection Hb as <-; cbn [INR]; lra.
Qed.
