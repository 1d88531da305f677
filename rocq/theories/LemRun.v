(** * run_bp computes textbook belief propagation (towards C39). *)
From Verif Require Import NumPy Lists FGraph BPState BP SpecFGraph SpecFactor SpecWiring SpecState SpecBP SpecText.
From Verif Require Import LemFGraph LemWiring LemGraph LemState LemNum LemNorm LemVtoF LemEnum LemLogCode LemLogical LemLogBP LemText.
From Coq Require Import Reals Lra Lia.
Local Open Scope nat_scope.

Lemma BP_fields {A} `{Num A} bs T (c : bp_ctx A) : BP bs T = Ok c ->
  bc_state c = bs /\ bc_temperature c = T /\ bc_edges_num_states c = all_edges_num_states (st_wiring (bs_fg_state bs)) /\
  bc_max_msg_size c = nat_max (bc_edges_num_states c) /\ bc_var_states_for_edges c = all_var_states_for_edges (st_wiring (bs_fg_state bs)).
Proof.
  unfold BP. destruct (all_edges_num_states (st_wiring (bs_fg_state bs))) eqn:E; [discriminate|]. intros Hc. injection Hc as <-. cbn. now rewrite ?E.
Qed.

Lemma filter_length_le {X} (p : X -> bool) l : length (filter p l) <= length l.
Proof. induction l as [|x l IH]; [apply le_n|]. cbn. destruct (p x); cbn; lia. Qed.

(** ** Inputs that keep every value in range *)
Section Moderate.
  Context {A : Type} (fs : list (sfactor A)) (pots : nat -> nat -> R).
  Definition bounded (m : msg) : Prop :=
    forall f u s, f < length fs -> u < arity fs f -> s < snd (var_at fs f u) -> (-1000 <= m f u s <= 0)%R.
  Lemma normal_bounded m : bounded (normal fs m).
  Proof.
    intros f u s Hf Hu Hs. unfold normal. split; [apply Rmax_l|]. apply Rmax_lub; [lra|].
    assert (H : (m f u s <= rmaxs (map (m f u) (seq 0 (snd (var_at fs f u)))))%R); [|lra].
    apply rmaxs_ub, in_map, in_seq. lia.
  Qed.
  Lemma var_in_edges f u : f < length fs -> u < arity fs f -> In (var_at fs f u) (sf_edges fs).
  Proof.
    intros Hf Hu. unfold sf_edges. apply in_concat. exists (sf_vars (factor_at fs f)).
    split; [apply in_map; now apply nth_In|]. now apply nth_In.
  Qed.
  Lemma rsum_bounds {X} (f : X -> R) l a n : (0 <= a)%R -> length l <= n -> (forall x, In x l -> (- a <= f x)%R) -> (- (INR n * a) <= rsum (map f l))%R.
  Proof.
    intros Ha Hl H. apply Rle_trans with (rsum (map (fun _ => (- a)%R) l)); [|now apply rsum_le].
    rewrite rsum_const. apply le_INR in Hl. pose proof (Rmult_le_compat_r a _ _ Ha Hl). lra.
  Qed.
  Lemma rsum_nonpos {X} (f : X -> R) l : (forall x, In x l -> (f x <= 0)%R) -> (rsum (map f l) <= 0)%R.
  Proof.
    intros H. apply Rle_trans with (rsum (map (fun _ => 0%R) l)); [now apply rsum_le|]. rewrite rsum_const. lra.
  Qed.

  Context (ne : nat) (ev : variable -> nat -> R) (B P : R) (D K : nat).
  Hypothesis Hmod : moderate fs pots ne ev B P D K.
  Hypothesis Hne : ne <= length fs.
  Hypothesis Hcfg : configs_ok fs.

  Lemma vtof_bounded m : bounded m -> forall f u s, f < length fs -> u < arity fs f -> s < snd (var_at fs f u) ->
    (- (B + 1000 * INR D) <= var_to_fac fs ev m f u s <= B)%R.
  Proof.
    intros Hm f u s Hf Hu Hs. destruct Hmod as [He [_ [HD _]]]. unfold var_to_fac.
    specialize (He _ s (var_in_edges f u Hf Hu) Hs).
    assert (X : forall fu, In fu (filter (fun fu => negb (slot_eqb fu (f, u))) (slots_of fs (var_at fs f u))) -> (-1000 <= m (fst fu) (snd fu) s <= 0)%R).
    { intros [f' u'] Hi. apply filter_In in Hi. destruct Hi as [Hi _]. apply In_slots_of in Hi. destruct Hi as [H1 [H2 H3]]. cbn [fst snd]. apply Hm; [exact H1|exact H2|now rewrite H3]. }
    pose proof (rsum_bounds _ _ 1000 D ltac:(lra) (Nat.le_trans _ _ _ (filter_length_le _ _) (HD _)) (fun x Hx => proj1 (X x Hx))) as L1.
    pose proof (rsum_nonpos _ _ (fun x Hx => proj2 (X x Hx))) as L2. lra.
  Qed.
  Lemma B_nonneg f u s : f < length fs -> u < arity fs f -> s < snd (var_at fs f u) -> (0 <= B)%R.
  Proof. intros Hf Hu Hs. destruct Hmod as [He _]. specialize (He _ s (var_in_edges f u Hf Hu) Hs). lra. Qed.
  Lemma floor_ok l (v : msg) f c : (forall u s, u < arity fs f -> s < snd (var_at fs f u) -> (- (B + 1000 * INR D) <= v f u s)%R) ->
    (0 <= B)%R -> f < ne -> c < length (sf_configs (factor_at fs f)) -> length l <= arity fs f -> (forall u, In u l -> u < arity fs f) ->
    (neg_inf <= pots f c + rsum (map (fun u => v f u (config_at_slot fs f c u)) l))%R.
  Proof.
    intros Hv HB Hf Hc Hl Hu. destruct Hmod as [_ [Hp [_ [HK [_ [Hs _]]]]]]. specialize (Hp f c Hf Hc). specialize (HK f Hf).
    pose proof (rsum_bounds (fun u => v f u (config_at_slot fs f c u)) l (B + 1000 * INR D) K) as L.
    pose proof (pos_INR D) as PD. specialize (L ltac:(lra) ltac:(lia)).
    assert (L' : (- (INR K * (B + 1000 * INR D)) <= rsum (map (fun u => v f u (config_at_slot fs f c u)) l))%R).
    { apply L. intros u Hi. apply Hv; [now apply Hu|]. apply (config_ok fs); [exact Hcfg|lia|exact Hc|now apply Hu]. }
    unfold neg_inf. lra.
  Qed.
  Lemma moderate_in_range T m : bounded m -> in_range fs pots ne T (var_to_fac fs ev m).
  Proof.
    intros Hm. pose proof (vtof_bounded m Hm) as Hv. split.
    - intros f u s Hf Hu Hs. destruct Hmod as [_ [_ [_ [_ [Hc _]]]]]. specialize (Hc f u s Hf Hu Hs).
      destruct (choices fs f u s) as [|c l] eqn:E; [contradiction|]. exists c. split; [now left|]. intros _.
      assert (Hi : In c (choices fs f u s)) by (rewrite E; now left). apply choice_iff in Hi.
      unfold score. apply floor_ok; [intros; apply Hv; auto; lia|apply (B_nonneg f u s); auto; lia|exact Hf|apply Hi|now rewrite seq_length|].
      intros u' Hu'. apply in_seq in Hu'. lia.
    - intros _ f u s s' [Hf1 Hf2] Hu Hs Hs'. destruct Hmod as [_ [_ [_ [_ [_ [_ H2]]]]]].
      pose proof (Hv f u s Hf2 Hu Hs). pose proof (Hv f u s' Hf2 Hu Hs'). unfold neg_inf. lra.
  Qed.
  Lemma moderate_new T m f u s : bounded m -> (0 <= T)%R -> f < ne -> u < arity fs f -> s < snd (var_at fs f u) ->
    (neg_inf <= fac_to_var fs pots T (var_to_fac fs ev m) f u s)%R.
  Proof.
    intros Hm HT Hf Hu Hs. pose proof (vtof_bounded m Hm) as Hv. destruct Hmod as [_ [_ [_ [_ [Hc _]]]]]. specialize (Hc f u s Hf Hu Hs).
    assert (L : (neg_inf <= rmaxs (map (fun c => score_but fs pots (var_to_fac fs ev m) f c u) (choices fs f u s)))%R).
    { destruct (choices fs f u s) as [|c l] eqn:E; [contradiction|].
      assert (Hi : In c (choices fs f u s)) by (rewrite E; now left). apply choice_iff in Hi.
      apply Rle_trans with (score_but fs pots (var_to_fac fs ev m) f c u); [|apply rmaxs_ub; now left].
      unfold score_but. apply floor_ok; [intros; apply Hv; auto; lia|apply (B_nonneg f u s); auto; lia|exact Hf|apply Hi| |].
      - eapply Nat.le_trans; [apply filter_length_le|]. now rewrite seq_length.
      - intros u' Hu'. apply filter_In in Hu'. destruct Hu' as [Hu' _]. apply in_seq in Hu'. lia. }
    unfold fac_to_var. destruct (Req_EM_T T 0) as [->|HT0]; [exact L|]. unfold fac_to_var_soft.
    eapply Rle_trans; [exact L|]. apply soft_bounds; [lra|exact Hc].
  Qed.
End Moderate.

Section Run.
  Context (vgs : list vgroup) (g : fgraph R) (T : R) (c : bp_ctx R).
  Hypothesis Hok : groups_ok vgs.
  Hypothesis Hr : reachable vgs g.
  Hypothesis Hwf : wf_groups (gr_groups g).
  Hypothesis Hbp : bp_of g T c.
  Let fs := graph_factors 0%R (gr_groups g).
  Let ne := length (enum_factors (gr_groups g)).
  Let starts0 := gr_vars_to_starts g.
  Let n := gr_num_var_states g.
  Let st := bs_fg_state (bc_state c).
  Let lens := map snd (sf_edges fs).

  Lemma ctx_state : exists junk, compile_fg_state junk g = Ok st.
  Proof. destruct Hbp as [junk [bs [Hc HB]]]. destruct (BP_fields _ _ _ HB) as [E _]. exists junk. unfold st. now rewrite E. Qed.
  Lemma ctx_fields : bc_temperature c = T /\ bc_edges_num_states c = lens /\ bc_max_msg_size c = nat_max lens /\
    bc_var_states_for_edges c = edge_var_states starts0 (sf_edges fs) /\
    st_total_factor_num_states st = total_states fs /\ st_num_var_states st = n /\
    total_configs (enum_factors (gr_groups g)) <= length (st_log_potentials st).
  Proof.
    destruct Hbp as [junk [bs [Hc HB]]]. destruct (BP_fields _ _ _ HB) as [E1 [E2 [E3 [E4 E5]]]].
    destruct (compiled_edges _ _ _ Hwf Hc) as [K1 [K2 [K3 K4]]].
    destruct (compile_fg_state_layout _ _ _ _ Hok Hr Hc) as [_ [_ N1]].
    destruct (reachable_layout _ _ Hok Hr) as [_ [_ N2]].
    unfold st. rewrite E1. rewrite E4, E3, K3, E5, K2, K4. unfold lens, fs, total_states. rewrite (graph_edges (gr_groups g)).
    repeat (split; [reflexivity || assumption|]). split; [unfold n; congruence|].
    destruct (C18_state_lemma junk g _ Hwf Hc) as [_ [_ [_ [_ [NV [NL _]]]]]]. rewrite NL.
    rewrite <- (enum_pots_total (gr_groups g) Hwf).
    destruct (compile_fg_state_inv _ _ _ Hc) as [w [_ [Est _]]]. rewrite Est. cbn [mk_fg_state st_pots_range].
    destruct (compute_offsets_spec (gr_groups g)) as [_ [R2 _]]. rewrite (R2 TEnum). cbn [pt_get type_start fst snd]. lia.
  Qed.
  Lemma graph_layout : disjoint_layout starts0 (sf_edges fs) n.
  Proof.
    destruct Hbp as [junk [bs [Hc _]]]. destruct (compiled_edges _ _ _ Hwf Hc) as [K1 _]. rewrite <- (graph_edges (gr_groups g)) in K1.
    destruct (C06_lemma _ _ Hok Hr) as [_ [C2 [C3 _]]]. split.
    - intros x Hx. destruct (K1 x Hx) as [s Es]. unfold starts0, start_of. rewrite Es. now apply C2.
    - intros x y Hx Hy Hxy. destruct (K1 x Hx) as [s Es]. destruct (K1 y Hy) as [t Et]. unfold starts0, start_of. rewrite Es, Et. eapply C3; eassumption.
  Qed.

  Section Arrays.
    Context (a : bp_arrays R).
    Hypothesis Ha : arrays_of c a.
    Let lp := ba_log_potentials a.
    Let ev := ba_evidence a.
    Let pots := graph_pots (gr_groups g) lp.
    Let evs := read_ev starts0 ev.

    Lemma arrays_lengths : total_configs (enum_factors (gr_groups g)) <= length lp /\ length (ba_ftov_msgs a) = total_states fs /\ length ev = n.
    Proof.
      destruct Ha as [A1 [A2 A3]]. destruct ctx_fields as [_ [_ [_ [_ [F1 [F2 F3]]]]]]. fold st in A1, A2, A3. unfold lp, ev. rewrite A1, A2, A3. auto.
    Qed.
    Lemma read_damped msgs m d : length msgs = total_states fs -> msg_eq fs (read_msgs fs msgs) m ->
      in_range fs pots ne T (var_to_fac fs evs m) ->
      msg_eq_upto fs (read_msgs fs (damped c lp ev d msgs)) (damp d m (fac_to_var fs pots T (var_to_fac fs evs m))).
    Proof.
      intros Hl Hm Hir. destruct arrays_lengths as [L1 [_ L3]]. destruct ctx_fields as [F1 [F2 [F3 [F4 _]]]].
      destruct ctx_state as [junk Hst].
      pose proof (graph_configs_ok (gr_groups g) Hwf) as Hcfg. fold fs in Hcfg.
      set (vt := pass_var_to_fac_messages msgs ev (bc_var_states_for_edges c)).
      assert (Lvs : length (bc_var_states_for_edges c) = total_states fs) by (rewrite F4, edge_var_states_length; reflexivity).
      assert (Lvt : length vt = total_states fs) by (unfold vt; rewrite pass_var_to_fac_length, Lvs, Hl; lia).
      assert (Hvt : msg_eq fs (read_msgs fs vt) (var_to_fac fs evs m)).
      { eapply msg_eq_trans.
        - unfold vt. rewrite F4. apply (var_to_fac_read fs starts0 n); [apply graph_layout|exact Hl|lia].
        - apply (var_to_fac_cong fs); [intros; reflexivity|exact Hm]. }
      assert (Hne : ne <= length fs) by (unfold fs, graph_factors, ne; rewrite app_length; lia).
      pose proof (pass_read (gr_groups g) Hwf junk g st eq_refl Hst T lp vt Lvt L1) as P.
      fold fs ne pots in P. specialize (P (in_range_cong fs pots Hcfg ne T _ _ Hne (msg_eq_sym fs _ _ Hvt) Hir)).
      assert (E : msg_eq fs (read_msgs fs (damped c lp ev d msgs)) (damp d (read_msgs fs msgs) (read_msgs fs (pass_fac_to_var_messages st T lp vt)))).
      { intros f u s Hf Hu Hs. unfold read_msgs, damped. rewrite F1. fold st. fold vt.
        assert (Hi := slot_index_lt fs f u s Hf Hu Hs).
        rewrite (nth_map2 _ _ _ _ 0%R 0%R 0%R); [reflexivity|lia|rewrite pass_fac_to_var_length; lia]. }
      eapply upto_trans; [apply msg_eq_upto_refl; exact E|]. apply damp_upto; [exact Hm|].
      eapply upto_trans; [exact P|]. apply msg_eq_upto_refl. now apply fac_to_var_cong.
    Qed.

    Lemma run_length d k : length (ba_ftov_msgs (run_bp c a k d)) = total_states fs /\ length (unnormalised c a d k) = total_states fs.
    Proof.
      destruct arrays_lengths as [_ [L2 _]]. destruct ctx_fields as [_ [_ [_ [F4 _]]]].
      assert (Lvs : length (bc_var_states_for_edges c) = length (ba_ftov_msgs a)) by (rewrite F4, edge_var_states_length, L2; reflexivity).
      rewrite run_bp_length, unnormalised_length by exact Lvs. auto.
    Qed.
    Lemma C39_lemma d k : supported lens ->
      (forall i, i <= k -> above_floor lens (unnormalised c a d i)) ->
      (forall i, i < k -> in_range fs pots ne T (var_to_fac fs evs (text_bp fs pots T d evs (read_msgs fs (ba_ftov_msgs a)) i))) ->
      msg_eq fs (read_msgs fs (ba_ftov_msgs (run_bp c a k d))) (text_bp fs pots T d evs (read_msgs fs (ba_ftov_msgs a)) k).
    Proof.
      intros Hsup. destruct ctx_fields as [F1 [F2 [F3 [F4 _]]]].
      assert (N : forall i, above_floor lens (unnormalised c a d i) ->
        msg_eq fs (read_msgs fs (ba_ftov_msgs (run_bp c a i d))) (normal fs (read_msgs fs (unnormalised c a d i)))).
      { intros i Hi. rewrite run_bp_unnormalised, F2, F3. apply normalize_read; [exact Hsup| |exact Hi]. symmetry. apply (run_length d i). }
      induction k as [|k IH]; intros Hfl Hir.
      - exact (N 0 (Hfl 0 (le_n 0))).
      - eapply msg_eq_trans; [apply N, Hfl, le_n|]. unfold unnormalised. fold lp ev.
        change (text_bp fs pots T d evs (read_msgs fs (ba_ftov_msgs a)) (S k)) with (text_step fs pots T d evs (text_bp fs pots T d evs (read_msgs fs (ba_ftov_msgs a)) k)).
        apply normal_upto; [apply positive_states; exact Hsup|].
        apply read_damped; [apply run_length| |apply Hir; lia].
        apply IH; [intros i Hi; apply Hfl; lia|intros i Hi; apply Hir; lia].
    Qed.

    (** A version whose hypotheses are about the inputs only. *)
    Context (B P : R) (D K : nat).
    Hypothesis Hmod : moderate fs pots ne evs B P D K.
    Hypothesis HT : (0 <= T)%R.
    Hypothesis Hsup : supported lens.
    Hypothesis H0 : above_floor lens (ba_ftov_msgs a).
    Let m0 := read_msgs fs (ba_ftov_msgs a).

    Lemma text_bounded d i : bounded fs (text_bp fs pots T d evs m0 i).
    Proof. destruct i; apply normal_bounded. Qed.
    Lemma ne_fs : ne <= length fs. Proof. unfold fs, graph_factors, ne. rewrite app_length. lia. Qed.
    Lemma in_range_text d i : in_range fs pots ne T (var_to_fac fs evs (text_bp fs pots T d evs m0 i)).
    Proof. apply (moderate_in_range fs pots ne evs B P D K Hmod ne_fs (graph_configs_ok (gr_groups g) Hwf)), text_bounded. Qed.

    Lemma above_floor_slots x : length x = total_states fs ->
      (forall f u, f < length fs -> u < arity fs f -> exists s, s < snd (var_at fs f u) /\ (neg_inf <= read_msgs fs x f u s)%R) -> above_floor lens x.
    Proof.
      intros Hx H e He. right. unfold lens in He. rewrite map_length in He.
      assert (Hi : In e (map (edge_no fs) (slots fs))) by (rewrite edges_slots; apply in_seq; lia).
      apply in_map_iff in Hi. destruct Hi as [[f u] [<- Hi]]. apply In_slots in Hi. cbn [fst snd] in Hi. destruct Hi as [Hf Hu].
      change (edge_no fs (f, u)) with (sf_first_edge fs f + u). unfold lens. rewrite segment_slot; [|now symmetry|exact Hf|exact Hu|].
      - destruct (H f u Hf Hu) as [s [Hs Hle]]. eapply Rle_trans; [exact Hle|]. apply rmaxs_ub, in_map, in_seq. lia.
      - now apply (positive_states fs).
    Qed.

    Lemma damped_above d m msgs : (0 <= d <= 1)%R -> length msgs = total_states fs -> msg_eq fs (read_msgs fs msgs) m -> bounded fs m ->
      above_floor lens (damped c lp ev d msgs).
    Proof.
      intros Hd Hl Hm Hb. destruct arrays_lengths as [L1 [_ L3]]. destruct ctx_fields as [F1 [F2 [F3 [F4 _]]]].
      destruct ctx_state as [junk Hst].
      pose proof (graph_configs_ok (gr_groups g) Hwf) as Hcfg. fold fs in Hcfg.
      set (vt := pass_var_to_fac_messages msgs ev (bc_var_states_for_edges c)).
      assert (Lvs : length (bc_var_states_for_edges c) = total_states fs) by (rewrite F4, edge_var_states_length; reflexivity).
      assert (Lvt : length vt = total_states fs) by (unfold vt; rewrite pass_var_to_fac_length, Lvs, Hl; lia).
      assert (Hvt : msg_eq fs (read_msgs fs vt) (var_to_fac fs evs m)).
      { eapply msg_eq_trans.
        - unfold vt. rewrite F4. apply (var_to_fac_read fs starts0 n); [apply graph_layout|exact Hl|lia].
        - apply (var_to_fac_cong fs); [intros; reflexivity|exact Hm]. }
      pose proof (moderate_in_range fs pots ne evs B P D K Hmod ne_fs Hcfg T m Hb) as Hir.
      pose proof (pass_read_strong (gr_groups g) Hwf junk g st eq_refl Hst T lp vt Lvt L1) as PS.
      fold fs ne pots in PS. specialize (PS (in_range_cong fs pots Hcfg ne T _ _ ne_fs (msg_eq_sym fs _ _ Hvt) Hir)). cbv zeta in PS.
      apply above_floor_slots; [rewrite damped_length; [exact Hl|congruence]|]. intros f u Hf Hu.
      destruct (PS f u Hf Hu) as [P1 P2].
      assert (E : forall s, s < snd (var_at fs f u) -> read_msgs fs (damped c lp ev d msgs) f u s
        = (d * m f u s + (1 - d) * read_msgs fs (pass_fac_to_var_messages st T lp vt) f u s)%R).
      { intros s Hs. rewrite <- Hm by assumption. unfold read_msgs, damped. rewrite F1. fold st. fold vt.
        assert (Hi := slot_index_lt fs f u s Hf Hu Hs).
        rewrite (nth_map2 _ _ _ _ 0%R 0%R 0%R); [reflexivity|lia|rewrite pass_fac_to_var_length; lia]. }
      destruct (Nat.lt_ge_cases f ne) as [Hfe|Hfe].
      - exists 0. assert (Hs : 0 < snd (var_at fs f u)) by now apply (positive_states fs). split; [exact Hs|].
        rewrite E, (P1 Hfe) by exact Hs. rewrite (fac_to_var_cong fs pots Hcfg T _ _ Hvt f u 0 Hf Hu Hs).
        pose proof (moderate_new fs pots ne evs B P D K Hmod ne_fs Hcfg T m f u 0 Hb HT Hfe Hu Hs) as L. destruct (Hb f u 0 Hf Hu Hs) as [L2 _].
        set (y := fac_to_var _ _ _ _ _ _ _) in *. set (x := m f u 0) in *. unfold neg_inf in *.
        assert (d * -1000 <= d * x)%R by (apply Rmult_le_compat_l; lra). assert ((1 - d) * -100000 <= (1 - d) * y)%R by (apply Rmult_le_compat_l; lra). lra.
      - destruct (P2 Hfe) as [_ [s [Hs Ez]]]. exists s. split; [exact Hs|]. rewrite E, Ez by exact Hs. destruct (Hb f u s Hf Hu Hs) as [L2 _].
        set (x := m f u s) in *. unfold neg_inf. assert (d * -1000 <= d * x)%R by (apply Rmult_le_compat_l; lra). lra.
    Qed.

    Lemma above_floor_run d : (0 <= d <= 1)%R -> forall k i, i <= k -> above_floor lens (unnormalised c a d i).
    Proof.
      intros Hd k. induction k as [|k IH]; intros i Hi.
      - assert (i = 0) by lia. subst i. exact H0.
      - destruct (Nat.eq_dec i (S k)) as [->|Hn]; [|apply IH; lia].
        unfold unnormalised. fold lp ev. apply (damped_above d (text_bp fs pots T d evs m0 k)); [exact Hd|apply run_length| |apply text_bounded].
        apply C39_lemma; [exact Hsup|exact IH|]. intros j _. apply in_range_text.
    Qed.
    Lemma C39_bounded_lemma d k : (0 <= d <= 1)%R ->
      msg_eq fs (read_msgs fs (ba_ftov_msgs (run_bp c a k d))) (text_bp fs pots T d evs m0 k).
    Proof. intros Hd. apply C39_lemma; [exact Hsup|now apply above_floor_run|]. intros i _. apply in_range_text. Qed.
  End Arrays.
End Run.
