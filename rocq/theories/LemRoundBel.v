(** * Beliefs and MAP states of rounded runs (C51). *)
From Verif Require Import NumPy Lists VGroup FGraph BPState BP Rounded SpecVGroup SpecFGraph SpecFactor SpecWiring SpecState SpecBP SpecText SpecBeliefs SpecStable SpecRounded SpecRoundErr.
From Verif Require Import LemFGraph LemGraph LemState LemNum LemNorm LemVtoF LemText LemRun LemBeliefs LemStable LemRounded LemRoundErr.
From Coq Require Import Reals Lra Lia.
Local Open Scope nat_scope.

Lemma scatter_zeros (l : list R) idx k : scatter nadd l idx (repeat 0%R k) = l.
Proof.
  unfold scatter. revert idx l. induction k as [|k IH]; intros idx l; [now destruct idx|]. destruct idx as [|z idx]; [reflexivity|].
  cbn [repeat combine fold_left].
  assert (E : scatter1 nadd l (z, 0%R) = l); [|rewrite E; apply IH].
  unfold scatter1. cbn [fst snd]. destruct (_ <? 0)%Z; [reflexivity|]. generalize (Z.to_nat (norm_idx (length l) z)). clear.
  induction l as [|x l IH]; intros [|i]; cbn [upd]; [reflexivity|reflexivity| |].
  - f_equal. rewrite nadd_R. ring.
  - f_equal. apply IH.
Qed.

Section Bel.
  Context (rnd ex lg : R -> R) (e L : R).
  Hypothesis Hrd : is_rounding rnd.
  Hypothesis Hw : rounds_within rnd e (4 * L).
  Hypothesis He : (0 <= e <= 1)%R.
  Let N := RoundNum rnd ex lg.
  Context (vgs : list vgroup) (g : fgraph R) (c : bp_ctx R).
  Hypothesis Hok : groups_ok vgs.
  Hypothesis Hr : reachable vgs g.
  Hypothesis Hwf : wf_groups (gr_groups g).
  Hypothesis Hbp : bp_of g 0%R c.
  Let fs := graph_factors 0%R (gr_groups g).
  Let ne := length (enum_factors (gr_groups g)).
  Let starts0 := gr_vars_to_starts g.
  Let lens := map snd (sf_edges fs).

  (** ** Rounded sums *)
  Section Flat.
    Context (a : bp_arrays R).
    Hypothesis Ha : arrays_of c a.
    Let evs := read_ev starts0 (ba_evidence a).
    Let m := read_msgs fs (ba_ftov_msgs a).
    Definition rbelief (x : variable) (s : nat) : R := radds rnd (evs x s) (map (fun fu => m (fst fu) (snd fu) s) (slots_of fs x)).
    Lemma flat_read_N x s : In x (all_vars vgs) -> s < snd x ->
      nth (start_of starts0 x + s) (@flat_beliefs R N c a) 0%R = rbelief x s.
    Proof.
      intros Hx Hs. unfold flat_beliefs. destruct (ctx_fields vgs g 0%R c Hok Hr Hwf Hbp) as [_ [_ [_ [F4 _]]]]. rewrite F4.
      destruct (arrays_lengths vgs g 0%R c Hok Hr Hwf Hbp a Ha) as [_ [L2 L3]].
      assert (Known : forall y, In y (x :: sf_edges fs) -> exists t, dget var_eqb y (gr_vars_to_starts g) = Some t).
      { intros y [<-|Hy].
        - destruct (reachable_layout _ _ Hok Hr) as [_ [-> _]]. apply In_nth_error in Hx. destruct Hx as [k Hk].
          exists (off (map snd (all_vars vgs)) k). apply dget_layout; [now apply all_vars_NoDup|exact Hk].
        - destruct Hbp as [junk [bs [Hc _]]]. destruct (compiled_edges _ _ _ Hwf Hc) as [K1 _]. rewrite <- (graph_edges (gr_groups g)) in K1. now apply K1. }
      assert (Hlay : disjoint_layout (gr_vars_to_starts g) (x :: sf_edges fs) (length (ba_evidence a))).
      { destruct (C06_lemma _ _ Hok Hr) as [_ [C2 [C3 _]]]. split.
        - intros y Hy. destruct (Known y Hy) as [t Et]. unfold start_of. rewrite Et. rewrite L3. now apply C2.
        - intros y z Hy Hz Hyz. destruct (Known y Hy) as [t Et]. destruct (Known z Hz) as [t' Et']. unfold start_of. rewrite Et, Et'. eapply C3; eassumption. }
      pose proof (nth_sums_N rnd ex lg fs starts0 _ (ba_ftov_msgs a) (ba_evidence a) L2 (Nat.le_refl _) (sf_edges fs) x s (ba_ftov_msgs a) Hlay L2 Hs) as E.
      fold fs N starts0. fold N in E. rewrite E. unfold rbelief, evs, read_ev. f_equal. rewrite slots_of_edges, map_map. reflexivity.
    Qed.
    (** The same beliefs in exact arithmetic: the rounded sums as evidence and zero messages. *)
    Definition summed : bp_arrays R := {| ba_log_potentials := ba_log_potentials a; ba_ftov_msgs := repeat 0%R (length (ba_ftov_msgs a)); ba_evidence := @flat_beliefs R N c a |}.
    Lemma summed_arrays : arrays_of c summed.
    Proof.
      destruct Ha as [A1 [A2 A3]]. split; [exact A1|]. split; [cbn; now rewrite repeat_length|]. cbn. unfold flat_beliefs. now rewrite scatter_length.
    Qed.
    Lemma summed_belief x s : In x (all_vars vgs) -> s < snd x ->
      text_belief fs (read_ev starts0 (ba_evidence summed)) (read_msgs fs (ba_ftov_msgs summed)) x s = rbelief x s.
    Proof.
      intros Hx Hs. unfold text_belief. unfold read_ev at 1. cbn [summed ba_evidence ba_ftov_msgs]. rewrite flat_read_N by assumption.
      rewrite (map_ext _ (fun _ => 0%R)) by (intros fu; unfold read_msgs; apply nth_repeat_R).
      assert (Z : forall l : list (nat * nat), rsum (map (fun _ => 0%R) l) = 0%R) by (induction l as [|y l IH]; [reflexivity|cbn [map]; rewrite rsum_cons, IH; ring]).
      rewrite Z. ring.
    Qed.
    Lemma summed_flat : flat_beliefs c summed = @flat_beliefs R N c a.
    Proof.
      unfold flat_beliefs at 1. cbn [summed ba_evidence ba_ftov_msgs]. apply scatter_zeros.
    Qed.
    Lemma beliefs_summed : @get_beliefs R N c a = get_beliefs c summed.
    Proof. unfold get_beliefs. now rewrite summed_flat. Qed.
  End Flat.

  (** ** Runs *)
  Context (a : bp_arrays R).
  Hypothesis Ha : arrays_of c a.
  Let pots := graph_pots (gr_groups g) (ba_log_potentials a).
  Let evs := read_ev starts0 (ba_evidence a).
  Let m0 := read_msgs fs (ba_ftov_msgs a).
  Context (D K : nat) (B P : R).
  Hypothesis Hsz : sized fs ne pots evs m0 D K B P L e.
  Hypothesis Hsup : supported lens.
  Context (d : R).
  Hypothesis Hd : (0 <= d <= 1)%R.
  Let d' := (1 - rnd (1 - d))%R.

  Lemma d'_bounds : (0 <= d' <= 1)%R.
  Proof.
    assert (H0 : (0 <= rnd (1 - d))%R) by (rewrite <- (rnd_0 rnd Hrd); apply (rnd_mono rnd Hrd); lra).
    assert (H1 : (rnd (1 - d) <= 1)%R) by (pose proof (rnd_Z rnd Hrd 1 ltac:(lia)) as E; cbn in E; rewrite <- E; apply (rnd_mono rnd Hrd); lra).
    unfold d'. lra.
  Qed.
  Lemma sized_moderate : moderate fs pots ne evs B P D K.
  Proof.
    destruct (size_facts e He g a D K B P L Hsz) as [PD [PK [De [Ke [HV [KV [S1 [S2 [HP [HB S3]]]]]]]]]].
    destruct Hsz as [Hdeg [Hcov [_ [_ [HevB [HpP _]]]]]]. assert (Hne : ne <= length fs) by apply (ne_fs g).
    repeat split.
    - specialize (HevB x s H H0). now apply Rabs_between in HevB.
    - specialize (HevB x s H H0). now apply Rabs_between in HevB.
    - intros f k Hf Hk. specialize (HpP f k Hf Hk). now apply Rabs_between in HpP.
    - apply Hdeg.
    - intros f Hf. apply (proj2 Hdeg). lia.
    - intros f u s Hf Hu Hs. apply Hcov; auto; lia.
    - assert (H : (INR K * (B + 1000 * INR D) <= INR K * (B + (INR D + 1) * (1000 + e)))%R) by (apply Rmult_le_compat_l; lra). lra.
    - lra.
  Qed.
  Lemma sized_floor : above_floor lens (ba_ftov_msgs a).
  Proof.
    exact (above_before rnd ex lg e (4 * L) Hrd Hw He vgs g c Hok Hr Hwf Hbp a Ha D K B P L Hsz (Rle_refl _) Hsup d Hd 0).
  Qed.
  Lemma text_run n : msg_eq fs (read_msgs fs (ba_ftov_msgs (run_bp c a n d'))) (text_bp fs pots 0%R d' evs m0 n).
  Proof.
    apply (C39_bounded_lemma vgs g 0%R c Hok Hr Hwf Hbp a Ha B P D K sized_moderate (Rle_refl 0) Hsup sized_floor d' n d'_bounds).
  Qed.
  Let rr n := read_msgs fs (ba_ftov_msgs (run_rounded rnd ex lg c a n d)).
  Let tt n := read_msgs fs (ba_ftov_msgs (run_bp c a n d')).
  Let k n := rounding_drift D K d' n.
  Lemma C51_both n : msgs_spread fs (rr n) (tt n) (k n * e)%R /\ msgs_near fs (rr n) (tt n) (k n * e)%R.
  Proof.
    destruct (run_near rnd ex lg e (4 * L) Hrd Hw He vgs g c Hok Hr Hwf Hbp a Ha D K B P L Hsz (Rle_refl _) Hsup d Hd n) as [N1 N2].
    fold fs pots evs m0 d' in N1, N2. pose proof (text_run n) as E. split.
    - intros f u Hf Hu. eapply spread_ext; [reflexivity| |exact (N1 f u Hf Hu)]. intros s Hs. symmetry. now apply E.
    - intros f u s Hf Hu Hs. unfold tt. rewrite E by assumption. now apply N2.
  Qed.
  Lemma C51_messages_lemma n : msgs_near fs (rr n) (tt n) (k n * e)%R.
  Proof. apply C51_both. Qed.
  Lemma C51_damping_lemma : representable rnd (1 - d)%R -> forall n, msgs_near fs (rr n) (read_msgs fs (ba_ftov_msgs (run_bp c a n d))) (rounding_drift D K d n * e)%R.
  Proof.
    intros H n. pose proof (C51_messages_lemma n) as Q. unfold tt, k in Q. assert (E : d' = d) by (unfold d'; rewrite H; ring). now rewrite E in Q.
  Qed.
  Lemma C51_normalised_lemma n : normal_msgs fs (rr n).
  Proof.
    apply (C47_normalised_lemma rnd ex lg Hrd g 0%R c Hwf Hbp a Ha d n Hsup).
    exact (above_before rnd ex lg e (4 * L) Hrd Hw He vgs g c Hok Hr Hwf Hbp a Ha D K B P L Hsz (Rle_refl _) Hsup d Hd n).
  Qed.

  (** ** Beliefs *)
  Lemma rounded_arrays n : arrays_of c (run_rounded rnd ex lg c a n d).
  Proof.
    destruct (rr_length rnd ex lg g c Hwf Hbp a Ha d n) as [Ll _]. destruct (arrays_lengths vgs g 0%R c Hok Hr Hwf Hbp a Ha) as [_ [L2 _]].
    destruct Ha as [A1 [A2 A3]]. split; [exact A1|]. split; [|exact A3]. rewrite Ll, <- A2. now rewrite L2.
  Qed.
  Let rb n := rbelief (run_rounded rnd ex lg c a n d).
  Let tb n := text_belief fs evs (tt n).
  Lemma k_nonneg n : (0 <= k n * e)%R.
  Proof. apply Rmult_le_pos; [apply rounding_drift_nonneg, d'_bounds|lra]. Qed.
  Lemma sum_near {X} (h h' : X -> R) l b n0 : (0 <= b)%R -> length l <= n0 -> (forall x, In x l -> (Rabs (h x - h' x) <= b)%R) ->
    (Rabs (rsum (map h l) - rsum (map h' l)) <= INR n0 * b)%R.
  Proof.
    intros Hb. revert n0. induction l as [|x l IH]; intros n0 Hl H.
    - cbn [map]. rewrite rsum_nil, Rminus_0_r, Rabs_R0. apply Rmult_le_pos; [apply pos_INR|exact Hb].
    - destruct n0 as [|n0]; [cbn in Hl; lia|]. cbn [map]. rewrite !rsum_cons, S_INR. specialize (IH n0 ltac:(cbn in Hl; lia) ltac:(intros; apply H; now right)).
      pose proof (H x (or_introl eq_refl)) as H1. apply Rabs_between in IH. apply Rabs_between in H1. apply Rabs_le. lra.
  Qed.
  Lemma rb_near n x s : s < snd x -> (Rabs (rb n x s - text_belief fs evs (rr n) x s) <= INR D * e)%R.
  Proof.
    intros Hs. destruct (size_facts e He g a D K B P L Hsz) as [PD [PK [De [Ke [HV [KV [S1 [S2 [HP [HB S3]]]]]]]]]].
    destruct Hsz as [Hdeg [Hcov [_ [_ [HevB _]]]]].
    unfold rb, rbelief, text_belief. fold (rr n). change (read_ev starts0 (ba_evidence (run_rounded rnd ex lg c a n d))) with evs.
    destruct (slots_of fs x) as [|[f u] l] eqn:E.
    - cbn [map]. unfold radds. cbn [fold_left]. rewrite rsum_nil. rewrite Rplus_0_r, Rminus_diag_eq, Rabs_R0 by reflexivity. exact De.
    - assert (Hi : In (f, u) (slots_of fs x)) by (rewrite E; now left). apply In_slots_of in Hi. destruct Hi as [H1 [H2 H3]].
      assert (Hx : In x (sf_edges fs)) by (rewrite <- H3; now apply var_in_edges). rewrite <- E.
      apply (radds_near rnd e (4 * L) Hw He _ _ D 1000 B); [rewrite map_length; apply (proj1 Hdeg)|now apply HevB|lra| |lra].
      intros y Hy. apply in_map_iff in Hy. destruct Hy as [[f' u'] [<- Hy]]. apply In_slots_of in Hy. destruct Hy as [G1 [G2 G3]]. cbn [fst snd].
      pose proof (rr_interval rnd ex lg Hrd g c Hwf Hbp a Ha Hsup d n f' u' s G1 G2) as I. fold fs in I. rewrite G3 in I. specialize (I Hs). fold (rr n) in I. apply Rabs_le. cbv beta in I. lra.
  Qed.
  Lemma belief_near n x s : s < snd x -> (Rabs (rb n x s - tb n x s) <= INR D * (k n + 1) * e)%R.
  Proof.
    intros Hs. pose proof (rb_near n x s Hs) as R1. destruct (C51_both n) as [_ N2].
    assert (R2 : (Rabs (text_belief fs evs (rr n) x s - tb n x s) <= INR D * (k n * e))%R).
    { unfold tb, text_belief. replace (_ - _)%R with (rsum (map (fun fu => rr n (fst fu) (snd fu) s) (slots_of fs x)) - rsum (map (fun fu => tt n (fst fu) (snd fu) s) (slots_of fs x)))%R by ring.
      destruct Hsz as [Hdeg _]. apply sum_near; [apply k_nonneg|apply (proj1 Hdeg)|]. intros [f u] Hi. apply In_slots_of in Hi. destruct Hi as [H1 [H2 H3]]. apply N2; auto. cbn [fst snd]. now rewrite H3. }
    apply Rabs_between in R1. apply Rabs_between in R2. apply Rabs_le. lra.
  Qed.
  Lemma belief_spread_N n x : spread (snd x) (tb n x) (rb n x) (INR D * (k n + 2) * e)%R.
  Proof.
    destruct (C51_both n) as [S1 _]. destruct Hsz as [Hdeg _].
    assert (S2 : spread (snd x) (text_belief fs evs (rr n) x) (tb n x) (0 + INR D * (k n * e))%R).
    { unfold tb, text_belief. apply (spread_plus _ (evs x) (evs x)); [apply spread_zero|].
      apply (spread_sum _ (fun fu => rr n (fst fu) (snd fu)) (fun fu => tt n (fst fu) (snd fu))); [apply k_nonneg|apply (proj1 Hdeg)|].
      intros [f u] Hi. apply In_slots_of in Hi. destruct Hi as [H1 [H2 H3]]. cbn [fst snd]. rewrite <- H3. now apply S1. }
    assert (S3 : spread (snd x) (rb n x) (tb n x) (2 * (INR D * e) + (0 + INR D * (k n * e)))%R).
    { eapply spread_trans; [apply spread_near; intros s Hs; now apply rb_near|exact S2]. }
    destruct S3 as [b Hb]. exists (- (b + (2 * (INR D * e) + (0 + INR D * (k n * e)))))%R. intros s Hs. specialize (Hb s Hs). lra.
  Qed.

  Hypothesis Hpos : forall gr n, In gr vgs -> In n (vg_num_states gr) -> 0 < n.
  Lemma In_group x gr i : In gr vgs -> nth_error (vg_variables gr) i = Some x -> In x (all_vars vgs).
  Proof. intros Hg Hi. unfold all_vars. apply in_concat. exists (vg_variables gr). split; [now apply in_map|]. eapply nth_error_In. exact Hi. Qed.
  Lemma row_nth (b : variable -> nat -> R) x k0 s : s < snd x ->
    nth_error (map (fun s => Fin (b x s)) (seq 0 (snd x)) ++ repeat NInf k0) s = Some (Fin (b x s)).
  Proof.
    intros Hs. rewrite nth_error_app1 by (rewrite map_length, seq_length; exact Hs). apply (map_nth_error (fun s => Fin (b x s)) s (seq 0 (snd x))).
    rewrite (nth_error_nth' _ 0) by (rewrite seq_length; exact Hs). now rewrite seq_nth.
  Qed.
  Lemma C51_beliefs_lemma n : exists r r', @get_beliefs R N c (run_rounded rnd ex lg c a n d) = Ok r /\ get_beliefs c (run_bp c a n d') = Ok r' /\
    map fst r = vgs /\ map fst r' = vgs /\
    forall gr, In gr vgs -> exists b b', dget vg_eqb gr r = Some b /\ dget vg_eqb gr r' = Some b' /\ per_state_shape gr b /\ per_state_shape gr b' /\
      forall i x s, nth_error (vg_variables gr) i = Some x -> s < snd x -> exists y y',
        nth_error (row gr b i) s = Some (Fin y) /\ nth_error (row gr b' i) s = Some (Fin y') /\ (Rabs (y - y') <= INR D * (k n + 1) * e)%R.
  Proof.
    rewrite beliefs_summed.
    destruct (C33_lemma vgs g 0%R c Hok Hr Hwf Hbp _ (summed_arrays _ (rounded_arrays n)) Hpos) as [r [Er [Kr Dr]]].
    destruct (C33_lemma vgs g 0%R c Hok Hr Hwf Hbp _ (run_arrays vgs g 0%R c Hok Hr Hwf Hbp d' a n Ha) Hpos) as [r' [Er' [Kr' Dr']]].
    exists r, r'. do 4 (split; [assumption|]). intros gr Hg. destruct (Dr gr Hg) as [b [Eb [Sb Rb]]]. destruct (Dr' gr Hg) as [b' [Eb' [Sb' Rb']]].
    exists b, b'. do 4 (split; [assumption|]). intros i x s Hi Hs. exists (rb n x s), (tb n x s). rewrite (Rb i x Hi), (Rb' i x Hi). split; [|split].
    - rewrite row_nth by exact Hs. do 2 f_equal. apply summed_belief; auto. + apply rounded_arrays. + now apply (In_group x gr i).
    - now rewrite row_nth by exact Hs.
    - now apply belief_near.
  Qed.
  Lemma C51_decode_lemma n : (forall gr, In gr vgs -> one_state gr = false) ->
    exists r q r' q', @get_beliefs R N c (run_rounded rnd ex lg c a n d) = Ok r /\ @decode_map_states R N r = Ok q /\
      get_beliefs c (run_bp c a n d') = Ok r' /\ decode_map_states r' = Ok q' /\
    forall gr, In gr vgs -> exists b y y', dget vg_eqb gr r' = Some b /\ dget vg_eqb gr q = Some y /\ dget vg_eqb gr q' = Some y' /\
      forall i x s bs, nth_error (vg_variables gr) i = Some x -> s < snd x -> nth_error (row gr b i) s = Some (Fin bs) ->
      (forall t bt, t < snd x -> t <> s -> nth_error (row gr b i) t = Some (Fin bt) -> (bt + INR D * (k n + 2) * e < bs)%R) ->
      cell gr y i = [s] /\ cell gr y' i = [s].
  Proof.
    intros Hone. rewrite beliefs_summed. change (@decode_map_states R N) with (@decode_map_states R RNum).
    pose proof (run_arrays vgs g 0%R c Hok Hr Hwf Hbp d' a n Ha) as Ha'.
    destruct (C34_lemma vgs g 0%R c Hok Hr Hwf Hbp _ (summed_arrays _ (rounded_arrays n)) Hpos Hone) as [r [q [Er [Eq [_ Dq]]]]].
    destruct (C34_lemma vgs g 0%R c Hok Hr Hwf Hbp _ Ha' Hpos Hone) as [r' [q' [Er' [Eq' [_ Dq']]]]].
    destruct (C33_lemma vgs g 0%R c Hok Hr Hwf Hbp _ Ha' Hpos) as [r2 [Er2 [_ Dr]]]. rewrite Er' in Er2. injection Er2 as <-.
    exists r, q, r', q'. do 4 (split; [assumption|]). intros gr Hg.
    destruct (Dq gr Hg) as [y [Ey [_ Cy]]]. destruct (Dq' gr Hg) as [y' [Ey' [_ Cy']]]. destruct (Dr gr Hg) as [b [Eb [_ Rb]]].
    exists b, y, y'. do 3 (split; [assumption|]). intros i x s bs Hi Hs Es Hgap. rewrite (Rb i x Hi) in Es, Hgap.
    change (text_belief _ _ _ x) with (tb n x) in Es, Hgap.
    rewrite row_nth in Es by exact Hs. injection Es as <-.
    assert (Gap : forall t, t < snd x -> t <> s -> (tb n x t + INR D * (k n + 2) * e < tb n x s)%R).
    { intros t Ht Hne. apply (Hgap t (tb n x t) Ht Hne). now apply row_nth. }
    assert (Hb : (0 <= INR D * (k n + 2) * e)%R).
    { replace (INR D * (k n + 2) * e)%R with (INR D * (k n * e) + INR D * (2 * e))%R by ring. pose proof (pos_INR D). pose proof (k_nonneg n). apply Rplus_le_le_0_compat; apply Rmult_le_pos; lra. }
    destruct (Cy i x Hi) as [t [-> Ft]]. destruct (Cy' i x Hi) as [t' [-> Ft']]. split; f_equal.
    - refine (first_best_spread (tb n x) (rb n x) (snd x) _ s t (belief_spread_N n x) Hs Gap _).
      destruct Ft as [T1 [T2 T3]]. assert (E : forall t, t < snd x -> text_belief fs (read_ev starts0 (ba_evidence (summed (run_rounded rnd ex lg c a n d)))) (read_msgs fs (ba_ftov_msgs (summed (run_rounded rnd ex lg c a n d)))) x t = rb n x t).
      { intros t0 Ht0. apply summed_belief; auto; [apply rounded_arrays|now apply (In_group x gr i)]. }
      fold fs starts0 in T2, T3. split; [exact T1|]. split; intros t0 Ht0; [rewrite <- !E by assumption; now apply T2|rewrite <- !E by lia; now apply T3].
    - refine (first_best_spread (tb n x) (tb n x) (snd x) _ s t' _ Hs Gap Ft'). eapply spread_mono; [exact Hb|apply spread_zero].
  Qed.
End Bel.
