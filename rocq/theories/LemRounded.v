(** * Proofs about rounded arithmetic (C47). *)
From Verif Require Import NumPy Lists FGraph BPState BP Rounded SpecFGraph SpecFactor SpecWiring SpecState SpecBP SpecText SpecRounded.
From Verif Require Import LemFGraph LemNum LemNorm LemVtoF LemText LemRun LemIter.
From Coq Require Import Reals Lra Lia.
Local Open Scope nat_scope.

Section Rounded.
  Context (rnd ex lg : R -> R).
  Let N := RoundNum rnd ex lg.

  (** Only normalisation rounds: the maxima are those of exact arithmetic. *)
  Lemma segment_max_rounded (data : list R) lens m : @segment_max_opt R N data lens m = segment_max_opt data lens m.
  Proof. reflexivity. Qed.
  Lemma nmax_N (x y : R) : @nmax R N x y = Rmax x y.
  Proof. etransitivity; [|apply nmax_R]. reflexivity. Qed.
  Lemma normalize_rounded_length msgs lens m : length (@normalize_and_clip_msgs R N msgs lens m) = length msgs.
  Proof. unfold normalize_and_clip_msgs, vsub. rewrite map_length, map2_length, jnp_repeat_length. lia. Qed.
  Lemma nth_normalize_rounded msgs lens m e s :
    list_sum lens = length msgs -> e < length lens -> s < nth e lens 0 ->
    nth (off lens e + s) (@normalize_and_clip_msgs R N msgs lens m) 0%R
    = Rmax (-1000) (rnd (nth (off lens e + s) msgs 0 - nth e (segment_max_opt msgs lens m) 0))%R.
  Proof.
    intros Hs He Hl. pose proof (off_block_lt lens e s He Hl) as Hb. unfold normalize_and_clip_msgs, vsub.
    rewrite (nth_map _ _ _ _ 0%R) by (rewrite map2_length, jnp_repeat_length; lia).
    rewrite nmax_N. f_equal.
    rewrite (nth_map2 _ _ _ _ _ 0%R 0%R) by (rewrite ?jnp_repeat_length; lia).
    change (@nsub R N) with (fun x y => rnd (x - y)%R). cbv beta. f_equal. f_equal.
    rewrite segment_max_rounded. rewrite <- Hs. apply (repeat_maxes (segment_max_opt msgs lens m)); auto. apply segment_max_length.
  Qed.

  Context (Hr : is_rounding rnd).
  Lemma rnd_Z z : (-100000 <= z <= 100000)%Z -> rnd (IZR z) = IZR z. Proof. apply Hr. Qed.
  Lemma rnd_mono x y : (x <= y)%R -> (rnd x <= rnd y)%R. Proof. apply Hr. Qed.
  Lemma rnd_0 : rnd 0%R = 0%R. Proof. apply (rnd_Z 0). lia. Qed.
  Lemma rnd_nonpos x : (x <= 0)%R -> (rnd x <= 0)%R.
  Proof. intros H. rewrite <- rnd_0. now apply rnd_mono. Qed.
  Lemma clip_representable x : representable rnd (Rmax (-1000) (rnd x)).
  Proof.
    unfold representable, Rmax. destruct (Rle_dec (-1000) (rnd x)); [apply Hr|]. apply (rnd_Z (-1000)). lia.
  Qed.

  Definition in_interval (msgs : list R) : Prop := Forall (fun x => (-1000 <= x <= 0)%R /\ representable rnd x) msgs.
  Lemma nth_segment_max_ge msgs lens e s : supported lens -> list_sum lens = length msgs -> e < length lens -> s < nth e lens 0 ->
    (nth (off lens e + s) msgs 0 <= nth e (segment_max_opt msgs lens (nat_max lens)) 0)%R.
  Proof.
    intros Hsup Hs He Hl. rewrite nth_segment_max; [|exact He|exact Hs|apply supported_bounds; exact Hsup|intros _; rewrite <- Hs; apply Hsup].
    assert (H : (nth (off lens e + s) msgs 0 <= rmaxs (segment lens msgs e))%R) by (apply rmaxs_ub, In_segment; auto; now exists s).
    unfold padded_max. destruct (_ <? _); [|exact H]. eapply Rle_trans; [exact H|apply Rmax_r].
  Qed.
  Lemma normalize_interval msgs lens : supported lens -> list_sum lens = length msgs ->
    in_interval (@normalize_and_clip_msgs R N msgs lens (nat_max lens)).
  Proof.
    intros Hsup Hs. apply Forall_nth. intros i d Hi. rewrite normalize_rounded_length, <- Hs in Hi.
    rewrite (nth_indep _ d 0%R) by now rewrite normalize_rounded_length, <- Hs.
    destruct (off_split lens i Hi) as [e [s [He [Hl ->]]]]. rewrite nth_normalize_rounded by auto. split; [|apply clip_representable].
    split; [apply Rmax_l|]. apply Rmax_lub; [lra|]. apply rnd_nonpos.
    pose proof (nth_segment_max_ge msgs lens e s Hsup Hs He Hl). lra.
  Qed.
  Lemma normalize_rounded_normalised msgs lens : supported lens -> list_sum lens = length msgs -> above_floor lens msgs ->
    normalised lens (@normalize_and_clip_msgs R N msgs lens (nat_max lens)).
  Proof.
    intros Hsup Hs Hf e He. set (M := @normalize_and_clip_msgs R N msgs lens (nat_max lens)).
    assert (HsM : list_sum lens = length M) by (unfold M; now rewrite normalize_rounded_length).
    pose proof (normalize_interval msgs lens Hsup Hs) as Hi. fold M in Hi. unfold in_interval in Hi. rewrite Forall_forall in Hi.
    assert (B : forall x, In x (segment lens M e) -> (-1000 <= x <= 0)%R).
    { intros x Hx. apply Hi. apply (In_segment M lens e x HsM He) in Hx. destruct Hx as [s [Hl ->]]. apply nth_In. rewrite <- HsM. now apply off_block_lt. }
    split; [|exact B]. apply rmaxs_eq; [|intros x Hx; apply B; exact Hx].
    pose proof (rmaxs_In (segment lens msgs e) (segment_nonempty lens msgs e Hsup Hs He)) as Hin.
    pose proof (proj1 (In_segment msgs lens e _ Hs He) Hin) as [s [Hl E]]. apply In_segment; auto. exists s. split; [exact Hl|].
    unfold M. rewrite nth_normalize_rounded by auto.
    destruct (C30_correct_lemma msgs lens (nat_max lens) Hs (supported_bounds lens Hsup)) as [_ C]; [rewrite <- Hs; apply Hsup|].
    rewrite (proj1 (C e He) (Hf e He)), <- E, Rminus_diag_eq, rnd_0 by reflexivity. rewrite Rmax_right; lra.
  Qed.
  Lemma normalize_rounded_idem msgs lens : supported lens -> list_sum lens = length msgs -> normalised lens msgs -> in_interval msgs ->
    @normalize_and_clip_msgs R N msgs lens (nat_max lens) = msgs.
  Proof.
    intros Hsup Hs Hn Hi. apply (nth_eq_off _ _ lens); [now rewrite normalize_rounded_length|exact Hs|].
    intros e s He Hl. rewrite nth_normalize_rounded by auto.
    destruct (C30_correct_lemma msgs lens (nat_max lens) Hs (supported_bounds lens Hsup)) as [_ C]; [rewrite <- Hs; apply Hsup|].
    rewrite (proj1 (C e He) (normalised_above lens msgs Hn e He)). rewrite (proj1 (Hn e He)), Rminus_0_r.
    unfold in_interval in Hi. rewrite Forall_forall in Hi. destruct (Hi (nth (off lens e + s) msgs 0%R)) as [H1 H2]; [apply nth_In; rewrite <- Hs; now apply off_block_lt|].
    rewrite H2. now apply Rmax_right.
  Qed.

  Lemma run_rounded_before (c : bp_ctx R) a d n :
    ba_ftov_msgs (run_rounded rnd ex lg c a n d)
    = @normalize_and_clip_msgs R N (before_normalising rnd ex lg c a d n) (bc_edges_num_states c) (bc_max_msg_size c).
  Proof.
    destruct n as [|n]; [reflexivity|].
    change (ba_ftov_msgs (run_rounded rnd ex lg c a (S n) d))
      with (@bp_step R N c (ba_log_potentials a) (ba_evidence a) d (ba_ftov_msgs (run_rounded rnd ex lg c a n d))).
    cbn [before_normalising]. generalize (ba_ftov_msgs (run_rounded rnd ex lg c a n d)). intros old.
    unfold bp_step. cbv zeta. f_equal. unfold new_rounded. fold N. cbv zeta. unfold vadd, vsub.
    generalize (@pass_fac_to_var_messages R N (bs_fg_state (bc_state c)) (bc_temperature c) (ba_log_potentials a)
                  (@pass_var_to_fac_messages R N old (ba_evidence a) (bc_var_states_for_edges c))).
    induction old as [|x old IH]; intros [|y l]; [reflexivity|reflexivity|reflexivity|]. cbn [map2 map]. rewrite IH. reflexivity.
  Qed.
  Lemma new_rounded_length c a msgs : length (bc_var_states_for_edges c) = length msgs -> length (new_rounded rnd ex lg c a msgs) = length msgs.
  Proof.
    intros H. unfold new_rounded, pass_fac_to_var_messages. rewrite !blit_length, repeat_length.
    unfold pass_var_to_fac_messages, vsub. rewrite map2_length, gather_length. lia.
  Qed.
  Lemma before_length (c : bp_ctx R) a d n : length (bc_var_states_for_edges c) = length (ba_ftov_msgs a) ->
    length (before_normalising rnd ex lg c a d n) = length (ba_ftov_msgs a) /\
    length (ba_ftov_msgs (run_rounded rnd ex lg c a n d)) = length (ba_ftov_msgs a).
  Proof.
    intros H. assert (E : length (before_normalising rnd ex lg c a d n) = length (ba_ftov_msgs a)).
    { induction n as [|n IH]; [reflexivity|]. cbn [before_normalising].
      assert (E : length (ba_ftov_msgs (run_rounded rnd ex lg c a n d)) = length (ba_ftov_msgs a)) by (rewrite run_rounded_before, normalize_rounded_length; exact IH).
      rewrite map2_length, new_rounded_length by congruence. lia. }
    split; [exact E|]. rewrite run_rounded_before, normalize_rounded_length. exact E.
  Qed.

  (** ** On a graph *)
  Context (g : fgraph R) (T : R) (c : bp_ctx R).
  Hypothesis Hwf : wf_groups (gr_groups g).
  Hypothesis Hbp : bp_of g T c.
  Context (a : bp_arrays R).
  Hypothesis Ha : arrays_of c a.
  Let fs := graph_factors 0%R (gr_groups g).
  Let lens := map snd (sf_edges fs).

  Lemma rounded_sizes d n : list_sum lens = length (before_normalising rnd ex lg c a d n) /\
    list_sum lens = length (ba_ftov_msgs (run_rounded rnd ex lg c a n d)) /\
    bc_edges_num_states c = lens /\ bc_max_msg_size c = nat_max lens /\ list_sum lens = length (ba_ftov_msgs a).
  Proof.
    destruct (iter_sizes g T c Hwf Hbp a Ha) as [S1 [S2 [bs HB]]]. pose proof (iter_lens g T c Hwf Hbp) as El. fold fs lens in El.
    destruct (before_length c a d n S2) as [L1 L2]. rewrite L1, L2. rewrite El in S1. repeat split; auto.
    rewrite (BP_max bs T c HB). now rewrite El.
  Qed.
  Lemma run_rounded_interval d n : supported lens -> in_interval (ba_ftov_msgs (run_rounded rnd ex lg c a n d)).
  Proof.
    intros Hs. destruct (rounded_sizes d n) as [L1 [L2 [E1 [E2 _]]]]. rewrite run_rounded_before, E1, E2. now apply normalize_interval.
  Qed.
  Lemma C47_interval_lemma d n : supported lens ->
    forall f u s, f < length fs -> u < arity fs f -> s < snd (var_at fs f u) ->
    let x := read_msgs fs (ba_ftov_msgs (run_rounded rnd ex lg c a n d)) f u s in
    (-1000 <= x <= 0)%R /\ representable rnd x.
  Proof.
    intros Hs f u s Hf Hu Hl. destruct (rounded_sizes d n) as [_ [L2 _]]. pose proof (run_rounded_interval d n Hs) as H.
    unfold in_interval in H. rewrite Forall_forall in H. apply H. unfold read_msgs. apply nth_In. rewrite <- L2. now apply slot_index_lt.
  Qed.
  Lemma run_rounded_normalised d n : supported lens -> above_floor lens (before_normalising rnd ex lg c a d n) ->
    normalised lens (ba_ftov_msgs (run_rounded rnd ex lg c a n d)).
  Proof.
    intros Hs Hf. destruct (rounded_sizes d n) as [L1 [L2 [E1 [E2 _]]]]. rewrite run_rounded_before, E1, E2. now apply normalize_rounded_normalised.
  Qed.
  Lemma C47_normalised_lemma d n : supported lens -> above_floor lens (before_normalising rnd ex lg c a d n) ->
    normal_msgs fs (read_msgs fs (ba_ftov_msgs (run_rounded rnd ex lg c a n d))).
  Proof.
    intros Hs Hf. apply normal_slots; [exact Hs|apply rounded_sizes|now apply run_rounded_normalised].
  Qed.
  Lemma C47_resume_lemma d n m : supported lens -> above_floor lens (before_normalising rnd ex lg c a d n) ->
    run_rounded rnd ex lg c (run_rounded rnd ex lg c a n d) m d = run_rounded rnd ex lg c a (n + m) d.
  Proof.
    intros Hs Hf. pose proof (run_rounded_normalised d n Hs Hf) as Hn. pose proof (run_rounded_interval d n Hs) as Hi.
    destruct (rounded_sizes d n) as [L1 [L2 [E1 [E2 _]]]].
    pose proof (normalize_rounded_idem _ lens Hs L2 Hn Hi) as E.
    unfold run_rounded at 1, run_bp at 1. cbn [ba_log_potentials ba_ftov_msgs ba_evidence].
    change (ba_log_potentials (run_rounded rnd ex lg c a n d)) with (ba_log_potentials a).
    change (ba_evidence (run_rounded rnd ex lg c a n d)) with (ba_evidence a).
    fold N. rewrite E1, E2, E. unfold run_rounded, run_bp. cbn [ba_log_potentials ba_ftov_msgs ba_evidence]. f_equal. fold N.
    generalize (@bp_step R N c (ba_log_potentials a) (ba_evidence a) d). intros f.
    rewrite (Nat.add_comm n m). induction m as [|m IH]; [reflexivity|]. change (Nat.iter (S m) f) with (fun x => f (Nat.iter m f x)). cbn beta. rewrite IH. reflexivity.
  Qed.
  Lemma C47_freeze_lemma n : supported lens -> above_floor lens (ba_ftov_msgs a) ->
    run_rounded rnd ex lg c a n 1%R = run_rounded rnd ex lg c a 0 1%R.
  Proof.
    intros Hs Hf. destruct (rounded_sizes 1%R 0) as [L1 [L2 [E1 [E2 L3]]]]. destruct (iter_sizes g T c Hwf Hbp a Ha) as [_ [S2 _]].
    assert (E : forall k, ba_ftov_msgs (run_rounded rnd ex lg c a k 1%R) = ba_ftov_msgs (run_rounded rnd ex lg c a 0 1%R)).
    { induction k as [|k IH]; [reflexivity|]. rewrite run_rounded_before. cbn [before_normalising]. rewrite IH.
      set (m0 := ba_ftov_msgs (run_rounded rnd ex lg c a 0 1%R)) in *.
      assert (Hi : in_interval m0) by now apply run_rounded_interval.
      assert (Hn : normalised lens m0) by now apply run_rounded_normalised.
      assert (Ln : length (new_rounded rnd ex lg c a m0) = length m0) by (apply new_rounded_length; congruence).
      rewrite E1, E2. replace (map2 _ m0 _) with m0; [now apply normalize_rounded_idem|].
      replace (rnd (1 - 1)%R) with 0%R by (rewrite Rminus_diag_eq, rnd_0; reflexivity).
      revert Ln. generalize (new_rounded rnd ex lg c a m0). clear - Hi Hr. induction Hi as [|x l [_ Hx] _ IH]; intros [|y new] Ln; try discriminate; [reflexivity|].
      cbn [map2]. rewrite Rmult_0_l, rnd_0, Rplus_0_r, Hx. f_equal. apply IH. now injection Ln. }
    specialize (E n). unfold run_rounded, run_bp in *. cbn [ba_ftov_msgs] in E. now rewrite E.
  Qed.
End Rounded.

(** ** Rounding functions *)
Local Open Scope R_scope.
Lemma Int_part_mono x y : x <= y -> (Int_part x <= Int_part y)%Z.
Proof.
  intros H. destruct (base_Int_part x) as [A1 A2]. destruct (base_Int_part y) as [B1 B2].
  assert (F : IZR (Int_part x) < IZR (Int_part y + 1)) by (rewrite plus_IZR; lra). apply lt_IZR in F. lia.
Qed.
Lemma Int_part_Z z : Int_part (IZR z) = z.
Proof.
  destruct (base_Int_part (IZR z)) as [A1 A2]. apply le_IZR in A1.
  assert (F : IZR z < IZR (Int_part (IZR z) + 1)) by (rewrite plus_IZR; lra). apply lt_IZR in F. lia.
Qed.
Lemma floor_to_rounding k : (0 < k)%nat -> is_rounding (floor_to k).
Proof.
  intros Hk. assert (Hp : 0 < INR k) by (change 0 with (INR 0); now apply lt_INR). unfold floor_to. split; [|split].
  - intros x y H. apply Rmult_le_compat_r; [left; now apply Rinv_0_lt_compat|]. apply IZR_le, Int_part_mono. apply Rmult_le_compat_r; lra.
  - intros x. replace (IZR (Int_part (x * INR k)) / INR k * INR k) with (IZR (Int_part (x * INR k))) by (field; lra). now rewrite Int_part_Z.
  - intros z _. rewrite INR_IZR_INZ, <- mult_IZR, Int_part_Z, mult_IZR. field. rewrite <- INR_IZR_INZ. lra.
Qed.
Lemma floor_to_bounds k x : (0 < k)%nat -> x - / INR k < floor_to k x <= x.
Proof.
  intros Hk. assert (Hp : 0 < INR k) by (change 0 with (INR 0); now apply lt_INR). unfold floor_to.
  destruct (base_Int_part (x * INR k)) as [A1 A2]. split.
  - apply Rmult_lt_reg_r with (INR k); [exact Hp|]. unfold Rdiv. rewrite Rmult_assoc, Rinv_l, Rmult_1_r by lra.
    rewrite Rmult_minus_distr_r, Rinv_l by lra. lra.
  - apply Rmult_le_reg_r with (INR k); [exact Hp|]. unfold Rdiv. rewrite Rmult_assoc, Rinv_l, Rmult_1_r by lra. lra.
Qed.
Lemma coarse_rounding : is_rounding coarse.
Proof.
  destruct (floor_to_rounding 4 ltac:(lia)) as [M4 [I4 Z4]]. destruct (floor_to_rounding 1 ltac:(lia)) as [M1 [I1 Z1]].
  pose proof (Z4 1%Z ltac:(lia)) as Z41. pose proof (Z4 (-1)%Z ltac:(lia)) as Z4m.
  pose proof (Z1 1%Z ltac:(lia)) as Z11. pose proof (Z1 (-1)%Z ltac:(lia)) as Z1m.
  assert (L1 : forall x, ~ x <= 1 -> 1 <= floor_to 1 x) by (intros x Hx; rewrite <- Z11 at 1; apply M1; lra).
  assert (L2 : forall x, ~ -1 <= x -> floor_to 1 x < -1).
  { intros x Hx. pose proof (floor_to_bounds 1 x ltac:(lia)). lra. }
  assert (L3 : forall x, -1 <= x <= 1 -> -1 <= floor_to 4 x <= 1).
  { intros x Hx. split; [rewrite <- Z4m; apply M4; lra|]. replace 1 with (floor_to 4 1) by exact Z41. apply M4; lra. }
  unfold coarse. split; [|split].
  - intros x y H. destruct (Rle_dec x 1), (Rle_dec y 1); try lra.
    + destruct (Rle_dec (-1) x), (Rle_dec (-1) y); try lra; [now apply M4| |now apply M1].
      pose proof (L3 y ltac:(lra)). pose proof (L2 x n). lra.
    + pose proof (L1 y n). destruct (Rle_dec (-1) x); [pose proof (L3 x ltac:(lra)); lra|pose proof (L2 x n0); lra].
    + now apply M1.
  - intros x. destruct (Rle_dec x 1) as [H1|H1].
    + destruct (Rle_dec (-1) x) as [H2|H2].
      * pose proof (L3 x ltac:(lra)). destruct (Rle_dec (floor_to 4 x) 1); [|lra]. destruct (Rle_dec (-1) (floor_to 4 x)); [apply I4|lra].
      * pose proof (L2 x H2). destruct (Rle_dec (floor_to 1 x) 1); [|lra]. destruct (Rle_dec (-1) (floor_to 1 x)); [lra|apply I1].
    + pose proof (L1 x H1) as L. destruct (Rle_dec (floor_to 1 x) 1) as [H2|H2]; [|apply I1].
      assert (E : floor_to 1 x = 1) by lra. rewrite E. destruct (Rle_dec (-1) 1); [exact Z41|lra].
  - intros z Hz. destruct (Rle_dec (IZR z) 1); [destruct (Rle_dec (-1) (IZR z)); [now apply Z4|now apply Z1]|now apply Z1].
Qed.

Lemma C47_undamped_refuted_lemma : ~ (forall rnd ex lg msgs new, is_rounding rnd -> length msgs = length new ->
  Forall (representable rnd) msgs -> Forall (representable rnd) new ->
  let N := RoundNum rnd ex lg in
  @vadd R N msgs (map (@nmul R N (@nsub R N (@n1 R N) 0)) (@vsub R N new msgs)) = new).
Proof.
  intros H. specialize (H coarse exp ln [-1000] [/ 4] coarse_rounding eq_refl).
  assert (E0 : coarse (-1000) = -1000) by (apply (proj2 (proj2 coarse_rounding) (-1000)%Z); lia).
  assert (E1 : coarse (/ 4) = / 4).
  { unfold coarse. destruct (Rle_dec (/ 4) 1); [|lra]. destruct (Rle_dec (-1) (/ 4)); [|lra]. unfold floor_to.
    replace (/ 4 * INR 4) with (IZR 1) by (cbn [INR]; lra). rewrite Int_part_Z. cbn [INR]. lra. }
  assert (E2 : coarse (/ 4 - -1000) = 1000).
  { unfold coarse. destruct (Rle_dec (/ 4 - -1000) 1); [lra|]. unfold floor_to. cbn [INR].
    replace ((/ 4 - -1000) * 1) with (IZR 1000 + / 4) by lra.
    assert (F : Int_part (IZR 1000 + / 4) = 1000%Z).
    { destruct (base_Int_part (IZR 1000 + / 4)) as [A1 A2].
      assert (X1 : IZR (Int_part (IZR 1000 + / 4)) < IZR 1001) by lra. apply lt_IZR in X1.
      assert (X2 : IZR 999 < IZR (Int_part (IZR 1000 + / 4))) by lra. apply lt_IZR in X2. lia. }
    rewrite F. lra. }
  specialize (H (Forall_cons _ E0 (Forall_nil _)) (Forall_cons _ E1 (Forall_nil _))).
  cbn [vadd vsub map2 map nadd nsub nmul RoundNum] in H. rewrite E2 in H. change (@n1 R (RoundNum coarse exp ln)) with 1 in H.
  assert (E3 : coarse (1 - 0) = 1) by (replace (1 - 0) with (IZR 1) by lra; apply (proj2 (proj2 coarse_rounding)); lia).
  rewrite E3 in H. assert (E4 : coarse (1 * 1000) = 1000) by (replace (1 * 1000) with (IZR 1000) by lra; apply (proj2 (proj2 coarse_rounding)); lia).
  rewrite E4 in H. assert (E5 : coarse (-1000 + 1000) = 0) by (replace (-1000 + 1000) with (IZR 0) by lra; apply (proj2 (proj2 coarse_rounding)); lia).
  rewrite E5 in H. injection H. lra.
Qed.
