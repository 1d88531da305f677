(** * Iterations on a compiled graph (towards C29-C32). *)
From Verif Require Import NumPy Lists FGraph BPState BP SpecFGraph SpecFactor SpecWiring SpecState SpecBP SpecText.
From Verif Require Import LemFGraph LemWiring LemGraph LemState LemNum LemNorm LemVtoF LemText LemRun.
From Coq Require Import Reals Lra Lia.
Local Open Scope nat_scope.

Section Iter.
  Context (g : fgraph R) (T : R) (c : bp_ctx R).
  Hypothesis Hwf : wf_groups (gr_groups g).
  Hypothesis Hbp : bp_of g T c.
  Let lens := bc_edges_num_states c.
  Context (a : bp_arrays R).
  Hypothesis Ha : arrays_of c a.

  Lemma iter_sizes : list_sum lens = length (ba_ftov_msgs a) /\ length (bc_var_states_for_edges c) = length (ba_ftov_msgs a) /\
    exists bs, BP bs T = Ok c.
  Proof.
    destruct Hbp as [junk [bs [Hc HB]]]. destruct (BP_fields _ _ _ HB) as [E1 [E2 [E3 [E4 E5]]]].
    destruct (compiled_edges _ _ _ Hwf Hc) as [_ [K2 [K3 K4]]]. destruct Ha as [_ [A2 _]]. rewrite E1 in A2.
    unfold lens. rewrite E3, K3, E5, K2, A2, K4, edge_var_states_length. repeat split. now exists bs.
  Qed.
  Lemma iter_len d n : list_sum lens = length (unnormalised c a d n) /\ length (ba_ftov_msgs (run_bp c a n d)) = length (ba_ftov_msgs a).
  Proof. destruct iter_sizes as [S1 [S2 _]]. rewrite unnormalised_length, run_bp_length by exact S2. auto. Qed.

  Lemma C29_graph_lemma d n : supported lens -> above_floor lens (unnormalised c a d n) ->
    normalised lens (ba_ftov_msgs (run_bp c a n d)).
  Proof. intros Hs Hf. destruct iter_sizes as [_ [_ [bs HB]]]. apply (C29_lemma bs T c a d n HB); [exact Hs|apply iter_len|exact Hf]. Qed.
  Lemma C31_graph_lemma d n m : supported lens -> above_floor lens (unnormalised c a d n) ->
    run_bp c (run_bp c a n d) m d = run_bp c a (n + m) d.
  Proof. intros Hs Hf. destruct iter_sizes as [_ [_ [bs HB]]]. apply (C31_lemma bs T c a d n m HB); [exact Hs|apply iter_len|exact Hf]. Qed.
  (** One more iteration. *)
  Lemma C32_step_lemma d n :
    let old := ba_ftov_msgs (run_bp c a n d) in
    let new := pass_fac_to_var_messages (bs_fg_state (bc_state c)) T (ba_log_potentials a)
                 (pass_var_to_fac_messages old (ba_evidence a) (bc_var_states_for_edges c)) in
    exists mixed, length mixed = length old /\ (forall i, i < length old -> nth i mixed 0%R = (d * nth i old 0 + (1 - d) * nth i new 0)%R) /\
    ba_ftov_msgs (run_bp c a (S n) d) = normalize_and_clip_msgs mixed (bc_edges_num_states c) (bc_max_msg_size c).
  Proof.
    intros old new. exists (unnormalised c a d (S n)). destruct (iter_len d n) as [_ L]. destruct iter_sizes as [S1 [S2 [bs HB]]].
    destruct (BP_fields _ _ _ HB) as [_ [E2 _]].
    split; [rewrite unnormalised_length by exact S2; unfold old; congruence|]. split; [|apply run_bp_unnormalised].
    intros i Hi. cbn [unnormalised]. fold old. unfold damped. rewrite E2. fold new.
    assert (Ln : length new = length old) by (unfold new; rewrite pass_fac_to_var_length, pass_var_to_fac_length; unfold old; lia).
    now rewrite (nth_map2 _ _ _ _ 0%R 0%R 0%R) by lia.
  Qed.
  Lemma C32_freeze_graph_lemma n : supported lens -> above_floor lens (ba_ftov_msgs a) ->
    run_bp c a n 1%R = run_bp c a 0 1%R.
  Proof.
    intros Hs Hf. destruct iter_sizes as [S1 [S2 [bs HB]]]. destruct (iter_len 1%R 0) as [_ L].
    pose proof (C29_graph_lemma 1%R 0 Hs Hf) as Hn.
    unfold run_bp in *. f_equal. cbn [ba_ftov_msgs Nat.iter] in *. set (m := normalize_and_clip_msgs (ba_ftov_msgs a) (bc_edges_num_states c) (bc_max_msg_size c)) in *.
    induction n as [|n IH]; [reflexivity|]. change (Nat.iter (S n) ?f m) with (f (Nat.iter n f m)) . rewrite IH.
    apply (C32_freeze_lemma bs T c _ _ m HB); [exact Hs|fold lens; change (length m = length (ba_ftov_msgs a)) in L; congruence|fold lens; congruence|exact Hn].
  Qed.
  (** A normalised vector whose update differs from it by a constant per edge. *)
  Lemma C32_fixed_graph_lemma d n (k : nat -> R) :
    let msgs := ba_ftov_msgs a in
    let new := pass_fac_to_var_messages (bs_fg_state (bc_state c)) T (ba_log_potentials a)
                 (pass_var_to_fac_messages msgs (ba_evidence a) (bc_var_states_for_edges c)) in
    supported lens -> normalised lens msgs ->
    (forall e s, e < length lens -> s < nth e lens 0 -> (nth (off lens e + s) new 0 = nth (off lens e + s) msgs 0 + k e)%R) ->
    (forall e, e < length lens -> (neg_inf <= (1 - d) * k e)%R) ->
    run_bp c a n d = a.
  Proof.
    intros msgs new Hs Hn Hk Hf. destruct iter_sizes as [S1 [S2 [bs HB]]]. destruct (BP_fields _ _ _ HB) as [_ [E2 _]].
    assert (E0 : normalize_and_clip_msgs msgs (bc_edges_num_states c) (bc_max_msg_size c) = msgs).
    { rewrite (BP_max bs T c HB). now apply normalize_idem. }
    unfold run_bp. fold msgs. rewrite E0.
    transitivity {| ba_log_potentials := ba_log_potentials a; ba_ftov_msgs := msgs; ba_evidence := ba_evidence a |}; [|unfold msgs; destruct a; reflexivity].
    f_equal. induction n as [|n IH]; [reflexivity|]. change (Nat.iter (S n) ?f msgs) with (f (Nat.iter n f msgs)). rewrite IH.
    apply (C32_fixed_lemma bs T c _ _ d msgs k HB); [exact Hs|exact S1|fold lens; congruence|exact Hn| |exact Hf]. fold lens. rewrite E2. exact Hk.
  Qed.
End Iter.

Lemma C30_refuted_lemma : ~ (forall (data : list R) lens max_len,
  list_sum lens = length data -> (forall n, In n lens -> 0 < n <= max_len) -> lens <> [] ->
  (forall x, In x data -> (neg_inf <= x)%R) ->
  nth 0 (segment_max_opt data lens max_len) 0%R = rmaxs (segment lens data 0)).
Proof.
  intros H. remember (Z.to_nat 100000) as N eqn:EN. assert (HN : Z.of_nat N = 100000%Z) by (subst; reflexivity). clear EN.
  destruct N as [|N]; [discriminate HN|].
  set (data := 5%R :: repeat 0%R N). set (lens := repeat 1 (S N)).
  assert (Ls : list_sum lens = length data).
  { unfold lens, data. cbn [length]. rewrite repeat_length. generalize (S N). intros k. induction k as [|k IH]; [reflexivity|]. change (1 + list_sum (repeat 1 k) = S k). rewrite IH. reflexivity. }
  assert (Ll : forall n, In n lens -> 0 < n <= 1) by (intros n Hn; unfold lens in Hn; apply repeat_spec in Hn; subst; lia).
  specialize (H data lens 1 Ls Ll ltac:(discriminate)).
  assert (Hd : forall x, In x data -> (neg_inf <= x)%R).
  { unfold neg_inf. intros x [<-|Hx]; [lra|]. apply repeat_spec in Hx. subst. lra. }
  specialize (H Hd).
  destruct (C30_oversize_lemma data lens 1 1 Ls ltac:(discriminate) Ll) as [W _]; [unfold data; cbn [length]; rewrite repeat_length; lia|lia|lia|].
  assert (E : slice (data ++ repeat 0%R 1) 1 (1 + nth 0 lens 0) = [0%R]).
  { unfold data, lens. cbn [repeat app nth Nat.add]. unfold slice. cbn [skipn]. destruct N; [discriminate HN|]. reflexivity. }
  rewrite E in W. rewrite W in H by (right; cbn; unfold neg_inf; lra).
  assert (E2 : segment lens data 0 = [5%R]) by reflexivity. rewrite E2 in H. cbn in H. lra.
Qed.
(** The consequence for the first message. *)
Lemma C30_first_message_lemma (msgs : list R) lens w s :
  let max_len := nat_max lens in
  list_sum lens = length msgs -> lens <> [] -> (forall n, In n lens -> 0 < n) ->
  (Z.of_nat w = Z.of_nat (length msgs + max_len) - 100000)%Z -> 0 < w -> (Z.of_nat max_len <= 100000)%Z ->
  let window := slice (msgs ++ repeat 0%R max_len) w (w + nth 0 lens 0) in
  nth 0 lens 0 = max_len \/ (neg_inf <= rmaxs window)%R ->
  s < nth 0 lens 0 ->
  nth s (normalize_and_clip_msgs msgs lens max_len) 0%R = Rmax (-1000) (nth s msgs 0 - rmaxs window)%R.
Proof.
  intros max_len Hs Hne Hn Hw H0 Hm window Hwin Hl.
  assert (L0 : 0 < length lens) by (destruct lens; [contradiction|cbn; lia]).
  destruct (C30_oversize_lemma msgs lens max_len w Hs Hne) as [W _]; [intros n Hi; split; [now apply Hn|now apply nat_max_ge]|exact Hw|exact H0|exact Hm|].
  fold window in W. specialize (W Hwin). change s with (off lens 0 + s).
  rewrite nth_normalize; auto. now rewrite W.
Qed.

(** ** The same over slots *)
Section Slots.
  Context (g : fgraph R) (T : R) (c : bp_ctx R).
  Hypothesis Hwf : wf_groups (gr_groups g).
  Hypothesis Hbp : bp_of g T c.
  Context (a : bp_arrays R).
  Hypothesis Ha : arrays_of c a.

  Lemma iter_lens : bc_edges_num_states c = map snd (sf_edges (graph_factors 0%R (gr_groups g))).
  Proof.
    destruct Hbp as [junk [bs [Hc HB]]]. destruct (BP_fields _ _ _ HB) as [_ [_ [E3 _]]].
    destruct (compiled_edges _ _ _ Hwf Hc) as [_ [_ [K3 _]]]. now rewrite E3, K3, graph_edges.
  Qed.
  Lemma normal_slots (fs : list (sfactor R)) x : let lens := map snd (sf_edges fs) in
    supported lens -> list_sum lens = length x -> normalised lens x <-> normal_msgs fs (read_msgs fs x).
  Proof.
    intros lens Hs Hx. split; intros H.
    - intros f u Hf Hu. pose proof (positive_states fs Hs f u Hf Hu) as Hp. destruct (slot_edge fs f u 0 Hf Hu Hp) as [_ [He _]].
      destruct (H _ He) as [M Bd]. unfold lens in M, Bd. rewrite (segment_slot fs) in M, Bd by assumption. split.
      + assert (I : In 0%R (map (read_msgs fs x f u) (seq 0 (snd (var_at fs f u))))).
        { rewrite <- M. apply rmaxs_In. destruct (snd (var_at fs f u)); [lia|discriminate]. }
        apply in_map_iff in I. destruct I as [s [E I]]. apply in_seq in I. exists s. split; [lia|exact E].
      + intros s Hl. apply Bd, in_map, in_seq. lia.
    - intros e He. unfold lens in He. rewrite map_length in He.
      assert (Hi : In e (map (edge_no fs) (slots fs))) by (rewrite edges_slots; apply in_seq; lia).
      apply in_map_iff in Hi. destruct Hi as [[f u] [<- Hi]]. apply In_slots in Hi. cbn [fst snd] in Hi. destruct Hi as [Hf Hu].
      change (edge_no fs (f, u)) with (sf_first_edge fs f + u). pose proof (positive_states fs Hs f u Hf Hu) as Hp.
      unfold lens. rewrite (segment_slot fs) by assumption. destruct (H f u Hf Hu) as [[s [Hl E]] Bd]. split.
      + apply rmaxs_eq; [rewrite <- E; apply in_map, in_seq; lia|]. intros y Hy. apply in_map_iff in Hy. destruct Hy as [s' [<- Hy]]. apply in_seq in Hy. apply Bd. lia.
      + intros y Hy. apply in_map_iff in Hy. destruct Hy as [s' [<- Hy]]. apply in_seq in Hy. apply Bd. lia.
  Qed.

  Let fs := graph_factors 0%R (gr_groups g).
  Lemma C29_slots_lemma d n : supported (map snd (sf_edges fs)) -> above_floor (map snd (sf_edges fs)) (unnormalised c a d n) ->
    normal_msgs fs (read_msgs fs (ba_ftov_msgs (run_bp c a n d))).
  Proof.
    intros Hs Hf. pose proof iter_lens as El. fold fs in El. apply normal_slots; [exact Hs| |].
    - rewrite <- El. destruct (iter_len g T c Hwf Hbp a Ha d n) as [_ ->]. apply (iter_sizes g T c Hwf Hbp a Ha).
    - rewrite <- El in *. apply (C29_graph_lemma g T c Hwf Hbp a Ha d n); assumption.
  Qed.
  Lemma C31_slots_lemma d n m : supported (map snd (sf_edges fs)) -> above_floor (map snd (sf_edges fs)) (unnormalised c a d n) ->
    run_bp c (run_bp c a n d) m d = run_bp c a (n + m) d.
  Proof. unfold fs. rewrite <- iter_lens. apply (C31_graph_lemma g T c Hwf Hbp a Ha). Qed.
  Lemma C32_freeze_slots_lemma n : supported (map snd (sf_edges fs)) -> above_floor (map snd (sf_edges fs)) (ba_ftov_msgs a) ->
    run_bp c a n 1%R = run_bp c a 0 1%R.
  Proof. unfold fs. rewrite <- iter_lens. apply (C32_freeze_graph_lemma g T c Hwf Hbp a Ha). Qed.
  Lemma C32_fixed_slots_lemma d n :
    let m := read_msgs fs (ba_ftov_msgs a) in
    let new := read_msgs fs (pass_fac_to_var_messages (bs_fg_state (bc_state c)) T (ba_log_potentials a)
                 (pass_var_to_fac_messages (ba_ftov_msgs a) (ba_evidence a) (bc_var_states_for_edges c))) in
    supported (map snd (sf_edges fs)) -> normal_msgs fs m ->
    (forall f u, f < length fs -> u < arity fs f -> exists k, (neg_inf <= (1 - d) * k)%R /\
       forall s, s < snd (var_at fs f u) -> new f u s = (m f u s + k)%R) ->
    run_bp c a n d = a.
  Proof.
    intros m new Hs Hn Hk. pose proof iter_lens as El. fold fs in El. destruct (iter_sizes g T c Hwf Hbp a Ha) as [S1 _]. rewrite El in S1.
    set (nw := pass_fac_to_var_messages (bs_fg_state (bc_state c)) T (ba_log_potentials a) (pass_var_to_fac_messages (ba_ftov_msgs a) (ba_evidence a) (bc_var_states_for_edges c))) in *.
    set (lens := map snd (sf_edges fs)) in *.
    assert (Q : forall e, e < length lens -> exists k, (neg_inf <= (1 - d) * k)%R /\ 0 < nth e lens 0 /\
      forall s, s < nth e lens 0 -> nth (off lens e + s) nw 0%R = (nth (off lens e + s) (ba_ftov_msgs a) 0 + k)%R).
    { intros e He. unfold lens in He. rewrite map_length in He.
      assert (Hi : In e (map (edge_no fs) (slots fs))) by (rewrite edges_slots; apply in_seq; lia).
      apply in_map_iff in Hi. destruct Hi as [[f u] [<- Hi]]. apply In_slots in Hi. cbn [fst snd] in Hi. destruct Hi as [Hf Hu].
      change (edge_no fs (f, u)) with (sf_first_edge fs f + u). pose proof (positive_states fs Hs f u Hf Hu) as Hp.
      destruct (Hk f u Hf Hu) as [k [K1 K2]]. exists k. split; [exact K1|]. destruct (slot_edge fs f u 0 Hf Hu Hp) as [_ [_ En]]. fold lens in En.
      rewrite En. split; [exact Hp|]. intros s Hl. destruct (slot_edge fs f u s Hf Hu Hl) as [Ei _]. fold lens in Ei. rewrite <- Ei. now apply K2. }
    apply (C32_fixed_graph_lemma g T c Hwf Hbp a Ha d n (fun e => (nth (off lens e + 0) nw 0 - nth (off lens e + 0) (ba_ftov_msgs a) 0)%R)); rewrite El; fold lens.
    - exact Hs.
    - now apply normal_slots.
    - intros e s He Hl. destruct (Q e He) as [k [_ [Hp K]]]. change (nth (off lens e + s) nw 0%R = (nth (off lens e + s) (ba_ftov_msgs a) 0 + (nth (off lens e + 0) nw 0 - nth (off lens e + 0) (ba_ftov_msgs a) 0))%R).
      rewrite !K by assumption. lra.
    - intros e He. destruct (Q e He) as [k [K1 [Hp K]]]. rewrite K by assumption. replace (_ + k - _)%R with k by lra. exact K1.
  Qed.
End Slots.

(** ** Hypotheses about the inputs only *)
Section Bounded.
  Context (vgs : list VGroup.vgroup) (g : fgraph R) (T : R) (c : bp_ctx R) (a : bp_arrays R) (B P : R) (D K : nat) (d : R).
  Hypothesis Hok : groups_ok vgs.
  Hypothesis Hr : reachable vgs g.
  Hypothesis Hwf : wf_groups (gr_groups g).
  Hypothesis Hbp : bp_of g T c.
  Hypothesis Ha : arrays_of c a.
  Let fs := graph_factors 0%R (gr_groups g).
  Hypothesis Hmod : moderate fs (graph_pots (gr_groups g) (ba_log_potentials a)) (length (enum_factors (gr_groups g)))
    (read_ev (gr_vars_to_starts g) (ba_evidence a)) B P D K.
  Hypothesis HT : (0 <= T)%R.
  Hypothesis Hd : (0 <= d <= 1)%R.
  Hypothesis Hsup : supported (map snd (sf_edges fs)).
  Hypothesis H0 : above_floor (map snd (sf_edges fs)) (ba_ftov_msgs a).

  Lemma bounded_floor n : above_floor (map snd (sf_edges fs)) (unnormalised c a d n).
  Proof. now apply (above_floor_run vgs g T c Hok Hr Hwf Hbp a Ha B P D K Hmod HT Hsup H0 d Hd n). Qed.
  Lemma C29_bounded_lemma n : normal_msgs fs (read_msgs fs (ba_ftov_msgs (run_bp c a n d))).
  Proof. apply (C29_slots_lemma g T c Hwf Hbp a Ha); [exact Hsup|apply bounded_floor]. Qed.
  Lemma C31_bounded_lemma n m : run_bp c (run_bp c a n d) m d = run_bp c a (n + m) d.
  Proof. apply (C31_slots_lemma g T c Hwf Hbp a Ha); [exact Hsup|apply bounded_floor]. Qed.
End Bounded.
Lemma C31_zero_lemma (c : bp_ctx R) a d n :
  ba_ftov_msgs (run_bp c a 0 d) = normalize_and_clip_msgs (ba_ftov_msgs a) (bc_edges_num_states c) (bc_max_msg_size c) /\
  ba_log_potentials (run_bp c a n d) = ba_log_potentials a /\
  ba_evidence (run_bp c a n d) = ba_evidence a.
Proof. repeat split. Qed.
Lemma C32_undamped_lemma (g : fgraph R) T (c : bp_ctx R) : wf_groups (gr_groups g) -> bp_of g T c ->
  forall a, arrays_of c a -> forall n,
  let old := ba_ftov_msgs (run_bp c a n 0%R) in
  ba_ftov_msgs (run_bp c a (S n) 0%R)
  = normalize_and_clip_msgs
      (pass_fac_to_var_messages (bs_fg_state (bc_state c)) T (ba_log_potentials a)
         (pass_var_to_fac_messages old (ba_evidence a) (bc_var_states_for_edges c)))
      (bc_edges_num_states c) (bc_max_msg_size c).
Proof.
  intros Hwf Hbp a Ha n old. destruct (C32_step_lemma g T c Hwf Hbp a Ha 0%R n) as [mixed [L [M ->]]]. f_equal.
  fold old in L, M. destruct (iter_sizes g T c Hwf Hbp a Ha) as [S1 [S2 _]]. destruct (iter_len g T c Hwf Hbp a Ha 0%R n) as [_ L2]. fold old in L2.
  apply (nth_ext _ _ 0%R 0%R); [rewrite pass_fac_to_var_length, pass_var_to_fac_length; lia|].
  intros i Hi. rewrite M by lia. lra.
Qed.
