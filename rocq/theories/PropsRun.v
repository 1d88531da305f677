(** * Properties C29-C32, C39: iterating belief propagation. *)
From Verif Require Import NumPy Lists FGraph BPState BP SpecFGraph SpecFactor SpecWiring SpecState SpecBP SpecText.
From Verif Require Import LemNorm LemRun LemIter LemTransfer ExBP.
From Coq Require Import Reals Lra Lia QArith Qreals.
Local Close Scope Q_scope.
Local Close Scope R_scope.
Local Open Scope nat_scope.

(** ** C29: messages returned by run_bp are normalised and clipped *)
Theorem C29_normalised :
  forall (g : fgraph R) T (c : bp_ctx R),
  wf_groups (gr_groups g) -> bp_of g T c ->
  forall a, arrays_of c a ->
  let fs := graph_factors 0%R (gr_groups g) in
  let lens := map snd (sf_edges fs) in
  forall d n, supported lens -> above_floor lens (unnormalised c a d n) ->
  normal_msgs fs (read_msgs fs (ba_ftov_msgs (run_bp c a n d))).
Proof. exact C29_slots_lemma. Qed.
Print Assumptions C29_normalised.

(** With hypotheses about the inputs only. *)
Theorem C29_bounded :
  forall vgs (g : fgraph R) T (c : bp_ctx R) a B P D K d,
  groups_ok vgs -> reachable vgs g -> wf_groups (gr_groups g) -> bp_of g T c -> arrays_of c a ->
  let fs := graph_factors 0%R (gr_groups g) in
  let lens := map snd (sf_edges fs) in
  moderate fs (graph_pots (gr_groups g) (ba_log_potentials a)) (length (enum_factors (gr_groups g)))
    (read_ev (gr_vars_to_starts g) (ba_evidence a)) B P D K ->
  (0 <= T)%R -> (0 <= d <= 1)%R -> supported lens -> above_floor lens (ba_ftov_msgs a) ->
  forall n, normal_msgs fs (read_msgs fs (ba_ftov_msgs (run_bp c a n d))).
Proof. exact C29_bounded_lemma. Qed.
Print Assumptions C29_bounded.

(** The hypotheses hold for the example graph with both kinds of factors. *)
Lemma ex_read_bounds f u s : (-5 <= read_msgs ex_rfs (ba_ftov_msgs ex_a) f u s <= 0)%R.
Proof.
  unfold read_msgs. generalize (slot_index ex_rfs f u s). intros i. cbn [ba_ftov_msgs ex_a ex_arrays].
  do 22 (destruct i as [|i]; [cbn; lra|]). destruct i; cbn; lra.
Qed.
Lemma ex_supported : supported (map snd (sf_edges ex_rfs)).
Proof. split; [vm_compute; discriminate|]. intros n Hn. vm_compute in Hn. repeat (destruct Hn as [<-|Hn]; [lia|]). destruct Hn. Qed.
Lemma ex_above : above_floor (map snd (sf_edges ex_rfs)) (ba_ftov_msgs ex_a).
Proof.
  intros e He. right. assert (e < 10) by exact He. unfold neg_inf.
  do 10 (destruct e as [|e]; [eapply Rle_trans; [|apply LemNum.rmaxs_ub; left; reflexivity]; cbn; lra|]). lia.
Qed.
Lemma ex_moderate : moderate ex_rfs (graph_pots (gr_groups ex_g) (ba_log_potentials ex_a)) (length (enum_factors (gr_groups ex_g)))
  (read_ev (gr_vars_to_starts ex_g) (ba_evidence ex_a)) 10 10 10 2.
Proof.
  split; [|split; [|split; [|split; [|split; [|split]]]]].
  - intros x s _ _. unfold read_ev. generalize (start_of (gr_vars_to_starts ex_g) x + s). intros i. cbn [ba_evidence ex_a ex_arrays].
    do 11 (destruct i as [|i]; [cbn; lra|]). destruct i; cbn; lra.
  - intros f k _ _. unfold graph_pots, read_pots. destruct (f <? _); [|lra].
    generalize (sf_first_config (enum_factors (gr_groups ex_g)) f + k). intros i. cbn [ba_log_potentials ex_a ex_arrays].
    do 8 (destruct i as [|i]; [cbn; lra|]). destruct i; cbn; lra.
  - intros x. unfold slots_of. eapply Nat.le_trans; [apply filter_length_le|]. vm_compute. lia.
  - intros f Hf. assert (Hf2 : f < 2) by exact Hf. destruct f as [|[|]]; [vm_compute; lia|vm_compute; lia|lia].
  - intros f u s Hf Hu Hs. assert (Hf2 : f < 2) by exact Hf.
    destruct f as [|[|]]; [| |lia]; (destruct u as [|[|]]; [| |exfalso; vm_compute in Hu; lia]);
      (destruct s as [|[|[|]]]; try (exfalso; vm_compute in Hs; lia); vm_compute; discriminate).
  - cbn [INR]. lra.
  - cbn [INR]. lra.
Qed.
Example C29_nonvacuous : forall T n,  (0 <= T)%R ->
  normal_msgs ex_rfs (read_msgs ex_rfs (ba_ftov_msgs (run_bp (ex_c T) ex_a n (1 / 2)%R))).
Proof.
  intros T n HT. destruct (ex_given T) as [H1 [H2 [H3 [H4 H5]]]].
  apply (C29_bounded ex_vgs ex_g T (ex_c T) ex_a 10 10 10 2 (1 / 2)%R H1 H2 H3 H4 H5 ex_moderate HT); [lra|exact ex_supported|exact ex_above].
Qed.

(** ** C30: segment_max_opt *)
Theorem C30_correct :
  forall (data : list R) lens max_len,
  list_sum lens = length data -> (forall n, In n lens -> 0 < n <= max_len) ->
  (Z.of_nat (length data + max_len) <= 100000)%Z ->
  length (segment_max_opt data lens max_len) = length lens /\
  forall e, e < length lens ->
    (nth e lens 0 = max_len \/ (neg_inf <= rmaxs (segment lens data e))%R ->
     nth e (segment_max_opt data lens max_len) 0%R = rmaxs (segment lens data e)) /\
    (nth e lens 0 < max_len -> (rmaxs (segment lens data e) < neg_inf)%R ->
     nth e (segment_max_opt data lens max_len) 0%R = neg_inf).
Proof. exact C30_correct_lemma. Qed.
Print Assumptions C30_correct.

(** Beyond that size the first result is the maximum of another window. *)
Theorem C30_oversize :
  forall (data : list R) lens max_len w,
  list_sum lens = length data -> lens <> [] -> (forall n, In n lens -> 0 < n <= max_len) ->
  (Z.of_nat w = Z.of_nat (length data + max_len) - 100000)%Z -> 0 < w -> (Z.of_nat max_len <= 100000)%Z ->
  let window := slice (data ++ repeat 0%R max_len) w (w + nth 0 lens 0) in
  (nth 0 lens 0 = max_len \/ (neg_inf <= rmaxs window)%R ->
   nth 0 (segment_max_opt data lens max_len) 0%R = rmaxs window) /\
  (forall e, 0 < e < length lens -> nth e lens 0 = max_len \/ (neg_inf <= rmaxs (segment lens data e))%R ->
   nth e (segment_max_opt data lens max_len) 0%R = rmaxs (segment lens data e)).
Proof. exact C30_oversize_lemma. Qed.
Print Assumptions C30_oversize.

(** So the first message is normalised by that value. *)
Theorem C30_first_message :
  forall (msgs : list R) lens w s,
  let max_len := nat_max lens in
  list_sum lens = length msgs -> lens <> [] -> (forall n, In n lens -> 0 < n) ->
  (Z.of_nat w = Z.of_nat (length msgs + max_len) - 100000)%Z -> 0 < w -> (Z.of_nat max_len <= 100000)%Z ->
  let window := slice (msgs ++ repeat 0%R max_len) w (w + nth 0 lens 0) in
  nth 0 lens 0 = max_len \/ (neg_inf <= rmaxs window)%R ->
  s < nth 0 lens 0 ->
  nth s (normalize_and_clip_msgs msgs lens max_len) 0%R = Rmax (-1000) (nth s msgs 0 - rmaxs window)%R.
Proof. exact C30_first_message_lemma. Qed.
Print Assumptions C30_first_message.

(** Without the size bound the statement fails. *)
Theorem C30_unbounded_refuted :
  ~ (forall (data : list R) lens max_len,
     list_sum lens = length data -> (forall n, In n lens -> 0 < n <= max_len) -> lens <> [] ->
     (forall x, In x data -> (neg_inf <= x)%R) ->
     nth 0 (segment_max_opt data lens max_len) 0%R = rmaxs (segment lens data 0)).
Proof. exact C30_refuted_lemma. Qed.
Print Assumptions C30_unbounded_refuted.

(** Segments of different lengths. *)
Example C30_nonvacuous :
  let data := map IZR [3; 1; -2; 5; 0; -7]%Z in
  list_sum [2; 3; 1] = length data /\ (forall n, In n [2; 3; 1] -> 0 < n <= 3) /\
  (Z.of_nat (length data + 3) <= 100000)%Z /\ map (segment [2; 3; 1] data) [0; 1; 2] = map (map IZR) [[3; 1]; [-2; 5; 0]; [-7]]%Z.
Proof. repeat split; try (vm_compute; discriminate); destruct H as [<-|[<-|[<-|[]]]]; lia. Qed.
Example C30_computed :
  segment_max_opt (map inject_Z [3; 1; -2; 5; 0; -7]%Z) [2; 3; 1] 3 = map inject_Z [3; 5; -7]%Z.
Proof. vm_compute. reflexivity. Qed.

(** ** C31: run_bp can be resumed *)
Theorem C31_resume :
  forall (g : fgraph R) T (c : bp_ctx R),
  wf_groups (gr_groups g) -> bp_of g T c ->
  forall a, arrays_of c a ->
  let lens := map snd (sf_edges (graph_factors 0%R (gr_groups g))) in
  forall d n m, supported lens -> above_floor lens (unnormalised c a d n) ->
  run_bp c (run_bp c a n d) m d = run_bp c a (n + m) d.
Proof. exact C31_slots_lemma. Qed.
Print Assumptions C31_resume.

Theorem C31_bounded :
  forall vgs (g : fgraph R) T (c : bp_ctx R) a B P D K d,
  groups_ok vgs -> reachable vgs g -> wf_groups (gr_groups g) -> bp_of g T c -> arrays_of c a ->
  let fs := graph_factors 0%R (gr_groups g) in
  let lens := map snd (sf_edges fs) in
  moderate fs (graph_pots (gr_groups g) (ba_log_potentials a)) (length (enum_factors (gr_groups g)))
    (read_ev (gr_vars_to_starts g) (ba_evidence a)) B P D K ->
  (0 <= T)%R -> (0 <= d <= 1)%R -> supported lens -> above_floor lens (ba_ftov_msgs a) ->
  forall n m, run_bp c (run_bp c a n d) m d = run_bp c a (n + m) d.
Proof. exact C31_bounded_lemma. Qed.
Print Assumptions C31_bounded.

(** No iteration: only normalisation. The other arrays never change. *)
Theorem C31_zero_and_frame :
  forall (c : bp_ctx R) a d n,
  ba_ftov_msgs (run_bp c a 0 d) = normalize_and_clip_msgs (ba_ftov_msgs a) (bc_edges_num_states c) (bc_max_msg_size c) /\
  ba_log_potentials (run_bp c a n d) = ba_log_potentials a /\
  ba_evidence (run_bp c a n d) = ba_evidence a.
Proof. exact C31_zero_lemma. Qed.
Print Assumptions C31_zero_and_frame.

Example C31_nonvacuous : forall T n m, (0 <= T)%R ->
  run_bp (ex_c T) (run_bp (ex_c T) ex_a n (1 / 2)%R) m (1 / 2)%R = run_bp (ex_c T) ex_a (n + m) (1 / 2)%R.
Proof.
  intros T n m HT. destruct (ex_given T) as [H1 [H2 [H3 [H4 H5]]]].
  apply (C31_bounded ex_vgs ex_g T (ex_c T) ex_a 10 10 10 2 (1 / 2)%R H1 H2 H3 H4 H5 ex_moderate HT); [lra|exact ex_supported|exact ex_above].
Qed.

(** ** C32: damping *)
Theorem C32_convex :
  forall (g : fgraph R) T (c : bp_ctx R),
  wf_groups (gr_groups g) -> bp_of g T c ->
  forall a, arrays_of c a ->
  forall d n,
  let old := ba_ftov_msgs (run_bp c a n d) in
  let new := pass_fac_to_var_messages (bs_fg_state (bc_state c)) T (ba_log_potentials a)
               (pass_var_to_fac_messages old (ba_evidence a) (bc_var_states_for_edges c)) in
  exists mixed, length mixed = length old /\
    (forall i, i < length old -> nth i mixed 0%R = (d * nth i old 0 + (1 - d) * nth i new 0)%R) /\
    ba_ftov_msgs (run_bp c a (S n) d) = normalize_and_clip_msgs mixed (bc_edges_num_states c) (bc_max_msg_size c).
Proof. exact C32_step_lemma. Qed.
Print Assumptions C32_convex.

Theorem C32_undamped :
  forall (g : fgraph R) T (c : bp_ctx R),
  wf_groups (gr_groups g) -> bp_of g T c ->
  forall a, arrays_of c a ->
  forall n,
  let old := ba_ftov_msgs (run_bp c a n 0%R) in
  ba_ftov_msgs (run_bp c a (S n) 0%R)
  = normalize_and_clip_msgs
      (pass_fac_to_var_messages (bs_fg_state (bc_state c)) T (ba_log_potentials a)
         (pass_var_to_fac_messages old (ba_evidence a) (bc_var_states_for_edges c)))
      (bc_edges_num_states c) (bc_max_msg_size c).
Proof. exact C32_undamped_lemma. Qed.
Print Assumptions C32_undamped.

Theorem C32_freeze :
  forall (g : fgraph R) T (c : bp_ctx R),
  wf_groups (gr_groups g) -> bp_of g T c ->
  forall a, arrays_of c a ->
  let lens := map snd (sf_edges (graph_factors 0%R (gr_groups g))) in
  forall n, supported lens -> above_floor lens (ba_ftov_msgs a) ->
  run_bp c a n 1%R = run_bp c a 0 1%R.
Proof. exact C32_freeze_slots_lemma. Qed.
Print Assumptions C32_freeze.

Theorem C32_fixed_point :
  forall (g : fgraph R) T (c : bp_ctx R),
  wf_groups (gr_groups g) -> bp_of g T c ->
  forall a, arrays_of c a ->
  let fs := graph_factors 0%R (gr_groups g) in
  forall d n,
  let m := read_msgs fs (ba_ftov_msgs a) in
  let new := read_msgs fs (pass_fac_to_var_messages (bs_fg_state (bc_state c)) T (ba_log_potentials a)
               (pass_var_to_fac_messages (ba_ftov_msgs a) (ba_evidence a) (bc_var_states_for_edges c))) in
  supported (map snd (sf_edges fs)) -> normal_msgs fs m ->
  (forall f u, f < length fs -> u < arity fs f -> exists k, (neg_inf <= (1 - d) * k)%R /\
     forall s, s < snd (var_at fs f u) -> new f u s = (m f u s + k)%R) ->
  run_bp c a n d = a.
Proof. exact C32_fixed_slots_lemma. Qed.
Print Assumptions C32_fixed_point.

Example C32_nonvacuous : forall T n, run_bp (ex_c T) ex_a n 1%R = run_bp (ex_c T) ex_a 0 1%R.
Proof.
  intros T n. destruct (ex_given T) as [_ [_ [H3 [H4 H5]]]].
  apply (C32_freeze ex_g T (ex_c T) H3 H4 ex_a H5); [exact ex_supported|exact ex_above].
Qed.

(** A fixed point of the example graph at temperature 0: the messages after ten
    iterations over the rationals. The new messages before normalisation are not
    normalised. *)
Definition ex_fix_z : list Z := [-2; 0; 0; -1; -3; 0; -6; -6; 0; 0; 0; 0; -1; 0; -1; 0; -4; 0; -2; 0; 0; -2]%Z.
Definition ex_fix_new : list Z := ltac:(
  let r := eval vm_compute in (map Qnum (pass_fac_to_var_messages (ex_state inject_Z) (inject_Z 0) (map inject_Z [1; -2; 3; 0; 4; -1; 2; 2]%Z)
    (pass_var_to_fac_messages (map inject_Z ex_fix_z) (map inject_Z ex_ev_z) (bc_var_states_for_edges (ex_ctx inject_Z (inject_Z 0)))))) in exact r).
Lemma Q2R_Z l : map Q2R (map inject_Z l) = map IZR l.
Proof. rewrite map_map. apply map_ext. exact Q2R_ofZ. Qed.
Lemma ex_fix_update :
  pass_fac_to_var_messages (bs_fg_state (bc_state (ex_c 0))) 0%R (map IZR [1; -2; 3; 0; 4; -1; 2; 2]%Z)
    (pass_var_to_fac_messages (map IZR ex_fix_z) (map IZR ex_ev_z) (bc_var_states_for_edges (ex_c 0)))
  = map IZR ex_fix_new.
Proof.
  rewrite <- !Q2R_Z, <- vtof_Q. change 0%R with (n0 : R). rewrite <- (ftov_Q (ex_state inject_Z)) by (repeat split). f_equal.
Qed.
Example C32_fixed_nonvacuous : forall n d, (0 <= d <= 1)%R ->
  let a := ex_arrays IZR (map IZR ex_fix_z) (map IZR ex_ev_z) in
  run_bp (ex_c 0) a n d = a /\
  pass_fac_to_var_messages (bs_fg_state (bc_state (ex_c 0))) 0%R (ba_log_potentials a)
    (pass_var_to_fac_messages (ba_ftov_msgs a) (ba_evidence a) (bc_var_states_for_edges (ex_c 0))) <> ba_ftov_msgs a.
Proof.
  intros n d Hd a. destruct (ex_given 0) as [_ [_ [H3 [H4 _]]]].
  assert (Ha : arrays_of (ex_c 0) a) by now apply ex_arrays_of.
  split.
  - apply (C32_fixed_point ex_g 0%R (ex_c 0) H3 H4 a Ha d n); [exact ex_supported| |].
    + intros f u Hf Hu. assert (Hf4 : f < 4) by exact Hf.
      destruct f as [|[|[|[|f]]]]; try lia;
        (destruct u as [|[|[|u]]]; [| | |]; try (exfalso; vm_compute in Hu; lia));
        (split; [first [exists 0; split; [vm_compute; lia|cbn; lra] | exists 1; split; [vm_compute; lia|cbn; lra] | exists 2; split; [vm_compute; lia|cbn; lra]]|
          intros s Hs; destruct s as [|[|[|s]]]; try (exfalso; vm_compute in Hs; lia); cbn; lra]).
    + intros f u Hf Hu. assert (Hf4 : f < 4) by exact Hf. cbn [ba_log_potentials ba_ftov_msgs ba_evidence a ex_arrays]. rewrite ex_fix_update.
      exists (read_msgs ex_rfs (map IZR ex_fix_new) f u 0%nat - read_msgs ex_rfs (map IZR ex_fix_z) f u 0%nat)%R.
      destruct f as [|[|[|[|f]]]]; try lia;
        (destruct u as [|[|[|u]]]; try (exfalso; vm_compute in Hu; lia));
        (split; [cbn; unfold neg_inf; nra|intros s Hs; destruct s as [|[|[|s]]]; try (exfalso; vm_compute in Hs; lia); cbn; lra]).
  - cbn [ba_log_potentials ba_ftov_msgs ba_evidence a ex_arrays]. rewrite ex_fix_update. cbn. intros E. injection E. intros. lra.
Qed.

(** ** C39: run_bp is textbook belief propagation *)
Theorem C39_textbook :
  forall vgs (g : fgraph R) T (c : bp_ctx R),
  groups_ok vgs -> reachable vgs g -> wf_groups (gr_groups g) -> bp_of g T c ->
  forall a, arrays_of c a ->
  let fs := graph_factors 0%R (gr_groups g) in
  let pots := graph_pots (gr_groups g) (ba_log_potentials a) in
  let ev := read_ev (gr_vars_to_starts g) (ba_evidence a) in
  let lens := map snd (sf_edges fs) in
  let text d n := text_bp fs pots T d ev (read_msgs fs (ba_ftov_msgs a)) n in
  forall d n, supported lens ->
  (forall i, i <= n -> above_floor lens (unnormalised c a d i)) ->
  (forall i, i < n -> in_range fs pots (length (enum_factors (gr_groups g))) T (var_to_fac fs ev (text d i))) ->
  msg_eq fs (read_msgs fs (ba_ftov_msgs (run_bp c a n d))) (text d n).
Proof. exact C39_lemma. Qed.
Print Assumptions C39_textbook.

Theorem C39_bounded :
  forall vgs (g : fgraph R) T (c : bp_ctx R),
  groups_ok vgs -> reachable vgs g -> wf_groups (gr_groups g) -> bp_of g T c ->
  forall a, arrays_of c a ->
  let fs := graph_factors 0%R (gr_groups g) in
  let pots := graph_pots (gr_groups g) (ba_log_potentials a) in
  let ev := read_ev (gr_vars_to_starts g) (ba_evidence a) in
  let lens := map snd (sf_edges fs) in
  forall B P D K, moderate fs pots (length (enum_factors (gr_groups g))) ev B P D K ->
  (0 <= T)%R -> supported lens -> above_floor lens (ba_ftov_msgs a) ->
  forall d n, (0 <= d <= 1)%R ->
  msg_eq fs (read_msgs fs (ba_ftov_msgs (run_bp c a n d)))
    (text_bp fs pots T d ev (read_msgs fs (ba_ftov_msgs a)) n).
Proof. exact C39_bounded_lemma. Qed.
Print Assumptions C39_bounded.

Example C39_nonvacuous : forall T n d, (0 <= T)%R -> (0 <= d <= 1)%R ->
  msg_eq ex_rfs (read_msgs ex_rfs (ba_ftov_msgs (run_bp (ex_c T) ex_a n d)))
    (text_bp ex_rfs (graph_pots (gr_groups ex_g) (ba_log_potentials ex_a)) T d
       (read_ev (gr_vars_to_starts ex_g) (ba_evidence ex_a)) (read_msgs ex_rfs (ba_ftov_msgs ex_a)) n).
Proof.
  intros T n d HT Hd. destruct (ex_given T) as [H1 [H2 [H3 [H4 H5]]]].
  exact (C39_bounded ex_vgs ex_g T (ex_c T) H1 H2 H3 H4 ex_a H5 10%R 10%R 10 2 ex_moderate HT ex_supported ex_above d n Hd).
Qed.
