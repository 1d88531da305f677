(** * Property C40: adding constants to evidence. *)
From Verif Require Import NumPy Lists VGroup FGraph BPState BP SpecVGroup SpecFGraph SpecFactor SpecWiring SpecState SpecBP SpecText SpecBeliefs.
From Verif Require Import LemRun LemTransfer LemBeliefs LemShift ExBP PropsRun PropsBeliefs.
From Coq Require Import Reals Lra Lia QArith Qreals.
Local Close Scope Q_scope.
Local Close Scope R_scope.
Local Open Scope nat_scope.

(** The arrays [a] with other evidence. *)
Notation with_evidence a ev := {| ba_log_potentials := ba_log_potentials a; ba_ftov_msgs := ba_ftov_msgs a; ba_evidence := ev |}.
Notation with_msgs a msgs ev := {| ba_log_potentials := ba_log_potentials a; ba_ftov_msgs := msgs; ba_evidence := ev |}.

(** ** C40 *)
(** Add [k x] to the evidence of every state of every variable [x]: the messages are the
    same, as long as both runs stay above NEG_INF. *)
Theorem C40_messages :
  forall vgs (g : fgraph R) T (c : bp_ctx R),
  groups_ok vgs -> reachable vgs g -> wf_groups (gr_groups g) -> bp_of g T c ->
  forall a ev' (k : variable -> R), arrays_of c a ->
  let fs := graph_factors 0%R (gr_groups g) in
  let pots := graph_pots (gr_groups g) (ba_log_potentials a) in
  let lens := map snd (sf_edges fs) in
  let evs := read_ev (gr_vars_to_starts g) in
  length ev' = length (ba_evidence a) ->
  (forall x s, In x (all_vars vgs) -> s < snd x -> evs ev' x s = (evs (ba_evidence a) x s + k x)%R) ->
  forall d n, supported lens ->
  (forall b, b = a \/ b = with_evidence a ev' -> forall i,
     (i <= n -> above_floor lens (unnormalised c b d i)) /\
     (i < n -> in_range fs pots (length (enum_factors (gr_groups g))) T
        (var_to_fac fs (evs (ba_evidence b)) (text_bp fs pots T d (evs (ba_evidence b)) (read_msgs fs (ba_ftov_msgs a)) i)))) ->
  ba_ftov_msgs (run_bp c (with_evidence a ev') n d) = ba_ftov_msgs (run_bp c a n d).
Proof. exact C40_lemma. Qed.
Print Assumptions C40_messages.

Theorem C40_bounded :
  forall vgs (g : fgraph R) T (c : bp_ctx R),
  groups_ok vgs -> reachable vgs g -> wf_groups (gr_groups g) -> bp_of g T c ->
  forall a ev' (k : variable -> R), arrays_of c a ->
  let fs := graph_factors 0%R (gr_groups g) in
  let pots := graph_pots (gr_groups g) (ba_log_potentials a) in
  let lens := map snd (sf_edges fs) in
  let ne := length (enum_factors (gr_groups g)) in
  let evs := read_ev (gr_vars_to_starts g) in
  length ev' = length (ba_evidence a) ->
  (forall x s, In x (all_vars vgs) -> s < snd x -> evs ev' x s = (evs (ba_evidence a) x s + k x)%R) ->
  forall B P D K d n,
  moderate fs pots ne (evs (ba_evidence a)) B P D K -> moderate fs pots ne (evs ev') B P D K ->
  (0 <= T)%R -> (0 <= d <= 1)%R -> supported lens -> above_floor lens (ba_ftov_msgs a) ->
  ba_ftov_msgs (run_bp c (with_evidence a ev') n d) = ba_ftov_msgs (run_bp c a n d).
Proof. exact C40_bounded_lemma. Qed.
Print Assumptions C40_bounded.

(** With the same messages, the beliefs of [x] move by [k x]. *)
Theorem C40_beliefs :
  forall vgs (g : fgraph R) T (c : bp_ctx R),
  groups_ok vgs -> reachable vgs g -> wf_groups (gr_groups g) -> bp_of g T c ->
  forall a ev' (k : variable -> R), arrays_of c a ->
  let evs := read_ev (gr_vars_to_starts g) in
  length ev' = length (ba_evidence a) ->
  (forall x s, In x (all_vars vgs) -> s < snd x -> evs ev' x s = (evs (ba_evidence a) x s + k x)%R) ->
  forall msgs, length msgs = length (ba_ftov_msgs a) ->
  (forall gr n, In gr vgs -> In n (vg_num_states gr) -> 0 < n) ->
  exists r r', get_beliefs c (with_msgs a msgs (ba_evidence a)) = Ok r /\ get_beliefs c (with_msgs a msgs ev') = Ok r' /\
  forall gr, In gr vgs -> exists d d', dget vg_eqb gr r = Some d /\ dget vg_eqb gr r' = Some d' /\
    per_state_shape gr d /\ per_state_shape gr d' /\
    forall i x, nth_error (vg_variables gr) i = Some x -> row gr d' i = map (ext_add (k x)) (row gr d i).
Proof. exact C40_beliefs_lemma. Qed.
Print Assumptions C40_beliefs.

(** MAP states and marginals do not move. *)
Theorem C40_decode :
  forall vgs (g : fgraph R) T (c : bp_ctx R),
  groups_ok vgs -> reachable vgs g -> wf_groups (gr_groups g) -> bp_of g T c ->
  forall a ev' (k : variable -> R), arrays_of c a ->
  let evs := read_ev (gr_vars_to_starts g) in
  length ev' = length (ba_evidence a) ->
  (forall x s, In x (all_vars vgs) -> s < snd x -> evs ev' x s = (evs (ba_evidence a) x s + k x)%R) ->
  forall msgs, length msgs = length (ba_ftov_msgs a) ->
  (forall gr n, In gr vgs -> In n (vg_num_states gr) -> 0 < n) -> (forall gr, In gr vgs -> one_state gr = false) ->
  exists r r' q q' m m', get_beliefs c (with_msgs a msgs (ba_evidence a)) = Ok r /\ get_beliefs c (with_msgs a msgs ev') = Ok r' /\
    decode_map_states r = Ok q /\ decode_map_states r' = Ok q' /\ get_marginals r = Ok m /\ get_marginals r' = Ok m' /\
  forall gr, In gr vgs -> exists d d' p p', dget vg_eqb gr q = Some d /\ dget vg_eqb gr q' = Some d' /\
    dget vg_eqb gr m = Some p /\ dget vg_eqb gr m' = Some p' /\
    forall i, i < length (vg_variables gr) -> cell gr d' i = cell gr d i /\ row gr p' i = row gr p i.
Proof. exact C40_decode_lemma. Qed.
Print Assumptions C40_decode.

(** The example graph, with 20 subtracted from the evidence of the second variable and 5
    added to that of the last one. *)
Definition ex_ev2_z : list Z := [3; 0; -21; -18; 0; 1; -4; 0; 7; 3; 6]%Z.
Definition ex_k (x : variable) : R := if var_eqb x b1 then (-20)%R else if var_eqb x b4 then 5%R else 0%R.
Lemma ex_shift x s : In x (all_vars ex_vgs) -> s < snd x ->
  read_ev (gr_vars_to_starts ex_g) (map IZR ex_ev2_z) x s = (read_ev (gr_vars_to_starts ex_g) (ba_evidence ex_a) x s + ex_k x)%R.
Proof.
  intros Hx Hs. vm_compute in Hx. destruct Hx as [<-|[<-|[<-|[<-|[<-|[]]]]]];
    (destruct s as [|[|[|s]]]; try (cbn in Hs; lia)); cbv -[IZR Rplus]; lra.
Qed.
Lemma ex_moderate2 ev : ev = map IZR ex_ev2_z \/ ev = ba_evidence ex_a ->
  moderate ex_rfs (graph_pots (gr_groups ex_g) (ba_log_potentials ex_a)) (length (enum_factors (gr_groups ex_g))) (read_ev (gr_vars_to_starts ex_g) ev) 30 10 10 2.
Proof.
  intros Hev. destruct ex_moderate as [_ [M2 [M3 [M4 [M5 _]]]]]. split; [|split; [exact M2|split; [exact M3|split; [exact M4|split; [exact M5|split; cbn [INR]; lra]]]]].
  intros x s _ _. unfold read_ev. generalize (start_of (gr_vars_to_starts ex_g) x + s). intros i.
  destruct Hev as [-> | ->]; do 11 (destruct i as [|i]; [cbn; lra|]); destruct i; cbn; lra.
Qed.
Example C40_nonvacuous : forall T n d, (0 <= T)%R -> (0 <= d <= 1)%R ->
  ba_ftov_msgs (run_bp (ex_c T) (with_evidence ex_a (map IZR ex_ev2_z)) n d) = ba_ftov_msgs (run_bp (ex_c T) ex_a n d).
Proof.
  intros T n d HT Hd. destruct (ex_given T) as [H1 [H2 [H3 [H4 H5]]]].
  apply (C40_bounded ex_vgs ex_g T (ex_c T) H1 H2 H3 H4 ex_a (map IZR ex_ev2_z) ex_k H5 eq_refl ex_shift 30%R 10%R 10 2 d n);
    [apply ex_moderate2; auto|apply ex_moderate2; auto|exact HT|exact Hd|exact ex_supported|exact ex_above].
Qed.
Example C40_beliefs_nonvacuous : forall T, exists r r' d d',
  get_beliefs (ex_c T) ex_a = Ok r /\ get_beliefs (ex_c T) (with_evidence ex_a (map IZR ex_ev2_z)) = Ok r' /\
  dget vg_eqb (VA ex_vg) r = Some d /\ dget vg_eqb (VA ex_vg) r' = Some d' /\
  row (VA ex_vg) d' 1 = map (ext_add (-20)) (row (VA ex_vg) d 1) /\ row (VA ex_vg) d' 4 = map (ext_add 5) (row (VA ex_vg) d 4).
Proof.
  intros T. destruct (ex_given T) as [H1 [H2 [H3 [H4 H5]]]].
  destruct (C40_beliefs ex_vgs ex_g T (ex_c T) H1 H2 H3 H4 ex_a (map IZR ex_ev2_z) ex_k H5 eq_refl ex_shift (ba_ftov_msgs ex_a) eq_refl ex_pos) as [r [r' [E [E' D]]]].
  destruct (D (VA ex_vg) (or_introl eq_refl)) as [d [d' [Ed [Ed' [_ [_ Rd]]]]]]. exists r, r', d, d'.
  split; [exact E|]. split; [exact E'|]. split; [exact Ed|]. split; [exact Ed'|]. split; [exact (Rd 1 b1 eq_refl)|exact (Rd 4 b4 eq_refl)].
Qed.

(** Without the hypothesis about NEG_INF the messages can change: the constant -200000 on
    the second variable of the example graph. *)
Definition ex_ev3_z : list Z := [3; 0; -200001; -199998; 0; 1; -4; 0; 2; -2; 1]%Z.
Theorem C40_unbounded_refuted :
  ~ (forall vgs (g : fgraph R) T (c : bp_ctx R),
     groups_ok vgs -> reachable vgs g -> wf_groups (gr_groups g) -> bp_of g T c ->
     forall a ev' (k : variable -> R), arrays_of c a ->
     let fs := graph_factors 0%R (gr_groups g) in
     let lens := map snd (sf_edges fs) in
     let evs := read_ev (gr_vars_to_starts g) in
     length ev' = length (ba_evidence a) ->
     (forall x s, In x (all_vars vgs) -> s < snd x -> evs ev' x s = (evs (ba_evidence a) x s + k x)%R) ->
     forall d n, (0 <= T)%R -> (0 <= d <= 1)%R -> supported lens -> above_floor lens (ba_ftov_msgs a) ->
     ba_ftov_msgs (run_bp c (with_evidence a ev') n d) = ba_ftov_msgs (run_bp c a n d)).
Proof.
  intros H. destruct (ex_given 0) as [H1 [H2 [H3 [H4 H5]]]].
  specialize (H ex_vgs ex_g 0%R (ex_c 0) H1 H2 H3 H4 ex_a (map IZR ex_ev3_z) (fun x => if var_eqb x b1 then (-200000)%R else 0%R) H5 eq_refl).
  cbv zeta in H. assert (Hs : forall x s, In x (all_vars ex_vgs) -> s < snd x ->
    read_ev (gr_vars_to_starts ex_g) (map IZR ex_ev3_z) x s = (read_ev (gr_vars_to_starts ex_g) (ba_evidence ex_a) x s + (if var_eqb x b1 then (-200000)%R else 0%R))%R).
  { intros x s Hx Hs. vm_compute in Hx. destruct Hx as [<-|[<-|[<-|[<-|[<-|[]]]]]];
      (destruct s as [|[|[|s]]]; try (cbn in Hs; lia)); cbv -[IZR Rplus]; lra. }
  specialize (H Hs 0%R 1 ltac:(lra) ltac:(lra) ex_supported ex_above).
  assert (C : same_ctx (ex_ctx inject_Z 0%Q) (ex_c 0)) by (repeat split).
  pose proof (run_Q _ _ (ex_arrays inject_Z (map inject_Z ex_msgs_z) (map inject_Z ex_ev_z)) 1 0%Q C) as Q1.
  pose proof (run_Q _ _ (ex_arrays inject_Z (map inject_Z ex_msgs_z) (map inject_Z ex_ev3_z)) 1 0%Q C) as Q2.
  assert (E1 : map_arrays Q2R (ex_arrays inject_Z (map inject_Z ex_msgs_z) (map inject_Z ex_ev_z)) = ex_a).
  { unfold map_arrays, ex_a, ex_arrays. cbn [ba_log_potentials ba_ftov_msgs ba_evidence]. now rewrite !Q2R_Z. }
  assert (E2 : map_arrays Q2R (ex_arrays inject_Z (map inject_Z ex_msgs_z) (map inject_Z ex_ev3_z)) = with_evidence ex_a (map IZR ex_ev3_z)).
  { unfold map_arrays, ex_a, ex_arrays. cbn [ba_log_potentials ba_ftov_msgs ba_evidence]. now rewrite !Q2R_Z. }
  rewrite E1 in Q1. rewrite E2 in Q2. rewrite RMicromega.Q2R_0 in Q1, Q2. rewrite <- Q1, <- Q2 in H. unfold map_arrays in H. cbn [ba_ftov_msgs] in H.
  apply (f_equal (fun l => nth 6 l 0%R)) in H. rewrite <- RMicromega.Q2R_0, !map_nth in H. apply eqR_Qeq in H. apply Qeq_bool_iff in H.
  match type of H with ?b = true => assert (F : b = false) by (vm_compute; reflexivity) end. rewrite F in H. discriminate H.
Qed.
Print Assumptions C40_unbounded_refuted.
