(** * Property C54: which inputs can influence a result. *)
From Verif Require Import NumPy Lists VGroup FGraph BPState BP SpecVGroup SpecFGraph SpecFactor SpecAdd SpecWiring SpecState SpecBP SpecText SpecBeliefs SpecPerm SpecLocal.
From Verif Require Import LemRun LemBeliefs LemPerm LemLocal ExBP PropsMsgs PropsRun PropsBeliefs PropsPerm PropsStable.
From Coq Require Import Reals Lra Lia QArith Permutation.
Local Close Scope Q_scope.
Local Close Scope R_scope.
Local Open Scope nat_scope.

(** ** C54 *)
(** Two graphs, the first embedded in the second: factors, variables and states correspond by
    [p], [w], [r], [t]. A message after [n] iterations is the same in both runs if the inputs
    agree wherever they can reach it within [n] iterations ([same_within]). *)
Theorem C54_messages :
  forall vgs vgs' (g g' : fgraph R) T (c c' : bp_ctx R),
  groups_ok vgs -> reachable vgs g -> wf_groups (gr_groups g) -> bp_of g T c ->
  groups_ok vgs' -> reachable vgs' g' -> wf_groups (gr_groups g') -> bp_of g' T c' ->
  forall a a', arrays_of c a -> arrays_of c' a' ->
  let fs := graph_factors 0%R (gr_groups g) in
  let fs' := graph_factors 0%R (gr_groups g') in
  let pots := graph_pots (gr_groups g) (ba_log_potentials a) in
  let pots' := graph_pots (gr_groups g') (ba_log_potentials a') in
  let lens := map snd (sf_edges fs) in
  let lens' := map snd (sf_edges fs') in
  let ev := read_ev (gr_vars_to_starts g) (ba_evidence a) in
  let ev' := read_ev (gr_vars_to_starts g') (ba_evidence a') in
  let msgs b := read_msgs fs (ba_ftov_msgs b) in
  let msgs' b := read_msgs fs' (ba_ftov_msgs b) in
  forall d B P B' P' D K D' K', (0 <= T)%R -> (0 <= d <= 1)%R ->
  moderate fs pots (length (enum_factors (gr_groups g))) ev B P D K ->
  moderate fs' pots' (length (enum_factors (gr_groups g'))) ev' B' P' D' K' ->
  supported lens -> supported lens' -> above_floor lens (ba_ftov_msgs a) -> above_floor lens' (ba_ftov_msgs a') ->
  forall p w r t, embeds fs fs' p w r t ->
  forall n f u, f < length fs -> u < arity fs f ->
  same_within fs fs' p w r t pots pots' ev ev' (msgs a) (msgs' a') n f u ->
  same_msg fs p w t (msgs (run_bp c a n d)) (msgs' (run_bp c' a' n d)) f u.
Proof. exact C54_messages_lemma. Qed.
Print Assumptions C54_messages.

(** So are the beliefs of a variable, and its decoded state, if this holds for the messages
    to it. The rows correspond state by state. *)
Theorem C54_beliefs :
  forall vgs vgs' (g g' : fgraph R) T (c c' : bp_ctx R),
  groups_ok vgs -> reachable vgs g -> wf_groups (gr_groups g) -> bp_of g T c ->
  groups_ok vgs' -> reachable vgs' g' -> wf_groups (gr_groups g') -> bp_of g' T c' ->
  forall a a', arrays_of c a -> arrays_of c' a' ->
  let fs := graph_factors 0%R (gr_groups g) in
  let fs' := graph_factors 0%R (gr_groups g') in
  let pots := graph_pots (gr_groups g) (ba_log_potentials a) in
  let pots' := graph_pots (gr_groups g') (ba_log_potentials a') in
  let lens := map snd (sf_edges fs) in
  let lens' := map snd (sf_edges fs') in
  let ev := read_ev (gr_vars_to_starts g) (ba_evidence a) in
  let ev' := read_ev (gr_vars_to_starts g') (ba_evidence a') in
  let msgs b := read_msgs fs (ba_ftov_msgs b) in
  let msgs' b := read_msgs fs' (ba_ftov_msgs b) in
  forall d B P B' P' D K D' K', (0 <= T)%R -> (0 <= d <= 1)%R ->
  moderate fs pots (length (enum_factors (gr_groups g))) ev B P D K ->
  moderate fs' pots' (length (enum_factors (gr_groups g'))) ev' B' P' D' K' ->
  supported lens -> supported lens' -> above_floor lens (ba_ftov_msgs a) -> above_floor lens' (ba_ftov_msgs a') ->
  forall p w r t, embeds fs fs' p w r t ->
  (forall gr n, In gr vgs -> In n (vg_num_states gr) -> 0 < n) -> (forall gr, In gr vgs -> one_state gr = false) ->
  (forall gr n, In gr vgs' -> In n (vg_num_states gr) -> 0 < n) -> (forall gr, In gr vgs' -> one_state gr = false) ->
  forall n, exists b q b' q', get_beliefs c (run_bp c a n d) = Ok b /\ decode_map_states b = Ok q /\
    get_beliefs c' (run_bp c' a' n d) = Ok b' /\ decode_map_states b' = Ok q' /\
  forall gr gr', In gr vgs -> In gr' vgs' -> exists e y e' y',
    dget vg_eqb gr b = Some e /\ dget vg_eqb gr q = Some y /\ dget vg_eqb gr' b' = Some e' /\ dget vg_eqb gr' q' = Some y' /\
  forall i x i', nth_error (vg_variables gr) i = Some x -> nth_error (vg_variables gr') i' = Some (r x) ->
    snd (r x) = snd x -> perm_below (snd x) (t x) -> same_var fs fs' p w r t ev ev' x ->
    (forall f u, In (f, u) (slots_of fs x) -> same_within fs fs' p w r t pots pots' ev ev' (msgs a) (msgs' a') n f u) ->
    (forall s, s < snd x -> nth_error (row gr' e' i') (t x s) = nth_error (row gr e i) s) /\
    ((forall s, s < snd x -> t x s = s) -> cell gr' y' i' = cell gr y i).
Proof. exact C54_beliefs_lemma. Qed.
Print Assumptions C54_beliefs.

(** One graph, two sets of arrays: after [n] iterations the beliefs and the decoded state of a
    variable depend only on the evidence and initial messages of variables at most [n] factors
    away, and on the potentials of the factors in between. *)
Theorem C54_far :
  forall vgs (g : fgraph R) T (c : bp_ctx R),
  groups_ok vgs -> reachable vgs g -> wf_groups (gr_groups g) -> bp_of g T c ->
  forall a a', arrays_of c a -> arrays_of c a' ->
  let fs := graph_factors 0%R (gr_groups g) in
  let pots b := graph_pots (gr_groups g) (ba_log_potentials b) in
  let ne := length (enum_factors (gr_groups g)) in
  let lens := map snd (sf_edges fs) in
  let evs b := read_ev (gr_vars_to_starts g) (ba_evidence b) in
  let msgs b := read_msgs fs (ba_ftov_msgs b) in
  forall d B P B' P' D K D' K', (0 <= T)%R -> (0 <= d <= 1)%R ->
  moderate fs (pots a) ne (evs a) B P D K -> moderate fs (pots a') ne (evs a') B' P' D' K' ->
  supported lens -> above_floor lens (ba_ftov_msgs a) -> above_floor lens (ba_ftov_msgs a') ->
  (forall gr n, In gr vgs -> In n (vg_num_states gr) -> 0 < n) -> (forall gr, In gr vgs -> one_state gr = false) ->
  forall n, exists b q b' q', get_beliefs c (run_bp c a n d) = Ok b /\ decode_map_states b = Ok q /\
    get_beliefs c (run_bp c a' n d) = Ok b' /\ decode_map_states b' = Ok q' /\
  forall gr, In gr vgs -> exists e y e' y',
    dget vg_eqb gr b = Some e /\ dget vg_eqb gr q = Some y /\ dget vg_eqb gr b' = Some e' /\ dget vg_eqb gr q' = Some y' /\
  forall i x, nth_error (vg_variables gr) i = Some x ->
    (forall z s, within fs x n z -> s < snd z -> evs a' z s = evs a z s) ->
    (forall f u s, f < length fs -> u < arity fs f -> within fs x n (var_at fs f u) -> s < snd (var_at fs f u) -> msgs a' f u s = msgs a f u s) ->
    (forall k f z j, k < n -> f < length fs -> In z (sf_vars (factor_at fs f)) -> within fs x k z ->
       j < length (sf_configs (factor_at fs f)) -> pots a' f j = pots a f j) ->
    (forall s, s < snd x -> nth_error (row gr e' i) s = nth_error (row gr e i) s) /\ cell gr y' i = cell gr y i.
Proof. exact C54_far_lemma. Qed.
Print Assumptions C54_far.

(** Adding factors to a graph: after [n] iterations the beliefs and the decoded state of a
    variable more than [n] factors away from all variables of the new factors are the same. *)
Theorem C54_added :
  forall vgs (g g' : fgraph R) T c c' eu a a' extra,
  groups_ok vgs -> reachable vgs g -> reachable vgs g' -> wf_groups (gr_groups g) -> wf_groups (gr_groups g') ->
  let fs := graph_factors 0%R (gr_groups g) in
  let fs' := graph_factors 0%R (gr_groups g') in
  Permutation fs' (fs ++ extra) ->
  fresh_bp g T c -> fresh_bp g' T c' -> bp_init c None None eu = Ok a -> bp_init c' None None eu = Ok a' ->
  forall B P D K d n,
  moderate fs' (fun f k => nth k (sf_pots (factor_at fs' f)) 0%R) (length fs') (read_ev (gr_vars_to_starts g) (ba_evidence a)) B P D K ->
  (0 <= T)%R -> (0 <= d <= 1)%R -> supported (map snd (sf_edges fs')) ->
  (forall gr k, In gr vgs -> In k (vg_num_states gr) -> 0 < k) -> (forall gr, In gr vgs -> one_state gr = false) ->
  exists b q b' q', get_beliefs c (run_bp c a n d) = Ok b /\ decode_map_states b = Ok q /\
    get_beliefs c' (run_bp c' a' n d) = Ok b' /\ decode_map_states b' = Ok q' /\
  forall gr, In gr vgs -> exists e y e' y',
    dget vg_eqb gr b = Some e /\ dget vg_eqb gr q = Some y /\ dget vg_eqb gr b' = Some e' /\ dget vg_eqb gr q' = Some y' /\
  forall i x, nth_error (vg_variables gr) i = Some x ->
    (forall F z, In F extra -> In z (sf_vars F) -> ~ within fs x n z) ->
    (forall s, s < snd x -> nth_error (row gr e' i) s = nth_error (row gr e i) s) /\ cell gr y' i = cell gr y i.
Proof. exact C54_added_lemma. Qed.
Print Assumptions C54_added.

(** In the example graph two factors lead from the first variable [b0] to [b3], and no single
    one does. *)
Lemma ex_one_step x z : within ex_rfs x 1 z -> x = z \/ exists f, f < 4 /\ In x (sf_vars (factor_at ex_rfs f)) /\ In z (sf_vars (factor_at ex_rfs f)).
Proof.
  intros H. inversion H as [|n y z' f Hy Hf H1 H2]; subst; [now left|]. right. exists f. split; [exact Hf|].
  inversion Hy; subst. now split.
Qed.
Lemma ex_far : ~ within ex_rfs b0 1 b3 /\ within ex_rfs b0 2 b3.
Proof.
  split.
  - intros H. apply ex_one_step in H. destruct H as [H|[f [Hf [H1 H2]]]]; [discriminate|].
    destruct f as [|[|[|[|f]]]]; [| | | |lia]; cbn in H1, H2; intuition discriminate.
  - apply (within_step _ _ 1 b1 b3 3); [|cbn; lia|cbn; auto|cbn; auto]. apply (within_step _ _ 0 b0 b1 2); [apply within_refl|cbn; lia|cbn; auto|cbn; auto].
Qed.
(** Other evidence for [b3], and other potentials for the second factor, on [b1] and [b4]. *)
Definition ex_far_ev : list Z := [3; 0; -1; 2; 0; 1; 5; -5; 2; -2; 1]%Z.
Definition ex_far_a : bp_arrays R :=
  {| ba_log_potentials := map IZR [1; -2; 3; 0; 0; 5; 5; 0]%Z; ba_ftov_msgs := ba_ftov_msgs ex_a; ba_evidence := map IZR ex_far_ev |}.
Lemma ex_far_moderate : moderate ex_rfs (graph_pots (gr_groups ex_g) (ba_log_potentials ex_far_a)) (length (enum_factors (gr_groups ex_g)))
  (read_ev (gr_vars_to_starts ex_g) (ba_evidence ex_far_a)) 10 10 10 2.
Proof.
  destruct ex_moderate as [_ [_ [M3 [M4 [M5 [M6 M7]]]]]]. split; [|split; [|repeat split; assumption]].
  - intros x s _ _. unfold read_ev. generalize (start_of (gr_vars_to_starts ex_g) x + s). intros i. do 11 (destruct i as [|i]; [cbn; lra|]); destruct i; cbn; lra.
  - intros f k Hf Hk. assert (f < 2) by exact Hf. unfold graph_pots. destruct (f <? _); [|lra]. unfold read_pots.
    match goal with |- (_ <= nth ?i _ _)%R => generalize i end. intros i. do 8 (destruct i as [|i]; [cbn; lra|]); destruct i; cbn; lra.
Qed.
Example C54_far_nonvacuous : forall T d, (0 <= T)%R -> (0 <= d <= 1)%R -> exists b b' e e',
  get_beliefs (ex_c T) (run_bp (ex_c T) ex_a 1 d) = Ok b /\ get_beliefs (ex_c T) (run_bp (ex_c T) ex_far_a 1 d) = Ok b' /\
  dget vg_eqb (VA ex_vg) b = Some e /\ dget vg_eqb (VA ex_vg) b' = Some e' /\
  forall s, s < 2 -> nth_error (row (VA ex_vg) e' 0) s = nth_error (row (VA ex_vg) e 0) s.
Proof.
  intros T d HT Hd. destruct (ex_given T) as [H1 [H2 [H3 [H4 H5]]]]. assert (H6 : arrays_of (ex_c T) ex_far_a) by (repeat split).
  destruct (C54_far ex_vgs ex_g T (ex_c T) H1 H2 H3 H4 ex_a ex_far_a H5 H6 d 10%R 10%R 10%R 10%R 10 2 10 2 HT Hd ex_moderate ex_far_moderate ex_supported ex_above ex_above ex_pos ex_not_one 1)
    as [b [q [b' [q' [E1 [_ [E2 [_ C]]]]]]]].
  destruct (C (VA ex_vg) (or_introl eq_refl)) as [e [y [e' [y' [E3 [_ [E4 [_ R]]]]]]]]. exists b, b', e, e'. do 4 (split; [assumption|]).
  apply (R 0 b0 eq_refl).
  - intros z s Hz Hs. apply ex_one_step in Hz. destruct Hz as [<-|[f [Hf [F1 F2]]]]; [destruct s as [|[|s]]; [reflexivity|reflexivity|cbn in Hs; lia]|].
    destruct f as [|[|[|[|f]]]]; [| | | |lia]; cbn in F1; try (exfalso; intuition discriminate); cbn in F2;
      repeat (destruct F2 as [<-|F2]; [destruct s as [|[|[|s]]]; try reflexivity; cbn in Hs; lia|]); destruct F2.
  - intros f u s _ _ _ _. reflexivity.
  - intros k f z j Hk Hf Hz Hw Hj. assert (k = 0) by lia. subst k. inversion Hw; subst z.
    assert (f < 4) by exact Hf. destruct f as [|[|[|[|f]]]]; [| | | |lia]; cbn in Hz; try (exfalso; intuition discriminate); [|reflexivity].
    do 4 (destruct j as [|j]; [reflexivity|]). cbn in Hj. lia.
Qed.
(** The other variables of the graph do change, and after two iterations so does the first
    one: the beliefs computed with rational numbers, each undamped iteration starting with
    messages [ex_msgs_z]. *)
Definition ex_far_run (ev : list Z) (n : nat) : option (gdata (ext Q)) :=
  match get_beliefs (ex_ctx inject_Z 0%Q) (run_bp (ex_ctx inject_Z 0%Q) (ex_arrays inject_Z (map inject_Z ex_msgs_z) (map inject_Z ev)) n 0%Q) with
  | Ok b => dget vg_eqb (VA ex_vg) b
  | Raise _ => None
  end.
Example C54_far_computed :
  match ex_far_run ex_ev_z 1, ex_far_run ex_far_ev 1, ex_far_run ex_ev_z 2, ex_far_run ex_far_ev 2 with
  | Some b1, Some b1', Some b2, Some b2' =>
      row (VA ex_vg) b1 0 = row (VA ex_vg) b1' 0 /\ row (VA ex_vg) b1 1 <> row (VA ex_vg) b1' 1 /\
      row (VA ex_vg) b2 0 <> row (VA ex_vg) b2' 0
  | _, _, _, _ => False
  end.
Proof. vm_compute. repeat split; discriminate. Qed.

(** The example graph with one more factor, on [b3] alone. *)
Section More.
  Context {A : Type} (p : Z -> A).
  Definition ex3_unary : fgroup A :=
    {| fg_id := 21; fg_kind := KEnum; fg_type := TEnum; fg_vars := [[b3]];
       fg_configs := mkArr [2; 1] [0; 1]%Z; fg_log_potentials := map p [6; -6]%Z |}.
  Definition ex3_graph : fgraph A := fst (add_factors (AList (map AGroup (ex_list p ++ [ex3_unary]))) (FactorGraph (GsList ex_vgs))).
  Definition ex3_state : fg_state A :=
    ltac:(let r := eval vm_compute in (compile_fg_state (fun _ => 0%Z) ex3_graph) in
          match r with Ok ?s => exact s end).
  Lemma ex3_compiles : compile_fg_state (fun _ => 0%Z) ex3_graph = Ok ex3_state.
  Proof. vm_compute. reflexivity. Qed.
  Lemma ex3_reach : reachable ex_vgs ex3_graph.
  Proof. apply reach_add, reach_new. reflexivity. Qed.
  Lemma ex3_groups : gr_groups ex3_graph = PT [ex_enum p; ex3_unary] [ex_or] [ex_and].
  Proof. reflexivity. Qed.
  Lemma ex3_wf : wf_groups (gr_groups ex3_graph).
  Proof.
    intros t g Hg. rewrite ex3_groups in Hg. assert (W : In g (pt_get t (gr_groups (ex_graph p))) \/ t = TEnum /\ g = ex3_unary).
    { destruct t; cbn in Hg.
      - destruct Hg as [<-|[<-|[]]]; [left; now left|now right].
      - left. exact Hg.
      - left. exact Hg. }
    destruct W as [W|[-> ->]]; [now apply (ex_wf p)|].
    split; [reflexivity|]. split; [|discriminate]. exists 2. split; [reflexivity|].
    intros vs [<-|[]]. split; [reflexivity|]. intros r u x Hr Hu. destruct u as [|u]; [|destruct u; discriminate]. injection Hu as <-.
    destruct r as [|[|r]]; [| |lia]; vm_compute; split; congruence.
  Qed.
End More.
Definition ex3_extra : sfactor R := SF [b3] [[0]; [1]]%Z (map IZR [6; -6]%Z).
Definition ex3_fs : list (sfactor R) := [nth 0 ex_rfs ex3_extra; nth 1 ex_rfs ex3_extra; ex3_extra; nth 2 ex_rfs ex3_extra; nth 3 ex_rfs ex3_extra].
Lemma ex3_factors : graph_factors 0%R (gr_groups (ex3_graph IZR)) = ex3_fs.
Proof. reflexivity. Qed.
Lemma ex3_perm : Permutation ex3_fs (ex_rfs ++ [ex3_extra]).
Proof. change ex_rfs with [nth 0 ex_rfs ex3_extra; nth 1 ex_rfs ex3_extra; nth 2 ex_rfs ex3_extra; nth 3 ex_rfs ex3_extra]. do 2 apply perm_skip. apply (Permutation_cons_append [_; _]). Qed.
Lemma ex3_fresh T : exists c', fresh_bp (ex3_graph IZR) T c' /\ exists a', bp_init c' None None (Some ex_updates) = Ok a'.
Proof.
  destruct (BP {| bs_log_potentials := {| c_state := (7, ex3_state IZR); c_value := st_log_potentials (ex3_state IZR) |};
       bs_ftov_msgs := {| c_state := (7, ex3_state IZR); c_value := repeat 0%R 24 |};
       bs_evidence := {| c_state := (7, ex3_state IZR); c_value := repeat 0%R 11 |} |} T) as [c'|e] eqn:E; [|discriminate].
  exists c'. split; [exists (fun _ => 0%Z), (ex3_state IZR), 7; eexists; split; [exact (ex3_compiles IZR)|]; split; [reflexivity|exact E]|].
  injection E as <-. eexists. reflexivity.
Qed.
Lemma ex3_moderate : moderate ex3_fs (fun f k => nth k (sf_pots (factor_at ex3_fs f)) 0%R) (length ex3_fs)
  (read_ev (gr_vars_to_starts ex_g) ex_evidence) 10 10 11 3.
Proof.
  split; [|split; [|split; [|split; [|split; [|split]]]]].
  - intros x s _ _. unfold read_ev. generalize (start_of (gr_vars_to_starts ex_g) x + s). intros i. unfold ex_evidence.
    do 11 (destruct i as [|i]; [cbn; lra|]). destruct i; cbn; lra.
  - intros f k Hf _. assert (Hf5 : f < 5) by exact Hf.
    destruct f as [|[|[|[|[|]]]]]; [| | | | |lia]; (do 4 (destruct k as [|k]; [cbn; lra|])); destruct k; cbn; lra.
  - intros x. unfold slots_of. eapply Nat.le_trans; [apply filter_length_le|]. vm_compute. lia.
  - intros f Hf. assert (Hf5 : f < 5) by exact Hf. destruct f as [|[|[|[|[|]]]]]; [| | | | |lia]; vm_compute; lia.
  - intros f u s Hf Hu Hs. assert (Hf5 : f < 5) by exact Hf.
    destruct f as [|[|[|[|[|]]]]]; [| | | | |lia]; (destruct u as [|[|[|]]]; try (exfalso; vm_compute in Hu; lia));
      (destruct s as [|[|[|]]]; try (exfalso; vm_compute in Hs; lia); vm_compute; discriminate).
  - cbn [INR]. lra.
  - cbn [INR]. lra.
Qed.
Lemma ex3_supported : supported (map snd (sf_edges ex3_fs)).
Proof. split; [vm_compute; discriminate|]. intros n Hn. vm_compute in Hn. repeat (destruct Hn as [<-|Hn]; [lia|]). destruct Hn. Qed.
Example C54_added_nonvacuous : forall T d, (0 <= T)%R -> (0 <= d <= 1)%R ->
  exists c' a' b b' e e', fresh_bp (ex3_graph IZR) T c' /\ bp_init c' None None (Some ex_updates) = Ok a' /\
  get_beliefs (ex_c T) (run_bp (ex_c T) (ex_arrays IZR (repeat 0%R 22) ex_evidence) 1 d) = Ok b /\
  get_beliefs c' (run_bp c' a' 1 d) = Ok b' /\
  dget vg_eqb (VA ex_vg) b = Some e /\ dget vg_eqb (VA ex_vg) b' = Some e' /\
  forall s, s < 2 -> nth_error (row (VA ex_vg) e' 0) s = nth_error (row (VA ex_vg) e 0) s.
Proof.
  intros T d HT Hd. destruct (ex2_fresh T) as [F1 [_ [_ [I1 _]]]]. destruct (ex3_fresh T) as [c' [F2 [a' I2]]]. destruct (ex_given T) as [H1 [H2 [H3 _]]].
  destruct (C54_added ex_vgs ex_g (ex3_graph IZR) T (ex_c T) c' (Some ex_updates) _ a' [ex3_extra] H1 H2 (ex3_reach IZR) H3 (ex3_wf IZR) ex3_perm F1 F2 I1 I2
    10%R 10%R 11 3 d 1 ex3_moderate HT Hd ex3_supported ex_pos ex_not_one) as [b [q [b' [q' [E1 [_ [E2 [_ C]]]]]]]].
  destruct (C (VA ex_vg) (or_introl eq_refl)) as [e [y [e' [y' [E3 [_ [E4 [_ R]]]]]]]]. exists c', a', b, b', e, e'. do 6 (split; [assumption|]).
  apply (R 0 b0 eq_refl). intros F z [<-|[]] [<-|[]]. apply ex_far.
Qed.

(** The example graph with the states of [b4] numbered backwards, [b4] first in its factors
    and the configurations listed from the last to the first. *)
Section Renumbered.
  Context {A : Type} (p : Z -> A).
  Definition ex4_enum : fgroup A :=
    {| fg_id := 31; fg_kind := KEnum; fg_type := TEnum; fg_vars := [[b4; b0]; [b4; b1]];
       fg_configs := mkArr [4; 2] [0; 1; 1; 1; 0; 0; 2; 0]%Z; fg_log_potentials := map p [0; 3; -2; 1; 2; 2; -1; 4]%Z |}.
  Definition ex4_graph : fgraph A := fst (add_factors (AList (map AGroup [ex4_enum; ex_or; ex_and])) (FactorGraph (GsList ex_vgs))).
  Definition ex4_state : fg_state A :=
    ltac:(let r := eval vm_compute in (compile_fg_state (fun _ => 0%Z) ex4_graph) in
          match r with Ok ?s => exact s end).
  Lemma ex4_compiles : compile_fg_state (fun _ => 0%Z) ex4_graph = Ok ex4_state.
  Proof. vm_compute. reflexivity. Qed.
  Lemma ex4_reach : reachable ex_vgs ex4_graph.
  Proof. apply reach_add, reach_new. reflexivity. Qed.
  Lemma ex4_groups : gr_groups ex4_graph = PT [ex4_enum] [ex_or] [ex_and].
  Proof. reflexivity. Qed.
  Lemma ex4_wf : wf_groups (gr_groups ex4_graph).
  Proof.
    intros t g Hg. rewrite ex4_groups in Hg. destruct t; [|now apply (ex_wf p TOr)|now apply (ex_wf p TAnd)]. destruct Hg as [<-|[]].
    split; [reflexivity|]. split; [|discriminate]. exists 4. split; [reflexivity|].
    intros vs Hvs. split; [destruct Hvs as [<-|[<-|[]]]; reflexivity|]. intros r u x Hr Hu.
    assert (Hu2 : u < 2) by (assert (E : length vs = 2) by (destruct Hvs as [<-|[<-|[]]]; reflexivity); rewrite <- E; apply nth_error_Some; congruence).
    destruct Hvs as [<-|[<-|[]]]; destruct r as [|[|[|[|]]]]; try lia; destruct u as [|[|]]; try lia; injection Hu as <-; vm_compute; split; congruence.
  Qed.
End Renumbered.
Definition ex4_fs : list (sfactor R) :=
  [SF [b4; b0] [[0; 1]; [1; 1]; [0; 0]; [2; 0]]%Z (map IZR [0; 3; -2; 1]%Z); SF [b4; b1] [[0; 1]; [1; 1]; [0; 0]; [2; 0]]%Z (map IZR [2; 2; -1; 4]%Z);
   nth 2 ex_rfs ex3_extra; nth 3 ex_rfs ex3_extra].
Lemma ex4_factors : graph_factors 0%R (gr_groups (ex4_graph IZR)) = ex4_fs.
Proof. reflexivity. Qed.
Definition ex4_a : bp_arrays R :=
  {| ba_log_potentials := map IZR [0; 3; -2; 1; 2; 2; -1; 4]%Z;
     ba_ftov_msgs := map IZR [-3; -2; 0; 0; -1; 0; -1; 0; -5; 0; 0; -4; -1; 0; 0; -2; 0; 0; -3; 0; 0; -1]%Z;
     ba_evidence := map IZR [3; 0; -1; 2; 0; 1; -4; 0; 1; -2; 2]%Z |}.
Lemma ex4_bp T : exists c', bp_of (ex4_graph IZR) T c' /\ arrays_of c' ex4_a.
Proof.
  destruct (BP {| bs_log_potentials := {| c_state := (8, ex4_state IZR); c_value := st_log_potentials (ex4_state IZR) |};
       bs_ftov_msgs := {| c_state := (8, ex4_state IZR); c_value := repeat 0%R 22 |};
       bs_evidence := {| c_state := (8, ex4_state IZR); c_value := repeat 0%R 11 |} |} T) as [c'|e] eqn:E; [|discriminate].
  exists c'. split; [exists (fun _ => 0%Z); eexists; split; [|exact E]; exact (ex4_compiles IZR)|]. injection E as <-. repeat split.
Qed.
Definition ex4_w (f u : nat) : nat := if f <? 2 then 1 - u else u.
Definition ex4_t (x : variable) (s : nat) : nat := if var_eqb x b4 then 2 - s else s.
Ltac ex_four f := assert (f < 4) by assumption; destruct f as [|[|[|[|f]]]]; [| | | |lia].
Ltac ex_slot H u := destruct u as [|[|[|u]]]; try (exfalso; vm_compute in H; lia).
Ltac ex_state H s := destruct s as [|[|[|s]]]; try (exfalso; vm_compute in H; lia).
Lemma ex_t_perm x : In x [b0; b1; b2; b3; b4] -> perm_below (snd x) (ex4_t x).
Proof.
  intros H. cbn [In] in H. assert (W : perm_below 3 (fun s => 2 - s)) by (split; lia).
  destruct H as [<-|[<-|[<-|[<-|[<-|[]]]]]]; first [exact W|exact (perm_below_id 2)].
Qed.
Lemma ex_edge x : In x (sf_edges ex_rfs) -> In x [b0; b1; b2; b3; b4].
Proof. intros H. vm_compute in H. repeat (destruct H as [<-|H]; [cbn; tauto|]). destruct H. Qed.
Lemma ex4_embeds : embeds ex_rfs ex4_fs (fun f => f) ex4_w (fun x => x) ex4_t.
Proof.
  assert (W : perm_below 2 (fun u => 1 - u)) by (split; lia). split.
  - intros f Hf. ex_four f; (split; [cbn; lia|]); (split; [reflexivity|]); (split; [first [exact W|exact (perm_below_id 3)]|]);
      intros u Hu; ex_slot Hu u; reflexivity.
  - intros x Hx. split; [reflexivity|]. now apply ex_t_perm, ex_edge.
Qed.
Lemma ex4_same_factor f : f < length ex_rfs ->
  same_factor ex_rfs ex4_fs (fun f => f) ex4_w ex4_t (graph_pots (gr_groups ex_g) (ba_log_potentials ex_a)) (graph_pots (gr_groups (ex4_graph IZR)) (ba_log_potentials ex4_a)) f.
Proof.
  intros Hf. assert (M : forall l, Permutation (table ex4_fs (graph_pots (gr_groups (ex4_graph IZR)) (ba_log_potentials ex4_a)) f) l ->
      Forall2 (moved ex_rfs ex4_w ex4_t f) (table ex_rfs (graph_pots (gr_groups ex_g) (ba_log_potentials ex_a)) f) l ->
      same_factor ex_rfs ex4_fs (fun f => f) ex4_w ex4_t (graph_pots (gr_groups ex_g) (ba_log_potentials ex_a)) (graph_pots (gr_groups (ex4_graph IZR)) (ba_log_potentials ex4_a)) f) by (intros l A1 A2; now exists l).
  ex_four f.
  1, 2: eapply M; [apply Permutation_rev|]; repeat constructor; intros u Hu; ex_slot Hu u; reflexivity.
  all: eapply M; [apply Permutation_refl|]; repeat constructor; intros u Hu; ex_slot Hu u; reflexivity.
Qed.
Lemma ex4_same_var x : In x [b0; b1; b2; b3; b4] -> same_var ex_rfs ex4_fs (fun f => f) ex4_w (fun x => x) ex4_t
  (read_ev (gr_vars_to_starts ex_g) (ba_evidence ex_a)) (read_ev (gr_vars_to_starts (ex4_graph IZR)) (ba_evidence ex4_a)) x.
Proof.
  intros H. cbn [In] in H. destruct H as [<-|[<-|[<-|[<-|[<-|[]]]]]];
    (split; [apply Permutation_refl|intros s Hs; ex_state Hs s; reflexivity]).
Qed.
Lemma ex4_same_msg f u : f < length ex_rfs -> u < arity ex_rfs f -> same_msg ex_rfs (fun f => f) ex4_w ex4_t
  (read_msgs ex_rfs (ba_ftov_msgs ex_a)) (read_msgs ex4_fs (ba_ftov_msgs ex4_a)) f u.
Proof. intros Hf Hu s Hs. ex_four f; ex_slot Hu u; ex_state Hs s; reflexivity. Qed.
Lemma ex4_moderate : moderate ex4_fs (graph_pots (gr_groups (ex4_graph IZR)) (ba_log_potentials ex4_a)) (length (enum_factors (gr_groups (ex4_graph IZR))))
  (read_ev (gr_vars_to_starts (ex4_graph IZR)) (ba_evidence ex4_a)) 10 10 10 2.
Proof.
  destruct ex_moderate as [_ [_ [_ [_ [_ [M6 M7]]]]]]. split; [|split; [|split; [|split; [|split; [|split; assumption]]]]].
  - intros x s _ _. unfold read_ev. generalize (start_of (gr_vars_to_starts (ex4_graph IZR)) x + s). intros i. do 11 (destruct i as [|i]; [cbn; lra|]); destruct i; cbn; lra.
  - intros f k Hf Hk. assert (f < 2) by exact Hf. unfold graph_pots. destruct (f <? _); [|lra]. unfold read_pots.
    match goal with |- (_ <= nth ?i _ _)%R => generalize i end. intros i. do 8 (destruct i as [|i]; [cbn; lra|]); destruct i; cbn; lra.
  - intros x. unfold slots_of. eapply Nat.le_trans; [apply filter_length_le|]. vm_compute. lia.
  - intros f Hf. assert (Hf2 : f < 2) by exact Hf. destruct f as [|[|]]; [| |lia]; vm_compute; lia.
  - intros f u s Hf Hu Hs. assert (Hf2 : f < 2) by exact Hf. destruct f as [|[|]]; [| |lia]; ex_slot Hu u; ex_state Hs s; vm_compute; discriminate.
Qed.
Lemma ex4_supported : supported (map snd (sf_edges ex4_fs)).
Proof. split; [vm_compute; discriminate|]. intros n Hn. vm_compute in Hn. repeat (destruct Hn as [<-|Hn]; [lia|]). destruct Hn. Qed.
Lemma ex4_above : above_floor (map snd (sf_edges ex4_fs)) (ba_ftov_msgs ex4_a).
Proof.
  intros e He. right. assert (e < 10) by exact He. unfold neg_inf.
  do 10 (destruct e as [|e]; [eapply Rle_trans; [|apply LemNum.rmaxs_ub; left; reflexivity]; cbn; lra|]). lia.
Qed.
Example C54_beliefs_nonvacuous : forall T d n, (0 <= T)%R -> (0 <= d <= 1)%R ->
  exists c' b b' e e', bp_of (ex4_graph IZR) T c' /\ arrays_of c' ex4_a /\
  get_beliefs (ex_c T) (run_bp (ex_c T) ex_a n d) = Ok b /\ get_beliefs c' (run_bp c' ex4_a n d) = Ok b' /\
  dget vg_eqb (VA ex_vg) b = Some e /\ dget vg_eqb (VA ex_vg) b' = Some e' /\
  (forall s, s < 2 -> nth_error (row (VA ex_vg) e' 0) s = nth_error (row (VA ex_vg) e 0) s) /\
  (forall s, s < 3 -> nth_error (row (VA ex_vg) e' 4) (2 - s) = nth_error (row (VA ex_vg) e 4) s).
Proof.
  intros T d n HT Hd. destruct (ex_given T) as [H1 [H2 [H3 [H4 H5]]]]. destruct (ex4_bp T) as [c' [H6 H7]].
  destruct (C54_beliefs ex_vgs ex_vgs ex_g (ex4_graph IZR) T (ex_c T) c' H1 H2 H3 H4 H1 (ex4_reach IZR) (ex4_wf IZR) H6 ex_a ex4_a H5 H7 d 10%R 10%R 10%R 10%R 10 2 10 2 HT Hd
    ex_moderate ex4_moderate ex_supported ex4_supported ex_above ex4_above _ _ _ _ ex4_embeds ex_pos ex_not_one ex_pos ex_not_one n) as [b [q [b' [q' [E1 [_ [E2 [_ C]]]]]]]].
  destruct (C (VA ex_vg) (VA ex_vg) (or_introl eq_refl) (or_introl eq_refl)) as [e [y [e' [y' [E3 [_ [E4 [_ R]]]]]]]]. exists c', b, b', e, e'. do 6 (split; [assumption|]).
  assert (W : forall x f u, In (f, u) (slots_of ex_rfs x) -> same_within ex_rfs ex4_fs (fun f => f) ex4_w (fun x => x) ex4_t
     (graph_pots (gr_groups ex_g) (ba_log_potentials ex_a)) (graph_pots (gr_groups (ex4_graph IZR)) (ba_log_potentials ex4_a))
     (read_ev (gr_vars_to_starts ex_g) (ba_evidence ex_a)) (read_ev (gr_vars_to_starts (ex4_graph IZR)) (ba_evidence ex4_a))
     (read_msgs ex_rfs (ba_ftov_msgs ex_a)) (read_msgs ex4_fs (ba_ftov_msgs ex4_a)) n f u).
  { intros x f u Hi. apply LemText.In_slots_of in Hi. apply all_same; [exact ex4_same_factor| |exact ex4_same_msg|apply Hi|apply Hi]. intros z Hz. now apply ex4_same_var, ex_edge. }
  split.
  - apply (R 0 b0 0 eq_refl eq_refl eq_refl (ex_t_perm b0 ltac:(cbn; tauto)) (ex4_same_var b0 ltac:(cbn; tauto)) (W b0)).
  - apply (R 4 b4 4 eq_refl eq_refl eq_refl (ex_t_perm b4 ltac:(cbn; tauto)) (ex4_same_var b4 ltac:(cbn; tauto)) (W b4)).
Qed.
