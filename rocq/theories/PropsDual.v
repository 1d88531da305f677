(** * Property C61: duality of OR and AND factors. *)
From Verif Require Import NumPy Lists VGroup FGraph BPState BP SpecVGroup SpecFGraph SpecFactor SpecAdd SpecWiring SpecState SpecBP SpecText SpecBeliefs SpecPerm SpecLocal SpecDual.
From Verif Require Import LemFGraph LemRun LemBeliefs LemPerm LemLocal LemDual ExBP PropsMsgs PropsRun PropsBeliefs PropsPerm PropsStable.
From Coq Require Import Reals Lra Lia QArith Permutation.
Local Close Scope Q_scope.
Local Close Scope R_scope.
Local Open Scope nat_scope.

(** ** C61 *)
(** Exchange the two states of some variables, among them all variables of logical factors: in
    the configurations of enumeration factors, in the evidence and in the messages. Replace OR
    factors by AND factors and conversely. Then every message after every number of iterations is
    the same with its states exchanged, although OR and AND messages are computed by different
    code. *)
Theorem C61_messages :
  forall vgs (g g' : fgraph R) T (c c' : bp_ctx R),
  groups_ok vgs -> reachable vgs g -> wf_groups (gr_groups g) -> bp_of g T c ->
  reachable vgs g' -> wf_groups (gr_groups g') -> bp_of g' T c' ->
  forall a a', arrays_of c a -> arrays_of c' a' ->
  let fs := graph_factors 0%R (gr_groups g) in
  let fs' := graph_factors 0%R (gr_groups g') in
  let pots := graph_pots (gr_groups g) (ba_log_potentials a) in
  let pots' := graph_pots (gr_groups g') (ba_log_potentials a') in
  let ne := length (enum_factors (gr_groups g)) in
  let ne' := length (enum_factors (gr_groups g')) in
  let lens := map snd (sf_edges fs) in
  let lens' := map snd (sf_edges fs') in
  let ev := read_ev (gr_vars_to_starts g) (ba_evidence a) in
  let ev' := read_ev (gr_vars_to_starts g') (ba_evidence a') in
  let msgs b := read_msgs fs (ba_ftov_msgs b) in
  let msgs' b := read_msgs fs' (ba_ftov_msgs b) in
  forall d B P B' P' D K D' K', (0 <= T)%R -> (0 <= d <= 1)%R ->
  moderate fs pots ne ev B P D K -> moderate fs' pots' ne' ev' B' P' D' K' ->
  supported lens -> supported lens' -> above_floor lens (ba_ftov_msgs a) -> above_floor lens' (ba_ftov_msgs a') ->
  forall fl, dual fl (gr_groups g) (gr_groups g') -> covers fl (gr_groups g) ->
  (forall x, In x (all_vars vgs) -> fl x = true -> snd x = 2) ->
  (forall f k, f < ne -> k < length (sf_configs (factor_at fs f)) -> pots' f k = pots f k) ->
  (forall x s, In x (all_vars vgs) -> s < snd x -> ev' x (turn fl x s) = ev x s) ->
  let p := dual_at (gr_groups g) in
  (forall f u s, f < length fs -> u < arity fs f -> s < snd (var_at fs f u) -> msgs' a' (p f) u (turn fl (var_at fs f u) s) = msgs a f u s) ->
  forall n f u s, f < length fs -> u < arity fs f -> s < snd (var_at fs f u) ->
  msgs' (run_bp c' a' n d) (p f) u (turn fl (var_at fs f u) s) = msgs (run_bp c a n d) f u s.
Proof. exact C61_messages_lemma. Qed.
Print Assumptions C61_messages.

(** ... and so are the beliefs. The decoded states are exchanged unless both states have the
    same belief: state 0 is then decoded in both graphs. *)
Theorem C61_beliefs :
  forall vgs (g g' : fgraph R) T (c c' : bp_ctx R),
  groups_ok vgs -> reachable vgs g -> wf_groups (gr_groups g) -> bp_of g T c ->
  reachable vgs g' -> wf_groups (gr_groups g') -> bp_of g' T c' ->
  forall a a', arrays_of c a -> arrays_of c' a' ->
  let fs := graph_factors 0%R (gr_groups g) in
  let fs' := graph_factors 0%R (gr_groups g') in
  let pots := graph_pots (gr_groups g) (ba_log_potentials a) in
  let pots' := graph_pots (gr_groups g') (ba_log_potentials a') in
  let ne := length (enum_factors (gr_groups g)) in
  let ne' := length (enum_factors (gr_groups g')) in
  let lens := map snd (sf_edges fs) in
  let lens' := map snd (sf_edges fs') in
  let ev := read_ev (gr_vars_to_starts g) (ba_evidence a) in
  let ev' := read_ev (gr_vars_to_starts g') (ba_evidence a') in
  let msgs b := read_msgs fs (ba_ftov_msgs b) in
  let msgs' b := read_msgs fs' (ba_ftov_msgs b) in
  forall d B P B' P' D K D' K', (0 <= T)%R -> (0 <= d <= 1)%R ->
  moderate fs pots ne ev B P D K -> moderate fs' pots' ne' ev' B' P' D' K' ->
  supported lens -> supported lens' -> above_floor lens (ba_ftov_msgs a) -> above_floor lens' (ba_ftov_msgs a') ->
  forall fl, dual fl (gr_groups g) (gr_groups g') -> covers fl (gr_groups g) ->
  (forall x, In x (all_vars vgs) -> fl x = true -> snd x = 2) ->
  (forall f k, f < ne -> k < length (sf_configs (factor_at fs f)) -> pots' f k = pots f k) ->
  (forall x s, In x (all_vars vgs) -> s < snd x -> ev' x (turn fl x s) = ev x s) ->
  let p := dual_at (gr_groups g) in
  (forall f u s, f < length fs -> u < arity fs f -> s < snd (var_at fs f u) -> msgs' a' (p f) u (turn fl (var_at fs f u) s) = msgs a f u s) ->
  (forall gr k, In gr vgs -> In k (vg_num_states gr) -> 0 < k) -> (forall gr, In gr vgs -> one_state gr = false) ->
  forall n, exists b q b' q', get_beliefs c (run_bp c a n d) = Ok b /\ decode_map_states b = Ok q /\
    get_beliefs c' (run_bp c' a' n d) = Ok b' /\ decode_map_states b' = Ok q' /\
  forall gr, In gr vgs -> exists e y e' y',
    dget vg_eqb gr b = Some e /\ dget vg_eqb gr q = Some y /\ dget vg_eqb gr b' = Some e' /\ dget vg_eqb gr q' = Some y' /\
  forall i x, nth_error (vg_variables gr) i = Some x ->
    (forall s, s < snd x -> nth_error (row gr e' i) (turn fl x s) = nth_error (row gr e i) s) /\
    exists s s', cell gr y i = [s] /\ cell gr y' i = [s'] /\
      (fl x = false \/ nth_error (row gr e i) 0 <> nth_error (row gr e i) 1 -> s' = turn fl x s).
Proof. exact C61_beliefs_lemma. Qed.
Print Assumptions C61_beliefs.

(** ** Examples *)
(** The example graph with its four two-state variables negated. *)
Section Negated.
  Context {A : Type} (p : Z -> A).
  Definition ex10_enum : fgroup A :=
    {| fg_id := 1; fg_kind := KEnum; fg_type := TEnum; fg_vars := [[b0; b4]; [b1; b4]];
       fg_configs := mkArr [4; 2] [1; 0; 1; 2; 0; 1; 0; 2]%Z; fg_log_potentials := map p [1; -2; 3; 0; 4; -1; 2; 2]%Z |}.
  Definition ex10_or : fgroup A :=
    {| fg_id := 2; fg_kind := KLogical; fg_type := TOr; fg_vars := [[b1; b2; b3]];
       fg_configs := mkArr [] []; fg_log_potentials := [] |}.
  Definition ex10_and : fgroup A :=
    {| fg_id := 3; fg_kind := KLogical; fg_type := TAnd; fg_vars := [[b0; b1; b2]];
       fg_configs := mkArr [] []; fg_log_potentials := [] |}.
  Definition ex10_graph : fgraph A :=
    fst (add_factors (AList [AGroup ex10_and; AGroup ex10_enum; AGroup ex10_or]) (FactorGraph (GsList ex_vgs))).
  Lemma ex10_reach : reachable ex_vgs ex10_graph.
  Proof. apply reach_add, reach_new. reflexivity. Qed.
  Lemma ex10_groups : gr_groups ex10_graph = PT [ex10_enum] [ex10_or] [ex10_and].
  Proof. reflexivity. Qed.
  Lemma ex10_wf : wf_groups (gr_groups ex10_graph).
  Proof.
    intros t g Hg. rewrite ex10_groups in Hg.
    destruct t; cbn in Hg; destruct Hg as [<-|[]].
    - split; [reflexivity|]. split; [|discriminate]. exists 4. split; [reflexivity|].
      intros vs Hvs. split; [destruct Hvs as [<-|[<-|[]]]; reflexivity|].
      intros r u x Hr Hu.
      assert (Hu2 : u < 2) by (assert (E : length vs = 2) by (destruct Hvs as [<-|[<-|[]]]; reflexivity); rewrite <- E; apply nth_error_Some; congruence).
      destruct Hvs as [<-|[<-|[]]]; destruct r as [|[|[|[|]]]]; try lia; destruct u as [|[|]]; try lia; injection Hu as <-; vm_compute; split; congruence.
    - split; [reflexivity|]. split; [|discriminate]. intros vs [<-|[]]. split; [simpl; lia|]. intros x [<-|[<-|[<-|[]]]]; reflexivity.
    - split; [reflexivity|]. split; [|discriminate]. intros vs [<-|[]]. split; [simpl; lia|]. intros x [<-|[<-|[<-|[]]]]; reflexivity.
  Qed.
End Negated.
Definition ex10_st : fg_state R :=
  ltac:(let r := eval vm_compute in (compile_fg_state (fun _ => 0%Z) (ex10_graph IZR)) in
        match r with Ok ?s => exact s end).
Notation ex10_g := (ex10_graph IZR).
Definition ex10_bs : bp_state R :=
  {| bs_log_potentials := {| c_state := (9, ex10_st); c_value := st_log_potentials ex10_st |};
     bs_ftov_msgs := {| c_state := (9, ex10_st); c_value := repeat 0%R 22 |};
     bs_evidence := {| c_state := (9, ex10_st); c_value := repeat 0%R 11 |} |}.
Definition ex10_a : bp_arrays R :=
  {| ba_log_potentials := map IZR [1; -2; 3; 0; 4; -1; 2; 2]%Z;
     ba_ftov_msgs := map IZR [-1; 0; 0; -2; -3; 0; -5; 0; -1; 0; 0; 0; 0; -3; -1; 0; -4; 0; 0; -1; -2; 0]%Z;
     ba_evidence := map IZR [0; 3; 2; -1; 1; 0; 0; -4; 2; -2; 1]%Z |}.
Lemma ex10_bp T : exists c', bp_of ex10_g T c' /\ arrays_of c' ex10_a.
Proof.
  destruct (BP ex10_bs T) as [c'|e] eqn:E; [|discriminate]. exists c'. split; [exists (fun _ => 0%Z), ex10_bs; split; [vm_compute; reflexivity|exact E]|].
  injection E as <-. repeat split.
Qed.
Definition ex10_fl (x : variable) : bool := snd x =? 2.
Notation ex10_fs := (graph_factors 0%R (gr_groups ex10_g)).
Lemma ex10_dual : dual ex10_fl (gr_groups ex_g) (gr_groups ex10_g) /\ covers ex10_fl (gr_groups ex_g).
Proof.
  split.
  - split; [|split; reflexivity]. change (enum_factors (gr_groups ex_g)) with [nth 0 ex_rfs (SF [] [] []); nth 1 ex_rfs (SF [] [] [])].
    change (enum_factors (gr_groups ex10_g)) with [nth 0 ex10_fs (SF [] [] []); nth 1 ex10_fs (SF [] [] [])]. repeat constructor.
  - intros vs x Hv Hx. change (logical_factors TOr (gr_groups ex_g) ++ logical_factors TAnd (gr_groups ex_g)) with [[b0; b1; b2]; [b1; b2; b3]] in Hv.
    destruct Hv as [<-|[<-|[]]]; cbn [In] in Hx; repeat (destruct Hx as [<-|Hx]; [reflexivity|]); destruct Hx.
Qed.
Lemma ex10_moderate : moderate ex10_fs (graph_pots (gr_groups ex10_g) (ba_log_potentials ex10_a)) (length (enum_factors (gr_groups ex10_g)))
  (read_ev (gr_vars_to_starts ex10_g) (ba_evidence ex10_a)) 10 10 10 2.
Proof.
  split; [|split; [|split; [|split; [|split; [|split; cbn [INR]; lra]]]]].
  - intros x s _ _. unfold read_ev. generalize (start_of (gr_vars_to_starts ex10_g) x + s). intros i. do 11 (destruct i as [|i]; [cbn; lra|]); destruct i; cbn; lra.
  - intros f k _ _. unfold graph_pots, read_pots. destruct (f <? _); [|lra].
    match goal with |- (_ <= nth ?i _ _)%R => generalize i end. intros i. do 8 (destruct i as [|i]; [cbn; lra|]); destruct i; cbn; lra.
  - intros x. unfold slots_of. eapply Nat.le_trans; [apply filter_length_le|]. vm_compute. lia.
  - intros f Hf. assert (Hf2 : f < 2) by exact Hf. destruct f as [|[|]]; [| |lia]; vm_compute; lia.
  - intros f u s Hf Hu Hs. assert (Hf2 : f < 2) by exact Hf. destruct f as [|[|]]; [| |lia]; (destruct u as [|[|[|u]]]; try (exfalso; vm_compute in Hu; lia));
      (destruct s as [|[|[|s]]]; try (exfalso; vm_compute in Hs; lia)); vm_compute; discriminate.
Qed.
Lemma ex10_supported : supported (map snd (sf_edges ex10_fs)).
Proof. split; [vm_compute; discriminate|]. intros n Hn. vm_compute in Hn. repeat (destruct Hn as [<-|Hn]; [lia|]). destruct Hn. Qed.
Lemma ex10_above : above_floor (map snd (sf_edges ex10_fs)) (ba_ftov_msgs ex10_a).
Proof.
  intros e He. right. assert (e < 10) by exact He. unfold neg_inf.
  do 10 (destruct e as [|e]; [eapply Rle_trans; [|apply LemNum.rmaxs_ub; left; reflexivity]; cbn; lra|]). lia.
Qed.
Lemma ex10_two x : In x (all_vars ex_vgs) -> ex10_fl x = true -> snd x = 2.
Proof. intros _. apply Nat.eqb_eq. Qed.
Lemma ex10_pots f k : f < length (enum_factors (gr_groups ex_g)) -> k < length (sf_configs (factor_at ex_rfs f)) ->
  graph_pots (gr_groups ex10_g) (ba_log_potentials ex10_a) f k = graph_pots (gr_groups ex_g) (ba_log_potentials ex_a) f k.
Proof. intros Hf Hk. assert (f < 2) by exact Hf. destruct f as [|[|f]]; [| |lia]; (do 4 (destruct k as [|k]; [reflexivity|])); cbn in Hk; lia. Qed.
Lemma ex10_evidence x s : In x (all_vars ex_vgs) -> s < snd x ->
  read_ev (gr_vars_to_starts ex10_g) (ba_evidence ex10_a) x (turn ex10_fl x s) = read_ev (gr_vars_to_starts ex_g) (ba_evidence ex_a) x s.
Proof.
  intros Hx Hs. change (all_vars ex_vgs) with [b0; b1; b2; b3; b4] in Hx. cbn [In] in Hx.
  destruct Hx as [<-|[<-|[<-|[<-|[<-|[]]]]]]; cbn [snd b0 b1 b2 b3 b4] in Hs; (destruct s as [|[|[|s]]]; try lia); reflexivity.
Qed.
Lemma ex10_msgs f u s : f < length ex_rfs -> u < arity ex_rfs f -> s < snd (var_at ex_rfs f u) ->
  read_msgs ex10_fs (ba_ftov_msgs ex10_a) (dual_at (gr_groups ex_g) f) u (turn ex10_fl (var_at ex_rfs f u) s) = read_msgs ex_rfs (ba_ftov_msgs ex_a) f u s.
Proof.
  intros Hf Hu Hs. assert (f < 4) by exact Hf. destruct f as [|[|[|[|f]]]]; [| | | |lia]; (destruct u as [|[|[|u]]]; try (exfalso; vm_compute in Hu; lia));
    (destruct s as [|[|[|s]]]; try (exfalso; vm_compute in Hs; lia)); reflexivity.
Qed.
Example C61_messages_nonvacuous : forall T d n, (0 <= T)%R -> (0 <= d <= 1)%R -> exists c', bp_of ex10_g T c' /\ arrays_of c' ex10_a /\
  forall s, s < 2 -> read_msgs ex10_fs (ba_ftov_msgs (run_bp c' ex10_a n d)) 3 2 (1 - s) = read_msgs ex_rfs (ba_ftov_msgs (run_bp (ex_c T) ex_a n d)) 2 2 s.
Proof.
  intros T d n HT Hd. destruct (ex_given T) as [H1 [H2 [H3 [H4 H5]]]]. destruct (ex10_bp T) as [c' [H6 H7]]. exists c'. split; [exact H6|]. split; [exact H7|]. intros s Hs.
  assert (Hf : 2 < length ex_rfs) by (cbn; lia). assert (Hu : 2 < arity ex_rfs 2) by (cbn; lia).
  exact (C61_messages ex_vgs ex_g ex10_g T (ex_c T) c' H1 H2 H3 H4 (ex10_reach IZR) (ex10_wf IZR) H6 ex_a ex10_a H5 H7 d 10%R 10%R 10%R 10%R 10 2 10 2 HT Hd
    ex_moderate ex10_moderate ex_supported ex10_supported ex_above ex10_above ex10_fl (proj1 ex10_dual) (proj2 ex10_dual) ex10_two ex10_pots ex10_evidence ex10_msgs n 2 2 s Hf Hu Hs).
Qed.
Example C61_beliefs_nonvacuous : forall T d n, (0 <= T)%R -> (0 <= d <= 1)%R -> exists c' b b' e e', bp_of ex10_g T c' /\ arrays_of c' ex10_a /\
  get_beliefs (ex_c T) (run_bp (ex_c T) ex_a n d) = Ok b /\ get_beliefs c' (run_bp c' ex10_a n d) = Ok b' /\
  dget vg_eqb (VA ex_vg) b = Some e /\ dget vg_eqb (VA ex_vg) b' = Some e' /\
  forall s, s < 2 -> nth_error (row (VA ex_vg) e' 3) (1 - s) = nth_error (row (VA ex_vg) e 3) s.
Proof.
  intros T d n HT Hd. destruct (ex_given T) as [H1 [H2 [H3 [H4 H5]]]]. destruct (ex10_bp T) as [c' [H6 H7]].
  destruct (C61_beliefs ex_vgs ex_g ex10_g T (ex_c T) c' H1 H2 H3 H4 (ex10_reach IZR) (ex10_wf IZR) H6 ex_a ex10_a H5 H7 d 10%R 10%R 10%R 10%R 10 2 10 2 HT Hd
    ex_moderate ex10_moderate ex_supported ex10_supported ex_above ex10_above ex10_fl (proj1 ex10_dual) (proj2 ex10_dual) ex10_two ex10_pots ex10_evidence ex10_msgs ex_pos ex_not_one n)
    as [b [q [b' [q' [E1 [E2 [E3 [E4 H]]]]]]]].
  destruct (H (VA ex_vg) (or_introl eq_refl)) as [e [y [e' [y' [F1 [F2 [F3 [F4 G]]]]]]]].
  exists c', b, b', e, e'. do 6 (split; [assumption|]). intros s Hs. exact (proj1 (G 3 b3 eq_refl) s Hs).
Qed.
