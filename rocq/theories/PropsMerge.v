(** * Property C60: factors that list an assignment more than once. *)
From Verif Require Import NumPy Lists VGroup FGraph BPState BP SpecVGroup SpecFGraph SpecFactor SpecAdd SpecWiring SpecState SpecBP SpecText SpecBeliefs SpecPerm SpecLocal SpecMerge.
From Verif Require Import LemFGraph LemRun LemBeliefs LemPerm LemLocal LemMerge ExBP PropsMsgs PropsRun PropsBeliefs PropsPerm PropsStable PropsSep.
From Coq Require Import Reals Lra Lia QArith Permutation.
Local Close Scope Q_scope.
Local Close Scope R_scope.
Local Open Scope nat_scope.

(** ** C60 *)
(** Two graphs whose factors correspond, with the same variables and the same assignments
    allowed, have the same messages after every number of iterations if every assignment has the
    same weight in both: entries for the same assignment combine by the maximum at temperature 0
    and by the soft maximum otherwise. *)
Theorem C60_messages :
  forall vgs (g g' : fgraph R) T (c c' : bp_ctx R),
  groups_ok vgs -> reachable vgs g -> wf_groups (gr_groups g) -> bp_of g T c ->
  reachable vgs g' -> wf_groups (gr_groups g') -> bp_of g' T c' ->
  forall a a', arrays_of c a -> arrays_of c' a' ->
  let fs := graph_factors 0%R (gr_groups g) in
  let fs' := graph_factors 0%R (gr_groups g') in
  let pots := graph_pots (gr_groups g) (ba_log_potentials a) in
  let pots' := graph_pots (gr_groups g') (ba_log_potentials a') in
  let ne := length (enum_factors (gr_groups g)) in
  let ne' := length (enum_factors (gr_groups g')) in
  let lens := map snd (sf_edges fs) in
  let lens' := map snd (sf_edges fs') in
  let ev := read_ev (gr_vars_to_starts g) (ba_evidence a) in
  let ev' := read_ev (gr_vars_to_starts g') (ba_evidence a') in
  let msgs b := read_msgs fs (ba_ftov_msgs b) in
  let msgs' b := read_msgs fs' (ba_ftov_msgs b) in
  forall d B P B' P' D K D' K', (0 <= T)%R -> (0 <= d <= 1)%R ->
  moderate fs pots ne ev B P D K -> moderate fs' pots' ne' ev' B' P' D' K' ->
  supported lens -> supported lens' -> above_floor lens (ba_ftov_msgs a) -> above_floor lens' (ba_ftov_msgs a') ->
  forall p, alike T fs fs' pots pots' p ->
  (forall x s, In x (all_vars vgs) -> s < snd x -> ev' x s = ev x s) ->
  (forall f u s, f < length fs -> u < arity fs f -> s < snd (var_at fs f u) -> msgs' a' (p f) u s = msgs a f u s) ->
  forall n f u s, f < length fs -> u < arity fs f -> s < snd (var_at fs f u) ->
  msgs' (run_bp c' a' n d) (p f) u s = msgs (run_bp c a n d) f u s.
Proof. exact C60_messages_lemma. Qed.
Print Assumptions C60_messages.

(** ... and the same beliefs and decoded states. *)
Theorem C60_beliefs :
  forall vgs (g g' : fgraph R) T (c c' : bp_ctx R),
  groups_ok vgs -> reachable vgs g -> wf_groups (gr_groups g) -> bp_of g T c ->
  reachable vgs g' -> wf_groups (gr_groups g') -> bp_of g' T c' ->
  forall a a', arrays_of c a -> arrays_of c' a' ->
  let fs := graph_factors 0%R (gr_groups g) in
  let fs' := graph_factors 0%R (gr_groups g') in
  let pots := graph_pots (gr_groups g) (ba_log_potentials a) in
  let pots' := graph_pots (gr_groups g') (ba_log_potentials a') in
  let ne := length (enum_factors (gr_groups g)) in
  let ne' := length (enum_factors (gr_groups g')) in
  let lens := map snd (sf_edges fs) in
  let lens' := map snd (sf_edges fs') in
  let ev := read_ev (gr_vars_to_starts g) (ba_evidence a) in
  let ev' := read_ev (gr_vars_to_starts g') (ba_evidence a') in
  let msgs b := read_msgs fs (ba_ftov_msgs b) in
  let msgs' b := read_msgs fs' (ba_ftov_msgs b) in
  forall d B P B' P' D K D' K', (0 <= T)%R -> (0 <= d <= 1)%R ->
  moderate fs pots ne ev B P D K -> moderate fs' pots' ne' ev' B' P' D' K' ->
  supported lens -> supported lens' -> above_floor lens (ba_ftov_msgs a) -> above_floor lens' (ba_ftov_msgs a') ->
  forall p, alike T fs fs' pots pots' p ->
  (forall x s, In x (all_vars vgs) -> s < snd x -> ev' x s = ev x s) ->
  (forall f u s, f < length fs -> u < arity fs f -> s < snd (var_at fs f u) -> msgs' a' (p f) u s = msgs a f u s) ->
  (forall gr k, In gr vgs -> In k (vg_num_states gr) -> 0 < k) -> (forall gr, In gr vgs -> one_state gr = false) ->
  forall n, exists b q b' q', get_beliefs c (run_bp c a n d) = Ok b /\ decode_map_states b = Ok q /\
    get_beliefs c' (run_bp c' a' n d) = Ok b' /\ decode_map_states b' = Ok q' /\
  forall gr, In gr vgs -> exists e y e' y',
    dget vg_eqb gr b = Some e /\ dget vg_eqb gr q = Some y /\ dget vg_eqb gr b' = Some e' /\ dget vg_eqb gr q' = Some y' /\
  forall i x, nth_error (vg_variables gr) i = Some x -> row gr e' i = row gr e i /\ cell gr y' i = cell gr y i.
Proof. exact C60_beliefs_lemma. Qed.
Print Assumptions C60_beliefs.

(** ** Examples *)
(** The graph with a factor on [b0] and [b3], and one where that factor lists the assignment
    0, 0 twice, with its potential less [T] ln 2 each time. *)
Section Twice.
  Context {A : Type} (p : Z -> A).
  Definition ex9_pair : fgroup A :=
    {| fg_id := 61; fg_kind := KEnum; fg_type := TEnum; fg_vars := [[b0; b3]];
       fg_configs := mkArr [5; 2] [0; 0; 0; 1; 1; 0; 1; 1; 0; 0]%Z; fg_log_potentials := map p [0; 0; 0; 0; 0]%Z |}.
  Definition ex9_graph : fgraph A := fst (add_factors (AList (map AGroup [ex_enum p; ex_or; ex_and; ex9_pair])) (FactorGraph (GsList ex_vgs))).
  Lemma ex9_reach : reachable ex_vgs ex9_graph.
  Proof. apply reach_add, reach_new. reflexivity. Qed.
  Lemma ex9_groups : gr_groups ex9_graph = PT [ex_enum p; ex9_pair] [ex_or] [ex_and].
  Proof. reflexivity. Qed.
  Lemma ex9_wf : wf_groups (gr_groups ex9_graph).
  Proof.
    intros t g Hg. rewrite ex9_groups in Hg. assert (W : In g (pt_get t (gr_groups (ex_graph p))) \/ t = TEnum /\ g = ex9_pair).
    { destruct t; cbn in Hg.
      - destruct Hg as [<-|[<-|[]]]; [left; now left|now right].
      - left. exact Hg.
      - left. exact Hg. }
    destruct W as [W|[-> ->]]; [now apply (ex_wf p)|].
    split; [reflexivity|]. split; [|discriminate]. exists 5. split; [reflexivity|].
    intros vs [<-|[]]. split; [reflexivity|]. intros r u x Hr Hu. destruct u as [|[|u]]; [| |destruct u; discriminate]; injection Hu as <-;
      (destruct r as [|[|[|[|[|r]]]]]; [| | | | |lia]); vm_compute; split; congruence.
  Qed.
End Twice.
Definition ex9_st : fg_state R :=
  ltac:(let r := eval vm_compute in (compile_fg_state (fun _ => 0%Z) (ex9_graph IZR)) in
        match r with Ok ?s => exact s end).
Notation ex9_g := (ex9_graph IZR).
Definition ex9_bs : bp_state R :=
  {| bs_log_potentials := {| c_state := (9, ex9_st); c_value := st_log_potentials ex9_st |};
     bs_ftov_msgs := {| c_state := (9, ex9_st); c_value := repeat 0%R 26 |};
     bs_evidence := {| c_state := (9, ex9_st); c_value := repeat 0%R 11 |} |}.
Definition ex9_a (T : R) : bp_arrays R :=
  {| ba_log_potentials := map IZR [1; -2; 3; 0; 4; -1; 2; 2]%Z ++ [2 - T * ln 2; 7; -1; 4; 2 - T * ln 2]%R; ba_ftov_msgs := map IZR ex6_msgs; ba_evidence := map IZR ex_ev_z |}.
Lemma ex9_bp T : exists c', bp_of ex9_g T c' /\ arrays_of c' (ex9_a T).
Proof.
  destruct (BP ex9_bs T) as [c'|e] eqn:E; [|discriminate]. exists c'. split; [exists (fun _ => 0%Z), ex9_bs; split; [vm_compute; reflexivity|exact E]|].
  injection E as <-. repeat split.
Qed.
Definition ex9_fs : list (sfactor R) :=
  [nth 0 ex_rfs (SF [] [] []); nth 1 ex_rfs (SF [] [] []); SF [b0; b3] [[0; 0]; [0; 1]; [1; 0]; [1; 1]; [0; 0]]%Z (map IZR [0; 0; 0; 0; 0]%Z); nth 2 ex_rfs (SF [] [] []); nth 3 ex_rfs (SF [] [] [])].
Lemma ex9_factors : graph_factors 0%R (gr_groups ex9_g) = ex9_fs.
Proof. reflexivity. Qed.
Notation ex9_pots T := (graph_pots (gr_groups ex9_g) (ba_log_potentials (ex9_a T))).
Lemma ln2_le_1 : (0 <= ln 2 <= 1)%R.
Proof.
  split; [rewrite <- ln_1; apply Rlt_le, ln_increasing; lra|]. rewrite <- (ln_exp 1) at 1. destruct (Rle_lt_or_eq_dec 2 (exp 1)) as [H|H].
  - pose proof (exp_ineq1 1 ltac:(lra)). lra.
  - apply Rlt_le, ln_increasing; lra.
  - rewrite H. lra.
Qed.
Lemma ex9_moderate T : (0 <= T <= 1)%R -> moderate ex9_fs (ex9_pots T) (length (enum_factors (gr_groups ex9_g))) (read_ev (gr_vars_to_starts ex9_g) (ba_evidence (ex9_a T))) 10 10 12 2.
Proof.
  intros HT. pose proof ln2_le_1 as HL. assert (HP : (0 <= T * ln 2 <= 1)%R) by (split; [apply Rmult_le_pos; lra|]; rewrite <- (Rmult_1_l 1); apply Rmult_le_compat; lra).
  split; [|split; [|split; [|split; [|split; [|split; cbn [INR]; lra]]]]].
  - intros x s _ _. unfold read_ev. generalize (start_of (gr_vars_to_starts ex9_g) x + s). intros i. do 11 (destruct i as [|i]; [cbn; lra|]); destruct i; cbn; lra.
  - intros f k Hf Hk. assert (f < 3) by exact Hf. unfold graph_pots. destruct (f <? _); [|lra]. unfold read_pots.
    match goal with |- (_ <= nth ?i _ _)%R => generalize i end. intros i. do 13 (destruct i as [|i]; [cbn; lra|]); destruct i; cbn; lra.
  - intros x. unfold slots_of. eapply Nat.le_trans; [apply filter_length_le|]. vm_compute. lia.
  - intros f Hf. assert (Hf2 : f < 3) by exact Hf. destruct f as [|[|[|]]]; [| | |lia]; vm_compute; lia.
  - intros f u s Hf Hu Hs. assert (Hf2 : f < 3) by exact Hf. destruct f as [|[|[|]]]; [| | |lia]; (destruct u as [|[|[|u]]]; try (exfalso; vm_compute in Hu; lia));
      (destruct s as [|[|[|s]]]; try (exfalso; vm_compute in Hs; lia)); vm_compute; discriminate.
Qed.
Lemma ex9_table T : table ex9_fs (ex9_pots T) 2 = [([0; 0]%Z, (2 - T * ln 2)%R); ([0; 1]%Z, 7%R); ([1; 0]%Z, (-1)%R); ([1; 1]%Z, 4%R); ([0; 0]%Z, (2 - T * ln 2)%R)].
Proof. reflexivity. Qed.
Lemma ex6_table : table ex6_fs ex6_pots 2 = [([0; 0]%Z, 2%R); ([0; 1]%Z, 7%R); ([1; 0]%Z, (-1)%R); ([1; 1]%Z, 4%R)].
Proof. reflexivity. Qed.
Lemma ex9_rest z f : f < 5 -> f <> 2 ->
  table ex9_fs (graph_pots (gr_groups ex9_g) (map IZR [1; -2; 3; 0; 4; -1; 2; 2]%Z ++ [z; 7; -1; 4; z]%R)) f = table ex6_fs ex6_pots f /\ sf_vars (factor_at ex9_fs f) = sf_vars (factor_at ex6_fs f).
Proof. intros Hf Hn. destruct f as [|[|[|[|[|f]]]]]; [| |lia| | |lia]; split; vm_compute; reflexivity. Qed.
Lemma ex9_alike T : (0 <= T)%R -> alike T ex6_fs ex9_fs ex6_pots (ex9_pots T) (fun f => f).
Proof.
  intros HT. split; [reflexivity|]. split; [auto|]. split; [auto|]. intros f Hf. assert (f < 5) by exact Hf.
  assert (Hf2 : f = 2 \/ table ex9_fs (ex9_pots T) f = table ex6_fs ex6_pots f /\ sf_vars (factor_at ex9_fs f) = sf_vars (factor_at ex6_fs f)).
  { destruct (Nat.eq_dec f 2) as [->|Hn]; [now left|]. right. exact (ex9_rest (2 - T * ln 2) f H Hn). }
  destruct Hf2 as [->|[E1 E2]]; [|split; [exact E2|rewrite E1; split; [reflexivity|auto]]].
  split; [reflexivity|]. rewrite ex9_table, ex6_table. split.
  - intros cfg. cbn [map fst In]. tauto.
  - intros cfg Hc. cbn [map fst In] in Hc. unfold weight. destruct (Req_EM_T T 0) as [E0|E0].
    + rewrite E0. destruct Hc as [<-|[<-|[<-|[<-|[]]]]]; cbn; rewrite ?Rmult_0_l, ?Rminus_0_r; unfold Rmax; repeat destruct (Rle_dec _ _); lra.
    + destruct Hc as [<-|[<-|[<-|[<-|[]]]]]; cbn; rewrite ?Rplus_0_r; try reflexivity. f_equal. f_equal.
      replace ((2 - T * ln 2) / T)%R with (2 / T + - ln 2)%R by (field; exact E0). rewrite exp_plus, exp_Ropp, exp_ln by lra. field.
Qed.
Lemma ex9_supported : supported (map snd (sf_edges ex9_fs)).
Proof. exact ex6_supported. Qed.
Lemma ex9_above T : above_floor (map snd (sf_edges ex9_fs)) (ba_ftov_msgs (ex9_a T)).
Proof. exact ex6_above. Qed.
Lemma ex9_evidence T x s : In x (all_vars ex_vgs) -> s < snd x -> read_ev (gr_vars_to_starts ex9_g) (ba_evidence (ex9_a T)) x s = read_ev (gr_vars_to_starts ex6_g) (ba_evidence ex6_a) x s.
Proof. intros _ _. assert (E : gr_vars_to_starts ex9_g = gr_vars_to_starts ex6_g) by (vm_compute; reflexivity). now rewrite E. Qed.
Lemma ex9_msgs T f u s : f < length ex6_fs -> u < arity ex6_fs f -> s < snd (var_at ex6_fs f u) ->
  read_msgs ex9_fs (ba_ftov_msgs (ex9_a T)) f u s = read_msgs ex6_fs (ba_ftov_msgs ex6_a) f u s.
Proof.
  intros Hf Hu Hs. change (ba_ftov_msgs (ex9_a T)) with (ba_ftov_msgs ex6_a). generalize (ba_ftov_msgs ex6_a). intros l.
  assert (f < 5) by exact Hf. destruct f as [|[|[|[|[|f]]]]]; [| | | | |lia]; (destruct u as [|[|[|u]]]; try (exfalso; vm_compute in Hu; lia)); reflexivity.
Qed.
Example C60_messages_nonvacuous : forall T d n, (0 <= T <= 1)%R -> (0 <= d <= 1)%R -> exists c c', bp_of ex6_g T c /\ arrays_of c ex6_a /\ bp_of ex9_g T c' /\ arrays_of c' (ex9_a T) /\
  forall f u s, f < 5 -> u < arity ex6_fs f -> s < snd (var_at ex6_fs f u) ->
  read_msgs ex9_fs (ba_ftov_msgs (run_bp c' (ex9_a T) n d)) f u s = read_msgs ex6_fs (ba_ftov_msgs (run_bp c ex6_a n d)) f u s.
Proof.
  intros T d n HT Hd. destruct (ex6_bp T) as [c [H1 H2]], (ex9_bp T) as [c' [H3 H4]]. exists c, c'. do 4 (split; [assumption|]).
  exact (C60_messages ex_vgs ex6_g ex9_g T c c' ex_vgs_ok (ex6_reach IZR ex6_l) (ex6_wf IZR ex6_l eq_refl) H1 (ex9_reach IZR) (ex9_wf IZR) H3 ex6_a (ex9_a T) H2 H4 d 10%R 10%R 10%R 10%R 12 2 12 2
    (proj1 HT) Hd ex6_moderate (ex9_moderate T HT) ex6_supported ex9_supported ex6_above (ex9_above T) (fun f => f) (ex9_alike T (proj1 HT)) (ex9_evidence T) (ex9_msgs T) n).
Qed.
Example C60_beliefs_nonvacuous : forall T d n, (0 <= T <= 1)%R -> (0 <= d <= 1)%R -> exists c c' b b' e e', bp_of ex6_g T c /\ arrays_of c ex6_a /\ bp_of ex9_g T c' /\ arrays_of c' (ex9_a T) /\
  get_beliefs c (run_bp c ex6_a n d) = Ok b /\ get_beliefs c' (run_bp c' (ex9_a T) n d) = Ok b' /\
  dget vg_eqb (VA ex_vg) b = Some e /\ dget vg_eqb (VA ex_vg) b' = Some e' /\
  forall i, i < 5 -> row (VA ex_vg) e' i = row (VA ex_vg) e i.
Proof.
  intros T d n HT Hd. destruct (ex6_bp T) as [c [H1 H2]], (ex9_bp T) as [c' [H3 H4]].
  destruct (C60_beliefs ex_vgs ex6_g ex9_g T c c' ex_vgs_ok (ex6_reach IZR ex6_l) (ex6_wf IZR ex6_l eq_refl) H1 (ex9_reach IZR) (ex9_wf IZR) H3 ex6_a (ex9_a T) H2 H4 d 10%R 10%R 10%R 10%R 12 2 12 2
    (proj1 HT) Hd ex6_moderate (ex9_moderate T HT) ex6_supported ex9_supported ex6_above (ex9_above T) (fun f => f) (ex9_alike T (proj1 HT)) (ex9_evidence T) (ex9_msgs T) ex_pos ex_not_one n)
    as [b [q [b' [q' [E1 [E2 [E3 [E4 H]]]]]]]].
  destruct (H (VA ex_vg) (or_introl eq_refl)) as [e [y [e' [y' [F1 [F2 [F3 [F4 G]]]]]]]].
  exists c, c', b, b', e, e'. do 8 (split; [assumption|]). intros i Hi.
  destruct i as [|[|[|[|[|i]]]]]; [exact (proj1 (G 0 b0 eq_refl))|exact (proj1 (G 1 b1 eq_refl))|exact (proj1 (G 2 b2 eq_refl))|exact (proj1 (G 3 b3 eq_refl))|exact (proj1 (G 4 b4 eq_refl))|lia].
Qed.
