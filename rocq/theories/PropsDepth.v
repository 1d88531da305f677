(** * Property C64: runs without damping are final after the length of the longest chain. *)
From Verif Require Import NumPy Lists VGroup FGraph BPState BP SpecVGroup SpecFGraph SpecFactor SpecAdd SpecWiring SpecState SpecBP SpecText SpecBeliefs SpecConv SpecTree SpecSum SpecDepth.
From Verif Require Import LemFGraph LemRun LemBeliefs LemTree LemDepth ExBP ExTree PropsBeliefs.
From Coq Require Import Reals Lra Lia QArith.
Local Close Scope Q_scope.
Local Close Scope R_scope.
Local Open Scope nat_scope.

(** ** C64 *)
(** Chains of messages are bounded exactly when the graph has no cycles, by the number of
    factors. *)
Theorem C64_acyclic :
  forall A (fs : list (sfactor A)),
  (acyclic fs -> depth_within fs (length fs)) /\ (forall L, depth_within fs L -> acyclic fs).
Proof. exact @C64_acyclic_lemma. Qed.
Print Assumptions C64_acyclic.

(** After as many iterations as the longest chain has messages, the messages do not change any
    more, and do not depend on the initial ones; at any temperature, clipped or not. *)
Theorem C64_final :
  forall vgs (g : fgraph R) T (c : bp_ctx R),
  groups_ok vgs -> reachable vgs g -> wf_groups (gr_groups g) -> bp_of g T c ->
  forall a m, arrays_of c a -> arrays_of c (with_msgs a m) ->
  let fs := graph_factors 0%R (gr_groups g) in
  let pots := graph_pots (gr_groups g) (ba_log_potentials a) in
  let ev := read_ev (gr_vars_to_starts g) (ba_evidence a) in
  let lens := map snd (sf_edges fs) in
  forall B P D K, (0 <= T)%R -> moderate fs pots (length (enum_factors (gr_groups g))) ev B P D K ->
  supported lens -> above_floor lens (ba_ftov_msgs a) -> above_floor lens m ->
  forall L, depth_within fs L -> forall n n', L <= n -> L <= n' -> run_bp c (with_msgs a m) n' 0%R = run_bp c a n 0%R.
Proof. exact C64_run_lemma. Qed.
Print Assumptions C64_final.

(** Then max-product gives the max-marginals, whatever the initial messages. *)
Theorem C64_max :
  forall vgs (g : fgraph R) (c : bp_ctx R),
  groups_ok vgs -> reachable vgs g -> wf_groups (gr_groups g) -> bp_of g 0%R c ->
  forall a, arrays_of c a ->
  let fs := graph_factors 0%R (gr_groups g) in
  let pots := graph_pots (gr_groups g) (ba_log_potentials a) in
  let ev := read_ev (gr_vars_to_starts g) (ba_evidence a) in
  let lens := map snd (sf_edges fs) in
  (forall gr k, In gr vgs -> In k (vg_num_states gr) -> 0 < k) ->
  (forall f, f < length fs -> 0 < arity fs f) ->
  forall B P D K P' B' N', moderate fs pots (length (enum_factors (gr_groups g))) ev B P D K ->
  small fs 0 pots ev (fun _ _ _ => 0%R) P' B' 0 N' ->
  supported lens -> above_floor lens (ba_ftov_msgs a) ->
  forall L n, depth_within fs L -> L <= n ->
  exists b, get_beliefs c (run_bp c a n 0%R) = Ok b /\ map fst b = vgs /\
    forall gr, In gr vgs -> exists d, dget vg_eqb gr b = Some d /\ per_state_shape gr d /\
      forall i x, nth_error (vg_variables gr) i = Some x -> exists (mm : nat -> R) (k : R),
        (forall s, s < snd x -> max_marginal fs pots ev (all_vars vgs) x s (mm s)) /\
        row gr d i = map (fun s => Fin (mm s + k)%R) (seq 0 (snd x)) ++ repeat NInf (state_axis gr i - snd x).
Proof. exact C64_max_lemma. Qed.
Print Assumptions C64_max.

(** ... and sum-product the marginals. *)
Theorem C64_marginals :
  forall vgs (g : fgraph R) (c : bp_ctx R),
  groups_ok vgs -> reachable vgs g -> wf_groups (gr_groups g) -> bp_of g 1%R c ->
  forall a, arrays_of c a ->
  let fs := graph_factors 0%R (gr_groups g) in
  let pots := graph_pots (gr_groups g) (ba_log_potentials a) in
  let ev := read_ev (gr_vars_to_starts g) (ba_evidence a) in
  let lens := map snd (sf_edges fs) in
  (forall gr k, In gr vgs -> In k (vg_num_states gr) -> 0 < k) ->
  (forall gr, In gr vgs -> one_state gr = false) ->
  (forall f, f < length fs -> 0 < arity fs f) ->
  forall B P D K P' B' N', moderate fs pots (length (enum_factors (gr_groups g))) ev B P D K ->
  small fs 1 pots ev (fun _ _ _ => 0%R) P' B' 0 N' ->
  supported lens -> above_floor lens (ba_ftov_msgs a) ->
  forall L n, depth_within fs L -> L <= n ->
  exists b r, get_beliefs c (run_bp c a n 0%R) = Ok b /\ get_marginals b = Ok r /\ map fst r = vgs /\
    forall gr, In gr vgs -> exists d, dget vg_eqb gr r = Some d /\ per_state_shape gr d /\
      forall i x, nth_error (vg_variables gr) i = Some x ->
        row gr d i = map (marginal fs pots 1 ev (all_vars vgs) x) (seq 0 (snd x)) ++ repeat 0%R (state_axis gr i - snd x).
Proof. exact C64_sum_lemma. Qed.
Print Assumptions C64_marginals.

(** ** Examples *)
(** A star: four factors around b4. Two iterations are enough. *)
Section Star.
  Context {A : Type} (p : Z -> A).
  Definition ex14_enum : fgroup A :=
    {| fg_id := 1; fg_kind := KEnum; fg_type := TEnum; fg_vars := [[b0; b4]; [b1; b4]; [b2; b4]; [b3; b4]];
       fg_configs := mkArr [4; 2] [0; 0; 0; 2; 1; 1; 1; 2]%Z; fg_log_potentials := map p [1; -2; 3; 0; 4; -1; 2; 2; 0; 1; 0; -3; 2; 0; 0; 1]%Z |}.
  Definition ex14_graph : fgraph A := fst (add_factors (AList [AGroup ex14_enum]) (FactorGraph (GsList ex_vgs))).
  Lemma ex14_reach : reachable ex_vgs ex14_graph.
  Proof. apply reach_add, reach_new. reflexivity. Qed.
  Lemma ex14_groups : gr_groups ex14_graph = PT [ex14_enum] [] [].
  Proof. reflexivity. Qed.
  Lemma ex14_wf : wf_groups (gr_groups ex14_graph).
  Proof.
    intros t g Hg. rewrite ex14_groups in Hg. destruct t; cbn in Hg; [destruct Hg as [<-|[]]|destruct Hg|destruct Hg].
    split; [reflexivity|]. split; [|discriminate]. exists 4. split; [reflexivity|].
    intros vs Hvs. split; [destruct Hvs as [<-|[<-|[<-|[<-|[]]]]]; reflexivity|].
    intros r u x Hr Hu.
    assert (Hu2 : u < 2) by (assert (E : length vs = 2) by (destruct Hvs as [<-|[<-|[<-|[<-|[]]]]]; reflexivity); rewrite <- E; apply nth_error_Some; congruence).
    destruct Hvs as [<-|[<-|[<-|[<-|[]]]]]; destruct r as [|[|[|[|]]]]; try lia; destruct u as [|[|]]; try lia; injection Hu as <-; vm_compute; split; congruence.
  Qed.
End Star.
Definition ex14_st : fg_state R :=
  ltac:(let r := eval vm_compute in (compile_fg_state (fun _ => 0%Z) (ex14_graph IZR)) in
        match r with Ok ?s => exact s end).
Notation ex14_g := (ex14_graph IZR).
Notation ex14_fs := (graph_factors 0%R (gr_groups ex14_g)).
Definition ex14_bs : bp_state R :=
  {| bs_log_potentials := {| c_state := (9, ex14_st); c_value := st_log_potentials ex14_st |};
     bs_ftov_msgs := {| c_state := (9, ex14_st); c_value := repeat 0%R 20 |};
     bs_evidence := {| c_state := (9, ex14_st); c_value := repeat 0%R 11 |} |}.
Definition ex14_a : bp_arrays R :=
  {| ba_log_potentials := map IZR [1; -2; 3; 0; 4; -1; 2; 2; 0; 1; 0; -3; 2; 0; 0; 1]%Z;
     ba_ftov_msgs := map IZR [0; -1; 0; -2; -3; 0; -2000; -5; 0; 0; -1; 0; 0; -4; 0; 7; 7; 7; 900; 7]%Z;
     ba_evidence := map IZR [0; 1; 2; -1; 0; 5; 3; 0; 1; 2; 3]%Z |}.
Lemma ex14_bp T : exists c, bp_of ex14_g T c /\ arrays_of c ex14_a.
Proof.
  destruct (BP ex14_bs T) as [c|e] eqn:E; [|discriminate]. exists c. split; [exists (fun _ => 0%Z), ex14_bs; split; [vm_compute; reflexivity|exact E]|].
  injection E as <-. repeat split.
Qed.
Lemma ex14_ev i : (-1 <= nth i (ba_evidence ex14_a) 0 <= 5)%R.
Proof. do 11 (destruct i as [|i]; [cbn; lra|]); destruct i; cbn; lra. Qed.
Lemma ex14_pots f k : (-3 <= graph_pots (gr_groups ex14_g) (ba_log_potentials ex14_a) f k <= 4)%R.
Proof.
  unfold graph_pots, read_pots. destruct (f <? _); [|lra]. match goal with |- (_ <= nth ?i _ _ <= _)%R => generalize i end. intros i.
  do 16 (destruct i as [|i]; [cbn; lra|]); destruct i; cbn; lra.
Qed.
Lemma ex14_moderate : moderate ex14_fs (graph_pots (gr_groups ex14_g) (ba_log_potentials ex14_a)) (length (enum_factors (gr_groups ex14_g)))
  (read_ev (gr_vars_to_starts ex14_g) (ba_evidence ex14_a)) 10 10 10 2.
Proof.
  split; [|split; [|split; [|split; [|split; [|split; cbn [INR]; lra]]]]].
  - intros x s _ _. unfold read_ev. pose proof (ex14_ev (start_of (gr_vars_to_starts ex14_g) x + s)). lra.
  - intros f k _ _. pose proof (ex14_pots f k). lra.
  - intros x. unfold slots_of. eapply Nat.le_trans; [apply filter_length_le|]. vm_compute. lia.
  - intros f Hf. assert (Hf2 : f < 4) by exact Hf. destruct f as [|[|[|[|]]]]; [vm_compute; lia..|lia].
  - intros f u s Hf Hu Hs. assert (Hf2 : f < 4) by exact Hf. destruct f as [|[|[|[|]]]]; [| | | |lia]; (destruct u as [|[|u]]; try (exfalso; vm_compute in Hu; lia));
      (destruct s as [|[|[|s]]]; try (exfalso; vm_compute in Hs; lia)); vm_compute; discriminate.
Qed.
Lemma ex14_supported : supported (map snd (sf_edges ex14_fs)).
Proof. split; [vm_compute; discriminate|]. intros n Hn. vm_compute in Hn. repeat (destruct Hn as [<-|Hn]; [lia|]). destruct Hn. Qed.
Lemma ex14_above : above_floor (map snd (sf_edges ex14_fs)) (ba_ftov_msgs ex14_a).
Proof.
  intros e He. right. assert (e < 8) by exact He. unfold neg_inf.
  do 8 (destruct e as [|e]; [eapply Rle_trans; [|apply LemNum.rmaxs_ub; left; reflexivity]; cbn; lra|]). lia.
Qed.
Example C64_acyclic_nonvacuous : depth_within ex14_fs 2 /\ acyclic ex14_fs /\ length ex14_fs = 4 /\ chain ex14_fs 2 (1, 0).
Proof.
  assert (H : depth_within ex14_fs 2) by (apply depth_check; [lia|vm_compute; reflexivity]).
  split; [exact H|]. split; [exact (proj2 (C64_acyclic _ _) 2 H)|]. split; [reflexivity|].
  assert (S1 : forall f u, f < 4 -> u < 2 -> is_slot ex14_fs (f, u)).
  { intros f u Hf Hu. split; [exact Hf|]. destruct f as [|[|[|[|]]]]; [exact Hu..|lia]. }
  apply (chain_step _ 1 (0, 1)); [constructor; apply S1; lia|]. split; [apply S1; lia|]. split; [apply S1; lia|].
  exists 1. split; [vm_compute; lia|]. split; [discriminate|]. split; [reflexivity|discriminate].
Qed.
Example C64_final_nonvacuous : forall T, (0 <= T)%R -> exists c, bp_of ex14_g T c /\
  forall n n', 2 <= n -> 2 <= n' -> run_bp c (with_msgs ex14_a (repeat 0%R 20)) n' 0%R = run_bp c ex14_a n 0%R.
Proof.
  intros T HT. destruct (ex14_bp T) as [c [H4 H5]]. exists c. split; [exact H4|]. intros n n' Hn Hn'.
  refine (C64_final ex_vgs ex14_g T c ex_vgs_ok (ex14_reach IZR) (ex14_wf IZR) H4 ex14_a (repeat 0%R 20) H5 _ 10%R 10%R 10 2 HT ex14_moderate ex14_supported ex14_above (zeros_floor _ _) 2 (proj1 C64_acyclic_nonvacuous) n n' Hn Hn').
  destruct H5 as [A1 [A2 A3]]. split; [exact A1|]. split; [exact A2|exact A3].
Qed.
Lemma ex14_small T : (0 <= T <= 1)%R -> small ex14_fs T (graph_pots (gr_groups ex14_g) (ba_log_potentials ex14_a)) (read_ev (gr_vars_to_starts ex14_g) (ba_evidence ex14_a)) (fun _ _ _ => 0%R) 7 6 0 4.
Proof.
  intros HT. split; [lra|]. split; [lia|]. split; [|split; [|split; [|split]]].
  - intros f k k' _ _ _. pose proof (ex14_pots f k). pose proof (ex14_pots f k'). lra.
  - intros x s s' _ _ _. unfold read_ev. match goal with |- (nth ?i _ _ - nth ?j _ _ <= _)%R => pose proof (ex14_ev i); pose proof (ex14_ev j) end. lra.
  - intros f u s s' _ _ _ _. lra.
  - intros _ f Hf. assert (Hf3 : f < 4) by exact Hf. destruct f as [|[|[|[|]]]]; [vm_compute; lia..|lia].
  - change (length ex14_fs) with 4. change (length (slots ex14_fs)) with 8.
    assert (L : (ln (INR 4) <= 4)%R).
    { change (INR 4) with (1 + 1 + 1 + 1)%R. rewrite <- (ln_exp 4). left. apply ln_increasing; [lra|]. pose proof (exp_ineq1 4). lra. }
    assert (L0 : (0 <= ln (INR 4))%R) by (rewrite <- ln_1; left; apply ln_increasing; cbn; lra).
    assert (T * ln (INR 4) <= 1 * ln (INR 4))%R by (apply Rmult_le_compat_r; lra). cbn [INR] in *. lra.
Qed.
Lemma ex14_arity f : f < length ex14_fs -> 0 < arity ex14_fs f.
Proof. intros Hf. assert (Hf3 : f < 4) by exact Hf. destruct f as [|[|[|[|]]]]; [vm_compute; lia..|lia]. Qed.
Example C64_max_nonvacuous : exists c b d, bp_of ex14_g 0%R c /\ get_beliefs c (run_bp c ex14_a 2 0%R) = Ok b /\
  dget vg_eqb (VA ex_vg) b = Some d /\ exists (mm : nat -> R) (k : R),
    (forall s, s < 3 -> max_marginal ex14_fs (graph_pots (gr_groups ex14_g) (ba_log_potentials ex14_a)) (read_ev (gr_vars_to_starts ex14_g) (ba_evidence ex14_a)) (all_vars ex_vgs) b4 s (mm s)) /\
    row (VA ex_vg) d 4 = [Fin (mm 0%nat + k)%R; Fin (mm 1%nat + k)%R; Fin (mm 2%nat + k)%R].
Proof.
  destruct (ex14_bp 0%R) as [c [H4 H5]]. exists c.
  destruct (C64_max ex_vgs ex14_g c ex_vgs_ok (ex14_reach IZR) (ex14_wf IZR) H4 ex14_a H5 ex_pos ex14_arity 10%R 10%R 10 2 7%R 6%R 4 ex14_moderate (ex14_small 0 ltac:(lra)) ex14_supported ex14_above 2 2 (proj1 C64_acyclic_nonvacuous) (le_n 2))
    as [b [Eb [_ D]]].
  destruct (D (VA ex_vg) (or_introl eq_refl)) as [d [Ed [_ Rd]]]. exists b, d. split; [exact H4|]. split; [exact Eb|]. split; [exact Ed|]. exact (Rd 4 b4 eq_refl).
Qed.
Example C64_marginals_nonvacuous : exists c b r d, bp_of ex14_g 1%R c /\ get_beliefs c (run_bp c ex14_a 2 0%R) = Ok b /\ get_marginals b = Ok r /\
  dget vg_eqb (VA ex_vg) r = Some d /\
  row (VA ex_vg) d 4 = map (marginal ex14_fs (graph_pots (gr_groups ex14_g) (ba_log_potentials ex14_a)) 1 (read_ev (gr_vars_to_starts ex14_g) (ba_evidence ex14_a)) (all_vars ex_vgs) b4) [0; 1; 2].
Proof.
  destruct (ex14_bp 1%R) as [c [H4 H5]]. exists c.
  destruct (C64_marginals ex_vgs ex14_g c ex_vgs_ok (ex14_reach IZR) (ex14_wf IZR) H4 ex14_a H5 ex_pos ex_not_one ex14_arity 10%R 10%R 10 2 7%R 6%R 4 ex14_moderate (ex14_small 1 ltac:(lra)) ex14_supported ex14_above 2 2 (proj1 C64_acyclic_nonvacuous) (le_n 2))
    as [b [r [Eb [Er [_ D]]]]].
  destruct (D (VA ex_vg) (or_introl eq_refl)) as [d [Ed [_ Rd]]]. exists b, r, d. split; [exact H4|]. split; [exact Eb|]. split; [exact Er|]. split; [exact Ed|]. rewrite (Rd 4 b4 eq_refl). apply app_nil_r.
Qed.
